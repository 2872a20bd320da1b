(** C127, C128: photons of interpolants and of interpolated images. *)
From Coq Require Import ZArith Reals Bool List Lra Lia Permutation.
From Coquelicot Require Import Coquelicot.
From Verif Require Import Base Array_Model Bounds_Model Bounds_Proofs FFT_Model Geo_Model Size_Model Size_Spec Size_Props Interp_Model Interp_Spec Interp_Kernels Interp_Smooth Interp_Proofs II_Model WCS_Model MSum
  II_Spec II_Proofs II_Pad II_Size II_Prof II_Eq Photon_Model Photon_Spec Photon_Lists Photon_Proofs Shoot_Model Shoot_Spec Shoot_Table Shoot_Kernels Shoot_Proofs Shoot_Photons Shoot_Image.
Import ListNotations.
Open Scope R_scope.

(** * C127: interpolants *)
Lemma enough : forall n, (Z.to_nat 10000 <= n)%nat -> exists N, n = S N /\ (1 <= N)%nat /\ 9999 <= INR N.
Proof.
  intros n H. assert (Z1 : (10000 <= Z.of_nat n)%Z) by (apply Nat2Z.inj_le in H; rewrite Z2Nat.id in H by lia; exact H). destruct n as [|N]; [exfalso; clear H; lia|]. exists N. clear H. split; [reflexivity|]. split; [lia|]. rewrite INR_IZR_INZ. apply IZR_le. lia.
Qed.
Lemma tabled_in : forall i, In i [Cubic; Quintic] -> tabled i.
Proof. intros i [<-|[<-|[]]]; [left|right]; reflexivity. Qed.

(** Positions of Cubic and Quintic photons are in the kernel's range and have the distribution |kernel|, up to 1/4000 of the range. *)
Theorem C127_positions : forall kva LK search i n, searches search -> In i [Cubic; Quintic] -> (Z.to_nat 10000 <= n)%nat ->
  (forall u, 0 <= u < 1 -> - xrange kva i <= shoot_pos kva LK search i n u < xrange kva i) /\
  draws_from (shoot_pos kva LK search i n) (abs_cdf (xval kva LK i) (xrange kva i)) (- xrange kva i) (xrange kva i) (xrange kva i / 4000).
Proof.
  intros kva LK search i n SE I H. destruct (enough n H) as (N & -> & N1 & NB). apply tabled_in in I. split; [intros u U; now apply pos_range|now apply draws].
Qed.
Print Assumptions C127_positions.
(** At the table's points the distribution is the one of the table, within 1e-5 and 1e-4 of the true one. *)
Theorem C127_table : forall kva LK search i n k, searches search -> In i [Cubic; Quintic] -> (Z.to_nat 10000 <= n)%nat -> (k < n)%nat ->
  (forall u, 0 <= u < 1 -> (shoot_pos kva LK search i n u < tab_x kva i n k <-> u < tab_cdf kva LK i n k)) /\
  Rabs (tab_cdf kva LK i n k - abs_cdf (xval kva LK i) (xrange kva i) (tab_x kva i n k)) <= match i with Cubic => 1 / 100000 | _ => 1 / 10000 end.
Proof.
  intros kva LK search i n k SE I H KN. destruct (enough n H) as (N & -> & N1 & NB). apply tabled_in in I. rewrite tab_node. split; [intros u U; apply below; auto; lia|].
  eapply Rle_trans; [apply tab_close; auto; lia|]. destruct (errs kva N N1 NB i I) as [E _]. destruct I as [-> | ->]; lra.
Qed.
Print Assumptions C127_table.
(** Every photon carries 1/N of a product of two factors, one for x and one for y; each factor is the signed sum of the kernel's fluxes. *)
Theorem C127_photons : forall kva LK pf nf search i n us p, In i [Cubic; Quintic] \/ (exists m dc, i = Lanczos m dc) -> wfp p -> all_kept p -> (1 <= pN p)%nat -> length (us 0%nat) = pN p -> length (us 1%nat) = pN p ->
  exists q, ip_shoot kva LK pf nf search i n us p = Ok q /\ pN q = pN p /\ forall k, (k < pN p)%nat ->
    nth k (px q) 0 = shoot_pos kva LK search i n (nth k (us 0%nat) 0) /\ nth k (py_ q) 0 = shoot_pos kva LK search i n (nth k (us 1%nat) 0) /\
    vis q k = (pf i + nf i) * sgn (xval kva LK i (nth k (px q) 0)) * ((pf i + nf i) * sgn (xval kva LK i (nth k (py_ q) 0))) / INR (pN p).
Proof.
  intros kva LK pf nf search i n us p T W K N L0 L1. destruct (generic_photons kva LK pf nf search i n us p T W K N L0 L1) as (q & E & (_ & A & _) & V). exists q. auto.
Qed.
Print Assumptions C127_photons.
(** The mean of such a factor is 1: the photons' mean total flux is that of the kernel. *)
Theorem C127_mean_flux : forall kva LK search i n p m, searches search -> In i [Cubic; Quintic] -> (Z.to_nat 10000 <= n)%nat -> positive_flux i = Some p -> negative_flux i = Some m ->
  mean_near (fun u => (p + m) * sgn (xval kva LK i (shoot_pos kva LK search i n u))) 1 (match i with Cubic => 1 / 100000 | _ => 1 / 10000 end).
Proof. intros kva LK search i n p m SE I H P Q. destruct (enough n H) as (N & -> & N1 & NB). apply tabled_in in I. now apply mean_one. Qed.
Print Assumptions C127_mean_flux.
(** Delta, Nearest and Linear: exact distributions, N photons of flux 1/N *)
Theorem C127_simple : forall kva LK pf nf search i n us p, In i [Delta; Nearest; Linear] -> wfp p -> all_kept p -> (1 <= pN p)%nat -> (forall j, (j < 4)%nat -> length (us j) = pN p) ->
  exists q, ip_shoot kva LK pf nf search i n us p = Ok q /\ pN q = pN p /\ total (map (vis q) (seq 0 (pN p))) = 1 /\ forall k, (k < pN p)%nat -> vis q k = 1 / INR (pN p) /\
    match i with
    | Delta => nth k (px q) 0 = 0 /\ nth k (py_ q) 0 = 0
    | Nearest => nth k (px q) 0 = nth k (us 0%nat) 0 - 1 / 2 /\ nth k (py_ q) 0 = nth k (us 1%nat) 0 - 1 / 2
    | _ => nth k (px q) 0 = nth k (us 0%nat) 0 + nth k (us 1%nat) 0 - 1 /\ nth k (py_ q) 0 = nth k (us 2%nat) 0 + nth k (us 3%nat) 0 - 1
    end.
Proof.
  intros kva LK pf nf search i n us p I W K N L. pose proof (unit_interpolant kva LK pf nf search i n us p) as UI. specialize (fun q => UI q I W K N L). destruct I as [<-|[<-|[<-|[]]]].
  - destruct (delta_photons kva LK pf nf search n us p W K N) as (q & E & (_ & A & _) & V). exists q. split; [exact E|]. split; [exact A|]. split; [exact (UI q E)|]. intros k KN. destruct (V k KN) as (VX & VY & VF). auto.
  - destruct (nearest_photons kva LK pf nf search n us p W K N) as (q & E & (_ & A & _) & V); try (apply L; lia). exists q. split; [exact E|]. split; [exact A|]. split; [exact (UI q E)|]. intros k KN. destruct (V k KN) as (VX & VY & VF). auto.
  - destruct (linear_photons kva LK pf nf search n us p W K N L) as (q & E & (_ & A & _) & V). exists q. split; [exact E|]. split; [exact A|]. split; [exact (UI q E)|]. intros k KN. destruct (V k KN) as (VX & VY & VF). auto.
Qed.
Print Assumptions C127_simple.
Theorem C127_nearest_draws : draws_from (fun u => u - 1 / 2) (RInt nearest_xval (- (1 / 2))) (- (1 / 2)) (1 / 2) 0.
Proof.
  intros t u T U. assert (E : RInt nearest_xval (- (1 / 2)) t = t + 1 / 2).
  { apply (is_RInt_unique (V := R_CompleteNormedModule)). eapply int_eq; [apply (poly_int 1 0 0 0 0 0); [lra|]; intros x X; rewrite nea_in by lra; unfold P5; ring|unfold AP; field]. }
  rewrite E. lra.
Qed.
Print Assumptions C127_nearest_draws.
Theorem C127_linear_draws : draws2_from (fun u v => u + v - 1) (RInt linear_xval (- (1))) (- (1)) 1.
Proof.
  intros t T. exists (fun u => Rmax 0 (Rmin 1 (t + 1 - u))). split; [|split].
  - intros u v U V. unfold Rmax, Rmin. destruct (Rle_dec 1 (t + 1 - u)); destruct (Rle_dec 0 _); lra.
  - intro u. unfold Rmax, Rmin. destruct (Rle_dec 1 (t + 1 - u)); destruct (Rle_dec 0 _); lra.
  - assert (LN : forall x, -1 <= x <= 0 -> linear_xval x = 1 + x) by (intros x X; rewrite <- lin_even, lin_in by lra; ring).
    assert (LH : is_RInt linear_xval (- (1)) 0 (1 / 2)) by (eapply int_eq; [apply (poly_int 1 1 0 0 0 0); [lra|]; intros x X; rewrite LN by lra; unfold P5; ring|unfold AP; field]).
    destruct (Rle_dec t 0) as [l|l].
    + assert (E : RInt linear_xval (- (1)) t = (t + 1) ^ 2 / 2).
      { apply (is_RInt_unique (V := R_CompleteNormedModule)). eapply int_eq; [apply (poly_int 1 1 0 0 0 0); [lra|]; intros x X; rewrite LN by lra; unfold P5; ring|unfold AP; field]. }
      rewrite E. eapply (chas _ 0 (t + 1) 1).
      * apply (poly_int (t + 1) (-1) 0 0 0 0); [lra|]. intros x X. rewrite Rmin_right, Rmax_right by (try rewrite Rmin_right by lra; lra). unfold P5. ring.
      * apply zero_int; [lra|]. intros x X. rewrite Rmin_right by lra. apply Rmax_left. lra.
      * unfold AP. field.
    + assert (E : RInt linear_xval (- (1)) t = 1 - (1 - t) ^ 2 / 2).
      { apply (is_RInt_unique (V := R_CompleteNormedModule)). eapply chas; [exact LH|apply (poly_int 1 (-1) 0 0 0 0); [lra|]; intros x X; rewrite lin_in by lra; unfold P5; ring|unfold AP; field]. }
      rewrite E. eapply (chas _ 0 t 1).
      * apply (poly_int 1 0 0 0 0 0); [lra|]. intros x X. rewrite Rmin_left, Rmax_right by (try rewrite Rmin_left by lra; lra). unfold P5. ring.
      * apply (poly_int (t + 1) (-1) 0 0 0 0); [lra|]. intros x X. rewrite Rmin_right, Rmax_right by (try rewrite Rmin_right by lra; lra). unfold P5. ring.
      * unfold AP. field.
Qed.
Print Assumptions C127_linear_draws.
Theorem C127_sinc_refused : forall kva LK pf nf search n us p, ip_shoot kva LK pf nf search SincInt n us p = Err GalSimError.
Proof. reflexivity. Qed.
Print Assumptions C127_sinc_refused.

(** * C128: interpolated images *)
Definition gal_fluxes (i : interpolant) : R * R := match positive_flux i, negative_flux i with Some p, Some n => (p, n) | _, _ => (1, 0) end.
Definition gpf (i : interpolant) : R := fst (gal_fluxes i).
Definition gnf (i : interpolant) : R := snd (gal_fluxes i).
(** For given photons xp of the interpolant, the mean of anything recorded over the independent choices of pixels is that of the image
    convolved with the photons of the interpolant, times (total flux) / (sum of absolute pixel values). *)
Theorem C128_mean : forall kva LK pf nf search fs n q us rs N p0 xp phi, usable q -> same_size fs N -> (1 <= N)%nat -> Permutation rs (seq 0 N) -> pf (i_x q) - nf (i_x q) = 1 -> 0 <= nf (i_x q) ->
  let im := centered (i_img q) in let J := l_jac (i_wcs q) in let off := ii_offset q in absolute_flux im <> 0 -> pa_new fs N = Ok p0 -> ip_shoot kva LK pf nf search (i_x q) n us p0 = Ok xp ->
  distribution (ii_probs (ra im)) /\
  expect (ii_probs (ra im)) N (fun inds => recorded_res phi (ii_shoot kva LK pf nf search fs n q inds us rs N)) =
  total_flux im / absolute_flux im * (Rabs (mdet J) * outer_flux_ratio q * total (map (fun j => vis xp j *
    over_pixels Rplus 0 im (fun x y v => let w := mapp J (IZR x + nth j (px xp) 0 - fst off, IZR y + nth j (py_ xp) 0 - snd off) in v * phi (fst w) (snd w))) (seq 0 N))).
Proof.
  intros kva LK pf nf search fs n q us rs N p0 xp phi US SS N1 PR U NP im J off A EP ES. split; [apply probs_dist; [apply US|exact A]|].
  apply image_mean. exact (conj US (conj SS (conj N1 (conj PR (conj U (conj NP (conj A (ex_intro _ p0 (conj EP ES))))))))).
Qed.
Print Assumptions C128_mean.
Lemma nonneg_abs : forall im, (forall x y, 0 <= pixel im x y) -> absolute_flux im = total_flux im.
Proof. intros im H. unfold absolute_flux, total_flux. rewrite !over_pixel. apply zsum_ext. intros r _. apply zsum_ext. intros c _. apply Rabs_pos_eq, H. Qed.
(** Without negative pixels the mean is that of the image. *)
Theorem C128_mean_nonnegative : forall kva LK pf nf search fs n q us rs N p0 xp phi, usable q -> same_size fs N -> (1 <= N)%nat -> Permutation rs (seq 0 N) -> pf (i_x q) - nf (i_x q) = 1 -> 0 <= nf (i_x q) ->
  let im := centered (i_img q) in let J := l_jac (i_wcs q) in let off := ii_offset q in (forall x y, 0 <= pixel im x y) -> total_flux im <> 0 -> pa_new fs N = Ok p0 -> ip_shoot kva LK pf nf search (i_x q) n us p0 = Ok xp ->
  expect (ii_probs (ra im)) N (fun inds => recorded_res phi (ii_shoot kva LK pf nf search fs n q inds us rs N)) =
  Rabs (mdet J) * outer_flux_ratio q * total (map (fun j => vis xp j *
    over_pixels Rplus 0 im (fun x y v => let w := mapp J (IZR x + nth j (px xp) 0 - fst off, IZR y + nth j (py_ xp) 0 - snd off) in v * phi (fst w) (snd w))) (seq 0 N)).
Proof.
  intros kva LK pf nf search fs n q us rs N p0 xp phi US SS N1 PR U NP im J off P T EP ES. pose proof (nonneg_abs im P) as AE.
  destruct (C128_mean kva LK pf nf search fs n q us rs N p0 xp phi US SS N1 PR U NP ltac:(fold im; rewrite AE; exact T) EP ES) as [_ M]. fold im in M. rewrite M, AE. fold J. fold off. replace (total_flux im / total_flux im) with 1 by (field; exact T). apply Rmult_1_l.
Qed.
Print Assumptions C128_mean_nonnegative.
(** With Delta, Nearest or Linear every set of photons has the flux of the profile. *)
Theorem C128_total : forall kva LK pf nf search fs n q us rs N inds, usable q -> same_size fs N -> (1 <= N)%nat -> Permutation rs (seq 0 N) -> pf (i_x q) - nf (i_x q) = 1 -> 0 <= nf (i_x q) ->
  In (i_x q) [Delta; Nearest; Linear] -> (forall j, (j < 4)%nat -> length (us j) = N) -> let im := centered (i_img q) in absolute_flux im <> 0 ->
  length inds = N -> (forall k, In k inds -> (k < flat_size (ra im))%nat /\ 0 < flat (ra im) k) ->
  recorded_res (fun _ _ => 1) (ii_shoot kva LK pf nf search fs n q inds us rs N) = ii_flux q.
Proof.
  intros kva LK pf nf search fs n q us rs N inds US SS N1 PR U NP I L im A LI PO. destruct (pa_new_exists fs N SS) as (p & EP & W & NN & K & C). rewrite <- NN in L, N1.
  destruct (C127_simple kva LK pf nf search (i_x q) n us p I W K N1 L) as (xp & ES & _ & T & _). rewrite NN in *.
  rewrite (image_exact kva LK pf nf search fs n q us rs N xp inds); [rewrite T; ring| |exact LI|exact PO]. exact (conj US (conj SS (conj N1 (conj PR (conj U (conj NP (conj A (ex_intro _ p (conj EP ES))))))))).
Qed.
Print Assumptions C128_total.
(** Full statement: the mean total flux is the flux of the profile. It is false as soon as a pixel is negative. *)
Lemma negative_smaller : forall im x y, has_pixel im x y -> pixel im x y < 0 -> 0 < total_flux im -> total_flux im < absolute_flux im.
Proof.
  intros im x y H P T. unfold total_flux, absolute_flux in *. rewrite !over_pixel. assert (Q : 0 < rsum (nrow (ra im)) (fun r => rsum (ncol (ra im)) (fun c => Rabs (pixel im (rx im + c) (ry im + r)) - pixel im (rx im + c) (ry im + r)))).
  { assert (G : forall n f k, (forall i, (0 <= i < n)%Z -> 0 <= f i) -> (0 <= k < n)%Z -> 0 < f k -> 0 < rsum n f).
    { intros n f k F K FK. replace n with (k + (1 + (n - k - 1)))%Z by ring. rewrite II_Inv.rsum_app by lia. rewrite II_Inv.rsum_app by lia. rewrite II_Inv.rsum_1. replace (k + 0)%Z with k by ring.
      assert (0 <= rsum k f) by (apply II_Inv.rsum_nonneg; intros; apply F; lia). assert (0 <= rsum (n - k - 1) (fun i => f (k + (1 + i))%Z)) by (apply II_Inv.rsum_nonneg; intros; apply F; lia). lra. }
    destruct H as [HX HY]. assert (NN : forall v, 0 <= Rabs v - v) by (intro v; unfold Rabs; destruct (Rcase_abs v); lra).
    apply (G _ _ (y - ry im)%Z); [intros; apply II_Inv.rsum_nonneg; intros; apply NN|lia|]. apply (G _ _ (x - rx im)%Z); [intros; apply NN|lia|]. replace (rx im + (x - rx im))%Z with x by ring. replace (ry im + (y - ry im))%Z with y by ring. rewrite Rabs_left by exact P. lra. }
  assert (E : rsum (nrow (ra im)) (fun r => rsum (ncol (ra im)) (fun c => Rabs (pixel im (rx im + c) (ry im + r)) - pixel im (rx im + c) (ry im + r))) =
    rsum (nrow (ra im)) (fun r => rsum (ncol (ra im)) (fun c => Rabs (pixel im (rx im + c) (ry im + r)))) + -1 * rsum (nrow (ra im)) (fun r => rsum (ncol (ra im)) (fun c => pixel im (rx im + c) (ry im + r)))).
  { rewrite <- II_Inv.rsum_scale, <- II_Inv.rsum_plus. apply II_Inv.rsum_ext. intros r _. rewrite <- II_Inv.rsum_scale, <- II_Inv.rsum_plus. apply II_Inv.rsum_ext. intros c _. ring. }
  rewrite E in Q. change (zsum Rplus 0) with rsum. lra.
Qed.
Theorem C128_negative_pixels_refuted : forall kva LK pf nf search fs n q us rs N x y, usable q -> same_size fs N -> (1 <= N)%nat -> Permutation rs (seq 0 N) -> pf (i_x q) - nf (i_x q) = 1 -> 0 <= nf (i_x q) ->
  In (i_x q) [Delta; Nearest; Linear] -> (forall j, (j < 4)%nat -> length (us j) = N) -> let im := centered (i_img q) in has_pixel im x y -> pixel im x y < 0 -> 0 < total_flux im -> 0 < ii_flux q ->
  let mean := expect (ii_probs (ra im)) N (fun inds => recorded_res (fun _ _ => 1) (ii_shoot kva LK pf nf search fs n q inds us rs N)) in
  mean = ii_flux q * (total_flux im / absolute_flux im) /\ mean < ii_flux q.
Proof.
  intros kva LK pf nf search fs n q us rs N x y US SS N1 PR U NP I L im HP PX T F mean. pose proof (negative_smaller im x y HP PX T) as LT. assert (A : absolute_flux im <> 0) by lra.
  destruct (pa_new_exists fs N SS) as (p & EP & W & NN & K & C). rewrite <- NN in L, N1. destruct (C127_simple kva LK pf nf search (i_x q) n us p I W K N1 L) as (xp & ES & _ & S1 & _). rewrite NN in *.
  destruct (C128_mean kva LK pf nf search fs n q us rs N p xp (fun _ _ => 1) US SS N1 PR U NP A EP ES) as [_ M]. fold im in M. fold mean in M.
  assert (E : mean = ii_flux q * (total_flux im / absolute_flux im)).
  { rewrite M. unfold ii_flux. rewrite image_total. change (total_flux (i_img q)) with (total_flux im).
    match goal with |- _ * (_ * _ * ?T) = _ => assert (TE : T = total_flux im) end; [|rewrite TE; unfold Rdiv; ring].
    transitivity (total_flux im * total (map (vis xp) (seq 0 N))); [|rewrite S1; ring]. change total with rsuml. rewrite Rmult_comm, <- rsuml_map_mul, map_map. f_equal. apply map_ext. intro j. f_equal. unfold total_flux, over_pixels. apply zsum_ext. intros r _. apply zsum_ext. intros c _. cbv zeta. ring. }
  split; [exact E|]. rewrite E. assert (R1 : total_flux im / absolute_flux im < 1) by (apply (Rmult_lt_reg_r (absolute_flux im)); [lra|]; unfold Rdiv; rewrite Rmult_assoc, Rinv_l by lra; lra).
  rewrite <- (Rmult_1_r (ii_flux q)) at 2. apply Rmult_lt_compat_l; assumption.
Qed.
Print Assumptions C128_negative_pixels_refuted.

(** * Examples *)
Example C127_ex_positions : forall LK u, 0 <= u < 1 -> -2 <= shoot_pos 0 LK count_search Cubic (Z.to_nat 10000) u < 2.
Proof. intros LK u U. destruct (C127_positions 0 LK count_search Cubic _ count_search_ok ltac:(left; reflexivity) (Nat.le_refl _)) as [H _]. specialize (H u U). cbn [xrange] in H. lra. Qed.
Example C127_ex_mean : forall LK, mean_near (fun u => (13 / 12 + 1 / 12) * sgn (cubic_xval (shoot_pos 0 LK count_search Cubic (Z.to_nat 10000) u))) 1 (1 / 100000).
Proof. intro LK. exact (C127_mean_flux 0 LK count_search Cubic _ _ _ count_search_ok ltac:(left; reflexivity) (Nat.le_refl _) eq_refl eq_refl). Qed.
Example C127_ex_table : forall LK u, 0 <= u < 1 -> (shoot_pos 0 LK count_search Quintic (Z.to_nat 10000) u < tab_x 0 Quintic (Z.to_nat 10000) 7 <-> u < tab_cdf 0 LK Quintic (Z.to_nat 10000) 7).
Proof. intros LK u U. apply (C127_table 0 LK count_search Quintic (Z.to_nat 10000) 7 count_search_ok ltac:(right; left; reflexivity) (Nat.le_refl _)); [|exact U]. apply Nat2Z.inj_lt. rewrite Z2Nat.id; lia. Qed.
Lemma two_photons : exists p, pa_new None 2 = Ok p /\ wfp p /\ pN p = 2%nat /\ all_kept p.
Proof. destruct (pa_new_exists None 2 ltac:(left; reflexivity)) as (p & A & B & C & D & _). eauto. Qed.
Definition quarters (j : nat) : list R := [INR j / 4; 1 / 8].
Example C127_ex_photons : exists p q, ip_shoot 0 (fun _ _ => 0) gpf gnf count_search Cubic (Z.to_nat 10000) quarters p = Ok q /\ pN q = 2%nat /\ nth 0 (px q) 0 = shoot_pos 0 (fun _ _ => 0) count_search Cubic (Z.to_nat 10000) (0 / 4).
Proof.
  destruct two_photons as (p & _ & W & N & K). exists p. destruct (C127_photons 0 (fun _ _ => 0) gpf gnf count_search Cubic (Z.to_nat 10000) quarters p) as (q & E & A & V); try (rewrite N; reflexivity); auto; [left; left; reflexivity|lia|].
  exists q. split; [exact E|]. split; [congruence|]. destruct (V 0%nat ltac:(lia)) as (X & _). exact X.
Qed.
Example C127_ex_linear : exists p q, ip_shoot 0 (fun _ _ => 0) gpf gnf count_search Linear 5 quarters p = Ok q /\ nth 1 (px q) 0 = -3 / 4 /\ nth 0 (py_ q) 0 = 1 / 4 /\ vis q 0 = 1 / 2.
Proof.
  destruct two_photons as (p & _ & W & N & K). exists p. destruct (C127_simple 0 (fun _ _ => 0) gpf gnf count_search Linear 5 quarters p) as (q & E & A & _ & V); try (intros; rewrite N; reflexivity); auto; [right; right; left; reflexivity|lia|].
  exists q. split; [exact E|]. destruct (V 0%nat ltac:(lia)) as (F0 & _ & Y0). destruct (V 1%nat ltac:(lia)) as (_ & X1 & _). rewrite X1, Y0, F0, N. unfold quarters. cbn [nth INR]. lra.
Qed.

(** pixels 1, 2, 3: every two photons of pixels 0 and 2 together have flux 6 *)
Lemma row3_abs : absolute_flux (centered (i_img row3)) = 6.
Proof. rewrite nonneg_abs. - rewrite <- row3_flux, image_total. reflexivity. - intros x y. unfold pixel, row3, centered. cbn [i_img ra rx ry nrow ncol elt]. match goal with |- 0 <= if ?b then _ else _ => destruct b eqn:B end; [|lra]. apply IZR_le. rewrite !andb_true_iff in B. lia. Qed.
Example C128_ex_total : recorded_res (fun _ _ => 1) (ii_shoot 0 (fun _ _ => 0) gpf gnf count_search None 5 row3 [0%nat; 2%nat] quarters [1%nat; 0%nat] 2) = 6.
Proof.
  rewrite C128_total; try reflexivity.
  - unfold ii_flux. rewrite row3_flux. unfold outer_flux_ratio, impl_flux_ratio. cbv zeta. rewrite row3_flux. unfold row3, l_area, mdet. cbn. rewrite ?row3_flux, ?Rabs_pos_eq by lra. field.
  - exact (row3_usable (i_wcs row3)).
  - left. reflexivity.
  - lia.
  - apply perm_swap.
  - unfold gpf, gnf. cbn. lra.
  - unfold gnf. cbn. lra.
  - right; right; left; reflexivity.
  - rewrite row3_abs. lra.
  - intros k K. unfold flat_size, flat, flat_row, flat_col, row3, centered. cbn [i_img ra nrow ncol elt]. destruct K as [<-|[<-|[]]]; cbn; split; try lia; lra.
Qed.
Example C128_ex_mean : forall phi p0 xp, pa_new None 2 = Ok p0 -> ip_shoot 0 (fun _ _ => 0) gpf gnf count_search Linear 5 quarters p0 = Ok xp ->
  expect (ii_probs (ra (centered (i_img row3)))) 2 (fun inds => recorded_res phi (ii_shoot 0 (fun _ _ => 0) gpf gnf count_search None 5 row3 inds quarters [1%nat; 0%nat] 2)) =
  Rabs (mdet (l_jac (i_wcs row3))) * outer_flux_ratio row3 * total (map (fun j => vis xp j *
    over_pixels Rplus 0 (centered (i_img row3)) (fun x y v => let w := mapp (l_jac (i_wcs row3)) (IZR x + nth j (px xp) 0 - fst (ii_offset row3), IZR y + nth j (py_ xp) 0 - snd (ii_offset row3)) in v * phi (fst w) (snd w))) (seq 0 2)).
Proof.
  intros phi p0 xp E1 E2. apply (C128_mean_nonnegative 0 (fun _ _ => 0) gpf gnf count_search None 5 row3 quarters [1%nat; 0%nat] 2 p0 xp phi); auto.
  - exact (row3_usable (i_wcs row3)).
  - left. reflexivity.
  - apply perm_swap.
  - unfold gpf, gnf. cbn. lra.
  - unfold gnf. cbn. lra.
  - intros x y. unfold pixel, row3, centered. cbn [i_img ra rx ry nrow ncol elt]. match goal with |- 0 <= if ?b then _ else _ => destruct b eqn:B end; [|lra]. apply IZR_le. rewrite !andb_true_iff in B. lia.
  - change (total_flux (centered (i_img row3))) with (total_flux (i_img row3)). rewrite <- image_total, row3_flux. lra.
Qed.
(** pixels 2 and -1: the flux is 1 and the photons' mean total is 1/3 *)
Definition dipole : iip := IIP (RImg (Arr 1 2 (fun _ j => if Z.eqb j 0 then 2 else -1)) 1 1) (LJac (Mat 1 0 0 1)) None false (0, 0) true true 4 Linear Quintic CNo CNo 0 0.
Lemma dipole_flux : image_flux dipole = 1.
Proof. rewrite image_total. unfold total_flux, over_pixels, dipole, zsum. cbn [i_img ra nrow ncol elt rx ry]. simpl. lra. Qed.
Example C128_ex_negative : ii_flux dipole = 1 /\
  expect (ii_probs (ra (centered (i_img dipole)))) 2 (fun inds => recorded_res (fun _ _ => 1) (ii_shoot 0 (fun _ _ => 0) gpf gnf count_search None 5 dipole inds quarters [1%nat; 0%nat] 2)) = 1 / 3.
Proof.
  assert (F : ii_flux dipole = 1).
  { unfold ii_flux. rewrite dipole_flux. unfold outer_flux_ratio, impl_flux_ratio. cbv zeta. rewrite dipole_flux. unfold dipole, l_area, mdet. cbn. rewrite ?dipole_flux, ?Rabs_pos_eq by lra. field. }
  split; [exact F|]. assert (T : total_flux (centered (i_img dipole)) = 1) by (rewrite <- dipole_flux, image_total; reflexivity).
  assert (A : absolute_flux (centered (i_img dipole)) = 3).
  { unfold absolute_flux, over_pixels, dipole, centered, zsum. cbn [i_img ra nrow ncol elt rx ry]. simpl. rewrite (Rabs_pos_eq 2), (Rabs_left (-1)) by lra. lra. }
  destruct (C128_negative_pixels_refuted 0 (fun _ _ => 0) gpf gnf count_search None 5 dipole quarters [1%nat; 0%nat] 2 (rx (centered (i_img dipole)) + 1) (ry (centered (i_img dipole)))) as [E _].
  - unfold usable, dipole, nonempty. cbn. split; [lia|]. split; [reflexivity|]. split; [lra|]. left. lia.
  - left. reflexivity.
  - lia.
  - apply perm_swap.
  - unfold gpf, gnf. cbn. lra.
  - unfold gnf. cbn. lra.
  - right; right; left; reflexivity.
  - reflexivity.
  - unfold has_pixel, dipole. cbn [i_img ra nrow ncol]. unfold centered. cbn [rx ry ra nrow ncol]. lia.
  - rewrite pixel_in by (unfold has_pixel, dipole; cbn [i_img ra nrow ncol]; unfold centered; cbn [rx ry ra nrow ncol]; lia). unfold dipole, centered. cbn. lra.
  - rewrite T. lra.
  - rewrite F. lra.
  - rewrite E, F, T, A. lra.
Qed.
