(** The plane of frequencies of an image; the inverse transform. *)
From Coq Require Import ZArith Reals Lra Lia ZifyBool Bool List.
From Coquelicot Require Import Coquelicot.
From Verif Require Import Base Array_Model Bounds_Model Bounds_Proofs FFT_Model FFT_Proofs Geo_Model MSum
  Interp_Model Interp_Spec II_Model II_Spec II_Proofs II_Pad II_Size II_Half II_DFT.
Open Scope R_scope.

Lemma rsum_ext : forall n f g, (forall i, (0 <= i < n)%Z -> f i = g i) -> rsum n f = rsum n g.
Proof. intros. now apply zsum_ext. Qed.
Lemma rsum_plus : forall n f g, rsum n (fun i => f i + g i) = rsum n f + rsum n g.
Proof. intros. apply (zsum_plus R Rplus 0 Rplus_comm Rplus_as Rplus_0_l). Qed.
Lemma rsum_scale : forall n a f, rsum n (fun i => a * f i) = a * rsum n f.
Proof. intros n a f. unfold rsum, zsum. induction (Z.to_nat n) as [|k IH]; cbn [nsum]; [ring|]. rewrite IH. ring. Qed.
Lemma Cmult_conj : forall a b : C, Cconj (Cmult a b) = Cmult (Cconj a) (Cconj b).
Proof. intros [a b] [c d]. unfold Cconj, Cmult. cbn [fst snd]. f_equal; ring. Qed.
Definition spectrum (im : rimg) (dx : R) (h : Z) (i j : Z) : C :=
  Cmult (RtoC (dx * dx)) (fourier_sum im dx (IZR i * (PI / (IZR h * dx))) (IZR j * (PI / (IZR h * dx)))).
Lemma sum_any : forall o im dx kx ky, nonempty o -> nonempty im -> (forall x y, pixel o x y = pixel im x y) -> fourier_sum o dx kx ky = fourier_sum im dx kx ky.
Proof.
  intros o im dx kx ky No N P. apply (over_any C Cplus (RtoC 0) Cplus_comm' Cplus_as Cplus_z); [exact No|exact N|exact P|]. intros x y. cbv zeta. cring.
Qed.
Lemma window_nonempty : forall o h, (1 <= h)%Z -> window o h -> nonempty o.
Proof. intros o h H (_ & _ & A & B). unfold nonempty. lia. Qed.
Lemma spectrum_tw : forall o h dx i j, window o h -> (1 <= h)%Z -> dx <> 0 -> spectrum o dx h i j =
  Cmult (RtoC (dx * dx)) (csum (2 * h) (fun r => csum (2 * h) (fun c => Cmult (RtoC (elt (ra o) r c)) (tw (2 * h) (j * (r - h) + i * (c - h)))))).
Proof. intros. unfold spectrum. now rewrite fourier_window. Qed.
Lemma spectrum_plane : forall im dx, nonempty im -> dx <> 0 -> hermitian_plane (2 * fft_No2 im) (spectrum im dx (fft_No2 im)).
Proof.
  intros im dx N X. pose proof (No2_pos im N) as H. destruct (padded_window im N) as (o & _ & W & P). set (h := fft_No2 im) in *.
  assert (E : forall i j, spectrum im dx h i j = spectrum o dx h i j).
  { intros. unfold spectrum. f_equal. symmetry. apply sum_any; [apply (window_nonempty o h); assumption|exact N|exact P]. }
  unfold hermitian_plane. split; [|split]; intros x y; rewrite !E, !spectrum_tw by assumption.
  - f_equal. apply zsum_ext. intros r Hr. apply zsum_ext. intros c Hc. f_equal. apply tw_mod; [lia|].
    replace (y * (r - h) + (x + 2 * h) * (c - h))%Z with (y * (r - h) + x * (c - h) + (c - h) * (2 * h))%Z by ring. now rewrite Z.mod_add by lia.
  - f_equal. apply zsum_ext. intros r Hr. apply zsum_ext. intros c Hc. f_equal. apply tw_mod; [lia|].
    replace ((y + 2 * h) * (r - h) + x * (c - h))%Z with (y * (r - h) + x * (c - h) + (r - h) * (2 * h))%Z by ring. now rewrite Z.mod_add by lia.
  - rewrite Cmult_conj, csum_conj. replace (Cconj (RtoC (dx * dx))) with (RtoC (dx * dx)) by (unfold Cconj, RtoC; cbn; f_equal; ring).
    f_equal. apply zsum_ext. intros r Hr. rewrite csum_conj. apply zsum_ext. intros c Hc. rewrite Cmult_conj, tw_conj.
    replace (Cconj (RtoC (elt (ra o) r c))) with (RtoC (elt (ra o) r c)) by (unfold Cconj, RtoC; cbn; f_equal; ring).
    f_equal. f_equal. ring.
Qed.
Lemma fft_half : forall im dx, nonempty im -> dx <> 0 -> exists k, calculate_fft im dx = Ok k /\
  kscale k = PI / (IZR (fft_No2 im) * dx) /\ kx0 k = 0%Z /\ ky0 k = (- fft_No2 im)%Z /\ holds_half (ka k) (fft_No2 im) (spectrum im dx (fft_No2 im)).
Proof.
  intros im dx N X. destruct (fft_is_sum im dx N X) as (k & E & S & A & B & D & F & P). exists k. split; [exact E|]. split; [exact S|]. split; [exact A|]. split; [exact B|].
  split; [exact D|]. split; [exact F|]. intros r c Hr Hc. rewrite P by assumption. rewrite S. reflexivity.
Qed.

(** * Picking one element with roots of unity *)
Lemma csum_pick : forall N g s, (0 < N)%Z -> csum N (fun i => Cmult (g i) (csum N (fun k => tw N (k * (i - s))))) = Cmult (RtoC (IZR N)) (g (s mod N)%Z).
Proof.
  intros N g s H. rewrite <- (zsum_single C Cplus (RtoC 0) Cplus_comm' Cplus_as Cplus_z N (s mod N) (fun i => Cmult (RtoC (IZR N)) (g i))) by (apply Z.mod_pos_bound; exact H).
  apply zsum_ext. intros i Hi. rewrite orthogonal by exact H.
  assert (Q : ((i - s) mod N =? 0)%Z = (i =? s mod N)%Z).
  { rewrite <- Zminus_mod_idemp_r. pose proof (Z.mod_pos_bound s N H) as B. set (t := (s mod N)%Z) in *. clearbody t.
    destruct (Z.eqb_spec i t) as [e|ne]; [subst; rewrite Z.sub_diag, Z.mod_0_l by lia; reflexivity|]. apply Z.eqb_neq. intro M.
    pose proof (Z.div_mod (i - t) N ltac:(lia)) as M'. rewrite M in M'. clear M. set (q := ((i - t) / N)%Z) in *. clearbody q.
    assert (q = 0 \/ q <= -1 \/ 1 <= q)%Z as [Hq | [Hq|Hq]] by lia; [rewrite Hq in M'; lia| |].
    - assert (N * q <= N * -1)%Z by (apply Z.mul_le_mono_nonneg_l; lia). lia.
    - assert (N * 1 <= N * q)%Z by (apply Z.mul_le_mono_nonneg_l; lia). lia. }
  rewrite Q. ifs T; cring.
Qed.
Lemma rsum_pick : forall N g s, (0 < N)%Z -> rsum N (fun i => g i * rsum N (fun k => Re (tw N (k * (i - s))))) = IZR N * g (s mod N)%Z.
Proof.
  intros N g s H. pose proof (csum_pick N (fun i => RtoC (g i)) s H) as E. apply (f_equal Re) in E. rewrite csum_Re in E.
  replace (Re (Cmult (RtoC (IZR N)) (RtoC (g (s mod N)%Z)))) with (IZR N * g (s mod N)%Z) in E by (cbn; ring). rewrite <- E. apply zsum_ext. intros i Hi.
  rewrite <- csum_Re. destruct (csum N (fun k => tw N (k * (i - s)))) as [a b]. cbn. ring.
Qed.
Lemma rsum_app : forall n m f, (0 <= n)%Z -> (0 <= m)%Z -> rsum (n + m) f = rsum n f + rsum m (fun i => f (n + i)%Z).
Proof. intros. now apply (zsum_app R Rplus 0 Rplus_comm Rplus_as Rplus_0_l). Qed.
Lemma rsum_1 : forall f, rsum 1 f = f 0%Z. Proof. intro. apply (zsum_1 R Rplus 0 Rplus_0_l). Qed.
Lemma Re_tw_neg : forall N m, Re (tw N (- m)) = Re (tw N m).
Proof. intros. rewrite <- tw_conj. reflexivity. Qed.
Lemma half_sum : forall h m, (1 <= h)%Z -> rsum (2 * h) (fun l => Re (tw (2 * h) (l * m))) =
  1 + Re (tw (2 * h) (h * m)) + 2 * rsum (h - 1) (fun l => Re (tw (2 * h) ((l + 1) * m))).
Proof.
  intros h m H. set (N := (2 * h)%Z).
  transitivity (rsum (1 + ((h - 1) + (1 + (h - 1)))) (fun l => Re (tw N (l * m)))); [f_equal; unfold N; lia|]. rewrite !rsum_app by lia. rewrite !rsum_1.
  rewrite Z.mul_0_l, tw_0. replace (1 + (h - 1 + 0))%Z with h by lia.
  rewrite (rsum_ext (h - 1) (fun i => Re (tw N ((1 + i) * m))) (fun l => Re (tw N ((l + 1) * m)))) by (intros i Hi; do 3 f_equal; lia).
  replace (rsum (h - 1) (fun i => Re (tw N ((1 + (h - 1 + (1 + i))) * m)))) with (rsum (h - 1) (fun l => Re (tw N ((l + 1) * m)))).
  - change (Re (RtoC 1)) with 1. ring.
  - unfold rsum at 2. rewrite <- (zsum_rev R Rplus 0 Rplus_comm Rplus_as Rplus_0_l (h - 1) (fun i => Re (tw N ((1 + (h - 1 + (1 + i))) * m)))). apply zsum_ext. intros i Hi.
    rewrite <- Re_tw_neg. f_equal. apply tw_mod; [unfold N; lia|]. unfold N.
    replace ((1 + (h - 1 + (1 + (h - 1 - 1 - i)))) * m)%Z with (- ((i + 1) * m) + m * (2 * h))%Z by ring. now rewrite Z.mod_add by lia.
Qed.
Lemma Re_half : forall h m, (1 <= h)%Z -> Re (tw (2 * h) (h * m)) = cos (PI * IZR m).
Proof.
  intros h m H. unfold tw, expi. cbn [Re fst]. rewrite cos_neg. f_equal. rewrite !mult_IZR. field. apply not_0_IZR. lia.
Qed.
Lemma sin_PI_Z : forall m, sin (PI * IZR m) = 0. Proof. intro m. apply sin_eq_0_1. exists m. ring. Qed.
(** The one-dimensional real inverse transform of the transform of a row *)
Lemma row_back : forall h (v : Z -> R) (B : Z -> C) j, (1 <= h)%Z ->
  (forall l, (0 <= l <= h)%Z -> B l = csum (2 * h) (fun c => Cmult (RtoC (v c)) (tw (2 * h) (l * (c - h))))) ->
  / IZR (2 * h) * (Re (B 0%Z) + Re (B h) * cos (PI * IZR j)
    + 2 * rsum (h - 1) (fun l => Re (Cmult (B (l + 1)%Z) (expi (2 * PI * (IZR ((l + 1) * j) / IZR (2 * h))))))) = v ((h + j) mod (2 * h))%Z.
Proof.
  intros h v B j H HB.
  assert (N0 : IZR (2 * h) <> 0) by (apply not_0_IZR; lia).
  apply Rmult_eq_reg_l with (IZR (2 * h)); [|exact N0]. rewrite <- Rmult_assoc, Rinv_r, Rmult_1_l by exact N0.
  rewrite <- rsum_pick by lia.
  assert (E0 : Re (B 0%Z) = rsum (2 * h) (fun c => v c * 1)).
  { rewrite HB by lia. rewrite csum_Re. apply zsum_ext. intros c Hc. rewrite Z.mul_0_l, tw_0. cbn. ring. }
  assert (Eh : Re (B h) * cos (PI * IZR j) = rsum (2 * h) (fun c => v c * Re (tw (2 * h) (h * (c - (h + j)))))).
  { rewrite HB by lia. rewrite csum_Re. rewrite Rmult_comm. unfold rsum. rewrite <- (rsum_scale). apply zsum_ext. intros c Hc.
    transitivity (v c * (Re (tw (2 * h) (h * (c - h))) * cos (PI * IZR j))); [destruct (tw (2 * h) (h * (c - h))); cbn; ring|]. f_equal.
    rewrite !Re_half by exact H. replace (c - (h + j))%Z with ((c - h) - j)%Z by lia. rewrite (minus_IZR (c - h) j), Rmult_minus_distr_l, cos_minus, (sin_PI_Z j). ring. }
  assert (El : forall l, (0 <= l < h - 1)%Z -> Re (Cmult (B (l + 1)%Z) (expi (2 * PI * (IZR ((l + 1) * j) / IZR (2 * h))))) =
    rsum (2 * h) (fun c => v c * Re (tw (2 * h) ((l + 1) * (c - (h + j)))))).
  { intros l Hl. rewrite HB by lia. rewrite tw_neg. rewrite Cmult_comm, <- csum_mul, csum_Re. apply zsum_ext. intros c Hc.
    rewrite Cmult_assoc, (Cmult_comm _ (RtoC (v c))), <- Cmult_assoc, <- tw_add. replace (- ((l + 1) * j) + (l + 1) * (c - h))%Z with ((l + 1) * (c - (h + j)))%Z by ring.
    destruct (tw (2 * h) ((l + 1) * (c - (h + j)))). cbn. ring. }
  rewrite E0, Eh. rewrite (rsum_ext (h - 1) _ _ El).
  rewrite (zsum_swap R Rplus 0 Rplus_comm Rplus_as Rplus_0_l : forall n m f, rsum n (fun i => rsum m (fun j => f i j)) = rsum m (fun j => rsum n (fun i => f i j))).
  transitivity (rsum (2 * h) (fun c => v c * (1 + Re (tw (2 * h) (h * (c - (h + j)))) + 2 * rsum (h - 1) (fun l => Re (tw (2 * h) ((l + 1) * (c - (h + j)))))))).
  - rewrite <- rsum_scale, <- !rsum_plus. apply zsum_ext. intros c Hc. rewrite rsum_scale. ring.
  - apply zsum_ext. intros c Hc. f_equal. symmetry. now apply half_sum.
Qed.

(** * The inverse of the transform of an image is the image *)
Lemma column_back : forall h (a : Z -> Z -> R) (A : Z -> C) s l i, (1 <= h)%Z ->
  (forall k, (0 <= k < 2 * h)%Z -> A k = Cmult (RtoC s) (csum (2 * h) (fun r => csum (2 * h) (fun c => Cmult (RtoC (a r c)) (tw (2 * h) (k * (r - h) + l * (c - h))))))) ->
  Cmult (RtoC (/ IZR (2 * h))) (csum (2 * h) (fun k => Cmult (A k) (expi (2 * PI * (IZR (k * i) / IZR (2 * h)))))) =
  csum (2 * h) (fun c => Cmult (RtoC (s * a ((h + i) mod (2 * h))%Z c)) (tw (2 * h) (l * (c - h)))).
Proof.
  intros h a A s l i H HA.
  assert (N0 : IZR (2 * h) <> 0) by (apply not_0_IZR; lia).
  set (g := fun r => csum (2 * h) (fun c => Cmult (RtoC (s * a r c)) (tw (2 * h) (l * (c - h))))).
  transitivity (Cmult (RtoC (/ IZR (2 * h))) (csum (2 * h) (fun r => Cmult (g r) (csum (2 * h) (fun k => tw (2 * h) (k * (r - (h + i)))))))).
  - f_equal. transitivity (csum (2 * h) (fun k => csum (2 * h) (fun r => Cmult (g r) (tw (2 * h) (k * (r - (h + i))))))).
    + apply zsum_ext. intros k Hk. rewrite HA by exact Hk. rewrite tw_neg. rewrite (Cmult_comm (Cmult _ _)), Cmult_assoc. rewrite <- csum_mul. apply zsum_ext. intros r Hr.
      unfold g. rewrite <- csum_mul. rewrite (Cmult_comm (csum _ _)), <- csum_mul. apply zsum_ext. intros c Hc.
      replace (tw (2 * h) (k * (r - h) + l * (c - h))) with (Cmult (tw (2 * h) (k * (r - h))) (tw (2 * h) (l * (c - h)))) by (now rewrite tw_add).
      replace (tw (2 * h) (k * (r - (h + i)))) with (Cmult (tw (2 * h) (- (k * i))) (tw (2 * h) (k * (r - h)))) by (rewrite <- tw_add; f_equal; ring).
      rewrite RtoC_mult. cring.
    + rewrite csum_swap. apply zsum_ext. intros r Hr. apply csum_mul.
  - rewrite csum_pick by lia. rewrite Cmult_assoc, <- RtoC_mult, Rinv_l, Cmult_1_l by exact N0. reflexivity.
Qed.
Lemma two_shifts : forall h r, (1 <= h)%Z -> (0 <= r < 2 * h)%Z -> ((h + (r - h) mod (2 * h)) mod (2 * h) = r)%Z.
Proof. intros h r H Hr. rewrite Z.add_mod_idemp_r by lia. replace (h + (r - h))%Z with r by lia. apply Z.mod_small. exact Hr. Qed.
Lemma inverse_back : forall im dx, nonempty im -> 0 < dx -> exists k o, calculate_fft im dx = Ok k /\ calculate_inverse_fft k = Some (o, dx) /\
  window o (fft_No2 im) /\ forall x y, pixel o x y = pixel im x y.
Proof.
  intros im dx N X. pose proof (No2_pos im N) as H. assert (X0 : dx <> 0) by lra. destruct (fft_half im dx N X0) as (k & E & S & A & B & (D & F & P)).
  exists k. destruct (padded_window im N) as (w & _ & W & Pw). set (h := fft_No2 im) in *.
  assert (Hh : (2 * h / 2 = h)%Z) by (rewrite Z.mul_comm, Z.div_mul; lia).
  assert (H0 : IZR h <> 0) by (apply not_0_IZR; lia). pose proof PI_RGT_0 as Pi.
  assert (Sp : forall i j, spectrum im dx h i j = spectrum w dx h i j).
  { intros. unfold spectrum. f_equal. symmetry. apply sum_any; [apply (window_nonempty w h); assumption|exact N|exact Pw]. }
  unfold calculate_inverse_fft. cbv zeta. rewrite A, B, D, F. replace (Z.max (Z.max (0 + (h + 1) - 1) (- - h)) (- h + 2 * h - 1)) with h by lia.
  rewrite !Z.eqb_refl. cbn [andb]. rewrite S.
  replace (PI / (IZR h * (PI / (IZR h * dx)))) with dx by (field; repeat split; lra).
  replace ((PI / (IZR h * dx) * IZR h / PI) ^ 2) with (/ (dx * dx)) by (field; repeat split; lra).
  eexists. split; [exact E|]. split; [reflexivity|].
  set (a := fftshift (irfft2 (fftshift0 (ka k)))).
  assert (Sr : nrow a = (2 * h)%Z) by (change (nrow a) with (nrow (ka k)); exact D).
  assert (Sc : ncol a = (2 * h)%Z) by (change (ncol a) with (2 * (ncol (ka k) - 1))%Z; rewrite F; lia).
  assert (V : forall r c, (0 <= r < 2 * h)%Z -> (0 <= c < 2 * h)%Z -> elt a r c = dx * dx * elt (ra w) r c).
  { intros r c Hr Hc.
    change (elt a r c) with (elt (irfft2 (fftshift0 (ka k))) ((r - nrow (ka k) / 2) mod nrow (ka k))%Z ((c - 2 * (ncol (ka k) - 1) / 2) mod (2 * (ncol (ka k) - 1)))%Z).
    rewrite D, F. replace (h + 1 - 1)%Z with h by lia. rewrite Hh. set (i := ((r - h) mod (2 * h))%Z). set (j := ((c - h) mod (2 * h))%Z).
    unfold irfft2, irfft1. cbv zeta. cbn [elt]. change (ncol (ifft0 (fftshift0 (ka k)))) with (ncol (ka k)). rewrite F. replace (h + 1 - 1)%Z with h by lia.
    rewrite (row_back h (fun c => dx * dx * elt (ra w) ((h + i) mod (2 * h))%Z c)); [unfold i, j; rewrite !two_shifts by assumption; reflexivity|exact H|].
    intros l Hl. unfold ifft0. cbn [elt]. change (nrow (fftshift0 (ka k))) with (nrow (ka k)). rewrite D.
    apply (column_back h (elt (ra w))); [exact H|]. intros q Hq.
    change (elt (fftshift0 (ka k)) q l) with (elt (ka k) ((q - nrow (ka k) / 2) mod nrow (ka k))%Z ((l - 0) mod ncol (ka k))%Z).
    rewrite D, F, Hh, Z.sub_0_r. rewrite (Z.mod_small l) by lia.
    rewrite P by (try lia; apply Z.mod_pos_bound; lia). rewrite Sp, spectrum_tw by assumption. f_equal. apply zsum_ext. intros r' Hr'. apply zsum_ext. intros c' Hc'. f_equal.
    apply tw_mod; [lia|]. rewrite <- (Z.add_mod_idemp_l (_ * (r' - h))), <- (Z.add_mod_idemp_l (q * (r' - h))) by lia. do 2 f_equal.
    rewrite <- Z.mul_mod_idemp_l by lia. symmetry. rewrite <- Z.mul_mod_idemp_l by lia. do 2 f_equal. rewrite Zminus_mod_idemp_l. symmetry.
    replace (q - h - h)%Z with (q + (-1) * (2 * h))%Z by ring. apply Z.mod_add. lia. }
  clearbody a.
  assert (Wo : window (centered (RImg (amap (fun v => v * / (dx * dx)) a) (- h) (- h))) h).
  { unfold window, centered. cbn [rx ry ra nrow ncol amap]. rewrite Sr, Sc, Hh. repeat split; lia. }
  split; [exact Wo|]. intros x y. rewrite <- Pw. destruct W as (W1 & W2 & W3 & W4). destruct Wo as (O1 & O2 & O3 & O4).
  destruct (has_dec w x y) as [hp|hp].
  - rewrite !pixel_in; [|exact hp|unfold has_pixel in *; lia]. rewrite O1, O2, W1, W2. cbn [centered ra amap elt]. rewrite V by (unfold has_pixel in hp; lia). field. lra.
  - rewrite !pixel_out; [reflexivity|exact hp|unfold has_pixel in *; lia].
Qed.
Lemma rsum_nonneg : forall n f, (forall i, (0 <= i < n)%Z -> 0 <= f i) -> 0 <= rsum n f.
Proof.
  intros n f H. unfold rsum, zsum. assert (G : forall k, (k <= Z.to_nat n)%nat -> 0 <= nsum Rplus 0 k f).
  { induction k as [|k IH]; intro Hk; cbn [nsum]; [lra|]. specialize (IH ltac:(lia)). specialize (H (Z.of_nat k) ltac:(lia)). lra. }
  now apply G.
Qed.
