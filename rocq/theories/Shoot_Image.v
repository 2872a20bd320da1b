(** Photons of interpolated images: means over the choices of pixels. *)
From Coq Require Import ZArith Reals Bool List Lra Lia Arith Permutation.
From Coquelicot Require Import Coquelicot.
From Verif Require Import Base Array_Model Bounds_Model Bounds_Proofs FFT_Model Geo_Model Size_Model Interp_Model II_Model WCS_Model MSum II_Spec II_Proofs II_Inv II_Pad II_Size II_Prof Photon_Model Photon_Spec
  Photon_Lists Photon_Proofs Photon_Conv Shoot_Model Shoot_Spec Shoot_Photons.
Import ListNotations.
Open Scope R_scope.

(** * Means *)
Lemma wsum_ext : forall A (d : list (A * R)) f g, (forall a, f a = g a) -> wsum d f = wsum d g.
Proof. intros A d f g H. unfold wsum. induction d as [|t d IH]; [reflexivity|]. cbn [fold_right]. rewrite IH, H. reflexivity. Qed.
Lemma wsum_plus : forall A (d : list (A * R)) f g, wsum d (fun a => f a + g a) = wsum d f + wsum d g.
Proof. intros A d f g. unfold wsum. induction d as [|t d IH]; cbn [fold_right]; [ring|]. rewrite IH. ring. Qed.
Lemma wsum_scale : forall A (d : list (A * R)) f c, wsum d (fun a => c * f a) = c * wsum d f.
Proof. intros A d f c. unfold wsum. induction d as [|t d IH]; cbn [fold_right]; [ring|]. rewrite IH. ring. Qed.
Lemma wsum_const : forall A (d : list (A * R)) c, wsum d (fun _ => 1) = 1 -> wsum d (fun _ => c) = c.
Proof. intros A d c D. rewrite (wsum_ext _ d _ (fun _ => c * 1)) by (intro; ring). rewrite wsum_scale, D. ring. Qed.
Lemma wsum_app : forall A (d e : list (A * R)) f, wsum (d ++ e) f = wsum d f + wsum e f.
Proof. intros A d e f. unfold wsum. induction d as [|t d IH]; cbn [app fold_right]; [ring|]. rewrite IH. ring. Qed.
Lemma expect_ext : forall A (d : list (A * R)) n f g, (forall l, length l = n -> f l = g l) -> expect d n f = expect d n g.
Proof. intros A d n. induction n as [|n IH]; intros f g H; cbn [expect]; [apply H; reflexivity|]. apply wsum_ext. intro a. apply IH. intros l L. apply H. cbn. now rewrite L. Qed.
Lemma expect_const : forall A (d : list (A * R)) n c f, wsum d (fun _ => 1) = 1 -> expect d n (fun l => c + f l) = c + expect d n f.
Proof.
  intros A d n c. induction n as [|n IH]; intros f D; cbn [expect]; [reflexivity|]. rewrite (wsum_ext _ d _ (fun a => c + expect d n (fun l => f (a :: l)))) by (intro; apply IH, D).
  rewrite wsum_plus, wsum_const by assumption. reflexivity.
Qed.
Lemma expect_sum : forall A (d : list (A * R)) dflt n (G : nat -> A -> R), wsum d (fun _ => 1) = 1 ->
  expect d n (fun l => total (map (fun j => G j (nth j l dflt)) (seq 0 n))) = total (map (fun j => wsum d (G j)) (seq 0 n)).
Proof.
  intros A d dflt n. induction n as [|n IH]; intros G D; [reflexivity|]. cbn [expect]. rewrite (wsum_ext _ d _ (fun a => G 0%nat a + total (map (fun j => wsum d (G (S j))) (seq 0 n)))).
  - rewrite wsum_plus, wsum_const by assumption. cbn [seq map total fold_right]. unfold total. rewrite <- seq_shift, map_map. reflexivity.
  - intro a. rewrite <- IH by assumption. rewrite <- expect_const by assumption. apply expect_ext. intros l _. cbn [seq map total fold_right nth]. unfold total. rewrite <- seq_shift, map_map. reflexivity.
Qed.

(** * The probabilities *)
Lemma wsum_seq : forall (w g : nat -> R) m, wsum (map (fun k => (k, w k)) (seq 0 m)) g = zsum Rplus 0 (Z.of_nat m) (fun z => w (Z.to_nat z) * g (Z.to_nat z)).
Proof.
  intros w g m. unfold zsum. rewrite Nat2Z.id. induction m as [|m IH]; [reflexivity|]. rewrite seq_S, map_app, wsum_app, IH. cbn [MSum.nsum]. rewrite Nat2Z.id. unfold wsum. cbn. ring.
Qed.
Lemma probs_sum : forall im g, nonempty im -> wsum (ii_probs (ra im)) g =
  zsum Rplus 0 (nrow (ra im)) (fun r => zsum Rplus 0 (ncol (ra im)) (fun c => Rabs (elt (ra im) r c) / absolute_flux im * g (Z.to_nat (r * ncol (ra im) + c)))).
Proof.
  intros im g [H W]. unfold ii_probs. rewrite wsum_seq. unfold flat_size. rewrite Z2Nat.id by nia. rewrite (zsum_blocks R Rplus 0 Rplus_comm (fun a b c => eq_sym (Rplus_assoc a b c)) Rplus_0_l) by lia.
  apply zsum_ext. intros r Hr. apply zsum_ext. intros c Hc. unfold flat, flat_row, flat_col. rewrite Z2Nat.id by nia. rewrite Z.div_add_l, Z.div_small by lia. rewrite Z.add_0_r, Z.add_comm, Z_mod_plus_full, Z.mod_small by lia.
  rewrite (Z.add_comm c). reflexivity.
Qed.
Lemma probs_unit : forall im, nonempty im -> absolute_flux im <> 0 -> wsum (ii_probs (ra im)) (fun _ => 1) = 1.
Proof.
  intros im NE A. rewrite probs_sum by assumption. rewrite (zsum_ext _ _ _ _ _ (fun r => / absolute_flux im * rsum (ncol (ra im)) (fun c => Rabs (elt (ra im) r c)))).
  - change (zsum Rplus 0) with rsum. rewrite rsum_scale. change (/ absolute_flux im * absolute_flux im = 1). field. exact A.
  - intros r _. rewrite <- rsum_scale. apply zsum_ext. intros. field. exact A.
Qed.
Lemma abs_pos : forall im, 0 <= absolute_flux im.
Proof. intro im. unfold absolute_flux, over_pixels. apply rsum_nonneg. intros. apply rsum_nonneg. intros. apply Rabs_pos. Qed.
Lemma probs_dist : forall im, nonempty im -> absolute_flux im <> 0 -> distribution (ii_probs (ra im)).
Proof.
  intros im NE A. split; [|now apply probs_unit]. apply List.Forall_forall. intros t T. unfold ii_probs in T. apply in_map_iff in T. destruct T as (k & <- & _). cbn [snd].
  pose proof (abs_pos im). apply Rmult_le_pos; [apply Rabs_pos|apply Rlt_le, Rinv_0_lt_compat]. change (0 < absolute_flux im). lra.
Qed.
Lemma sgn_abs : forall v, Rabs v * sgn v = v.
Proof. intro v. unfold sgn. destruct (Rltb_spec 0 v); [rewrite Rabs_pos_eq; lra|]. destruct (Rltb_spec v 0); [rewrite Rabs_left; lra|]. assert (v = 0) by lra. subst. rewrite Rabs_R0. ring. Qed.
(** The mean of (sign of the pixel) * (anything about the pixel) is the sum over the pixels divided by the absolute flux. *)
Lemma probs_signed : forall im (G : Z -> Z -> R) c, nonempty im -> absolute_flux im <> 0 ->
  wsum (ii_probs (ra im)) (fun k => sgn (flat (ra im) k) * c * G (flat_col (ra im) k + rx im)%Z (flat_row (ra im) k + ry im)%Z) = c / absolute_flux im * over_pixels Rplus 0 im (fun x y v => v * G x y).
Proof.
  intros im G c NE A. rewrite probs_sum by assumption. unfold over_pixels. change (zsum Rplus 0) with rsum. rewrite <- rsum_scale. apply rsum_ext. intros r Hr. rewrite <- rsum_scale. apply rsum_ext. intros cc Hc.
  destruct NE as [H W]. unfold flat, flat_row, flat_col. rewrite Z2Nat.id by nia. rewrite Z.div_add_l, Z.div_small by lia. rewrite Z.add_0_r, (Z.add_comm (r * _)), Z_mod_plus_full, Z.mod_small by lia.
  rewrite (Z.add_comm cc), (Z.add_comm r). rewrite <- (sgn_abs (elt (ra im) r cc)) at 3. field. exact A.
Qed.

(** * Signs of the pixels *)
Lemma asum_parts : forall a, asum (amap (fun v => if Rltb 0 v then v else 0) a) + asum (amap (fun v => if Rltb v 0 then v else 0) a) = asum a /\
  asum (amap (fun v => if Rltb 0 v then v else 0) a) - asum (amap (fun v => if Rltb v 0 then v else 0) a) = asum (amap Rabs a) /\ asum (amap (fun v => if Rltb v 0 then v else 0) a) <= 0.
Proof.
  intro a. unfold asum. cbn [amap nrow ncol elt]. split; [|split].
  - rewrite <- rsum_plus. apply rsum_ext. intros r _. rewrite <- rsum_plus. apply rsum_ext. intros c _. destruct (Rltb_spec 0 (elt a r c)), (Rltb_spec (elt a r c) 0); lra.
  - match goal with |- ?x - ?y = _ => replace (x - y) with (x + -1 * y) by ring end. rewrite <- rsum_scale, <- rsum_plus. apply rsum_ext. intros r _. rewrite <- rsum_scale, <- rsum_plus. apply rsum_ext. intros c _.
    destruct (Rltb_spec 0 (elt a r c)), (Rltb_spec (elt a r c) 0); [lra|rewrite Rabs_pos_eq by lra; lra|rewrite Rabs_left by lra; lra|]. replace (elt a r c) with 0 by lra. rewrite Rabs_R0. lra.
  - match goal with |- ?y <= 0 => assert (0 <= -1 * y); [|lra] end. rewrite <- rsum_scale. apply rsum_nonneg. intros r _. rewrite <- rsum_scale. apply rsum_nonneg. intros c _. destruct (Rltb_spec (elt a r c) 0); lra.
Qed.
Lemma photon_share : forall p n im, p - n = 1 -> 0 <= n -> absolute_flux im <> 0 -> let f := pos_neg_fluxes p n (ra im) in flux_per_photon (fst f) (snd f) * (fst f + snd f) = total_flux im.
Proof.
  intros p n im U NP A. unfold pos_neg_fluxes. cbv zeta. cbn [fst snd]. destruct (asum_parts (ra im)) as (S1 & S2 & S3). change (asum (ra im)) with (total_flux im) in S1. change (asum (amap Rabs (ra im))) with (absolute_flux im) in S2.
  set (P := asum (amap (fun v => if Rltb 0 v then v else 0) (ra im))) in *. set (M := asum (amap (fun v => if Rltb v 0 then v else 0) (ra im))) in *. rewrite (Rabs_left1 M) by exact S3. assert (p = 1 + n) by lra. subst p.
  assert (T : forall x y, x + y <> 0 -> flux_per_photon x y * (x + y) = x - y) by (intros x y H; unfold flux_per_photon; field; exact H). rewrite T; [rewrite <- S1; ring|].
  replace (((1 + n) * (1 + n) + n * n) * P + 2 * (1 + n) * n * - M + (((1 + n) * (1 + n) + n * n) * - M + 2 * (1 + n) * n * P)) with ((1 + 2 * n) * (1 + 2 * n) * absolute_flux im) by (rewrite <- S2; ring).
  repeat apply Rmult_integral_contrapositive_currified; lra.
Qed.

(** * The photons *)
Section Image.
  Variable kva : R.
  Variable LK : Z -> nat -> R.
  Variable pf nf : interpolant -> R.
  Variable search : nat -> (nat -> R) -> R -> nat.
  Lemma vis_all : forall p i, wfp p -> all_kept p -> (1 <= pN p)%nat -> (i < pN p)%nat -> vis p i = nth i (pfl p) 0.
  Proof using Type.
    intros p i W K N I. pose proof (all_kept_num p W K) as NK. rewrite vis_val by (try assumption; lia). destruct (K i I) as [_ KI]. rewrite (nth_mask_d p i false true W I), KI. unfold ratio. rewrite NK. pose proof (INR_pos (pN p) N). field. lra.
  Qed.
  Lemma photons_of : forall fs n q im inds us rs p xp0 xp, pad_image q = Ok im -> wfp p -> all_kept p -> pcorr p = false -> (1 <= pN p)%nat -> pa_new fs (pN p) = Ok xp0 -> same_size fs (pN p) ->
    ip_shoot kva LK pf nf search (i_x q) n us xp0 = Ok xp -> length inds = pN p -> Permutation rs (seq 0 (pN p)) -> pf (i_x q) - nf (i_x q) = 1 -> 0 <= nf (i_x q) -> absolute_flux im <> 0 ->
    exists r, impl_shoot kva LK pf nf search fs n q inds us rs p = Ok r /\ alike r p /\ forall j, (j < pN p)%nat ->
      nth j (px r) 0 = IZR (flat_col (ra im) (nth j inds 0%nat) + rx im) - fst (ii_offset q) + nth j (px xp) 0 /\
      nth j (py_ r) 0 = IZR (flat_row (ra im) (nth j inds 0%nat) + ry im) - snd (ii_offset q) + nth j (py_ xp) 0 /\
      vis r j = sgn (flat (ra im) (nth j inds 0%nat)) * total_flux im * vis xp j.
  Proof using Type.
    intros fs n q im inds us rs p xp0 xp EI W K C N EX SS ES LI PR U NP A.
    destruct (pa_new_exists fs (pN p) SS) as (xp0' & EX' & WX & NX & KX & CX). assert (xp0' = xp0) by congruence. subst xp0'.
    pose proof (ip_alike kva LK pf nf search _ _ _ _ _ WX ES) as AX. pose proof (photon_share (pf (i_x q)) (nf (i_x q)) im U NP A) as SH. cbv zeta in SH.
    unfold impl_shoot. rewrite EI. cbn [bind]. cbv zeta. destruct (pos_neg_fluxes (pf (i_x q)) (nf (i_x q)) (ra im)) as [pos neg]. cbn [fst snd] in SH.
    set (lx := map (fun k => IZR (flat_col (ra im) k + rx im)) inds). set (ly := map (fun k => IZR (flat_row (ra im) k + ry im)) inds).
    set (lf := map (fun k => sgn (flat (ra im) k) * flux_per_photon pos neg * (pos + neg) / INR (pN p)) inds).
    assert (LX : length lx = pN p) by (unfold lx; now rewrite map_length). assert (LY : length ly = pN p) by (unfold ly; now rewrite map_length). assert (LF : length lf = pN p) by (unfold lf; now rewrite map_length).
    destruct (set_x_ok p (Array lx) lx W (bcast_array _ _ _ LX)) as [E1 A1]. rewrite E1. cbn [bind].
    destruct (set_y_ok (set_pxy p lx (py_ p)) (Array ly) ly (proj1 A1) (bcast_array _ _ _ LY)) as [E2 A2]. rewrite E2. cbn [bind].
    change (set_pxy (set_pxy p lx (py_ p)) (px (set_pxy p lx (py_ p))) ly) with (set_pxy p lx ly) in *. pose proof (alike_trans _ _ _ A2 A1) as A12.
    destruct (set_flux_ok (set_pxy p lx ly) (Array lf) lf (proj1 A12) (alike_kept _ _ A12 K) N (bcast_array _ _ _ LF)) as (p3 & E3 & A3 & X3 & Y3 & V3). change (pN (set_pxy p lx ly)) with (pN p) in *. fold lf. rewrite E3. cbn [bind].
    pose proof (alike_trans _ _ _ A3 A12) as A13. cbn [px py_ set_pxy] in X3, Y3. rewrite X3, Y3.
    set (p4 := set_pxy p3 (map (fun x => x - fst (ii_offset q)) lx) (map (fun y => y - snd (ii_offset q)) ly)).
    assert (A4 : alike p4 p). { destruct A13 as (W3 & N3 & R3). split; [|split; assumption]. apply set_pxy_wf; [exact W3|rewrite map_length, LX; congruence|rewrite map_length, LY; congruence]. }
    change (pN p4) with (pN p3). replace (pN p3) with (pN p) by (symmetry; apply A13). rewrite EX. cbn [bind]. rewrite ES. cbn [bind].
    assert (N4 : pN xp = pN p4) by (destruct AX as (_ & -> & _); destruct A4 as (_ & -> & _); exact NX).
    destruct (convolve_ok p4 xp rs (proj1 A4) (proj1 AX) N4) as (r & EC & WR & NR & MR & CR & sg & PS & VS & ID); [unfold isperm; replace (pN p4) with (pN p) by (symmetry; apply A4); exact PR|].
    rewrite EC. cbn [bind fst]. exists r. split; [reflexivity|].
    assert (C4 : pcorr p4 = false) by (destruct A4 as (_ & _ & _ & ->); exact C). assert (CXP : pcorr xp = false) by (destruct AX as (_ & _ & _ & ->); exact CX).
    assert (AR : alike r p). { split; [exact WR|]. destruct A4 as (_ & N4' & K4 & _). split; [congruence|]. split; [congruence|]. rewrite CR, C4, CXP, C. reflexivity. }
    split; [exact AR|]. intros j J. assert (J4 : (j < pN p4)%nat) by (destruct A4 as (_ & -> & _); exact J).
    assert (MK : pnk p4 = pnk xp). { rewrite (all_kept_mask p4 (proj1 A4) (alike_kept _ _ A4 K)), (all_kept_mask xp (proj1 AX) (alike_kept _ _ AX KX)), N4. reflexivity. }
    destruct (VS j J4) as (VX & VY & VF & _). rewrite (ID ltac:(rewrite C4; reflexivity) MK j J4) in VX, VY, VF.
    rewrite VX, VY. unfold p4 at 1 2. cbn [px py_ set_pxy].
    assert (LL : forall (g : nat -> R) (o : R), nth j (map (fun x => x - o) (map g inds)) 0 = g (nth j inds 0%nat) - o).
    { intros g o. rewrite (nth_indep _ 0 ((fun x => x - o) (g 0%nat))) by (rewrite !map_length; lia). rewrite (map_nth (fun x => x - o)), map_nth. reflexivity. }
    unfold lx, ly. rewrite !LL. split; [reflexivity|]. split; [reflexivity|].
    rewrite (vis_all r) by (try assumption; try (destruct AR as (_ & -> & _); assumption); exact (alike_kept _ _ AR K)). rewrite VF. replace (pN p4) with (pN p) by (symmetry; apply A4).
    rewrite (vis_all xp); [| apply AX | exact (alike_kept _ _ AX KX) | lia | lia ]. change (pfl p4) with (pfl p3). rewrite <- (vis_all p3); [|apply A13|exact (alike_kept _ _ A13 K)|destruct A13 as (_ & -> & _); exact N|destruct A13 as (_ & -> & _); exact J].
    rewrite V3 by exact J. unfold lf. rewrite (nth_indep _ 0 (sgn (flat (ra im) 0%nat) * flux_per_photon pos neg * (pos + neg) / INR (pN p))) by (rewrite map_length; lia). rewrite (map_nth (fun k => sgn (flat (ra im) k) * flux_per_photon pos neg * (pos + neg) / INR (pN p))).
    rewrite <- SH. pose proof (INR_pos (pN p) N). field. lra.
  Qed.

  (** What is recorded, on average over the pixels chosen, with the interpolant's photons given *)
  Lemma mean_recorded : forall fs n q im us rs p xp0 xp phi, usable q -> pad_image q = Ok im -> wfp p -> all_kept p -> pcorr p = false -> (1 <= pN p)%nat -> pa_new fs (pN p) = Ok xp0 -> same_size fs (pN p) ->
    ip_shoot kva LK pf nf search (i_x q) n us xp0 = Ok xp -> Permutation rs (seq 0 (pN p)) -> pf (i_x q) - nf (i_x q) = 1 -> 0 <= nf (i_x q) -> nonempty im -> absolute_flux im <> 0 ->
    expect (ii_probs (ra im)) (pN p) (fun inds => recorded_res phi (impl_shoot kva LK pf nf search fs n q inds us rs p)) =
    total_flux im / absolute_flux im * total (map (fun j => vis xp j * over_pixels Rplus 0 im (fun x y v => v * phi (IZR x - fst (ii_offset q) + nth j (px xp) 0) (IZR y - snd (ii_offset q) + nth j (py_ xp) 0))) (seq 0 (pN p))).
  Proof using Type.
    intros fs n q im us rs p xp0 xp phi US EI W K C N EX SS ES PR U NP NE A.
    rewrite (expect_ext _ _ _ _ (fun inds => total (map (fun j => sgn (flat (ra im) (nth j inds 0%nat)) * (total_flux im * vis xp j) *
      phi (IZR (flat_col (ra im) (nth j inds 0%nat) + rx im) - fst (ii_offset q) + nth j (px xp) 0) (IZR (flat_row (ra im) (nth j inds 0%nat) + ry im) - snd (ii_offset q) + nth j (py_ xp) 0)) (seq 0 (pN p))))).
    - rewrite (expect_sum _ _ 0%nat (pN p) (fun j k => sgn (flat (ra im) k) * (total_flux im * vis xp j) * phi (IZR (flat_col (ra im) k + rx im) - fst (ii_offset q) + nth j (px xp) 0) (IZR (flat_row (ra im) k + ry im) - snd (ii_offset q) + nth j (py_ xp) 0))) by (now apply probs_unit).
      change total with rsuml. rewrite Rmult_comm, <- rsuml_map_mul, map_map. f_equal. apply map_ext. intro j.
      rewrite (probs_signed im (fun x y => phi (IZR x - fst (ii_offset q) + nth j (px xp) 0) (IZR y - snd (ii_offset q) + nth j (py_ xp) 0)) (total_flux im * vis xp j)) by assumption. field. exact A.
    - intros inds LI. destruct (photons_of fs n q im inds us rs p xp0 xp EI W K C N EX SS ES LI PR U NP A) as (r & E & AR & V). rewrite E. cbn [recorded_res]. unfold recorded. destruct AR as (_ & -> & _). f_equal. apply map_ext_in. intros j J. apply in_seq in J. destruct (V j ltac:(lia)) as (-> & -> & ->). ring.
  Qed.

  (** ** InterpolatedImage *)
  Definition outer_scale (q : iip) : R := Rabs (mdet (l_jac (i_wcs q))) * outer_flux_ratio q.
  Definition placed (q : iip) (phi : R -> R -> R) (x y : R) : R := let v := mapp (l_jac (i_wcs q)) (x - fst (ii_offset q), y - snd (ii_offset q)) in phi (fst v) (snd v).
  Lemma outer_recorded : forall fs n q inds us rs N p, pa_new fs N = Ok p -> wfp p -> pN p = N -> all_kept p -> (1 <= N)%nat ->
    (forall r, impl_shoot kva LK pf nf search fs n q inds us rs p = Ok r -> alike r p) -> forall phi,
    recorded_res phi (ii_shoot kva LK pf nf search fs n q inds us rs N) = outer_scale q * recorded_res (fun x y => let v := mapp (l_jac (i_wcs q)) (x, y) in phi (fst v) (snd v)) (impl_shoot kva LK pf nf search fs n q inds us rs p).
  Proof using Type.
    intros fs n q inds us rs N p EP W NP K N1 AL phi. unfold ii_shoot, shoot_with. rewrite EP. cbn [bind]. destruct (Nat.eqb_spec (pN p) 0); [lia|]. destruct (impl_shoot kva LK pf nf search fs n q inds us rs p) as [r|e]; cbn [bind recorded_res]; [|ring].
    specialize (AL r eq_refl). assert (KK : all_kept r) by (exact (alike_kept r p AL K)). destruct AL as (WR & NR & KR & _).
    set (xy := map (mapp (l_jac (i_wcs q))) (combine (px r) (py_ r))). fold (outer_scale q). unfold recorded. cbn [pN scaleFlux set_pfl set_pxy px py_].
    assert (WR' := WR). destruct WR' as (LX & LY & _). assert (LC : length (combine (px r) (py_ r)) = pN r) by (rewrite combine_length; lia).
    change total with rsuml. rewrite Rmult_comm, <- rsuml_map_mul, map_map. f_equal. apply map_ext_in. intros j J. apply in_seq in J.
    assert (NU : num_keep r = pN r) by (apply all_kept_num; assumption).
    rewrite (scaleFlux_vis (set_pxy r (map fst xy) (map snd xy))); [| |cbn; unfold num_keep in *; cbn; lia|cbn; lia].
    2: { apply set_pxy_wf; [exact WR|unfold xy; rewrite !map_length; exact LC|unfold xy; rewrite !map_length; exact LC]. }
    change (vis (set_pxy r (map fst xy) (map snd xy)) j) with (vis r j).
    assert (NX : forall (g : R * R -> R), nth j (map g xy) 0 = g (mapp (l_jac (i_wcs q)) (nth j (px r) 0, nth j (py_ r) 0))).
    { intro g. unfold xy. rewrite map_map. rewrite (nth_indep _ 0 (g (mapp (l_jac (i_wcs q)) (0, 0)))) by (rewrite map_length; eapply Nat.lt_le_trans; [|apply Nat.eq_le_incl; symmetry; exact LC]; lia). rewrite (map_nth (fun t => g (mapp (l_jac (i_wcs q)) t))). do 2 f_equal. apply combine_nth. lia. }
    rewrite !NX. cbv zeta. ring.
  Qed.

  Lemma same_probs : forall u v, nonempty u -> same_image u v -> ii_probs (ra u) = ii_probs (ra v) /\ total_flux u = total_flux v /\ absolute_flux u = absolute_flux v /\ nonempty v.
  Proof using Type.
    intros u v [H1 H2] S. assert (F := over_same R Rplus 0 u v (fun _ _ x => x) S). assert (A := over_same R Rplus 0 u v (fun _ _ x => Rabs x) S). split; [|split; [exact F|split; [exact A|]]].
    - destruct S as [(SX & SY & SR & SC) P]. unfold ii_probs, flat_size. rewrite <- SR, <- SC. apply map_ext_in. intros k KI. apply in_seq in KI. replace (asum (amap Rabs (ra v))) with (asum (amap Rabs (ra u))) by exact A. replace (flat (ra v) k) with (flat (ra u) k); [reflexivity|]. unfold flat, flat_row, flat_col. rewrite <- SC.
      assert (KB : (Z.of_nat k < nrow (ra u) * ncol (ra u))%Z) by lia.
      assert (B1 : (0 <= Z.of_nat k mod ncol (ra u) < ncol (ra u))%Z) by (apply Z.mod_pos_bound; lia). assert (B2 : (0 <= Z.of_nat k / ncol (ra u) < nrow (ra u))%Z) by (split; [apply Z.div_pos; lia|apply Z.div_lt_upper_bound; [lia|]; rewrite Z.mul_comm; exact KB]).
      specialize (P (rx u + Z.of_nat k mod ncol (ra u))%Z (ry u + Z.of_nat k / ncol (ra u))%Z). rewrite !pixel_in in P by (unfold has_pixel; lia). rewrite <- SX, <- SY in P.
      replace (ry u + Z.of_nat k / ncol (ra u) - ry u)%Z with (Z.of_nat k / ncol (ra u))%Z in P by ring. replace (rx u + Z.of_nat k mod ncol (ra u) - rx u)%Z with (Z.of_nat k mod ncol (ra u))%Z in P by ring. exact P.
    - destruct S as [(SX & SY & SR & SC) P]. unfold nonempty. rewrite <- SR, <- SC. split; assumption.
  Qed.
  Definition ready (fs : option nat) (n : nat) (q : iip) (us : nat -> list R) (rs : list nat) (N : nat) (xp : parr) : Prop :=
    usable q /\ same_size fs N /\ (1 <= N)%nat /\ Permutation rs (seq 0 N) /\ pf (i_x q) - nf (i_x q) = 1 /\ 0 <= nf (i_x q) /\ absolute_flux (centered (i_img q)) <> 0 /\
    exists p0, pa_new fs N = Ok p0 /\ ip_shoot kva LK pf nf search (i_x q) n us p0 = Ok xp.
  Lemma ready_parts : forall fs n q us rs N xp, ready fs n q us rs N xp -> exists im p, pad_image q = Ok im /\ same_image im (centered (i_img q)) /\ nonempty im /\ absolute_flux im <> 0 /\
    pa_new fs N = Ok p /\ wfp p /\ pN p = N /\ all_kept p /\ pcorr p = false /\ ip_shoot kva LK pf nf search (i_x q) n us p = Ok xp /\ alike xp p.
  Proof using Type.
    intros fs n q us rs N xp (US & SS & N1 & PR & U & NP & A & p & EP & ES). destruct (usable_image q US) as (im & EI & SI). destruct US as (NE & RC & _). unfold ii_image in SI. rewrite RC in SI.
    assert (NI : nonempty im). { destruct SI as [(_ & _ & SR & SC) _]. unfold nonempty. rewrite SR, SC. exact NE. }
    destruct (same_probs _ _ NI SI) as (_ & _ & AE & _). destruct (pa_new_exists fs N SS) as (p' & EP' & W & NN & K & C). assert (p' = p) by congruence. subst p'.
    exists im, p. split; [exact EI|]. split; [exact SI|]. split; [exact NI|]. split; [rewrite AE; exact A|]. split; [exact EP|]. split; [exact W|]. split; [exact NN|]. split; [exact K|]. split; [exact C|]. split; [exact ES|]. eapply ip_alike; eassumption.
  Qed.
  Lemma image_mean : forall fs n q us rs N xp phi, ready fs n q us rs N xp -> let im := centered (i_img q) in
    expect (ii_probs (ra im)) N (fun inds => recorded_res phi (ii_shoot kva LK pf nf search fs n q inds us rs N)) =
    total_flux im / absolute_flux im * (outer_scale q * total (map (fun j => vis xp j * over_pixels Rplus 0 im (fun x y v => v * placed q phi (IZR x + nth j (px xp) 0) (IZR y + nth j (py_ xp) 0))) (seq 0 N))).
  Proof using Type.
    intros fs n q us rs N xp phi RD im0. destruct (ready_parts _ _ _ _ _ _ _ RD) as (im & p & EI & SI & NI & AI & EP & W & NN & K & C & ES & AX). destruct RD as (US & SS & N1 & PR & U & NP & _ & _). destruct (same_probs _ _ NI SI) as (PE & TE & AE & _). fold im0 in SI, PE, TE, AE.
    assert (OK : forall inds, length inds = N -> exists r, impl_shoot kva LK pf nf search fs n q inds us rs p = Ok r /\ alike r p).
    { intros inds LI. destruct (photons_of fs n q im inds us rs p p xp EI W K C ltac:(lia)) as (r & E & A & _); try (rewrite NN); try assumption. exists r. auto. }
    rewrite <- PE, (expect_ext _ _ _ _ (fun inds => outer_scale q * recorded_res (fun x y => let v := mapp (l_jac (i_wcs q)) (x, y) in phi (fst v) (snd v)) (impl_shoot kva LK pf nf search fs n q inds us rs p))).
    2: { intros inds LI. apply outer_recorded; try assumption. intros r E. destruct (OK inds LI) as (r' & E' & A). congruence. }
    assert (ESC : forall A (d : list (A * R)) m c f, expect d m (fun l => c * f l) = c * expect d m f). { intros A d m. induction m as [|m IH]; intros c f; cbn [expect]; [reflexivity|]. rewrite <- wsum_scale. apply wsum_ext. intro a. apply (IH c (fun l => f (a :: l))). }
    rewrite ESC. rewrite <- NN at 1. rewrite (mean_recorded fs n q im us rs p p xp) by (try (rewrite NN); try assumption). rewrite NN, TE, AE. rewrite <- !Rmult_assoc, (Rmult_comm (outer_scale q)). f_equal. f_equal. apply map_ext. intro j. f_equal.
    rewrite (over_same _ _ _ im im0 _ SI). unfold over_pixels. apply zsum_ext. intros r _. apply zsum_ext. intros c _. unfold placed. cbv zeta.
    match goal with |- _ * phi (fst (mapp _ (?a, ?b))) _ = _ * phi (fst (mapp _ (?a', ?b'))) _ => replace a' with a by ring; replace b' with b by ring end. reflexivity.
  Qed.
  Lemma image_exact : forall fs n q us rs N xp inds, ready fs n q us rs N xp -> let im := centered (i_img q) in length inds = N -> (forall k, In k inds -> (k < flat_size (ra im))%nat /\ 0 < flat (ra im) k) ->
    recorded_res (fun _ _ => 1) (ii_shoot kva LK pf nf search fs n q inds us rs N) = ii_flux q * total (map (vis xp) (seq 0 N)).
  Proof using Type.
    intros fs n q us rs N xp inds RD im0 LI PO. destruct (ready_parts _ _ _ _ _ _ _ RD) as (im & p & EI & SI & NI & AI & EP & W & NN & K & C & ES & AX). destruct RD as (US & SS & N1 & PR & U & NP & _ & _). destruct (same_probs _ _ NI SI) as (PE & TE & AE & _). fold im0 in SI, PE, TE, AE.
    destruct (photons_of fs n q im inds us rs p p xp EI W K C ltac:(lia)) as (r & E & A & V); try (rewrite NN); try assumption.
    rewrite (outer_recorded fs n q inds us rs N p EP W NN K N1) by (intros r' E'; congruence). rewrite E. cbn [recorded_res]. unfold recorded. replace (pN r) with N by (destruct A as (_ & -> & _); congruence).
    unfold ii_flux. fold (outer_scale q). rewrite image_total. replace (total_flux (i_img q)) with (total_flux im) by (rewrite TE; reflexivity). rewrite Rmult_assoc. f_equal. change total with rsuml. rewrite (Rmult_comm (total_flux im)), <- rsuml_map_mul, map_map. f_equal. apply map_ext_in. intros j J. apply in_seq in J. destruct (V j ltac:(lia)) as (_ & _ & ->).
    destruct (PO (nth j inds 0%nat) ltac:(apply nth_In; lia)) as [KB KP].
    assert (FE : flat (ra im) (nth j inds 0%nat) = flat (ra im0) (nth j inds 0%nat)).
    { destruct SI as [(SX & SY & SR & SC) P]. destruct NI as [H1 H2]. unfold flat, flat_row, flat_col. unfold flat_size in KB. rewrite <- SR, <- SC in KB. rewrite <- SC. set (k := nth j inds 0%nat) in *.
      assert (KB2 : (Z.of_nat k < nrow (ra im) * ncol (ra im))%Z) by lia.
      assert (B1 : (0 <= Z.of_nat k mod ncol (ra im) < ncol (ra im))%Z) by (apply Z.mod_pos_bound; lia). assert (B2 : (0 <= Z.of_nat k / ncol (ra im) < nrow (ra im))%Z) by (split; [apply Z.div_pos; lia|apply Z.div_lt_upper_bound; [lia|]; rewrite Z.mul_comm; exact KB2]).
      specialize (P (rx im + Z.of_nat k mod ncol (ra im))%Z (ry im + Z.of_nat k / ncol (ra im))%Z). rewrite !pixel_in in P by (unfold has_pixel; lia). rewrite <- SX, <- SY in P.
      replace (ry im + Z.of_nat k / ncol (ra im) - ry im)%Z with (Z.of_nat k / ncol (ra im))%Z in P by ring. replace (rx im + Z.of_nat k mod ncol (ra im) - rx im)%Z with (Z.of_nat k mod ncol (ra im))%Z in P by ring. exact P. }
    rewrite FE. unfold sgn. destruct (Rltb_spec 0 (flat (ra im0) (nth j inds 0%nat))); [ring|contradiction].
  Qed.
  Lemma unit_interpolant : forall i n us p q, In i [Delta; Nearest; Linear] -> wfp p -> all_kept p -> (1 <= pN p)%nat -> (forall j, (j < 4)%nat -> length (us j) = pN p) -> ip_shoot kva LK pf nf search i n us p = Ok q -> total (map (vis q) (seq 0 (pN p))) = 1.
  Proof using Type.
    intros i n us p q I W K N L E. assert (V : forall k, (k < pN p)%nat -> vis q k = 1 / INR (pN p)).
    { destruct I as [<-|[<-|[<-|[]]]].
      - destruct (delta_photons kva LK pf nf search n us p W K N) as (q' & E' & _ & V). assert (q' = q) by congruence. subst q'. intros k KN. apply V, KN.
      - destruct (nearest_photons kva LK pf nf search n us p W K N) as (q' & E' & _ & V); try (apply L; lia). assert (q' = q) by congruence. subst q'. intros k KN. apply V, KN.
      - destruct (linear_photons kva LK pf nf search n us p W K N L) as (q' & E' & _ & V). assert (q' = q) by congruence. subst q'. intros k KN. apply V, KN. }
    change total with rsuml. rewrite (rsuml_const _ (1 / INR (pN p))).
    - rewrite map_length, seq_length. pose proof (INR_pos (pN p) N). field. lra.
    - intros k KN. rewrite map_length, seq_length in KN. rewrite (nth_indep _ 0 (vis q 0%nat)) by (rewrite map_length, seq_length; exact KN). rewrite map_nth, seq_nth by exact KN. apply V, KN.
  Qed.
End Image.
