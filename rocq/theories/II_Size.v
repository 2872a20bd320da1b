(** Sums over pixels, sizes, fluxes and centroids. *)
From Coq Require Import ZArith Reals Lra Lia ZifyBool Bool List.
From Coquelicot Require Import Coquelicot.
From Verif Require Import Base Array_Model Bounds_Model Bounds_Proofs FFT_Model FFT_Spec FFT_Proofs Geo_Model Geo_Proofs WCS_Model
  WCS_Spec WCS_Proofs WCS_Prof MSum Interp_Model Interp_Spec Interp_Kernels II_Model II_Spec II_Proofs II_Pad.
Open Scope R_scope.

(** * Sums over pixels only depend on the pixels *)
Lemma over_pixel : forall V add zero im (f : Z -> Z -> R -> V),
  over_pixels add zero im f = zsum add zero (nrow (ra im)) (fun r => zsum add zero (ncol (ra im)) (fun c =>
    f (rx im + c)%Z (ry im + r)%Z (pixel im (rx im + c) (ry im + r)))).
Proof.
  intros V add zero im f. unfold over_pixels. apply zsum_ext. intros r Hr. apply zsum_ext. intros c Hc.
  rewrite pixel_in by (unfold has_pixel; lia). f_equal. f_equal; lia.
Qed.
Lemma over_same : forall V add zero u v (f : Z -> Z -> R -> V), same_image u v -> over_pixels add zero u f = over_pixels add zero v f.
Proof.
  intros V add zero u v f [(A & B & D & E) P]. rewrite !over_pixel, A, B, D, E. apply zsum_ext. intros r Hr. apply zsum_ext. intros c Hc.
  now rewrite P.
Qed.
Section G.
  Variable V : Type.
  Variable add : V -> V -> V.
  Variable zero : V.
  Hypothesis add_comm : forall a b, add a b = add b a.
  Hypothesis add_assoc : forall a b c, add a (add b c) = add (add a b) c.
  Hypothesis add_zero : forall a, add zero a = a.
  (** Images of different bounds with the same non-zero pixels have the same sums. *)
  Lemma over_any : forall u v (f : Z -> Z -> R -> V), nonempty u -> nonempty v -> (forall x y, pixel u x y = pixel v x y) ->
    (forall x y, f x y 0 = zero) -> over_pixels add zero u f = over_pixels add zero v f.
  Proof.
    intros u v f Nu Nv P F0. rewrite !over_pixel.
    transitivity (zsum add zero (nrow (ra u)) (fun r => zsum add zero (ncol (ra v)) (fun c =>
      (fun y => f (rx v + c)%Z y (pixel v (rx v + c) y)) (ry u + r)%Z))).
    - apply zsum_ext. intros r Hr. cbv beta.
      rewrite (zsum_ext V add zero _ _ (fun c => (fun x => f x (ry u + r)%Z (pixel v x (ry u + r))) (rx u + c)%Z)) by (intros; cbv beta; now rewrite P).
      apply (zsum_window V add zero add_comm add_assoc add_zero (fun x => f x (ry u + r)%Z (pixel v x (ry u + r)))); unfold nonempty in *; try lia.
      + intros x Hx. rewrite pixel_out; [apply F0|unfold has_pixel; lia].
      + intros x Hx. rewrite <- P, pixel_out; [apply F0|unfold has_pixel; lia].
    - rewrite (zsum_swap V add zero add_comm add_assoc add_zero), (zsum_swap V add zero add_comm add_assoc add_zero (nrow (ra v))).
      apply zsum_ext. intros c Hc.
      apply (zsum_window V add zero add_comm add_assoc add_zero (fun y => f (rx v + c)%Z y (pixel v (rx v + c) y))); unfold nonempty in *; try lia.
      + intros y Hy. rewrite pixel_out; [apply F0|unfold has_pixel; lia].
      + intros y Hy. rewrite <- P, pixel_out; [apply F0|unfold has_pixel; lia].
  Qed.
End G.
Lemma asum_total : forall im, asum (ra im) = total_flux im. Proof. reflexivity. Qed.
Lemma total_any : forall u v, nonempty u -> nonempty v -> (forall x y, pixel u x y = pixel v x y) -> total_flux u = total_flux v.
Proof. intros. apply (over_any R Rplus 0 Rplus_comm Rplus_as Rplus_0_l); auto. Qed.
Lemma image_nonempty : forall p, nonempty (i_img p) -> nonempty (ii_image p).
Proof. intros p N. unfold nonempty, ii_image in *. destruct (i_recenter p); [|exact N]. destruct (centered_shape (i_img p)) as (A & B & _ & _). now rewrite A, B. Qed.
Lemma image_total : forall p, image_flux p = total_flux (i_img p).
Proof. intro p. unfold image_flux, ii_image. destruct (i_recenter p); reflexivity. Qed.

(** * Sizes *)
Lemma frac_is : forall im cx cy d, flux_frac im cx cy d = flux_within im cx cy d.
Proof.
  intros. unfold flux_frac, flux_within, over_pixels, asum. cbn [nrow ncol elt]. apply zsum_ext. intros r Hr. apply zsum_ext. intros c Hc.
  replace (c + rx im - cx)%Z with (rx im + c - cx)%Z by lia. replace (r + ry im - cy)%Z with (ry im + r - cy)%Z by lia. reflexivity.
Qed.
Lemma first_some : forall m n k i, first_index m k n = Some i -> (k <= i < k + Z.of_nat n)%Z /\ m i = true /\ forall j, (k <= j < i)%Z -> m j = false.
Proof.
  intros m n. induction n as [|n IH]; intros k i H; [discriminate|]. cbn [first_index] in H. destruct (m k) eqn:E.
  - injection H as <-. split; [lia|]. split; [exact E|]. intros; lia.
  - apply IH in H. destruct H as (A & B & D). split; [lia|]. split; [exact B|]. intros j Hj.
    destruct (Z.eq_dec j k) as [->|ne]; [exact E|]. apply D. lia.
Qed.
Lemma first_none : forall m n k, first_index m k n = None -> forall j, (k <= j < k + Z.of_nat n)%Z -> m j = false.
Proof.
  intros m n. induction n as [|n IH]; intros k H j Hj; [lia|]. cbn [first_index] in H. destruct (m k) eqn:E; [discriminate|].
  destruct (Z.eq_dec j k) as [->|ne]; [exact E|]. apply (IH (k + 1)%Z H). lia.
Qed.
Definition mid_x (im : rimg) : Z := (rx im + ncol (ra im) / 2)%Z.
Definition mid_y (im : rimg) : Z := (ry im + nrow (ra im) / 2)%Z.
Definition reaches (im : rimg) (thresh : R) (d : Z) : Prop := sgn thresh * thresh <= sgn thresh * flux_within im (mid_x im) (mid_y im) d.
Lemma size_found : forall im thresh d0, (0 <= d0 < Z.min (nrow (ra im)) (ncol (ra im)))%Z -> reaches im thresh d0 ->
  exists d, size_containing im thresh = IZR d + 1 / 2 /\ (0 <= d <= d0)%Z /\ reaches im thresh d /\ forall e, (0 <= e < d)%Z -> ~ reaches im thresh e.
Proof.
  intros im thresh d0 H0 Hr. unfold size_containing, argmin_where. cbv zeta. fold (mid_x im). fold (mid_y im).
  set (m := fun d => negb (Rltb (sgn thresh * flux_frac im (mid_x im) (mid_y im) d) (sgn thresh * thresh))).
  assert (M : forall d, m d = true <-> reaches im thresh d).
  { intro d. unfold m, reaches. rewrite frac_is. destruct (Rltb_spec (sgn thresh * flux_within im (mid_x im) (mid_y im) d) (sgn thresh * thresh)); cbn; split; intro; try lra; try reflexivity; discriminate. }
  destruct (first_index m 0 _) as [k|] eqn:E.
  - apply first_some in E. destruct E as (A & B & D). exists k. split; [reflexivity|].
    assert (k <= d0)%Z. { destruct (Z_le_gt_dec k d0) as [l|l]; [exact l|]. specialize (D d0 ltac:(lia)). rewrite (proj2 (M d0) Hr) in D. discriminate. }
    split; [lia|]. split; [now apply M|]. intros e He C. apply M in C. rewrite (D e) in C by lia. discriminate.
  - pose proof (first_none _ _ _ E d0 ltac:(lia)) as F. rewrite (proj2 (M d0) Hr) in F. discriminate.
Qed.
Lemma size_missed : forall im thresh, (forall d, (0 <= d < Z.min (nrow (ra im)) (ncol (ra im)))%Z -> ~ reaches im thresh d) ->
  size_containing im thresh = 1 / 2.
Proof.
  intros im thresh H. unfold size_containing, argmin_where. cbv zeta. fold (mid_x im). fold (mid_y im).
  set (m := fun d => negb (Rltb (sgn thresh * flux_frac im (mid_x im) (mid_y im) d) (sgn thresh * thresh))).
  destruct (first_index m 0 _) as [k|] eqn:E; [|lra].
  apply first_some in E. destruct E as (A & B & D). exfalso. apply (H k ltac:(lia)). unfold m in B. rewrite frac_is in B. unfold reaches.
  destruct (Rltb_spec (sgn thresh * flux_within im (mid_x im) (mid_y im) k) (sgn thresh * thresh)); [discriminate|lra].
Qed.
(** The largest square examined covers images that are not elongated. *)
Lemma covers : forall im, nonempty im -> (Z.max (nrow (ra im)) (ncol (ra im)) / 2 <= Z.min (nrow (ra im)) (ncol (ra im)) - 1)%Z ->
  flux_within im (mid_x im) (mid_y im) (Z.min (nrow (ra im)) (ncol (ra im)) - 1) = total_flux im.
Proof.
  intros im N H. unfold flux_within, total_flux, over_pixels. apply zsum_ext. intros r Hr. apply zsum_ext. intros c Hc.
  unfold nonempty, mid_x, mid_y in *. ifs E; [reflexivity|]. exfalso. revert E.
  set (h := nrow (ra im)) in *. set (w := ncol (ra im)) in *. clearbody h w. Ltac Zify.zify_post_hook ::= Z.div_mod_to_equations. lia.
Qed.
Lemma sgn_abs : forall x, sgn x * x = Rabs x.
Proof.
  intro x. unfold sgn. destruct (Rltb_spec 0 x) as [l|l]; [rewrite Rabs_right; lra|]. destruct (Rltb_spec x 0) as [k|k]; [rewrite Rabs_left; lra|].
  replace x with 0 by lra. rewrite Rabs_R0. ring.
Qed.
Lemma sgn_scale : forall a x, 0 < a -> sgn (a * x) = sgn x.
Proof.
  intros a x A. unfold sgn. destruct (Rltb_spec 0 x) as [l|l].
  - destruct (Rltb_spec 0 (a * x)) as [k|k]; [reflexivity|]. exfalso. apply k. now apply Rmult_lt_0_compat.
  - destruct (Rltb_spec 0 (a * x)) as [k|k]; [exfalso; nra|]. destruct (Rltb_spec x 0) as [m|m].
    + destruct (Rltb_spec (a * x) 0) as [q|q]; [reflexivity|]. exfalso. nra.
    + destruct (Rltb_spec (a * x) 0) as [q|q]; [exfalso; nra|reflexivity].
Qed.
Lemma size_enough : forall im fold, nonempty im -> (Z.max (nrow (ra im)) (ncol (ra im)) / 2 <= Z.min (nrow (ra im)) (ncol (ra im)) - 1)%Z ->
  0 <= fold < 1 -> reaches im ((1 - fold) * total_flux im) (Z.min (nrow (ra im)) (ncol (ra im)) - 1).
Proof.
  intros im fd N H F. unfold reaches. rewrite covers by assumption. rewrite sgn_abs. rewrite sgn_scale by lra. rewrite sgn_abs.
  rewrite Rabs_mult, (Rabs_right (1 - fd)) by lra. pose proof (Rabs_pos (total_flux im)). nra.
Qed.

(** * Fluxes *)
Lemma area_det : forall l, regular_l l -> mdet (l_jac l) <> 0 /\ Rabs (mdet (l_jac l)) = l_area l.
Proof. intros l H. rewrite linear_jac by assumption. now apply linear_det. Qed.
