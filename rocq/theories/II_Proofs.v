(** Real-space interpolation: windows and pixels. *)
From Coq Require Import ZArith Reals Lra Lia ZifyBool Bool List.
From Coquelicot Require Import Coquelicot.
From Verif Require Import Base Array_Model Bounds_Model Bounds_Proofs FFT_Model FFT_Proofs Geo_Model WCS_Model MSum
  Interp_Model Interp_Spec Interp_Kernels Interp_Lanczos II_Model II_Spec.
Open Scope R_scope.

Section W.
  Variable V : Type.
  Variable add : V -> V -> V.
  Variable zero : V.
  Hypothesis add_comm : forall a b, add a b = add b a.
  Hypothesis add_assoc : forall a b c, add a (add b c) = add (add a b) c.
  Hypothesis add_zero : forall a, add zero a = a.
  Lemma zsum_widen : forall h lo n L N, (L <= lo)%Z -> (0 <= n)%Z -> (lo + n <= L + N)%Z ->
    (forall z, (z < lo \/ lo + n <= z)%Z -> h z = zero) ->
    zsum add zero N (fun a => h (L + a)%Z) = zsum add zero n (fun a => h (lo + a)%Z).
  Proof.
    intros h lo n L N HL Hn HN H0. replace N with ((lo - L) + (n + (L + N - (lo + n))))%Z by lia.
    rewrite (zsum_app V add zero add_comm add_assoc add_zero) by lia.
    rewrite (zsum_app V add zero add_comm add_assoc add_zero) by lia.
    rewrite (zsum_zero V add zero add_zero (lo - L)) by (intros; apply H0; lia).
    rewrite (zsum_zero V add zero add_zero (L + N - (lo + n))) by (intros; apply H0; lia).
    rewrite add_zero, (add_comm _ zero), add_zero. apply zsum_ext. intros. f_equal. lia.
  Qed.
  Lemma zsum_window : forall h lo n L N, (0 <= n)%Z -> (0 <= N)%Z ->
    (forall z, (z < lo \/ lo + n <= z)%Z -> h z = zero) -> (forall z, (z < L \/ L + N <= z)%Z -> h z = zero) ->
    zsum add zero N (fun a => h (L + a)%Z) = zsum add zero n (fun a => h (lo + a)%Z).
  Proof.
    intros h lo n L N Hn HN H1 H2. set (A := Z.min lo L). set (B := (Z.max (lo + n) (L + N) - A)%Z).
    transitivity (zsum add zero B (fun a => h (A + a)%Z)).
    - symmetry. apply zsum_widen; unfold A, B; try lia. assumption.
    - apply zsum_widen; unfold A, B; try lia. assumption.
  Qed.
End W.
Lemma Rplus_as : forall a b c : R, a + (b + c) = a + b + c. Proof. intros; ring. Qed.
Definition rwindow := zsum_window R Rplus 0 Rplus_comm Rplus_as Rplus_0_l.

Lemma floor_shift : forall x (m : Z), (floorR (x - IZR m) + m)%Z = floorR x.
Proof. intros x m. symmetry. apply floorR_unique. pose proof (floorR_bounds (x - IZR m)). rewrite plus_IZR. lra. Qed.
Lemma pixel_in : forall im x y, has_pixel im x y -> pixel im x y = elt (ra im) (y - ry im) (x - rx im).
Proof. intros im x y [H1 H2]. unfold pixel. destruct ((_ && _ && _ && _)%Z) eqn:E; [reflexivity|lia]. Qed.
Lemma pixel_out : forall im x y, ~ has_pixel im x y -> pixel im x y = 0.
Proof. intros im x y H. unfold pixel. destruct ((_ && _ && _ && _)%Z) eqn:E; [|reflexivity]. exfalso. apply H. unfold has_pixel. lia. Qed.
Lemma has_dec : forall im x y, {has_pixel im x y} + {~ has_pixel im x y}.
Proof.
  intros im x y. destruct ((rx im <=? x) && (x <? rx im + ncol (ra im)) && (ry im <=? y) && (y <? ry im + nrow (ra im)))%Z eqn:E;
    [left|right]; unfold has_pixel; lia.
Qed.
Lemma gidx_in : forall n i, (0 <= i < n)%Z -> gidx n i = i.
Proof. intros n i H. unfold gidx, nidx. destruct (Z.ltb_spec i 0); lia. Qed.
(** The value as a sum over the window about the position *)
Definition windowed (K : R -> R) (ir : Z) (im : rimg) (x y : R) : R :=
  rsum (2 * ir + 1) (fun b => rsum (2 * ir + 1) (fun a =>
    let i := (floorR x - ir + a)%Z in let j := (floorR y - ir + b)%Z in
    pixel im i j * K (x - IZR i) * K (y - IZR j))).
Lemma draw_window : forall K ix im x y,
  draw_xval K ix x y (rx im) (ry im) (ra im) = windowed K (ix / 2) im x y.
Proof.
  intros K ix im x y. unfold draw_xval, windowed. cbv zeta. unfold weight_x. cbv zeta.
  rewrite !floor_shift. apply zsum_ext. intros b Hb. apply zsum_ext. intros a Ha.
  pose proof (floor_shift x (rx im)) as Fx. pose proof (floor_shift y (ry im)) as Fy.
  set (xi := floorR (x - IZR (rx im))) in *. set (yi := floorR (y - IZR (ry im))) in *.
  replace (floorR x + (a - ix / 2))%Z with (floorR x - ix / 2 + a)%Z by lia.
  replace (floorR y + (b - ix / 2))%Z with (floorR y - ix / 2 + b)%Z by lia.
  destruct (has_dec im (floorR x - ix / 2 + a) (floorR y - ix / 2 + b)) as [h|h].
  - rewrite pixel_in by assumption. destruct h as [h1 h2].
    destruct ((0 <=? xi + (a - ix / 2)) && (xi + (a - ix / 2) <? ncol (ra im)))%Z eqn:E1; [|lia].
    destruct ((0 <=? yi + (b - ix / 2)) && (yi + (b - ix / 2) <? nrow (ra im)))%Z eqn:E2; [|lia].
    replace (gather (ra im) (yi + (b - ix / 2)) (xi + (a - ix / 2))) with (elt (ra im) (floorR y - ix / 2 + b - ry im) (floorR x - ix / 2 + a - rx im)); [ring|].
    unfold gather. rewrite !gidx_in by lia. f_equal; lia.
  - rewrite pixel_out by assumption. unfold has_pixel in h.
    destruct ((0 <=? xi + (a - ix / 2)) && (xi + (a - ix / 2) <? ncol (ra im)))%Z eqn:E1; [|ring].
    destruct ((0 <=? yi + (b - ix / 2)) && (yi + (b - ix / 2) <? nrow (ra im)))%Z eqn:E2; [|ring]. lia.
Qed.
Lemma interp_pixels : forall K im x y, nonempty im ->
  interpolate K im x y = rsum (nrow (ra im)) (fun b => rsum (ncol (ra im)) (fun a =>
    let i := (rx im + a)%Z in let j := (ry im + b)%Z in pixel im i j * K (x - IZR i) * K (y - IZR j))).
Proof.
  intros K im x y N. unfold interpolate, over_pixels. apply zsum_ext. intros b Hb. apply zsum_ext. intros a Ha. cbv zeta.
  rewrite pixel_in by (unfold has_pixel; lia). do 3 f_equal; lia.
Qed.
(** Kernels that vanish beyond the window: the sum over the window is the one over all pixels. *)
Definition covered (K : R -> R) (ir : Z) : Prop := (0 <= ir)%Z /\ forall t, IZR ir < Rabs t -> K t = 0.
Lemma beyond_window : forall K ir x i, covered K ir -> (i < floorR x - ir \/ floorR x - ir + (2 * ir + 1) <= i)%Z -> K (x - IZR i) = 0.
Proof.
  intros K ir x i [P S] H. apply S. apply IZR_le in P. pose proof (floorR_bounds x) as F. destruct H as [H|H].
  - assert (IZR i <= IZR (floorR x - ir - 1)) by (apply IZR_le; lia). rewrite !minus_IZR in H0. rewrite Rabs_right; lra.
  - assert (IZR (floorR x + ir + 1) <= IZR i) by (apply IZR_le; lia). rewrite !plus_IZR in H0. rewrite Rabs_left; lra.
Qed.
Lemma windowed_all : forall K ir im x y, nonempty im -> covered K ir -> windowed K ir im x y = interpolate K im x y.
Proof.
  intros K ir im x y N S. rewrite interp_pixels by assumption. unfold windowed, rsum. cbv zeta. destruct S as [P S].
  transitivity (zsum Rplus 0 (2 * ir + 1) (fun b => zsum Rplus 0 (ncol (ra im)) (fun a =>
    (fun j => pixel im (rx im + a) j * K (x - IZR (rx im + a)) * K (y - IZR j)) (floorR y - ir + b)%Z))).
  - apply zsum_ext. intros b Hb. cbv beta.
    apply (rwindow (fun i => pixel im i (floorR y - ir + b) * K (x - IZR i) * K (y - IZR (floorR y - ir + b)))); unfold nonempty in N; try lia.
    + intros i Hi. rewrite pixel_out; [ring|]. unfold has_pixel. lia.
    + intros i Hi. rewrite (beyond_window K ir x i) by (try split; assumption). ring.
  - rewrite (zsum_swap R Rplus 0 Rplus_comm Rplus_as Rplus_0_l), (zsum_swap R Rplus 0 Rplus_comm Rplus_as Rplus_0_l (nrow _)).
    apply zsum_ext. intros a Ha.
    apply (rwindow (fun j => pixel im (rx im + a) j * K (x - IZR (rx im + a)) * K (y - IZR j))); unfold nonempty in N; try lia.
    + intros j Hj. rewrite pixel_out; [ring|]. unfold has_pixel. lia.
    + intros j Hj. rewrite (beyond_window K ir y j) by (try split; assumption). ring.
Qed.
Lemma covered_kernels : forall kva LK i, match i with Linear | Cubic | Quintic => True | Lanczos n _ => (1 <= n)%Z | _ => False end ->
  covered (xval kva LK i) (ixrange kva i / 2).
Proof.
  intros kva LK i H. split.
  - destruct i; try contradiction; cbn [ixrange]; try (cbv; discriminate). apply Z.div_pos; lia.
  - destruct i; try contradiction; cbn [ixrange xval].
    + change (2 / 2)%Z with 1%Z. intros t Ht. exact (supp linear_xval lin_even 1 ltac:(lra) lin_out t Ht).
    + change (4 / 2)%Z with 2%Z. intros t Ht. exact (supp cubic_xval cub_even 2 ltac:(lra) cub_out t Ht).
    + change (6 / 2)%Z with 3%Z. intros t Ht. exact (supp quintic_xval qui_even 3 ltac:(lra) qui_out t Ht).
    + replace (2 * n / 2)%Z with n by (rewrite Z.mul_comm, Z.div_mul; lia). apply lanczos_supp.
Qed.
(** At pixel centres only one term is left. *)
Lemma cardinal_at : forall K (m i : Z), cardinal K -> K (IZR m - IZR i) = if (i =? m)%Z then 1 else 0.
Proof.
  intros K m i [K0 K1]. destruct (Z.eqb_spec i m) as [->|n].
  - replace (IZR m - IZR m) with 0 by ring. exact K0.
  - rewrite <- minus_IZR. apply K1. lia.
Qed.
Lemma floorR_IZR : forall m : Z, floorR (IZR m) = m. Proof. intro m. apply floorR_unique. lra. Qed.
Lemma windowed_center : forall K ir im (m n : Z), (0 <= ir)%Z -> cardinal K -> windowed K ir im (IZR m) (IZR n) = pixel im m n.
Proof.
  intros K ir im m n H C. unfold windowed, rsum. cbv zeta. rewrite !floorR_IZR.
  transitivity (zsum Rplus 0 (2 * ir + 1) (fun b => if (b =? ir)%Z then pixel im m n else 0)).
  - apply zsum_ext. intros b Hb.
    transitivity (zsum Rplus 0 (2 * ir + 1) (fun a => if (a =? ir)%Z then (if (b =? ir)%Z then pixel im m n else 0) else 0)).
    + apply zsum_ext. intros a Ha. rewrite !(cardinal_at K) by assumption.
      replace ((m - ir + a =? m)%Z) with ((a =? ir)%Z) by lia. replace ((n - ir + b =? n)%Z) with ((b =? ir)%Z) by lia.
      destruct (Z.eqb_spec a ir) as [->|na]; destruct (Z.eqb_spec b ir) as [->|nb]; try ring.
      replace (m - ir + ir)%Z with m by lia. replace (n - ir + ir)%Z with n by lia. ring.
    + apply (zsum_single R Rplus 0 Rplus_comm Rplus_as Rplus_0_l _ _ (fun _ => if (b =? ir)%Z then pixel im m n else 0)). lia.
  - apply (zsum_single R Rplus 0 Rplus_comm Rplus_as Rplus_0_l _ _ (fun _ => pixel im m n)). lia.
Qed.
Definition is_cardinal (i : interpolant) : Prop := match i with Delta => False | Lanczos n _ => (1 <= n)%Z | _ => True end.
Lemma cardinal_kernels : forall kva LK i, is_cardinal i -> cardinal (xval kva LK i).
Proof.
  intros kva LK i H. destruct i; try contradiction; cbn [xval].
  - exact cardinal_nearest. - exact cardinal_sinc. - exact cardinal_linear. - exact cardinal_cubic. - exact cardinal_quintic.
  - apply lanczos_cardinal. exact H.
Qed.
Lemma irange_pos : forall kva i, 0 < kva -> is_cardinal i -> (0 <= ixrange kva i / 2)%Z.
Proof.
  intros kva i K H. apply Z.div_pos; [|lia]. destruct i; try contradiction; cbn [ixrange xrange]; try lia.
  - pose proof (ceilR_bounds (1 / (PI * kva))). assert (0 < 1 / (PI * kva)) by (apply Rdiv_lt_0_compat; [lra|]; apply Rmult_lt_0_compat; [exact PI_RGT_0|assumption]).
    assert (0 < ceilR (1 / (PI * kva)))%Z by (apply lt_IZR; lra). lia.
  - cbn in H. lia.
Qed.
(** Linearity *)
Lemma rsum_lin : forall n f g a b, rsum n (fun i => a * f i + b * g i) = a * rsum n f + b * rsum n g.
Proof.
  intros n f g a b. unfold rsum, zsum. induction (Z.to_nat n) as [|m IH]; cbn [nsum]; [ring|]. rewrite IH. ring.
Qed.
Definition same_shape (u v : rimg) : Prop := rx u = rx v /\ ry u = ry v /\ nrow (ra u) = nrow (ra v) /\ ncol (ra u) = ncol (ra v).
Lemma windowed_lin : forall K ir u v w a b x y,
  (forall i j, pixel w i j = a * pixel u i j + b * pixel v i j) ->
  windowed K ir w x y = a * windowed K ir u x y + b * windowed K ir v x y.
Proof.
  intros K ir u v w a b x y H. unfold windowed. cbv zeta. rewrite <- rsum_lin. apply zsum_ext. intros j Hj. rewrite <- rsum_lin.
  apply zsum_ext. intros i Hi. rewrite H. ring.
Qed.
Lemma windowed_ext : forall K ir u v x y,
  (forall i j, Rabs (x - IZR i) < IZR ir + 1 -> Rabs (y - IZR j) < IZR ir + 1 -> pixel u i j * K (x - IZR i) * K (y - IZR j) = pixel v i j * K (x - IZR i) * K (y - IZR j)) ->
  windowed K ir u x y = windowed K ir v x y.
Proof.
  intros K ir u v x y H. unfold windowed. apply zsum_ext. intros b Hb. apply zsum_ext. intros a Ha. cbv zeta.
  pose proof (floorR_bounds x). pose proof (floorR_bounds y).
  assert (0 <= IZR a <= 2 * IZR ir) by (split; [apply IZR_le; lia|]; rewrite <- mult_IZR; apply IZR_le; lia).
  assert (0 <= IZR b <= 2 * IZR ir) by (split; [apply IZR_le; lia|]; rewrite <- mult_IZR; apply IZR_le; lia).
  apply H; rewrite plus_IZR, minus_IZR; apply Rabs_def1; lra.
Qed.
