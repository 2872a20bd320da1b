From Coq Require Import Reals Bool String List Lra Lia Psatz.
From Coquelicot Require Import Complex.
From Verif Require Import Base Bounds_Model Bounds_Proofs Geo_Model Geo_Proofs Calc_Proofs Shear_Model.
Import ListNotations.
Open Scope R_scope.

Lemma Cmod_hypot : forall a b, Cmod (a, b) = hypot a b.
Proof. intros. unfold Cmod, hypot. simpl. f_equal. ring. Qed.
Lemma Cmod_sqr : forall a b, Cmod (a, b) ^ 2 = a * a + b * b.
Proof. intros. rewrite Cmod_hypot. simpl. rewrite Rmult_1_r. apply hypot_sqr. Qed.
Lemma Cmod_lt_1 : forall a b, Cmod (a, b) < 1 <-> a * a + b * b < 1.
Proof.
  intros. pose proof (Cmod_sqr a b) as E. pose proof (Cmod_ge_0 (a, b)) as P. simpl in E. rewrite Rmult_1_r in E.
  split; intros; nra.
Qed.

(** The sum in coordinates. *)
Definition w1 (a b c d : R) : R := 1 + a * c + b * d.
Definition w2 (a b c d : R) : R := b * c - a * d.
Definition ww (a b c d : R) : R := w1 a b c d * w1 a b c d + w2 a b c d * w2 a b c d.

Lemma ww_identity : forall a b c d,
  ww a b c d - ((a + c) * (a + c) + (b + d) * (b + d)) = (1 - (a * a + b * b)) * (1 - (c * c + d * d)).
Proof. intros. unfold ww, w1, w2. ring. Qed.

Lemma ww_pos : forall a b c d, a * a + b * b < 1 -> c * c + d * d < 1 -> 0 < ww a b c d.
Proof.
  intros a b c d H1 H2. pose proof (ww_identity a b c d) as E.
  assert (0 < (1 - (a * a + b * b)) * (1 - (c * c + d * d))) by (apply Rmult_lt_0_compat; lra).
  pose proof (Rle_0_sqr (a + c)). pose proof (Rle_0_sqr (b + d)). unfold Rsqr in *. lra.
Qed.

Definition k1 (a b c d : R) : R := ((a + c) * w1 a b c d - (b + d) * w2 a b c d) / ww a b c d.
Definition k2 (a b c d : R) : R := ((a + c) * w2 a b c d + (b + d) * w1 a b c d) / ww a b c d.

Lemma sh_add_coord : forall a b c d, 0 < ww a b c d -> sh_add (a, b) (c, d) = (k1 a b c d, k2 a b c d).
Proof.
  intros a b c d P. unfold sh_add, Cdiv, Cinv, Cplus, Cmult, Cconj, RtoC. cbn [fst snd].
  assert (Q : (1 + (a * c - - b * d)) ^ 2 + (0 + (a * d + - b * c)) ^ 2 = ww a b c d) by (unfold ww, w1, w2; ring).
  rewrite Q. unfold k1, k2. f_equal; unfold w1, w2; field; lra.
Qed.

Lemma k_sqr : forall a b c d, 0 < ww a b c d ->
  1 - (k1 a b c d * k1 a b c d + k2 a b c d * k2 a b c d) = (1 - (a * a + b * b)) * (1 - (c * c + d * d)) / ww a b c d.
Proof.
  intros a b c d P. rewrite <- ww_identity. unfold k1, k2.
  assert (E : ww a b c d = w1 a b c d * w1 a b c d + w2 a b c d * w2 a b c d) by reflexivity.
  set (u := w1 a b c d) in *. set (v := w2 a b c d) in *. set (q := ww a b c d) in *. clearbody u v q.
  apply Rmult_eq_reg_r with (q * q); [|nra].
  replace ((1 - (((a + c) * u - (b + d) * v) / q * (((a + c) * u - (b + d) * v) / q) +
    ((a + c) * v + (b + d) * u) / q * (((a + c) * v + (b + d) * u) / q))) * (q * q))
    with (q * q - ((a + c) * (a + c) + (b + d) * (b + d)) * (u * u + v * v)) by (field; lra).
  rewrite <- E. field. lra.
Qed.

Lemma shear_add_in_disc : forall s o, Cmod s < 1 -> Cmod o < 1 -> Cmod (sh_add s o) < 1.
Proof.
  intros [a b] [c d] H1 H2. apply Cmod_lt_1 in H1, H2. pose proof (ww_pos a b c d H1 H2) as P.
  rewrite sh_add_coord by auto. apply Cmod_lt_1. pose proof (k_sqr a b c d P) as E.
  assert (0 < (1 - (a * a + b * b)) * (1 - (c * c + d * d)) / ww a b c d).
  { unfold Rdiv. apply Rmult_lt_0_compat; [apply Rmult_lt_0_compat; lra|apply Rinv_0_lt_compat; auto]. }
  lra.
Qed.

Lemma shear_neg_inverse : forall s, Cmod s < 1 -> sh_add s (sh_neg s) = RtoC 0 /\ sh_add (sh_neg s) s = RtoC 0.
Proof.
  intros [a b] H. apply Cmod_lt_1 in H. unfold sh_neg, Copp. cbn [fst snd].
  assert (H' : (- a) * (- a) + (- b) * (- b) < 1) by lra.
  rewrite !sh_add_coord by (apply ww_pos; auto). unfold k1, k2, RtoC.
  pose proof (ww_pos a b (- a) (- b) H H'). pose proof (ww_pos (- a) (- b) a b H' H).
  split; f_equal; field; lra.
Qed.
Lemma sub_cancel : forall s o, Cmod s < 1 -> Cmod o < 1 -> sh_add (sh_neg s) (sh_sub s o) = sh_neg o.
Proof.
  intros s o Hs Ho. unfold sh_sub, sh_add, sh_neg.
  assert (N : forall z w, Cmod z < 1 -> Cmod w < 1 -> (1 - Cconj z * w)%C <> RtoC 0).
  { intros z w Hz Hw E. assert (M : Cmod (Cconj z * w)%C = 1).
    { replace (Cconj z * w)%C with (RtoC 1) by (rewrite <- (Cplus_0_l (Cconj z * w)%C), <- E; ring). apply Cmod_1. }
    assert (J : Cmod (Cconj z) = Cmod z) by (unfold Cmod, Cconj; cbn [fst snd]; f_equal; ring).
    rewrite Cmod_mult, J in M. pose proof (Cmod_ge_0 z). pose proof (Cmod_ge_0 w).
    assert (Cmod z * Cmod w <= Cmod z * 1) by (apply Rmult_le_compat_l; lra). lra. }
  pose proof (N s o Hs Ho) as N1. pose proof (N s s Hs Hs) as N2.
  assert (K : Cconj (- s)%C = (- Cconj s)%C) by (destruct s; unfold Cconj, Copp; reflexivity). rewrite K.
  set (t := Cconj s) in *. clearbody t. field. repeat split; auto.
  - intro E. apply N1. rewrite <- E. change (R1, R0) with (RtoC 1). ring.
  - intro E. apply N2. rewrite <- E. change (R1, R0) with (RtoC 1). ring.
Qed.
Lemma shear_zero : forall s, Cmod s < 1 -> sh_add s (RtoC 0) = s /\ sh_add (RtoC 0) s = s.
Proof.
  intros [a b] H. apply Cmod_lt_1 in H. unfold RtoC.
  assert (H0 : 0 * 0 + 0 * 0 < 1) by lra.
  rewrite !sh_add_coord by (apply ww_pos; auto). unfold k1, k2, ww, w1, w2. split; f_equal; field; lra.
Qed.

(** The matrix. *)
Definition sn (a b : R) : R := sqrt (1 - (a * a + b * b)).
Lemma sn_pos : forall a b, a * a + b * b < 1 -> 0 < sn a b.
Proof. intros. apply sqrt_lt_R0. lra. Qed.
Lemma sn_sqr : forall a b, a * a + b * b < 1 -> sn a b * sn a b = 1 - (a * a + b * b).
Proof. intros. apply sqrt_sqrt. lra. Qed.
Lemma getMatrix_coord : forall a b, getMatrix (a, b) = Mat ((1 + a) / sn a b) (b / sn a b) (b / sn a b) ((1 - a) / sn a b).
Proof. intros. unfold getMatrix, sh_g. rewrite Cmod_sqr. reflexivity. Qed.
Lemma getMatrix_det : forall s, Cmod s < 1 -> mdet (getMatrix s) = 1.
Proof.
  intros [a b] H. apply Cmod_lt_1 in H. rewrite getMatrix_coord. unfold mdet. cbn [m00 m01 m10 m11].
  pose proof (sn_pos a b H). pose proof (sn_sqr a b H) as E.
  replace ((1 + a) / sn a b * ((1 - a) / sn a b) - b / sn a b * (b / sn a b)) with ((1 - (a * a + b * b)) / (sn a b * sn a b)) by (field; lra).
  rewrite E. field. lra.
Qed.
Lemma getMatrix_sym : forall s, mT (getMatrix s) = getMatrix s.
Proof. intros [a b]. rewrite getMatrix_coord. reflexivity. Qed.
Lemma getMatrix_0 : getMatrix (RtoC 0) = mI.
Proof.
  unfold RtoC. rewrite getMatrix_coord. unfold sn, mI. replace (1 - (0 * 0 + 0 * 0)) with 1 by ring. rewrite sqrt_1.
  apply mat_eq; field.
Qed.
Lemma getMatrix_neg : forall s, Cmod s < 1 -> mdot (getMatrix (sh_neg s)) (getMatrix s) = mI /\ mdot (getMatrix s) (getMatrix (sh_neg s)) = mI.
Proof.
  intros [a b] H. apply Cmod_lt_1 in H. unfold sh_neg, Copp. cbn [fst snd]. rewrite !getMatrix_coord.
  assert (En : sn (- a) (- b) = sn a b) by (unfold sn; f_equal; ring). rewrite En.
  pose proof (sn_pos a b H) as P. pose proof (sn_sqr a b H) as E.
  assert (K : forall x, x = sn a b * sn a b -> x / (sn a b * sn a b) = 1) by (intros x ->; field; lra).
  unfold mdot, mI. cbn [m00 m01 m10 m11]. split; apply mat_eq.
  all: try (transitivity ((1 - (a * a + b * b)) / (sn a b * sn a b)); [field; lra|apply K; lra]).
  all: field; lra.
Qed.

(** Product of two shears = shear of the sum after a rotation. *)
Definition rot (t : R) : mat := Mat (cos t) (- sin t) (sin t) (cos t).
Lemma shear_product_coord : forall a b c d, a * a + b * b < 1 -> c * c + d * d < 1 ->
  let W := sqrt (ww a b c d) in
  mdot (getMatrix (a, b)) (getMatrix (c, d)) =
  mdot (getMatrix (k1 a b c d, k2 a b c d))
       (Mat (w1 a b c d / W) (- (w2 a b c d / W)) (w2 a b c d / W) (w1 a b c d / W)).
Proof.
  intros a b c d H1 H2 W. pose proof (ww_pos a b c d H1 H2) as P.
  assert (PW : 0 < W) by (apply sqrt_lt_R0; auto).
  assert (WW : W * W = ww a b c d) by (apply sqrt_sqrt; lra).
  pose proof (sn_pos a b H1) as P1. pose proof (sn_pos c d H2) as P2.
  assert (EK : sn (k1 a b c d) (k2 a b c d) = sn a b * sn c d / W).
  { unfold sn at 1. rewrite k_sqr by auto. unfold Rdiv. rewrite sqrt_mult, sqrt_mult.
    - unfold sn, W. f_equal. apply sqrt_inv.
    - lra. - lra. - apply Rmult_le_pos; lra. - left. apply Rinv_0_lt_compat. auto. }
  rewrite !getMatrix_coord, EK. unfold mdot. cbn [m00 m01 m10 m11].
  unfold k1, k2. rewrite <- WW. set (n1 := sn a b) in *. set (n2 := sn c d) in *.
  assert (EW : W * W = w1 a b c d * w1 a b c d + w2 a b c d * w2 a b c d) by (rewrite WW; reflexivity).
  set (u := w1 a b c d) in *. set (v := w2 a b c d) in *.
  assert (Eu : u = 1 + a * c + b * d) by reflexivity. assert (Ev : v = b * c - a * d) by reflexivity.
  clearbody u v W n1 n2. clear EK P WW.
  assert (DIV : forall x, x * (W * W) = x * (u * u + v * v)) by (intros; rewrite EW; auto).
  apply mat_eq.
  - transitivity ((u + (a + c)) / (n1 * n2)); [subst u; field; lra|].
    transitivity ((u * (W * W) + (a + c) * (u * u + v * v)) / (n1 * n2 * (W * W))); [rewrite <- DIV; field; lra|field; lra].
  - transitivity (((b + d) - v) / (n1 * n2)); [subst v; field; lra|].
    transitivity (((b + d) * (u * u + v * v) - v * (W * W)) / (n1 * n2 * (W * W))); [rewrite <- DIV; field; lra|field; lra].
  - transitivity (((b + d) + v) / (n1 * n2)); [subst v; field; lra|].
    transitivity (((b + d) * (u * u + v * v) + v * (W * W)) / (n1 * n2 * (W * W))); [rewrite <- DIV; field; lra|field; lra].
  - transitivity ((u - (a + c)) / (n1 * n2)); [subst u; field; lra|].
    transitivity ((u * (W * W) - (a + c) * (u * u + v * v)) / (n1 * n2 * (W * W))); [rewrite <- DIV; field; lra|field; lra].
Qed.

Lemma shear_product : forall s o, Cmod s < 1 -> Cmod o < 1 ->
  mdot (getMatrix s) (getMatrix o) = mdot (getMatrix (sh_add s o)) (rot (rotationWith s o)).
Proof.
  intros [a b] [c d] H1 H2. pose proof (shear_add_in_disc _ _ H1 H2) as H3.
  pose proof H1 as H1'. pose proof H2 as H2'. apply Cmod_lt_1 in H1', H2'.
  pose proof (ww_pos a b c d H1' H2') as P. pose proof (shear_product_coord a b c d H1' H2') as E. cbv zeta in E.
  assert (Ek : sh_add (a, b) (c, d) = (k1 a b c d, k2 a b c d)) by (apply sh_add_coord; auto).
  rewrite <- Ek in E. rewrite E. f_equal.
  set (W := sqrt (ww a b c d)) in *. assert (PW : 0 < W) by (apply sqrt_lt_R0; auto).
  assert (WW : W * W = ww a b c d) by (apply sqrt_sqrt; lra).
  set (Rm := Mat (w1 a b c d / W) (- (w2 a b c d / W)) (w2 a b c d / W) (w1 a b c d / W)) in *.
  assert (C1 : mapp (getMatrix (a, b)) (m00 (getMatrix (c, d)), m10 (getMatrix (c, d))) =
               mapp (mdot (getMatrix (a, b)) (getMatrix (c, d))) (1, 0)).
  { unfold mapp, mdot. cbn [fst snd m00 m01 m10 m11]. apply vec_eq; ring. }
  assert (ER : rotationWith (a, b) (c, d) = atan2 (w2 a b c d / W) (w1 a b c d / W)).
  { unfold rotationWith. rewrite C1, E, <- mapp_mdot, <- mdot_assoc.
    rewrite (proj1 (getMatrix_neg _ H3)), mdot_I_l. unfold mapp, Rm. cbn [fst snd m00 m01 m10 m11].
    f_equal; ring. }
  rewrite ER. destruct (atan2_polar (w2 a b c d / W) (w1 a b c d / W)) as [Pc Ps].
  assert (HY : hypot (w1 a b c d / W) (w2 a b c d / W) = 1).
  { unfold hypot. replace (w1 a b c d / W * (w1 a b c d / W) + w2 a b c d / W * (w2 a b c d / W)) with 1; [apply sqrt_1|].
    replace (w1 a b c d / W * (w1 a b c d / W) + w2 a b c d / W * (w2 a b c d / W))
      with ((w1 a b c d * w1 a b c d + w2 a b c d * w2 a b c d) / (W * W)) by (field; lra).
    rewrite WW. unfold ww. field. unfold ww in P. lra. }
  rewrite HY, Rmult_1_l in Pc, Ps. unfold rot. rewrite Pc, Ps. reflexivity.
Qed.

(** * Parametrisations *)
Lemma e2g_exact : forall s, 1 / 10000 < s <= 1 -> e2g s * g2e (s * (e2g s * e2g s)) = 1.
Proof.
  intros s [L U]. unfold e2g, g2e. destruct (Rltb_spec (1 / 10000) s) as [l|l]; [|lra].
  set (r := sqrt (1 - s)). assert (P : 0 <= r) by apply sqrt_pos. assert (E : r * r = 1 - s) by (apply sqrt_sqrt; lra).
  assert (Es : s = 1 - r * r) by lra. rewrite Es.
  assert (1 + (1 - r * r) * (1 / (1 + r) * (1 / (1 + r))) = 2 / (1 + r)) by (field; lra).
  rewrite H. field. lra.
Qed.
Lemma e2g_small : forall s, 0 <= s <= 1 / 10000 -> Rabs (e2g s * g2e (s * (e2g s * e2g s)) - 1) <= / 10 ^ 16.
Proof.
  intros s [L U]. unfold e2g, g2e. destruct (Rltb_spec (1 / 10000) s) as [l|l]; [lra|].
  set (p := 1 / 2 + s * (125 / 1000 + s * (625 / 10000 + s * (390625 / 10000000)))).
  assert (Pp : 1 / 2 <= p) by (unfold p; assert (0 <= s * (125 / 1000 + s * (625 / 10000 + s * (390625 / 10000000)))); [repeat (apply Rmult_le_pos; [lra|]; apply Rplus_le_le_0_compat; [lra|]); nra|lra]).
  assert (D : 1 <= 1 + s * (p * p)) by nra.
  replace (p * (2 / (1 + s * (p * p))) - 1) with ((2 * p - 1 - s * (p * p)) / (1 + s * (p * p))) by (field; lra).
  unfold Rdiv. rewrite Rabs_mult. rewrite (Rabs_right (/ (1 + s * (p * p)))); [|apply Rle_ge; left; apply Rinv_0_lt_compat; lra].
  assert (I1 : 0 < / (1 + s * (p * p)) <= 1). { split; [apply Rinv_0_lt_compat; lra|]. rewrite <- Rinv_1. apply Rinv_le_contravar; lra. }
  assert (B : Rabs (2 * p - 1 - s * (p * p)) <= / 10 ^ 16).
  { assert (Q : 2 * p - 1 - s * (p * p) = - (s * s * s * s) * (7 / 128 + s * (7 / 512 + s * (5 / 1024 + s * (25 / 16384))))) by (unfold p; field).
    rewrite Q. rewrite Rabs_mult, Rabs_Ropp.
    assert (S2 : 0 <= s * s <= 1 / 10000 * (1 / 10000)) by (split; nra).
    assert (S4 : 0 <= s * s * (s * s) <= 1 / 10 ^ 16) by (split; nra).
    rewrite (Rabs_right (s * s * s * s)) by nra.
    assert (T : 0 <= 7 / 128 + s * (7 / 512 + s * (5 / 1024 + s * (25 / 16384))) <= 1) by nra.
    rewrite Rabs_right by lra. nra. }
  pose proof (Rabs_pos (2 * p - 1 - s * (p * p))). nra.
Qed.

Lemma Rabs_def2b : forall x a, Rabs x <= a -> - a <= x <= a.
Proof. intros x a H. unfold Rabs in H. destruct (Rcase_abs x); lra. Qed.
Lemma eta_small_poly : forall u r, 0 <= u <= 1 / 100000000 -> r = 1 / 2 + u * (-1 / 24 + u * (1 / 240)) ->
  0 < r <= 1 / 2 /\ Rabs (r * (2 + r * r * u * (2 / 3 + r * r * u * (4 / 10))) - 1) <= u * u * u.
Proof.
  intros u r [L U] ->. split; [split; nra|].
  match goal with |- Rabs ?P <= _ => replace P with (u * u * u * (-1 / 720 + u * (103 / 103680 + u * (-37 / 172800 + u * (53 / 1658880 + u * (-1681 / 497664000 + u * (277 / 995328000 + u * (-17 / 995328000 + u * (1 / 1244160000 + u * (-1 / 39813120000 + u * (1 / 1990656000000))))))))))) by field end.
  match goal with |- Rabs (_ * ?Q) <= _ => set (q := Q); assert (Hq : -1 <= q <= 1) end.
  { assert (I : forall c x, -1/2 <= c <= 1/2 -> -1 <= x <= 1 -> -1 <= c + u * x <= 1) by (intros; split; nra).
    unfold q. repeat (apply I; [lra|]). lra. }
  assert (0 <= u * u * u) by (repeat apply Rmult_le_pos; lra).
  rewrite Rabs_mult, (Rabs_right (u * u * u)) by lra. assert (Rabs q <= 1) by (apply Rabs_le; lra). nra.
Qed.

(** Twice arctanh is nearly [eta] for the value the code computes from [eta]. *)
Lemma tanh_lt_half : forall x, 0 < x -> tanh (1 / 2 * x) < x.
Proof.
  intros x H. rewrite tanh_exp. pose proof (exp_ineq1 x ltac:(lra)).
  assert (E : exp (- x) >= 1 - x). { destruct (Rle_lt_dec 0 (- x)); [lra|]. pose proof (exp_ineq1 (- x) ltac:(lra)). lra. }
  rewrite exp_Ropp in E. assert (P := exp_pos x).
  assert (E2 : (1 - x) * exp x <= 1). { assert (/ exp x * exp x = 1) by (apply Rinv_l; lra). nra. }
  apply Rmult_lt_reg_r with (exp x + 1); [lra|]. unfold Rdiv. rewrite Rmult_assoc, Rinv_l by lra. nra.
Qed.
Lemma pow6_small : forall g b, 0 <= g <= b -> g ^ 7 <= g * b ^ 6.
Proof. intros g b H. replace (g ^ 7) with (g * g ^ 6) by ring. apply Rmult_le_compat_l; [lra|]. apply pow_incr; lra. Qed.

Lemma eta2g_pos : forall eta, 0 <= eta -> 0 < eta2g eta /\ eta2g eta * eta < 1.
Proof.
  intros eta H. unfold eta2g. destruct (Rltb_spec (1 / 10000) eta) as [l|l].
  - destruct (tanh_range eta ltac:(lra)). replace (tanh (1 / 2 * eta) / eta * eta) with (tanh (1 / 2 * eta)) by (field; lra).
    split; auto. unfold Rdiv. apply Rmult_lt_0_compat; auto. apply Rinv_0_lt_compat; lra.
  - destruct (eta_small_poly (eta * eta) _ ltac:(split; nra) eq_refl) as [? _]. split; [tauto|nra].
Qed.

Lemma eta_arctanh : forall eta, 0 <= eta -> Rabs (2 * arctanh (eta2g eta * eta) - eta) <= eta / 10 ^ 20.
Proof.
  intros eta H. unfold eta2g. destruct (Rltb_spec (1 / 10000) eta) as [l|l].
  - replace (tanh (1 / 2 * eta) / eta * eta) with (tanh (1 / 2 * eta)) by (field; lra).
    rewrite arctanh_tanh. replace (2 * (1 / 2 * eta) - eta) with 0 by field. rewrite Rabs_R0. unfold Rdiv. apply Rmult_le_pos; [lra|]. lra.
  - set (u := eta * eta). set (p := 1 / 2 + u * (-1 / 24 + u * (1 / 240))).
    assert (U : 0 <= u <= 1 / 100000000) by (unfold u; split; nra).
    destruct (eta_small_poly u p U eq_refl) as [Pp B]. set (g := p * eta).
    assert (G : 0 <= g <= 1 / 10000) by (unfold g; split; nra).
    destruct (arctanh_taylor g ltac:(lra)) as [T1 T2]. pose proof (pow6_small g _ G) as T3.
    replace (g * (2 + g * g * (2 / 3 + g * g * (4 / 10)))) with (eta * (p * (2 + p * p * u * (2 / 3 + p * p * u * (4 / 10))))) in T1, T2 by (unfold g, u; ring).
    set (Q := p * (2 + p * p * u * (2 / 3 + p * p * u * (4 / 10)))) in *.
    assert (BQ : - (1 / 10 ^ 24) <= Q - 1 <= 1 / 10 ^ 24).
    { assert (u * u * u <= 1 / 10 ^ 24). { assert (u * u <= 1 / 100000000 * (1 / 100000000)) by nra. nra. }
      apply Rabs_def2b. lra. }
    assert (Hg : g <= eta) by (unfold g; nra).
    apply Rabs_le. set (A := 2 * arctanh g) in *. clearbody A Q g p.
    assert (g * (1 / 10000) ^ 6 <= eta * (1 / 10000) ^ 6) by (apply Rmult_le_compat_r; [apply pow_le|]; lra).
    assert (- (eta * (1 / 10 ^ 24)) <= eta * Q - eta <= eta * (1 / 10 ^ 24)) by (split; nra).
    split; lra.
Qed.

Lemma eta_round : forall eta, 0 <= eta -> Rabs (eta2g eta * g2eta (eta2g eta * eta) - 1) <= / 10 ^ 16.
Proof.
  intros eta H. destruct H as [H|H].
  2:{ subst eta. unfold eta2g, g2eta. destruct (Rltb_spec (1 / 10000) 0) as [l|l]; [lra|]. rewrite !Rmult_0_r.
      destruct (Rltb_spec (1 / 10000) 0) as [l'|l']; [lra|]. match goal with |- Rabs ?x <= _ => replace x with 0 by field end. rewrite Rabs_R0. lra. }
  pose proof (eta_arctanh eta ltac:(lra)) as A. destruct (eta2g_pos eta ltac:(lra)) as [P1 P2].
  set (f := eta2g eta) in *. set (g := f * eta) in *. assert (G : 0 < g) by (unfold g; nra).
  assert (K : Rabs (g * g2eta g - eta) <= eta / 10 ^ 17).
  { unfold g2eta. destruct (Rltb_spec (1 / 10000) g) as [l|l].
    - replace (g * (2 * arctanh g / g)) with (2 * arctanh g) by (field; lra).
      assert (eta / 10 ^ 20 <= eta / 10 ^ 17) by lra. lra.
    - assert (G2 : 0 <= g <= 1 / 10000) by lra. destruct (arctanh_taylor g ltac:(lra)) as [T1 T2].
      pose proof (pow6_small g _ G2) as T3. apply Rabs_def2b in A.
      set (Q := g * (2 + g * g * (2 / 3 + g * g * (4 / 10)))) in *. set (B := 2 * arctanh g) in *.
      assert (Hg : g <= 2 * eta).
      { assert (0 <= g * g) by nra. assert (0 <= g * g * (2 / 3 + g * g * (4 / 10))) by (apply Rmult_le_pos; lra). assert (2 * g <= Q) by (unfold Q; nra). lra. }
      apply Rabs_le. assert (g * (1 / 10000) ^ 6 <= 2 * eta * (1 / 10000) ^ 6) by (apply Rmult_le_compat_r; [apply pow_le|]; lra).
      split; lra. }
  replace (f * g2eta g - 1) with ((g * g2eta g - eta) * / eta) by (unfold g; field; lra).
  rewrite Rabs_mult, (Rabs_right (/ eta)) by (apply Rle_ge; left; apply Rinv_0_lt_compat; lra).
  apply Rmult_le_reg_r with eta; [lra|]. rewrite Rmult_assoc, Rinv_l, Rmult_1_r by lra. lra.
Qed.

Lemma exp_near_0 : forall x, Rabs x <= 1 / 2 -> Rabs (exp x - 1) <= 2 * Rabs x.
Proof.
  assert (K : forall x, 1 + x <= exp x). { intros x. destruct (Req_dec x 0) as [-> | Hn]; [rewrite exp_0; lra|]. left. apply exp_ineq1; auto. }
  intros x H. apply Rabs_def2b in H. pose proof (K x) as L. pose proof (K (- x)) as U. rewrite exp_Ropp in U.
  assert (P := exp_pos x). assert (E : exp x * (1 - x) <= 1). { assert (/ exp x * exp x = 1) by (apply Rinv_l; lra). nra. }
  apply Rabs_le. destruct (Rle_lt_dec 0 x) as [S0|S0]; [rewrite (Rabs_right x) by lra|rewrite (Rabs_left x) by lra]; split; nra.
Qed.
Lemma q_round : forall q, 0 < q <= 1 -> let eta := - ln q in let g := eta2g eta * eta in
  0 <= eta /\ Rabs ((1 - g) / (1 + g) - q) <= / 10 ^ 16.
Proof.
  intros q [L U] eta g. assert (E0 : 0 <= eta).
  { unfold eta. destruct U as [U|U]; [|subst; rewrite ln_1; lra]. pose proof (ln_increasing q 1 L U). rewrite ln_1 in H. lra. }
  split; auto. destruct (eta2g_pos eta E0) as [P1 P2]. pose proof (eta_arctanh eta E0) as A. fold g in A, P2.
  assert (G : 0 <= g) by (unfold g; nra).
  assert (Eq : q = exp (- eta)) by (unfold eta; rewrite Ropp_involutive, exp_ln; auto).
  assert (Eg : (1 - g) / (1 + g) = exp (- (2 * arctanh g))).
  { unfold arctanh. replace (2 * (/ 2 * ln ((1 + g) / (1 - g)))) with (ln ((1 + g) / (1 - g))) by field.
    rewrite exp_Ropp, exp_ln. - field. split; lra. - unfold Rdiv. apply Rmult_lt_0_compat; [lra|apply Rinv_0_lt_compat; lra]. }
  rewrite Eg, Eq. set (d := 2 * arctanh g - eta) in *.
  replace (- (2 * arctanh g)) with (- eta + - d) by (unfold d; ring). rewrite exp_plus.
  replace (exp (- eta) * exp (- d) - exp (- eta)) with (exp (- eta) * (exp (- d) - 1)) by ring.
  destruct (Rle_lt_dec eta 1) as [M|M].
  - assert (Hd : Rabs (- d) <= 1 / 10 ^ 20) by (rewrite Rabs_Ropp; lra).
    assert (X := exp_near_0 (- d) ltac:(lra)). rewrite Rabs_mult, <- Eq, (Rabs_right q) by lra.
    pose proof (Rabs_pos (exp (- d) - 1)). assert (q * Rabs (exp (- d) - 1) <= 1 * Rabs (exp (- d) - 1)) by (apply Rmult_le_compat_r; lra). lra.
  - assert (d = 0).
    { unfold d, g, eta2g. destruct (Rltb_spec (1 / 10000) eta) as [l|l]; [|lra].
      replace (tanh (1 / 2 * eta) / eta * eta) with (tanh (1 / 2 * eta)) by (field; lra). rewrite arctanh_tanh. field. }
    rewrite H, Ropp_0, exp_0. replace (exp (- eta) * (1 - 1)) with 0 by ring. rewrite Rabs_R0. lra.
Qed.

(** e2g stays inside the closed disc *)
Lemma e2g_pos : forall s, 0 <= s <= 1 -> 0 < e2g s <= 1.
Proof.
  intros s [L U]. unfold e2g. destruct (Rltb_spec (1 / 10000) s) as [l|l].
  - pose proof (sqrt_pos (1 - s)). split. + unfold Rdiv. rewrite Rmult_1_l. apply Rinv_0_lt_compat. lra.
    + apply Rmult_le_reg_r with (1 + sqrt (1 - s)); [lra|]. unfold Rdiv. rewrite Rmult_assoc, Rinv_l by lra. lra.
  - assert (I : forall c x, 0 <= c <= 1 / 8 -> 0 <= x <= 1 -> 0 <= c + s * x <= 1) by (intros; split; nra).
    assert (0 <= 125 / 1000 + s * (625 / 10000 + s * (390625 / 10000000)) <= 1) by (apply I; [lra|]; apply I; lra).
    split; nra.
Qed.
Lemma e_round : forall s, 0 <= s <= 1 -> Rabs (e2g s * g2e (s * (e2g s * e2g s)) - 1) <= / 10 ^ 16.
Proof.
  intros s [L U]. destruct (Rlt_le_dec (1 / 10000) s) as [M|M].
  - rewrite e2g_exact by lra. rewrite Rminus_diag_eq by reflexivity. rewrite Rabs_R0. lra.
  - apply e2g_small. lra.
Qed.
