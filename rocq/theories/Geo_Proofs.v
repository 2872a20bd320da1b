From Coq Require Import Reals Bool Lra Lia Psatz.
From Verif Require Import Base Bounds_Model Bounds_Proofs Geo_Model.
Open Scope R_scope.

Definition norm (v : vec) : R := hypot (fst v) (snd v).
Definition dotp (a b : vec) : R := fst a * fst b + snd a * snd b.

Lemma vec_eq : forall a b c d : R, a = c -> b = d -> (a, b) = (c, d).
Proof. congruence. Qed.
Lemma mat_eq : forall a b c d a' b' c' d', a = a' -> b = b' -> c = c' -> d = d' -> Mat a b c d = Mat a' b' c' d'.
Proof. congruence. Qed.

Ltac vring := unfold vadd, vsub, vneg, vmul, vdiv, mapp, mdot, mT, mscale, mI, mdet, dotp; cbn [fst snd m00 m01 m10 m11];
  first [apply vec_eq; ring | apply mat_eq; ring | ring].

Lemma mapp_mdot : forall a b v, mapp (mdot a b) v = mapp a (mapp b v).
Proof. intros. vring. Qed.
Lemma mdot_assoc : forall a b c, mdot (mdot a b) c = mdot a (mdot b c).
Proof. intros. vring. Qed.
Lemma mdet_mdot : forall a b, mdet (mdot a b) = mdet a * mdet b.
Proof. intros. vring. Qed.
Lemma mT_mdot : forall a b, mT (mdot a b) = mdot (mT b) (mT a).
Proof. intros. vring. Qed.
Lemma mapp_I : forall v, mapp mI v = v.
Proof. intros [x y]. vring. Qed.
Lemma mdot_I_l : forall a, mdot mI a = a.
Proof. intros [a b c d]. vring. Qed.
Lemma mdot_I_r : forall a, mdot a mI = a.
Proof. intros [a b c d]. vring. Qed.
Lemma mdet_I : mdet mI = 1.
Proof. vring. Qed.
Lemma mapp_vadd : forall a u v, mapp a (vadd u v) = vadd (mapp a u) (mapp a v).
Proof. intros. vring. Qed.
Lemma mapp_vsub : forall a u v, mapp a (vsub u v) = vsub (mapp a u) (mapp a v).
Proof. intros. vring. Qed.
Lemma vsub_vadd : forall a b c, vsub (vsub a b) c = vsub a (vadd b c).
Proof. intros. vring. Qed.
Lemma vadd_vsub : forall a b, vsub (vadd a b) b = a.
Proof. intros [x y] b. vring. Qed.
Lemma vsub_0 : forall a, vsub a (0, 0) = a.
Proof. intros [x y]. vring. Qed.
Lemma dotp_mT : forall a u v, dotp (mapp (mT a) u) v = dotp u (mapp a v).
Proof. intros. vring. Qed.

Lemma minv_l : forall a v, mdet a <> 0 -> mapp (minv a) (mapp a v) = v.
Proof.
  intros a [x y] H. unfold mapp, minv; cbn [fst snd m00 m01 m10 m11]. unfold mdet in *.
  apply vec_eq; field; auto.
Qed.
Lemma minv_r : forall a v, mdet a <> 0 -> mapp a (mapp (minv a) v) = v.
Proof.
  intros a [x y] H. unfold mapp, minv; cbn [fst snd m00 m01 m10 m11]. unfold mdet in *.
  apply vec_eq; field; auto.
Qed.
Lemma minv_mdot_l : forall a, mdet a <> 0 -> mdot (minv a) a = mI.
Proof. intros a H. unfold mdot, minv, mI; cbn [m00 m01 m10 m11]. unfold mdet in *. apply mat_eq; field; auto. Qed.
Lemma minv_mdot_r : forall a, mdet a <> 0 -> mdot a (minv a) = mI.
Proof. intros a H. unfold mdot, minv, mI; cbn [m00 m01 m10 m11]. unfold mdet in *. apply mat_eq; field; auto. Qed.
Lemma mdet_minv : forall a, mdet a <> 0 -> mdet (minv a) = / mdet a.
Proof. intros a H. unfold minv. unfold mdet at 1. cbn [m00 m01 m10 m11]. unfold mdet in *. field. auto. Qed.
Lemma minv_mdot : forall a b, mdet a <> 0 -> mdet b <> 0 -> minv (mdot a b) = mdot (minv b) (minv a).
Proof.
  intros a b Ha Hb.
  transitivity (mdot (minv (mdot a b)) (mdot (mdot a b) (mdot (minv b) (minv a)))).
  - rewrite (mdot_assoc a b). rewrite <- (mdot_assoc b (minv b)). rewrite (minv_mdot_r b Hb), mdot_I_l, (minv_mdot_r a Ha), mdot_I_r. auto.
  - rewrite <- mdot_assoc. rewrite minv_mdot_l, mdot_I_l; auto. rewrite mdet_mdot. apply Rmult_integral_contrapositive_currified; auto.
Qed.
Lemma mapp_minv_mdot : forall a b v, mdet a <> 0 -> mdet b <> 0 -> mapp (minv (mdot a b)) v = mapp (minv b) (mapp (minv a) v).
Proof. intros. rewrite minv_mdot by auto. apply mapp_mdot. Qed.
Lemma mapp_inj : forall a u v, mdet a <> 0 -> mapp a u = mapp a v -> u = v.
Proof. intros a u v H E. rewrite <- (minv_l a u H), <- (minv_l a v H). congruence. Qed.

(** hypot and norms *)
Lemma hypot_sqr : forall x y, hypot x y * hypot x y = x * x + y * y.
Proof. intros. unfold hypot. apply sqrt_sqrt. nra. Qed.
Lemma hypot_pos : forall x y, 0 <= hypot x y.
Proof. intros. apply sqrt_pos. Qed.
Lemma sqr_le : forall a b, 0 <= b -> a * a <= b * b -> a <= b.
Proof. intros a b H E. destruct (Rle_lt_dec a b); auto. nra. Qed.
Lemma norm_sqr : forall v, norm v * norm v = dotp v v.
Proof. intros. apply hypot_sqr. Qed.
Lemma norm_pos : forall v, 0 <= norm v.
Proof. intros. apply hypot_pos. Qed.
Lemma cauchy : forall u v, dotp u v <= norm u * norm v.
Proof.
  intros u v. apply sqr_le. { apply Rmult_le_pos; apply norm_pos. }
  replace (norm u * norm v * (norm u * norm v)) with ((norm u * norm u) * (norm v * norm v)) by ring.
  rewrite !norm_sqr. unfold dotp. destruct u as [a b], v as [c d]; cbn [fst snd].
  pose proof (Rle_0_sqr (a * d - b * c)) as Q. unfold Rsqr in Q.
  replace ((a * a + b * b) * (c * c + d * d)) with ((a * c + b * d) * (a * c + b * d) + (a * d - b * c) * (a * d - b * c)) by ring. lra.
Qed.
Lemma norm_triangle : forall u v, norm (vadd u v) <= norm u + norm v.
Proof.
  intros u v. pose proof (norm_pos u). pose proof (norm_pos v). apply sqr_le; [lra|].
  rewrite norm_sqr. pose proof (norm_sqr u). pose proof (norm_sqr v). pose proof (cauchy u v).
  replace (dotp (vadd u v) (vadd u v)) with (dotp u u + dotp v v + 2 * dotp u v) by (unfold dotp, vadd; simpl; ring). nra.
Qed.
Lemma norm_mapp_I : forall v, norm (vneg v) = norm v.
Proof. intros [x y]. unfold norm, hypot, vneg; simpl. f_equal. ring. Qed.

(** The two singular values: images of vectors have length between minor and major times the
    original length, and both bounds are attained. *)
Lemma sv_expand : forall j v, let h1 := hypot (m00 j + m11 j) (m01 j - m10 j) in
  let h2 := hypot (m00 j - m11 j) (m01 j + m10 j) in
  norm (mapp j v) * norm (mapp j v) =
   / 4 * (h1 * h1 + h2 * h2) * (norm v * norm v) + / 2 * dotp
     ((m00 j + m11 j) * fst v + (m01 j - m10 j) * snd v, (m00 j + m11 j) * snd v - (m01 j - m10 j) * fst v)
     ((m00 j - m11 j) * fst v + (m01 j + m10 j) * snd v, (m01 j + m10 j) * fst v - (m00 j - m11 j) * snd v).
Proof.
  intros j v h1 h2. unfold h1, h2. rewrite !norm_sqr, !hypot_sqr. unfold dotp, mapp. cbn [fst snd]. field.
Qed.

Lemma mapp_norm_bounds : forall j v, snd (major_minor j) * norm v <= norm (mapp j v) <= fst (major_minor j) * norm v.
Proof.
  intros j v. pose proof (sv_expand j v) as E. cbv zeta in E.
  unfold major_minor. cbv zeta. cbn [fst snd].
  set (h1 := hypot (m00 j + m11 j) (m01 j - m10 j)) in *. set (h2 := hypot (m00 j - m11 j) (m01 j + m10 j)) in *.
  assert (P1 : 0 <= h1) by apply hypot_pos. assert (P2 : 0 <= h2) by apply hypot_pos.
  set (u := ((m00 j + m11 j) * fst v + (m01 j - m10 j) * snd v, (m00 j + m11 j) * snd v - (m01 j - m10 j) * fst v)) in *.
  set (w := ((m00 j - m11 j) * fst v + (m01 j + m10 j) * snd v, (m01 j + m10 j) * fst v - (m00 j - m11 j) * snd v)) in *.
  assert (Nu : norm u * norm u = (h1 * h1) * (norm v * norm v)).
  { unfold h1. rewrite hypot_sqr, !norm_sqr. unfold u, dotp. cbn [fst snd]. ring. }
  assert (Nw : norm w * norm w = (h2 * h2) * (norm v * norm v)).
  { unfold h2. rewrite hypot_sqr, !norm_sqr. unfold w, dotp. cbn [fst snd]. ring. }
  pose proof (norm_pos u) as Pu. pose proof (norm_pos w) as Pw. pose proof (norm_pos v) as Pv.
  assert (Eu : norm u = h1 * norm v).
  { apply Rle_antisym; apply sqr_le; auto; try (apply Rmult_le_pos; auto); nra. }
  assert (Ew : norm w = h2 * norm v).
  { apply Rle_antisym; apply sqr_le; auto; try (apply Rmult_le_pos; auto); nra. }
  pose proof (cauchy u w) as C1.
  assert (C2 : - (norm u * norm w) <= dotp u w).
  { pose proof (cauchy (vneg u) w) as C. rewrite norm_mapp_I in C.
    assert (dotp (vneg u) w = - dotp u w) by (unfold dotp, vneg; simpl; ring). lra. }
  rewrite Eu, Ew in C1, C2.
  pose proof (norm_pos (mapp j v)) as Pj. split; apply sqr_le; auto.
  - rewrite E.
    assert (A : Rabs (h1 - h2) * Rabs (h1 - h2) = (h1 - h2) * (h1 - h2)) by (rewrite <- Rabs_mult; apply Rabs_right; apply Rle_ge, Rle_0_sqr).
    replace (/ 2 * Rabs (h1 - h2) * norm v * (/ 2 * Rabs (h1 - h2) * norm v)) with (/ 4 * (Rabs (h1 - h2) * Rabs (h1 - h2)) * (norm v * norm v)) by field.
    rewrite A. lra.
  - apply Rmult_le_pos; auto. pose proof (Rabs_pos (h1 + h2)). lra.
  - rewrite E. rewrite (Rabs_right (h1 + h2)) by lra. lra.
Qed.

Lemma major_minor_det : forall j, fst (major_minor j) * snd (major_minor j) = Rabs (mdet j).
Proof.
  intros j. unfold major_minor. cbv zeta. cbn [fst snd].
  set (h1 := hypot (m00 j + m11 j) (m01 j - m10 j)). set (h2 := hypot (m00 j - m11 j) (m01 j + m10 j)).
  assert (E1 : h1 * h1 = _) by apply hypot_sqr. assert (E2 : h2 * h2 = _) by apply hypot_sqr.
  replace (/ 2 * Rabs (h1 + h2) * (/ 2 * Rabs (h1 - h2))) with (/ 4 * (Rabs (h1 + h2) * Rabs (h1 - h2))) by field.
  rewrite <- Rabs_mult. replace ((h1 + h2) * (h1 - h2)) with (4 * mdet j).
  - rewrite Rabs_mult, (Rabs_right 4) by lra. field.
  - unfold mdet. transitivity (h1 * h1 - h2 * h2); [rewrite E1, E2; ring|ring].
Qed.
Lemma major_minor_pos : forall j, 0 <= fst (major_minor j) /\ 0 <= snd (major_minor j).
Proof. intros j. unfold major_minor. cbv zeta. cbn [fst snd]. split; apply Rmult_le_pos; try lra; apply Rabs_pos. Qed.
Lemma minor_pos : forall j, mdet j <> 0 -> 0 < snd (major_minor j) /\ 0 < fst (major_minor j).
Proof.
  intros j H. pose proof (major_minor_det j) as E. pose proof (Rabs_pos_lt _ H). destruct (major_minor_pos j) as [A B].
  split; [destruct B as [B|B]|destruct A as [A|A]]; auto; [rewrite <- B in E|rewrite <- A in E]; lra.
Qed.

(** atan2 *)
Lemma cos_atan : forall t, cos (atan t) = / sqrt (1 + t * t).
Proof.
  intros t. pose proof (atan_bound t) as [B1 B2]. assert (C : 0 < cos (atan t)) by (apply cos_gt_0; lra).
  assert (T : tan (atan t) = t) by apply tan_atan. unfold tan in T.
  assert (S2 : sin (atan t) = t * cos (atan t)) by (rewrite <- T at 2; field; lra).
  pose proof (sin2_cos2 (atan t)) as P. unfold Rsqr in P. rewrite S2 in P.
  assert (Q : cos (atan t) * cos (atan t) * (1 + t * t) = 1) by (transitivity (t * cos (atan t) * (t * cos (atan t)) + cos (atan t) * cos (atan t)); [ring|exact P]).
  assert (S : 0 < sqrt (1 + t * t)) by (apply sqrt_lt_R0; nra).
  apply Rmult_eq_reg_r with (sqrt (1 + t * t)); [|lra]. rewrite Rinv_l by lra.
  assert (SS : sqrt (1 + t * t) * sqrt (1 + t * t) = 1 + t * t) by (apply sqrt_sqrt; nra).
  assert (Z : (cos (atan t) * sqrt (1 + t * t)) * (cos (atan t) * sqrt (1 + t * t)) = 1) by (transitivity (cos (atan t) * cos (atan t) * (sqrt (1 + t * t) * sqrt (1 + t * t))); [ring|rewrite SS; exact Q]).
  assert (0 < cos (atan t) * sqrt (1 + t * t)) by (apply Rmult_lt_0_compat; auto). nra.
Qed.
Lemma sin_atan : forall t, sin (atan t) = t * cos (atan t).
Proof.
  intros t. pose proof (atan_bound t) as [B1 B2]. assert (C : 0 < cos (atan t)) by (apply cos_gt_0; lra).
  assert (T : tan (atan t) = t) by apply tan_atan. unfold tan in T. rewrite <- T at 2. field. lra.
Qed.
Lemma hypot_factor : forall y x, x <> 0 -> hypot x y = Rabs x * sqrt (1 + y / x * (y / x)).
Proof.
  intros y x H. unfold hypot. replace (x * x + y * y) with (x * x * (1 + y / x * (y / x))) by (field; auto).
  assert (0 <= (y / x) * (y / x)) by apply Rle_0_sqr.
  rewrite sqrt_mult; [|apply Rle_0_sqr|lra]. f_equal. apply sqrt_Rsqr_abs.
Qed.
Lemma atan2_polar : forall y x, hypot x y * cos (atan2 y x) = x /\ hypot x y * sin (atan2 y x) = y.
Proof.
  intros y x. unfold atan2. destruct (Rltb_spec 0 x) as [L|L].
  - assert (N : x <> 0) by lra. rewrite (hypot_factor y x N), Rabs_right, sin_atan, cos_atan by lra.
    assert (S : 0 < sqrt (1 + y / x * (y / x))) by (apply sqrt_lt_R0; assert (0 <= (y/x)*(y/x)) by apply Rle_0_sqr; lra).
    split; field; lra.
  - destruct (Rltb_spec x 0) as [L2|L2].
    + assert (N : x <> 0) by lra.
      assert (S : 0 < sqrt (1 + y / x * (y / x))) by (apply sqrt_lt_R0; assert (0 <= (y/x)*(y/x)) by apply Rle_0_sqr; lra).
      assert (X : - x * sqrt (1 + y / x * (y / x)) * - cos (atan (y / x)) = x /\ - x * sqrt (1 + y / x * (y / x)) * - sin (atan (y / x)) = y).
      { rewrite sin_atan, cos_atan. split; field; lra. }
      rewrite (hypot_factor y x N), Rabs_left by lra.
      destruct (Rltb_spec y 0) as [L3|L3].
      * replace (atan (y / x) - PI) with (- (PI - atan (y / x))) by ring.
        rewrite cos_neg, sin_neg, Rtrigo_facts.cos_pi_minus, sin_PI_x. exact X.
      * rewrite neg_cos, neg_sin. exact X.
    + assert (x = 0) by lra. subst x. destruct (Rltb_spec 0 y) as [L3|L3].
      * rewrite cos_PI2, sin_PI2. unfold hypot. replace (0 * 0 + y * y) with (Rsqr y) by (unfold Rsqr; ring).
        rewrite sqrt_Rsqr by lra. lra.
      * destruct (Rltb_spec y 0) as [L4|L4].
        -- rewrite cos_neg, sin_neg, cos_PI2, sin_PI2. unfold hypot. replace (0 * 0 + y * y) with (Rsqr (- y)) by (unfold Rsqr; ring).
           rewrite sqrt_Rsqr by lra. lra.
        -- assert (y = 0) by lra. subst y. unfold hypot. replace (0 * 0 + 0 * 0) with 0 by ring. rewrite sqrt_0. lra.
Qed.
Lemma atan_sign : forall t, (0 <= t -> 0 <= atan t) /\ (0 < t -> 0 < atan t) /\ (t <= 0 -> atan t <= 0) /\ (t < 0 -> atan t < 0).
Proof.
  intros t. pose proof atan_0. repeat split; intros.
  - destruct H0 as [H0|H0]; [apply atan_increasing in H0; lra|rewrite <- H0; lra].
  - apply atan_increasing in H0; lra.
  - destruct H0 as [H0|H0]; [apply atan_increasing in H0; lra|rewrite H0; lra].
  - apply atan_increasing in H0; lra.
Qed.
Lemma atan2_range : forall y x, - PI < atan2 y x <= PI.
Proof.
  intros y x. pose proof PI_RGT_0 as P. pose proof (atan_bound (y / x)) as [B1 B2]. pose proof (atan_sign (y / x)) as (S1 & S2 & S3 & S4).
  unfold atan2. destruct (Rltb_spec 0 x); [lra|]. destruct (Rltb_spec x 0) as [L|L].
  - destruct (Rltb_spec y 0) as [M|M].
    + assert (0 < y / x). { unfold Rdiv. replace (y * / x) with ((- y) * (/ - x)) by (field; lra). apply Rmult_lt_0_compat; [lra|apply Rinv_0_lt_compat; lra]. }
      apply S2 in H. lra.
    + assert (y / x <= 0). { unfold Rdiv. replace (y * / x) with (- (y * (/ - x))) by (field; lra).
        assert (0 <= y * / - x) by (apply Rmult_le_pos; [lra|left; apply Rinv_0_lt_compat; lra]). lra. }
      apply S3 in H. lra.
  - destruct (Rltb_spec 0 y); [lra|]. destruct (Rltb_spec y 0); lra.
Qed.

Lemma polar_unique : forall r t u, 0 < r -> - PI < t <= PI -> - PI < u <= PI -> r * cos t = r * cos u -> r * sin t = r * sin u -> t = u.
Proof.
  intros r t u Hr Ht Hu C S. apply Rmult_eq_reg_l in C; [|lra]. apply Rmult_eq_reg_l in S; [|lra].
  assert (Cd : cos (t - u) = 1). { rewrite cos_minus, C, S. pose proof (sin2_cos2 u). unfold Rsqr in *. lra. }
  assert (D : - (2 * PI) < t - u < 2 * PI) by lra.
  set (d := t - u) in *. assert (Z : d = 0); [|unfold d in Z; lra]. clearbody d.
  assert (K : forall e, 0 <= e < 2 * PI -> cos e = 1 -> e = 0).
  { intros e He Ce. destruct (Req_dec e 0) as [|N]; auto. exfalso.
    assert (S2 : sin (e / 2) * sin (e / 2) = 0).
    { pose proof (cos_2a_sin (e / 2)) as X. replace (2 * (e / 2)) with e in X by field. lra. }
    assert (0 < sin (e / 2)) by (apply sin_gt_0; lra). nra. }
  destruct (Rle_lt_dec 0 d).
  - apply K; lra || auto.
  - assert (- d = 0); [|lra]. apply K; [lra|]. rewrite cos_neg. auto.
Qed.
Lemma atan2_unique : forall r t, 0 < r -> - PI < t <= PI -> atan2 (r * sin t) (r * cos t) = t.
Proof.
  intros r t Hr Ht. destruct (atan2_polar (r * sin t) (r * cos t)) as [A B].
  assert (E : hypot (r * cos t) (r * sin t) = r).
  { unfold hypot. replace (r * cos t * (r * cos t) + r * sin t * (r * sin t)) with (Rsqr r * (Rsqr (sin t) + Rsqr (cos t))) by (unfold Rsqr; ring).
    rewrite sin2_cos2, Rmult_1_r. apply sqrt_Rsqr. lra. }
  rewrite E in A, B. apply (polar_unique r); auto. apply atan2_range.
Qed.
