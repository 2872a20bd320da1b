(** Temme's series at orders 1/2 and -1/2: the error. *)
From Coq Require Import ZArith QArith Qreals Reals List Bool Lra Lia.
From Coquelicot Require Import Coquelicot.
From Verif Require Import Base Bounds_Model Bounds_Proofs Num_Consts Poly_Q Bes_Model Bes_Spec Bes_K Bes_K2 Bes_T Bes_T2.
Import ListNotations.
Open Scope R_scope.

(** a is A up to a part in 10^12 *)
Definition near (a A : R) : Prop := Rabs (a - A) <= 1 / 10 ^ 12 * A.
Lemma near_scale : forall k a A, 0 <= k -> near a A -> near (k * a) (k * A).
Proof. intros k a A K H. unfold near in *. replace (k * a - k * A) with (k * (a - A)) by ring. rewrite Rabs_mult, (Rabs_pos_eq k) by exact K. replace (1 / 10 ^ 12 * (k * A)) with (k * (1 / 10 ^ 12 * A)) by ring. apply Rmult_le_compat_l; assumption. Qed.
Lemma near_plus : forall a A b B, near a A -> near b B -> near (a + b) (A + B).
Proof. intros a A b B H K. unfold near in *. apply Rabs_le_between in H. apply Rabs_le_between in K. apply Rabs_le. lra. Qed.
Lemma near_refl : forall a, 0 <= a -> near a a.
Proof. intros a H. unfold near. rewrite Rminus_eq_0, Rabs_R0. lra. Qed.
Lemma mul_b : forall x y bx b, Rabs x <= bx -> Rabs y <= b -> Rabs (x * y) <= bx * b.
Proof. intros x y bx b X Y. rewrite Rabs_mult. apply Rmult_le_compat; (apply Rabs_pos || assumption). Qed.
Lemma near_one : forall y e, 0 < y -> Rabs (y * y - 1) <= e -> Rabs (y - 1) <= e.
Proof. intros y e Y H. apply Rabs_le_between in H. apply Rabs_le. split; nra. Qed.
Definition ee : R := 5 / 10 ^ 16.
Lemma pi_num : 31415926535897932384 / 10000000000000000000 <= PI <= 31415926535897932385 / 10000000000000000000.
Proof. exact pi_bounds. Qed.
Definition e1 : R := 2 / (sqrt PI * gG) - 1.
Definition e2 : R := / (sqrt PI * gH) - 1.
Lemma sp : 0 < sqrt PI /\ sqrt PI * sqrt PI = PI.
Proof. pose proof PI_RGT_0. split; [apply sqrt_lt_R0; lra|apply sqrt_sqrt; lra]. Qed.
Lemma div_close : forall n d e, 0 < d -> Rabs (n - d) <= e * d -> Rabs (n / d - 1) <= e.
Proof. intros n d e D H. apply Rabs_le_between in H. assert (E : n / d * d = n) by (field; lra). apply Rabs_le. split; apply (Rmult_le_reg_r d); lra. Qed.
Lemma e1_b : Rabs e1 <= ee.
Proof.
  destruct sp as [S0 S]. pose proof pi_num. unfold e1. apply near_one; [apply Rdiv_lt_0_compat; [lra|apply Rmult_lt_0_compat; [lra|unfold gG; lra]]|].
  replace (2 / (sqrt PI * gG) * (2 / (sqrt PI * gG))) with (4 / ((sqrt PI * sqrt PI) * (gG * gG))) by (field; unfold gG; lra). rewrite S. apply div_close; [apply Rmult_lt_0_compat; unfold gG; lra|]. unfold ee, gG. apply Rabs_le. lra.
Qed.
Lemma e2_b : Rabs e2 <= ee.
Proof.
  destruct sp as [S0 S]. pose proof pi_num. unfold e2. apply near_one; [apply Rinv_0_lt_compat, Rmult_lt_0_compat; [lra|unfold gH; lra]|].
  replace (/ (sqrt PI * gH) * / (sqrt PI * gH)) with (1 / ((sqrt PI * sqrt PI) * (gH * gH))) by (field; unfold gH; lra). rewrite S. apply div_close; [apply Rmult_lt_0_compat; unfold gH; lra|]. unfold ee, gH. apply Rabs_le. lra.
Qed.
Lemma dd_b : Rabs dd <= ee.
Proof. pose proof pi_num. unfold dd, ee, gG, gH. apply Rabs_le. lra. Qed.
Lemma eps_b : 0 < eps <= 23 / 10 ^ 17.
Proof. unfold eps. replace (2 ^ 52) with 4503599627370496 by lra. lra. Qed.
Section Z.
Variable z : R.
Hypothesis Z : 0 < z <= 2.
Definition As : R := sqrt PI * rr z / 4.
Lemma As_pos : 0 < As.
Proof. unfold As. destruct sp. pose proof (rr_pos z). assert (0 < sqrt PI * rr z) by (apply Rmult_lt_0_compat; assumption). lra. Qed.
Lemma A0_As : A0 z = As * (1 + e1).
Proof. unfold A0, As, e1. destruct sp. field. unfold gG. lra. Qed.
Lemma B0_As : B0 z = As * (z * (1 + e2)).
Proof.
  unfold B0, As, e2. destruct sp as [S0 _]. pose proof (rr_pos z) as RP. pose proof (rr_sq z Z) as RS. assert (E : / rr z = rr z * z / 2). { apply (Rmult_eq_reg_l (rr z)); [|lra]. rewrite Rinv_r by lra. replace (rr z * (rr z * z / 2)) with (rr z * rr z * z / 2) by field. rewrite RS. field. lra. }
  rewrite !Rinv_mult, E. field. unfold gH. lra.
Qed.
Lemma K0_As : K_half 0 z = As * (2 * exp (- z)).
Proof.
  rewrite K_th, th_0. assert (E : sqrt (PI / (2 * z)) = 2 * As). { pose proof As_pos. rewrite <- (sqrt_Rsqr (2 * As)) by lra. f_equal. unfold Rsqr, As. destruct sp as [_ S]. replace (2 * (sqrt PI * rr z / 4) * (2 * (sqrt PI * rr z / 4))) with ((sqrt PI * sqrt PI) * (rr z * rr z) / 4) by field. rewrite S, (rr_sq z Z). field. lra. } rewrite E. ring.
Qed.
Lemma exp_cs : exp (- z) = cosh z - sinh z.
Proof. unfold cosh, sinh. field. Qed.
Lemma exp_low : 1 / 9 <= exp (- z).
Proof.
  rewrite exp_Ropp. assert (exp z <= 9). { eapply Rle_trans; [|apply exp_2]. destruct (proj2 Z) as [L|L]; [left; apply exp_increasing, L|rewrite L; right; reflexivity]. } pose proof (exp_pos z). replace (1 / 9) with (/ 9) by field. apply Rinv_le_contravar; lra.
Qed.
Section M.
Variable m : nat.
Let a := ta z (S m). Let C := sC z (S m). Let D := z * sD z (S m). Let E := sE z (S m). Let P := sP z (S m). Let F := sF z (S m).
Let al := 1 + e1. Let be := 1 + e2.
Lemma facts : 0 <= a /\ 0 <= cosh z - C <= 5 / 3 * a /\ 0 <= sinh z - D <= z * (1 / 3 * a) /\ 0 <= z * sinh z - E <= z * z * (5 / 3 * a) /\ 0 <= P <= 3 /\ 0 <= F <= 2 * (z * z) /\ 0 <= C <= 5 /\ 0 <= D <= 5 /\ 0 <= E.
Proof.
  assert (C0 : 0 <= C) by (apply cond_pos_sum; intro; left; apply ta_pos; exact Z). assert (D0 : 0 <= D) by (apply Rmult_le_pos; [lra|apply cond_pos_sum; intro; left; apply tb_pos; exact Z]). assert (E0 : 0 <= E) by (apply cond_pos_sum; intro k; pose proof (ta_pos z Z k); pose proof (pos_INR k); nra).
  pose proof (ta_pos z Z (S m)). pose proof (restC z Z m). pose proof (restD z Z m). pose proof (restE z Z m). pose proof (sP_bound z Z m). pose proof (sF_bound z Z m). pose proof (cosh_bounds z ltac:(lra)) as [CB SB]. assert (CS : sinh z <= cosh z) by (unfold sinh, cosh; pose proof (exp_pos (- z)); lra). unfold a, C, D, E, P, F in C0, D0, E0 |- *. repeat split; lra.
Qed.
Lemma Sm_As : Sm z (S m) = As * (2 * al * C - 2 * be * D + 2 * dd * ((al - z * be) * P)).
Proof. unfold Sm. rewrite A0_As, B0_As. fold C P. unfold D, al, be. ring. Qed.
Lemma fm_As : fm z (S m) = As * (2 * (al * a - z * be * tb z (S m)) + 2 * dd * ((al - z * be) * tp z (S m))).
Proof. unfold fm. rewrite A0_As, B0_As. fold a. unfold al, be. ring. Qed.
Lemma ab_b : Rabs (al - z * be) <= 11 / 10.
Proof.
  pose proof e1_b as X1. pose proof e2_b as X2. apply Rabs_le_between in X1. apply Rabs_le_between in X2. unfold al, be, ee in *. assert (z * e2 <= 2 * (5 / 10 ^ 16) /\ - (2 * (5 / 10 ^ 16)) <= z * e2) by (split; nra). apply Rabs_le. lra.
Qed.
(** the last term is small when the loop ends *)
Lemma small : Rabs (fm z (S m)) <= Rabs (Sm z (S m)) * eps \/ (999 <= m)%nat -> a <= 1 / 10 ^ 14.
Proof.
  intros [H|H].
  - rewrite fm_As, Sm_As, !Rabs_mult, (Rmult_assoc (Rabs As)) in H. pose proof As_pos as AP. rewrite (Rabs_pos_eq As) in H by lra. apply Rmult_le_reg_l in H; [|exact AP]. destruct facts as (FA & FC & FD & FE & FP & FF & GC & GD & GE). pose proof eps_b as EB. pose proof ab_b as AB.
    pose proof e1_b as X1. pose proof e2_b as X2. pose proof dd_b as X3.
    assert (Q1 : Rabs (e1 * C) <= ee * 5) by (apply mul_b; [exact X1|apply Rabs_le; lra]). assert (Q2 : Rabs (e2 * D) <= ee * 5) by (apply mul_b; [exact X2|apply Rabs_le; lra]).
    assert (Q3 : Rabs (dd * ((al - z * be) * P)) <= ee * (11 / 10 * 3)) by (apply mul_b; [exact X3|apply mul_b; [exact AB|apply Rabs_le; lra]]).
    pose proof (tp_pos z Z (S m)) as TP. pose proof (tp_bound z Z m) as TB. assert (Q4 : Rabs (dd * ((al - z * be) * tp z (S m))) <= ee * (11 / 10 * (4 / 3))) by (apply mul_b; [exact X3|apply mul_b; [exact AB|apply Rabs_le; lra]]).
    assert (SB : Rabs (2 * al * C - 2 * be * D + 2 * dd * ((al - z * be) * P)) <= 21). { replace (2 * al * C - 2 * be * D + 2 * dd * ((al - z * be) * P)) with (2 * C + 2 * (e1 * C) - 2 * D - 2 * (e2 * D) + 2 * (dd * ((al - z * be) * P))) by (unfold al, be; ring). apply Rabs_le_between in Q1. apply Rabs_le_between in Q2. apply Rabs_le_between in Q3. unfold ee in *. apply Rabs_le. lra. }
    assert (RH : Rabs (2 * al * C - 2 * be * D + 2 * dd * ((al - z * be) * P)) * eps <= 21 * (23 / 10 ^ 17)) by (apply Rmult_le_compat; try lra; apply Rabs_pos).
    pose proof (tb_pos z Z (S m)) as BP. pose proof (tb_third z Z m) as BT. fold a in BT. set (b := tb z (S m)) in *. set (w := (al - z * be) * tp z (S m)) in *.
    pose proof (Rle_abs (2 * (al * a - z * be * b) + 2 * dd * w)) as L. replace (2 * (al * a - z * be * b) + 2 * dd * w) with (2 * (a + e1 * a - (1 + e2) * (z * b)) + 2 * (dd * w)) in L by (unfold al, be; ring). replace (2 * (al * a - z * be * b) + 2 * dd * w) with (2 * (a + e1 * a - (1 + e2) * (z * b)) + 2 * (dd * w)) in H by (unfold al, be; ring).
    assert (ZB : z * b <= 2 * (a / 3)) by (apply Rmult_le_compat; lra). assert (ZB0 : 0 <= z * b) by (apply Rmult_le_pos; lra). apply Rabs_le_between in X1. apply Rabs_le_between in X2. apply Rabs_le_between in Q4. unfold ee in *.
    assert (Y1 : - (5 / 10 ^ 16 * a) <= e1 * a) by nra. assert (Y2 : (1 + e2) * (z * b) <= 101 / 100 * (2 * (a / 3))) by (apply Rmult_le_compat; lra). lra.
  - unfold a. eapply Rle_trans; [apply ta_geo; exact Z|]. assert (K : 3 ^ 40 <= 3 ^ m) by (apply Rle_pow; [lra|lia]). replace (3 ^ 40) with 12157665459056928801 in K by lra. apply (Rmult_le_reg_r (3 ^ m)); [lra|]. replace (2 / 3 ^ m * 3 ^ m) with 2 by (field; lra). lra.
Qed.
Hypothesis A14 : a <= 1 / 10 ^ 14.
Lemma S_near : near (Sm z (S m)) (K_half 0 z).
Proof.
  rewrite Sm_As, K0_As. apply near_scale; [pose proof As_pos; lra|]. destruct facts as (FA & FC & FD & FE & FP & FF & GC & GD & GE). pose proof exp_low as EL. rewrite exp_cs in *. pose proof ab_b as AB. pose proof e1_b as X1. pose proof e2_b as X2. pose proof dd_b as X3.
  assert (Q1 : Rabs (e1 * C) <= ee * 5) by (apply mul_b; [exact X1|apply Rabs_le; lra]). assert (Q2 : Rabs (e2 * D) <= ee * 5) by (apply mul_b; [exact X2|apply Rabs_le; lra]).
  assert (Q3 : Rabs (dd * ((al - z * be) * P)) <= ee * (11 / 10 * 3)) by (apply mul_b; [exact X3|apply mul_b; [exact AB|apply Rabs_le; lra]]).
  assert (ZA : z * (1 / 3 * a) <= 2 * (1 / 3 * a)) by (apply Rmult_le_compat_r; lra). unfold near. replace (2 * al * C - 2 * be * D + 2 * dd * ((al - z * be) * P)) with (2 * C + 2 * (e1 * C) - 2 * D - 2 * (e2 * D) + 2 * (dd * ((al - z * be) * P))) by (unfold al, be; ring). apply Rabs_le_between in Q1. apply Rabs_le_between in Q2. apply Rabs_le_between in Q3. unfold ee in *. apply Rabs_le. lra.
Qed.
Lemma H_plus : near (Hm z true (S m)) (As * ((1 + z) * exp (- z))).
Proof.
  assert (E0 : Hm z true (S m) = As * (al * (C - E) + be * (z * C - D) - dd * ((al - z * be) * F))) by (unfold Hm; rewrite A0_As, B0_As; fold C E F; unfold D, al, be; ring). rewrite E0. apply near_scale; [pose proof As_pos; lra|]. destruct facts as (FA & FC & FD & FE & FP & FF & GC & GD & GE). pose proof exp_low as EL. rewrite exp_cs in *. pose proof ab_b as AB. pose proof e1_b as X1. pose proof e2_b as X2. pose proof dd_b as X3. pose proof (cosh_bounds z ltac:(lra)) as [CB SB].
  assert (Z2 : z * z <= 4) by nra. assert (SC : sinh z <= 5) by lra. assert (ZS : z * sinh z <= 2 * 5) by (apply Rmult_le_compat; lra). assert (ZC : 0 <= z * C <= 2 * 5) by (split; [apply Rmult_le_pos|apply Rmult_le_compat]; lra).
  assert (RE : z * z * (5 / 3 * a) <= 4 * (5 / 3 * a)) by (apply Rmult_le_compat_r; lra). assert (ZA : z * (1 / 3 * a) <= 2 * (1 / 3 * a)) by (apply Rmult_le_compat_r; lra). assert (ZR : 0 <= z * (cosh z - C) <= 2 * (5 / 3 * a)) by (split; [apply Rmult_le_pos|apply Rmult_le_compat]; lra).
  assert (Q1 : Rabs (e1 * (C - E)) <= ee * 15) by (apply mul_b; [exact X1|apply Rabs_le; lra]). assert (Q2 : Rabs (e2 * (z * C - D)) <= ee * 15) by (apply mul_b; [exact X2|apply Rabs_le; lra]).
  assert (Q3 : Rabs (dd * ((al - z * be) * F)) <= ee * (11 / 10 * 8)) by (apply mul_b; [exact X3|apply mul_b; [exact AB|apply Rabs_le; lra]]).
  unfold near.
  assert (V : 1 / 9 <= (1 + z) * (cosh z - sinh z)). { replace (1 / 9) with (1 * (1 / 9)) by ring. apply Rmult_le_compat; lra. }
  replace (al * (C - E) + be * (z * C - D) - dd * ((al - z * be) * F) - (1 + z) * (cosh z - sinh z)) with (e1 * (C - E) + e2 * (z * C - D) - dd * ((al - z * be) * F) - (cosh z - C) + (z * sinh z - E) - z * (cosh z - C) + (sinh z - D)) by (unfold al, be; ring).
  apply Rabs_le_between in Q1. apply Rabs_le_between in Q2. apply Rabs_le_between in Q3. unfold ee in *. apply Rabs_le. lra.
Qed.
Lemma H_minus : near (Hm z false (S m)) (As * (z * exp (- z))).
Proof.
  set (E' := T (2 * m + 1) z). assert (EE : E = z * E') by (unfold E, E'; apply sE_T). set (F' := F / z). assert (FZ : F = z * F') by (unfold F'; field; lra).
  assert (E0 : Hm z false (S m) = As * z * (be * C - al * E' - dd * ((al - z * be) * F'))) by (unfold Hm; rewrite A0_As, B0_As; fold C E F; rewrite EE, FZ; unfold al, be; ring). rewrite E0. replace (As * (z * exp (- z))) with (As * z * exp (- z)) by ring. apply near_scale; [pose proof As_pos; apply Rmult_le_pos; lra|]. destruct facts as (FA & FC & FD & FE & FP & FF & GC & GD & GE). pose proof exp_low as EL. rewrite exp_cs in *. pose proof ab_b as AB. pose proof e1_b as X1. pose proof e2_b as X2. pose proof dd_b as X3. pose proof (cosh_bounds z ltac:(lra)) as [CB SB].
  assert (RE : 0 <= sinh z - E' <= z * (5 / 3 * a)). { rewrite EE in FE. split; apply (Rmult_le_reg_l z); lra. } assert (ZA : z * (5 / 3 * a) <= 2 * (5 / 3 * a)) by (apply Rmult_le_compat_r; lra). assert (EP : 0 <= E') by (rewrite EE in GE; apply (Rmult_le_reg_l z); lra). assert (FP' : 0 <= F' <= 4) by (rewrite FZ in FF; split; apply (Rmult_le_reg_l z); nra).
  assert (Q1 : Rabs (e2 * C) <= ee * 5) by (apply mul_b; [exact X2|apply Rabs_le; lra]). assert (Q2 : Rabs (e1 * E') <= ee * 5) by (apply mul_b; [exact X1|apply Rabs_le; lra]).
  assert (Q3 : Rabs (dd * ((al - z * be) * F')) <= ee * (11 / 10 * 4)) by (apply mul_b; [exact X3|apply mul_b; [exact AB|apply Rabs_le; lra]]).
  unfold near. replace (be * C - al * E' - dd * ((al - z * be) * F') - (cosh z - sinh z)) with (e2 * C - e1 * E' - dd * ((al - z * be) * F') - (cosh z - C) + (sinh z - E')) by (unfold al, be; ring).
  apply Rabs_le_between in Q1. apply Rabs_le_between in Q2. apply Rabs_le_between in Q3. unfold ee in *. apply Rabs_le. lra.
Qed.
End M.
End Z.
(** * All half-integer orders *)
Lemma series_near : forall s z, 0 < z <= 2 -> near (fst (temme_series_kve (half s) z)) (exp z * K_half 0 z) /\ near (snd (temme_series_kve (half s) z)) (exp z * (if s then K_half 1 z else K_half 0 z)).
Proof.
  intros s z Z. unfold temme_series_kve. destruct (loop_end z s) as (m & c & E & (_ & _ & _ & _ & K & H) & ST). rewrite E. cbn [fst snd]. pose proof (small z Z m ST) as A14. pose proof (exp_pos z) as EP. rewrite K, H. split.
  - rewrite (Rmult_comm (Sm z (S m))). apply near_scale; [lra|]. apply S_near; assumption.
  - replace (2 * Hm z s (S m) * exp z / z) with (exp z * (2 / z) * Hm z s (S m)) by (field; lra). assert (KS : 0 <= exp z * (2 / z)) by (apply Rmult_le_pos; [lra|left; apply Rdiv_lt_0_compat; lra]). destruct s.
    + replace (exp z * K_half 1 z) with (exp z * (2 / z) * (As z * ((1 + z) * exp (- z)))) by (rewrite K_1, (K0_As z Z) by lra; field; lra). apply near_scale; [exact KS|]. apply H_plus; assumption.
    + replace (exp z * K_half 0 z) with (exp z * (2 / z) * (As z * (z * exp (- z)))) by (rewrite (K0_As z Z); field; lra). apply near_scale; [exact KS|]. apply H_minus; assumption.
Qed.
Lemma climb_near : forall m u x i a b A B, 0 < x -> 0 <= u + i -> near a A -> near b B -> near (fst (climb m u x i a b)) (fst (climb m u x i A B)).
Proof.
  induction m as [|m IH]; intros u x i a b A B X U HA HB; cbn [climb]; [exact HA|]. apply IH; [exact X|lra|exact HB|]. apply near_plus; [|exact HA]. replace (2 * (u + i) * b / x) with (2 * (u + i) / x * b) by (field; lra). replace (2 * (u + i) * B / x) with (2 * (u + i) / x * B) by (field; lra). apply near_scale; [|exact HB]. apply Rmult_le_pos; [lra|left; apply Rinv_0_lt_compat, X].
Qed.
Lemma temme_near : forall n x, 0 < x <= 2 -> near (temme_kve (INR n + 1 / 2) x) (exp x * K_half n x).
Proof.
  intros n x X. assert (N : 0 <= INR n) by apply pos_INR. pose proof (round_half n) as RH. destruct (Nat.even n) eqn:E.
  - rewrite (temme_up (INR n + 1 / 2) x n ltac:(lra) RH). replace (INR n + 1 / 2 - INR n) with (1 / 2) by ring. unfold start. rewrite Rleb_true by lra. destruct (series_near true x X) as [H1 H2]. cbn [half] in H1, H2. pose proof (climb_near n (1 / 2) x 1 _ _ _ _ ltac:(lra) ltac:(lra) H1 H2) as H. change (K_half 0 x) with (K_before 1 x) in H. rewrite (climb_K n (1 / 2) x 1 (exp x) 1) in H by (lra || (change (INR 1) with 1; field)). exact H.
  - rewrite (temme_up (INR n + 1 / 2) x (S n) ltac:(lra) RH). rewrite S_INR. replace (INR n + 1 / 2 - (INR n + 1)) with (- (1 / 2)) by field. unfold start. rewrite Rleb_true by lra. destruct (series_near false x X) as [H1 H2]. cbn [half] in H1, H2. pose proof (climb_near (S n) (- (1 / 2)) x 1 _ _ _ _ ltac:(lra) ltac:(lra) H1 H2) as H. change (K_half 0 x) with (K_before 0 x) in H at 1. rewrite (climb_K (S n) (- (1 / 2)) x 1 (exp x) 0) in H by (lra || (change (INR 0) with 0; field)). exact H.
Qed.
Lemma kv_close : forall olver n x, (n < 50)%nat -> 0 < x -> exists r, kv olver (INR n + 1 / 2) x = Num r /\ Rabs (r - K_half n x) <= 1 / 10 ^ 12 * K_half n x.
Proof.
  intros olver n x N X. destruct (Rle_lt_dec x 2) as [h|h].
  - assert (N0 : 0 <= INR n <= 49). { split; [apply pos_INR|]. replace 49 with (INR 49) by (rewrite INR_IZR_INZ; reflexivity). apply le_INR. lia. } eexists. split; [apply kv_num, X|]. rewrite core_small by lra. pose proof (near_scale (exp (- x)) _ _ ltac:(left; apply exp_pos) (temme_near n x ltac:(lra))) as H. rewrite <- Rmult_assoc, <- exp_plus in H. replace (- x + x) with 0 in H by ring. rewrite exp_0, Rmult_1_l in H. rewrite Rmult_comm. exact H.
  - exists (K_half n x). split; [apply kv_half; assumption|]. apply near_refl. left. apply K_pos. lra.
Qed.
Lemma kv_grad_close : forall olver n x g, (n < 49)%nat -> 0 < x -> exists d, kv_bwd olver (INR n + 1 / 2) x g = Some (0, d * g) /\ exists d', is_derive (K_half n) x d' /\ Rabs (d - d') <= 1 / 10 ^ 12 * Rabs d'.
Proof.
  intros olver n x g N X. assert (B : exists r, kv olver (INR n + 1 / 2 - 1) x = Num r /\ near r (K_before n x)).
  { destruct n as [|n]; cbn [K_before].
    - change (INR 0) with 0. replace (0 + 1 / 2 - 1) with (- (INR 0 + 1 / 2)) by (change (INR 0) with 0; field). rewrite kv_even. apply (kv_close olver 0 x); [lia|exact X].
    - rewrite S_INR. replace (INR n + 1 + 1 / 2 - 1) with (INR n + 1 / 2) by ring. apply kv_close; [lia|exact X]. }
  destruct B as (r & R1 & R2). destruct (kv_close olver (S n) x ltac:(lia) X) as (r' & R1' & R2'). change (near r' (K_half (S n) x)) in R2'. unfold kv_bwd. rewrite R1. replace (INR n + 1 / 2 + 1) with (INR (S n) + 1 / 2) by (rewrite S_INR; ring). rewrite R1'. exists (- (1 / 2) * (r + r')). split; [reflexivity|].
  exists (- K_before n x - (INR n + 1 / 2) / x * K_half n x). split; [apply K_derive, X|]. pose proof (near_scale (1 / 2) _ _ ltac:(lra) (near_plus _ _ _ _ R2 R2')) as H. unfold near in H.
  assert (E : - K_before n x - (INR n + 1 / 2) / x * K_half n x = - (1 / 2 * (K_before n x + K_half (S n) x))) by (rewrite K_step by lra; field; lra). rewrite E. replace (- (1 / 2) * (r + r') - - (1 / 2 * (K_before n x + K_half (S n) x))) with (- (1 / 2 * (r + r') - 1 / 2 * (K_before n x + K_half (S n) x))) by ring. rewrite !Rabs_Ropp. rewrite (Rabs_pos_eq (1 / 2 * (K_before n x + K_half (S n) x))); [exact H|]. pose proof (K_pos (S n) x X). assert (0 < K_before n x) by (destruct n; apply K_pos, X). lra.
Qed.
