(** Bisection towards a root that halving does not hit, and the Spergel profiles with nu = -1/2 and nu = 1/2. *)
From Coq Require Import ZArith QArith Qreals Reals Bool List Lra Lia.
From Coquelicot Require Import Coquelicot.
From Verif Require Import Base Bounds_Model Bounds_Proofs GSP_Model Sky_Model Util_Model Util_Spec Util_Proofs Size_Model Size_Spec Num_Consts Size_Proofs Size_Moffat Size_Band Size_Spergel Size_Neg Size_NegTable Size_Shoot Size_Pade.
Import ListNotations.
Open Scope R_scope.

Lemma bisect_root : forall f h n z0, 0 < z0 < h -> (forall z, 0 <= z -> z < z0 -> f z < 0) -> (forall z, z0 < z -> z <= h -> 0 < f z) -> f z0 = 0 ->
  (forall k, ~ dyadic 0 h k z0) -> z0 < bisect_for_root f 0 h n <= z0 + h / 2 ^ n.
Proof.
  intros f h n z0 Z NEG POS ZERO ND. assert (SG : f 0 * f h < 0) by (pose proof (NEG 0 ltac:(lra) ltac:(lra)); pose proof (POS h ltac:(lra) ltac:(lra)); nra).
  destruct (bisect_general f n 0 h ltac:(lra) SG) as [[a [A1 [A2 [A3 [A4 A5]]]]] | [k [x [_ [D [X [E _]]]]]]].
  - set (s := bisect_for_root f 0 h n) in *. rewrite Rminus_0_r in A4. assert (a <> z0) by (intros ->; rewrite ZERO in A5; lra). assert (s <> z0) by (intro W; rewrite W, ZERO in A5; lra).
    destruct (Rlt_le_dec z0 s) as [l|l]; [|pose proof (NEG s ltac:(lra) ltac:(lra)); pose proof (NEG a ltac:(lra) ltac:(lra)); nra].
    destruct (Rlt_le_dec z0 a) as [m|m]; [pose proof (POS a m ltac:(lra)); pose proof (POS s l ltac:(lra)); nra|]. lra.
  - exfalso. destruct (Rtotal_order x z0) as [O|[O|O]]; [pose proof (NEG x ltac:(lra) O); lra| |pose proof (POS x O ltac:(lra)); lra]. subst x. exact (ND k D).
Qed.
Lemma pow2_mod3 : forall k, (2 ^ Z.of_nat k mod 3 <> 0)%Z.
Proof.
  intro k. assert (H : (2 ^ Z.of_nat k mod 3 = 1 \/ 2 ^ Z.of_nat k mod 3 = 2)%Z).
  { induction k as [|k IH]; [now left|]. rewrite Nat2Z.inj_succ, Z.pow_succ_r by lia. rewrite Zmult_mod. destruct IH as [-> | ->]; cbn; tauto. }
  lia.
Qed.
Lemma not_dyadic40 : forall k, ~ dyadic 0 40 k (16 / 3).
Proof.
  intros k [j J]. pose proof (pow2_pos k) as P. assert (E : 2 * 2 ^ k = 15 * IZR j) by (assert (H : 16 / 3 * 2 ^ k = 40 * IZR j) by (rewrite J; field; lra); lra).
  rewrite pow_IZR, <- !mult_IZR in E. apply eq_IZR in E. apply (pow2_mod3 (S k)). rewrite Nat2Z.inj_succ, Z.pow_succ_r by lia. rewrite E. replace (15 * j)%Z with (5 * j * 3)%Z by ring. apply Z_mod_mult.
Qed.
Lemma not_dyadic30 : forall k, ~ dyadic 0 30 k 16.
Proof.
  intros k [j J]. pose proof (pow2_pos k) as P. assert (E : 8 * 2 ^ k = 15 * IZR j) by (assert (H : 16 * 2 ^ k = 30 * IZR j) by (rewrite J; field; lra); lra).
  rewrite pow_IZR, <- !mult_IZR in E. apply eq_IZR in E. apply (pow2_mod3 (3 + k)). rewrite Nat2Z.inj_add, Z.pow_add_r by lia. change (2 ^ Z.of_nat 3)%Z with 8%Z. rewrite E. replace (15 * j)%Z with (5 * j * 3)%Z by ring. apply Z_mod_mult.
Qed.
Section HalfOrders.
Variables (kv : R -> R -> R) (lgamma : R -> R) (inf : R).
Hypothesis HO : half_orders kv lgamma.
(** nu = -1/2, folding threshold exp(-16/3) *)
Lemma mhalf_small : forall z a, 0 <= z <= 1 / 10 ^ 10 -> fluxfraction kv lgamma inf z (- (1 / 2)) a <= z - a.
Proof. intros z a Z. destruct (ho_gamma kv lgamma inf HO) as (G & _ & G3). exact (F_small kv lgamma inf G G3 z a Z). Qed.
Lemma mhalf_at : forall z a, 1 / 10 ^ 10 < z -> fluxfraction kv lgamma inf z (- (1 / 2)) a = 1 - exp (- z) - a.
Proof. intros z a Z. destruct (ho_gamma kv lgamma inf HO) as (G & _ & G3). exact (F_at kv lgamma inf (ho_K1 kv lgamma HO) G z a Z). Qed.
Let m := - (1 / 2).
Let f z := fluxfraction kv lgamma inf z m (1 - exp (- (16 / 3))).
Lemma e163 : exp (- (16 / 3)) < 1 / 2.
Proof. rewrite exp_Ropp. pose proof (exp_ineq1_le (16 / 3)). replace (1 / 2) with (/ 2) by lra. apply Rinv_lt_contravar; lra. Qed.
Lemma f_neg : forall z, 0 <= z -> z < 16 / 3 -> f z < 0.
Proof.
  intros z Z L. unfold f, m. pose proof e163. destruct (Rle_lt_dec z (1 / 10 ^ 10)) as [l|l]; [pose proof (mhalf_small z (1 - exp (- (16 / 3))) ltac:(lra)); lra|]. rewrite mhalf_at by exact l. pose proof (exp_increasing (- (16 / 3)) (- z) ltac:(lra)). lra.
Qed.
Lemma f_pos : forall z, 16 / 3 < z -> z <= 40 -> 0 < f z.
Proof. intros z L _. unfold f, m. rewrite mhalf_at by lra. pose proof (exp_increasing (- z) (- (16 / 3)) ltac:(lra)). lra. Qed.
Lemma f_zero : f (16 / 3) = 0.
Proof. unfold f, m. rewrite mhalf_at by lra. ring. Qed.
Lemma mhalf_radius : 0 < fluxfraction kv lgamma inf 40 m (1 - exp (- (16 / 3))) /\
  (forall k x, dyadic 0 40 k x -> 0 < x < 40 -> fluxfraction kv lgamma inf x m (1 - exp (- (16 / 3))) <> 0) /\
  16 / 3 < flux_radius kv lgamma inf (1 - exp (- (16 / 3))) m 0 40.
Proof.
  split; [exact (f_pos 40 ltac:(lra) ltac:(lra))|]. split.
  - intros k x D X E. fold (f x) in E. destruct (Rtotal_order x (16 / 3)) as [O|[O|O]]; [pose proof (f_neg x ltac:(lra) O); lra| |pose proof (f_pos x O ltac:(lra)); lra]. subst x. exact (not_dyadic40 k D).
  - exact (proj1 (bisect_root f 40 75 (16 / 3) ltac:(lra) f_neg f_pos f_zero not_dyadic40)).
Qed.
(** nu = 1/2, shoot accuracy 17 exp(-16) *)
Lemma half_at : forall z a, 1 / 10 ^ 10 < z -> fluxfraction kv lgamma inf z (1 / 2) a = 1 - (1 + z) * exp (- z) - a.
Proof. intros z a Z. rewrite <- (ho_frac_half kv lgamma inf HO z Z). unfold fluxfraction. ring. Qed.
Lemma gamma_m5 : gamma_ lgamma inf (-2 - 1 / 2) = 8 / 15 * sqrt PI.
Proof.
  destruct HO as (_ & _ & _ & _ & E). replace (-2 - 1 / 2) with (- (5 / 2)) by lra. unfold gamma_. destruct (Reqb_spec (- (5 / 2)) 0); [lra|]. destruct (Reqb_spec (- (5 / 2)) 1); [lra|]. destruct (Reqb_spec (- (5 / 2)) 2); [lra|]. destruct (Reqb_spec (- (5 / 2)) 3); [lra|]. destruct (Reqb_spec (- (5 / 2)) 4); [lra|]. destruct (Reqb_spec (- (5 / 2)) 5); [lra|]. unfold gamma. rewrite Rmult_1_r. exact E.
Qed.
Lemma half_small : forall z a, 0 <= z <= 1 / 10 ^ 10 -> fluxfraction kv lgamma inf z (1 / 2) a <= z - a.
Proof.
  intros z a Z. destruct (ho_gamma kv lgamma inf HO) as (_ & G & _). unfold fluxfraction, fz_nup1. destruct (Rltb_spec (1 / 10 ^ 10) z); [lra|]. unfold fsmallz_nup1. destruct (Reqb_spec (1 / 2) 0); [lra|]. destruct (Reqb_spec (1 / 2) 1); [lra|]. destruct (Reqb_spec (1 / 2) 2); [lra|]. destruct (Reqb_spec (1 / 2) 3); [lra|]. destruct (Reqb_spec (1 / 2) 4); [lra|].
  unfold fnup1_small. rewrite gamma_m5, G. assert (J0 : jpow 2 (1 / 2) * (sqrt PI / 2) = q0) by (rewrite jpow_pos by lra; apply q0_half). rewrite !J0.
  replace (2 * (1 + 1 / 2)) with (INR 3) by (cbn; lra). assert (J1 : jpow z (INR 3) = z * z * z). { unfold jpow. destruct (Reqb_spec z 0) as [->|]; [destruct (Reqb_spec (INR 3) 0) as [E|E]; [cbn in E; lra|ring]|]. rewrite Rpower_pow by lra. ring. } rewrite J1.
  assert (J2 : jpow 2 (-4 - 1 / 2) * sqrt PI = q0 / 16). { rewrite jpow_pos by lra. replace (-4 - 1 / 2) with (- (1 / 2) + - INR 4) by (cbn; lra). rewrite Rpower_plus, (Rpower_Ropp 2 (INR 4)), Rpower_nat. unfold q0. cbn [pow]. field. }
  pose proof q0_pos as Q. match goal with |- 1 - ?x / q0 - a <= _ => replace x with (q0 * (1 - z * z / 2 - z * z * z * z / 8 - (10 + z * z) * (z * z * z) / 30)) end.
  - replace (1 - q0 * (1 - z * z / 2 - z * z * z * z / 8 - (10 + z * z) * (z * z * z) / 30) / q0 - a) with (z * z / 2 + z * z * (z * z) / 8 + (10 + z * z) * (z * (z * z)) / 30 - a) by (field; lra).
    assert (S1 : 0 <= z * z <= z * (1 / 10)) by nra. assert (S2 : 0 <= z * z * (z * z) <= z * (1 / 10)) by (split; [nra|]; apply (Rle_trans _ (z * z * 1)); [apply Rmult_le_compat_l; lra|lra]). assert (S3 : 0 <= z * (z * z) <= z * (1 / 10)) by (split; [nra|]; apply Rmult_le_compat_l; nra).
    assert ((10 + z * z) * (z * (z * z)) <= 11 * (z * (1 / 10))) by (apply Rmult_le_compat; lra). lra.
  - replace (- jpow 2 (-4 - 1 / 2) * (8 / 15 * sqrt PI) * (8 + 4 * (1 / 2) + z * z) * (z * z * z)) with (- (jpow 2 (-4 - 1 / 2) * sqrt PI) * (8 / 15) * (8 + 4 * (1 / 2) + z * z) * (z * z * z)) by ring. rewrite J2. unfold Q2R. cbn [Qnum Qden]. field.
Qed.
Let t := 17 * exp (- (16)).
Let g z := fluxfraction kv lgamma inf z (1 / 2) (1 - t).
Lemma t_small : 0 < t <= 1 / 10000.
Proof. unfold t. pose proof (exp_pos (- (16))). split; [lra|]. pose proof exp_15. pose proof (exp_increasing (- (16)) (- (15)) ltac:(lra)). lra. Qed.
Lemma tail_strict : forall a b, 0 <= a -> a < b -> (1 + b) * exp (- b) < (1 + a) * exp (- a).
Proof.
  intros a b A B. replace (- b) with (- (b - a) + - a) by ring. rewrite exp_plus, <- Rmult_assoc. apply Rmult_lt_compat_r; [apply exp_pos|]. rewrite exp_Ropp. pose proof (exp_ineq1 (b - a) ltac:(lra)) as E. apply (Rmult_lt_reg_r (exp (b - a))); [apply exp_pos|]. rewrite Rmult_assoc, Rinv_l by (pose proof (exp_pos (b - a)); lra). nra.
Qed.
Lemma g_neg : forall z, 0 <= z -> z < 16 -> g z < 0.
Proof.
  intros z Z L. unfold g. pose proof t_small. destruct (Rle_lt_dec z (1 / 10 ^ 10)) as [l|l]; [pose proof (half_small z (1 - t) ltac:(lra)); lra|]. rewrite half_at by exact l. pose proof (tail_strict z 16 Z L). unfold t. replace (1 + 16) with 17 in * by lra. lra.
Qed.
Lemma g_pos : forall z, 16 < z -> z <= 30 -> 0 < g z.
Proof. intros z L _. unfold g. rewrite half_at by lra. pose proof (tail_strict 16 z ltac:(lra) L). unfold t. replace (1 + 16) with 17 in * by lra. lra. Qed.
Lemma g_zero : g 16 = 0.
Proof. unfold g. rewrite half_at by lra. unfold t. ring. Qed.
Variable p : spergel.
Hypothesis NP : sp_nu p = 1 / 2.
Hypothesis TP : g_shoot (sp_gs p) = 17 * exp (- (16)).
Lemma half_zmax : 16 < sp_zmax kv lgamma inf p <= 30.
Proof.
  unfold sp_zmax, flux_radius. rewrite NP, TP. change (fun z => fluxfraction kv lgamma inf z (1 / 2) (1 - 17 * exp (- (16)))) with g. split; [exact (proj1 (bisect_root g 30 75 16 ltac:(lra) g_neg g_pos g_zero not_dyadic30))|apply bisect_strict; lra].
Qed.
Lemma tail_gap : forall a b, 0 <= a -> a < b -> b <= 30 -> exp (- (30)) * ((b - a) * (b - a) / 2) <= (1 + a) * exp (- a) - (1 + b) * exp (- b).
Proof.
  intros a b A B C. set (h := fun z => - ((1 + z) * exp (- z)) - exp (- (30)) * (z * z / 2)). assert (H : h a <= h b).
  { destruct (MVT_gen h a b (fun z => z * exp (- z) - exp (- (30)) * z)) as [c [C1 C2]].
    - intros x X. unfold h. auto_derive; [trivial|]. field.
    - intros x X. apply continuity_pt_filterlim. apply (@ex_derive_continuous _ R_NormedModule). unfold h. auto_derive. trivial.
    - rewrite Rmin_left, Rmax_right in C1 by lra. assert (E : exp (- (30)) <= exp (- c)) by (apply exp_le; lra). assert (0 <= (c * exp (- c) - exp (- (30)) * c) * (b - a)) by (apply Rmult_le_pos; nra). lra. }
  unfold h in H. pose proof (exp_pos (- (30))) as E. set (e := exp (- (30))) in *. assert ((b - a) * (b - a) <= b * b - a * a) by nra. nra.
Qed.
Lemma e30 : 1 / 10 ^ 15 <= exp (- (30)).
Proof.
  replace (- (30)) with (- (10) + (- (10) + - (10))) by ring. rewrite !exp_plus. pose proof exp_10 as E. set (e := exp (- (10))) in *. assert (1 / 60000 * (1 / 60000) <= e * e) by (apply Rmult_le_compat; lra). assert (1 / 60000 * (1 / 60000 * (1 / 60000)) <= e * (e * e)) by (apply Rmult_le_compat; lra). lra.
Qed.
Lemma half_gaps : forall n j, (1 < n)%nat -> INR (n - 1) <= 10 ^ 6 -> (Datatypes.S j < n)%nat -> sp_pos_cdf kv lgamma inf n p j + interp_eps < sp_pos_cdf kv lgamma inf n p (Datatypes.S j).
Proof.
  intros n j H I J. assert (P : 1 <= INR (n - 1)) by (change 1 with (INR 1); apply le_INR; lia). pose proof half_zmax as Z. destruct (ho_gamma kv lgamma inf HO) as (_ & G & _). unfold sp_pos_cdf, sp_z_cdf. rewrite NP. set (z := sp_zmax kv lgamma inf p) in *. unfold reducedfluxfraction.
  assert (FZ : fluxfraction kv lgamma inf z (1 / 2) 0 = 1 - (1 + z) * exp (- z)) by (rewrite half_at by lra; ring). set (m0 := fluxfraction kv lgamma inf z (1 / 2) 0) in *. assert (M : 1 / 2 < m0 < 1).
  { rewrite FZ. pose proof (tail_strict 16 z ltac:(lra) ltac:(lra)). pose proof t_small as TS. unfold t in TS. replace (1 + 16) with 17 in * by lra. pose proof (exp_pos (- z)). assert (0 < (1 + z) * exp (- z)) by (apply Rmult_lt_0_compat; lra). lra. }
  set (a := linspace 0 z n j). set (b := linspace 0 z n (Datatypes.S j)). assert (AB : b - a = z / INR (n - 1)) by (unfold a, b, linspace; rewrite S_INR; field; lra).
  assert (D : 16 / 10 ^ 6 <= b - a). { rewrite AB. apply (Rmult_le_reg_r (INR (n - 1))); [lra|]. replace (z / INR (n - 1) * INR (n - 1)) with z by (field; lra). nra. }
  assert (A0 : 0 <= a) by (unfold a, linspace; pose proof (pos_INR j); unfold Rdiv; assert (0 < / INR (n - 1)) by (apply Rinv_0_lt_compat; lra); assert (0 <= (z - 0) * INR j * / INR (n - 1)) by (repeat apply Rmult_le_pos; lra); lra).
  assert (B30 : b <= 30). { assert (b <= linspace 0 z n (n - 1)); [|rewrite linspace_end in *; [lra|exact H]]. destruct (Nat.eq_dec (Datatypes.S j) (n - 1)) as [E|E]; [unfold b; rewrite E; lra|]. apply Rlt_le, linspace_lt; [exact H|lra|lia]. }
  assert (FA : fluxfraction kv lgamma inf a (1 / 2) 0 = 1 - (1 + a) * exp (- a)).
  { destruct j as [|j]; [unfold a; rewrite linspace_0 by exact H; rewrite (frac_0 kv lgamma inf (1 / 2) (sqrt PI / 2) ltac:(lra) (ho_half kv lgamma HO) G); rewrite Ropp_0, exp_0; ring|].
    rewrite half_at; [ring|]. assert (linspace 0 z n 0 < a) by (apply linspace_lt; [exact H|lra|lia]). assert (A1 : z / INR (n - 1) <= a) by (apply linspace_ge1; [exact H|lra|lia]). rewrite <- AB in A1. lra. }
  assert (FB : fluxfraction kv lgamma inf b (1 / 2) 0 = 1 - (1 + b) * exp (- b)) by (rewrite half_at by lra; ring).
  rewrite FA, FB. pose proof (tail_gap a b A0 ltac:(lra) B30) as T. pose proof e30 as E. assert (S1 : (16 / 10 ^ 6) * (16 / 10 ^ 6) <= (b - a) * (b - a)) by (apply Rmult_le_compat; lra). assert (S2 : 1 / 10 ^ 15 * ((16 / 10 ^ 6) * (16 / 10 ^ 6) / 2) <= exp (- (30)) * ((b - a) * (b - a) / 2)) by (apply Rmult_le_compat; lra).
  set (x := (1 + a) * exp (- a)) in *. set (y := (1 + b) * exp (- b)) in *. assert (K : interp_eps < x - y). { unfold interp_eps. apply (Rlt_le_trans _ (/ 2 ^ 90)); [apply Rinv_lt_contravar; lra|]. lra. }
  apply (Rmult_lt_reg_r m0); [lra|]. rewrite Rmult_plus_distr_r. replace ((1 - x) / m0 * m0) with (1 - x) by (field; lra). replace ((1 - y) / m0 * m0) with (1 - y) by (field; lra). assert (0 < interp_eps) by (unfold interp_eps; lra). nra.
Qed.
End HalfOrders.
