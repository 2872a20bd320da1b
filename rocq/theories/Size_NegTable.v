(** The shooting table of a Spergel profile with nu = -1/2. *)
From Coq Require Import ZArith QArith Qreals Reals Bool List Lra Lia.
From Coquelicot Require Import Coquelicot.
From Verif Require Import Base Bounds_Model Bounds_Proofs GSP_Model Sky_Model Util_Model Util_Spec Util_Proofs Size_Model Size_Spec Num_Consts Size_Proofs Size_Moffat Size_Band Size_Spergel Size_Neg.
Import ListNotations.
Open Scope R_scope.

(** 1 / 100000 is not reached by halving 40 *)
Lemma pow2_mod5 : forall k, (2 ^ Z.of_nat k mod 5 <> 0)%Z.
Proof.
  intro k. assert (H : (2 ^ Z.of_nat k mod 5 = 1 \/ 2 ^ Z.of_nat k mod 5 = 2 \/ 2 ^ Z.of_nat k mod 5 = 3 \/ 2 ^ Z.of_nat k mod 5 = 4)%Z).
  { induction k as [|k IH]; [now left|]. rewrite Nat2Z.inj_succ, Z.pow_succ_r by lia. rewrite Zmult_mod. destruct IH as [-> | [-> | [-> | ->]]]; cbn; tauto. }
  lia.
Qed.
Lemma not_dyadic : forall k, ~ dyadic 0 40 k (1 / 100000).
Proof.
  intros k [j J]. pose proof (pow2_pos k) as P. assert (E : 2 ^ k = 4000000 * IZR j) by (assert (H : 1 / 100000 * 2 ^ k = 40 * IZR j) by (rewrite J; field; lra); lra).
  rewrite pow_IZR, <- mult_IZR in E. apply eq_IZR in E. apply (pow2_mod5 k). rewrite E. replace (4000000 * j)%Z with (800000 * j * 5)%Z by ring. apply Z_mod_mult.
Qed.
Section Minus.
Variables (kv : R -> R -> R) (lgamma : R -> R) (inf : R).
Let nu := - (1 / 2).
Hypothesis K1 : forall z, 0 < z -> Rpower z (nu + 1) * kv (nu + 1) z = q0 * exp (- z).
Hypothesis K0 : forall z, 0 < z -> Rpower z nu * kv nu z = q0 * exp (- z) / z.
Hypothesis G1 : gammap1 lgamma inf nu = sqrt PI.
Hypothesis G3 : gamma_ lgamma inf (-2 - nu) = 4 / 3 * sqrt PI.
Let F := fluxfraction kv lgamma inf.
Let S0 := 1 / 100000.
Let t := 1 - exp (- S0).

Lemma jp2 : jpow 2 nu * sqrt PI = q0.
Proof. rewrite jpow_pos by lra. reflexivity. Qed.
Lemma F_at : forall z a, 1 / 10 ^ 10 < z -> F z nu a = 1 - exp (- z) - a.
Proof.
  intros z a Z. unfold F, fluxfraction, fz_nup1. destruct (Rltb_spec (1 / 10 ^ 10) z); [|lra]. rewrite G1, jp2, jpow_pos, K1 by lra. pose proof q0_pos. field. lra.
Qed.
Lemma F_small : forall z a, 0 <= z <= 1 / 10 ^ 10 -> F z nu a <= z - a.
Proof.
  intros z a Z. unfold F, fluxfraction, fz_nup1. destruct (Rltb_spec (1 / 10 ^ 10) z); [lra|]. unfold fsmallz_nup1. destruct (Reqb_spec nu 0); [unfold nu in *; lra|]. destruct (Reqb_spec nu 1); [unfold nu in *; lra|]. destruct (Reqb_spec nu 2); [unfold nu in *; lra|]. destruct (Reqb_spec nu 3); [unfold nu in *; lra|]. destruct (Reqb_spec nu 4); [unfold nu in *; lra|].
  unfold fnup1_small. rewrite G3, G1. replace (jpow 2 nu * sqrt PI) with q0 by (symmetry; apply jp2).
  replace (2 * (1 + nu)) with 1 by (unfold nu; lra). assert (J1 : jpow z 1 = z). { unfold jpow. destruct (Reqb_spec z 0) as [->|]; [destruct (Reqb_spec 1 0); [lra|reflexivity]|apply Rpower_1; lra]. } rewrite J1.
  assert (J2 : jpow 2 (-4 - nu) * sqrt PI = q0 / 8). { rewrite jpow_pos by lra. replace (-4 - nu) with (- (1 / 2) + - INR 3) by (unfold nu; cbn; lra). rewrite Rpower_plus, (Rpower_Ropp 2 (INR 3)), Rpower_nat. unfold q0. cbn [pow]. field. }
  pose proof q0_pos as Q. match goal with |- 1 - ?x / q0 - a <= _ => replace x with (q0 * (1 - z + z * z / 2 - z * z * z / 6 + z * z * z * z / 24)) end.
  - replace (1 - q0 * (1 - z + z * z / 2 - z * z * z / 6 + z * z * z * z / 24) / q0 - a) with (z - z * z / 2 + z * z * z / 6 - z * z * z * z / 24 - a) by (field; lra). assert (0 <= z * z) by nra. assert (0 <= z * z * z <= z * z) by nra. assert (0 <= z * z * z * z) by nra. lra.
  - replace (- jpow 2 (-4 - nu) * (4 / 3 * sqrt PI) * (8 + 4 * nu + z * z) * z) with (- (jpow 2 (-4 - nu) * sqrt PI) * (4 / 3) * (8 + 4 * nu + z * z) * z) by ring. rewrite J2. unfold nu. unfold Q2R. cbn [Qnum Qden]. field.
Qed.
Lemma t_range : S0 * (99999 / 100000) <= t <= S0.
Proof.
  unfold t. pose proof (exp_ineq1_le (- S0)). split; [|lra]. assert (exp (- S0) <= 1 - S0 + S0 * S0); [|unfold S0 in *; lra].
  rewrite exp_Ropp. pose proof (exp_ineq1_le S0) as E. assert (P : 0 < 1 + S0) by (unfold S0; lra). apply (Rle_trans _ (/ (1 + S0))); [apply Rinv_le_contravar; lra|]. apply (Rmult_le_reg_r (1 + S0)); [lra|]. rewrite Rinv_l by lra. unfold S0. lra.
Qed.
Lemma exp_lt : forall a b, a < b -> exp (- b) < exp (- a).
Proof. intros a b H. apply exp_increasing. lra. Qed.
Let s := flux_radius kv lgamma inf t nu 0 40.
Lemma s_range : S0 < s <= S0 + 1 / 10 ^ 15.
Proof.
  pose proof t_range as T. set (f := fun z => fluxfraction kv lgamma inf z nu t). assert (SG : f 0 * f 40 < 0).
  { unfold f. fold F. pose proof (F_small 0 t ltac:(lra)) as A. rewrite (F_at 40) by lra. assert (0 < 1 - exp (- (40)) - t) by (unfold t; pose proof (exp_lt S0 40 ltac:(unfold S0; lra)); lra). unfold S0 in *. nra. }
  assert (NEG : forall z, 0 <= z -> z < S0 -> f z < 0).
  { intros z Z ZS. unfold f. fold F. destruct (Rle_lt_dec z (1 / 10 ^ 10)) as [l|l]; [pose proof (F_small z t ltac:(lra)); unfold S0 in *; lra|]. rewrite F_at by lra. unfold t. pose proof (exp_lt z S0 ZS). lra. }
  assert (POS : forall z, S0 < z -> 0 < f z).
  { intros z Z. unfold f. fold F. rewrite F_at by (unfold S0 in *; lra). unfold t. pose proof (exp_lt S0 z Z). lra. }
  destruct (bisect_general f 75 0 40 ltac:(lra) SG) as [[a [A1 [A2 [A3 [A4 A5]]]]] | [k [x [_ [D [X [Z _]]]]]]].
  - fold (flux_radius kv lgamma inf t nu 0 40) in *. change (bisect_for_root f 0 40 75) with s in *. assert (A6 : s - a <= 1 / 10 ^ 15) by (rewrite A4; lra).
    assert (NZ : forall z, 0 <= z -> f z <> 0 -> z <> S0). { intros z Z N ->. apply N. unfold f. fold F. rewrite F_at by (unfold S0; lra). unfold t. ring. }
    assert (a <> S0) by (apply NZ; [lra|]; intro E; rewrite E in A5; lra). assert (s <> S0) by (apply NZ; [lra|]; intro E; rewrite E in A5; lra).
    destruct (Rlt_le_dec S0 s) as [l|l]; [|pose proof (NEG s ltac:(lra) ltac:(lra)); pose proof (NEG a ltac:(lra) ltac:(lra)); nra].
    destruct (Rlt_le_dec S0 a) as [m|m]; [pose proof (POS a m); pose proof (POS s l); nra|]. lra.
  - exfalso. destruct (Rtotal_order x S0) as [O|[O|O]]; [pose proof (NEG x ltac:(lra) O); lra| |pose proof (POS x O); lra]. subst x. exact (not_dyadic k D).
Qed.
Variable p : spergel.
Hypothesis NP : sp_nu p = nu.
Hypothesis TP : g_shoot (sp_gs p) = t.
Let zm := sp_zmax kv lgamma inf p.
Lemma exp_mult_nat : forall x n, exp (INR n * x) = exp x ^ n.
Proof. intros x n. induction n as [|n IH]; [cbn [INR pow]; rewrite Rmult_0_l; apply exp_0|]. rewrite S_INR, Rmult_plus_distr_r, Rmult_1_l, exp_plus, IH. cbn [pow]. ring. Qed.
Lemma exp_10 : 1 / 60000 <= exp (- (10)).
Proof.
  rewrite exp_Ropp. assert (E1 : exp 1 <= 3) by apply exp_le_3. assert (E : exp 10 <= 60000).
  { replace 10 with (INR 10 * 1) by (cbn; lra). rewrite exp_mult_nat. apply (Rle_trans _ (3 ^ 10)); [apply pow_incr; pose proof (exp_pos 1); lra|lra]. }
  unfold Rdiv. rewrite Rmult_1_l. apply Rinv_le_contravar; [apply exp_pos|exact E].
Qed.
Lemma exp_15 : exp (- (15)) <= 1 / 500000.
Proof.
  rewrite exp_Ropp. assert (E : 500000 <= exp 15).
  { replace 15 with (INR 60 * (1 / 4)) by (cbn; lra). rewrite exp_mult_nat. apply (Rle_trans _ ((5 / 4) ^ 60)); [lra|]. apply pow_incr. pose proof (exp_ineq1_le (1 / 4)). lra. }
  unfold Rdiv. rewrite Rmult_1_l. apply Rinv_le_contravar; [lra|exact E].
Qed.
Lemma zm_range : 2 <= zm <= 30.
Proof.
  unfold zm, sp_zmax. rewrite NP, TP. unfold flux_radius. set (f := fun z => fluxfraction kv lgamma inf z nu (1 - t)). pose proof t_range as T. split; [|apply bisect_strict; lra].
  assert (NEG : forall z, 0 <= z <= 10 -> f z < 0).
  { intros z Z. unfold f. fold F. destruct (Rle_lt_dec z (1 / 10 ^ 10)) as [l|l]; [pose proof (F_small z (1 - t) ltac:(lra)); unfold S0 in *; lra|]. rewrite F_at by lra. pose proof exp_10. assert (exp (- (10)) <= exp (- z)) by (apply exp_le; lra). unfold S0 in *. lra. }
  assert (SG : f 0 * f 30 < 0).
  { pose proof (NEG 0 ltac:(lra)). assert (0 < f 30); [|nra]. unfold f. fold F. rewrite F_at by lra. pose proof exp_15. pose proof (exp_lt 15 30 ltac:(lra)). unfold S0 in *. lra. }
  destruct (bisect_general f 75 0 30 ltac:(lra) SG) as [[a [A1 [A2 [A3 [A4 A5]]]]] | [k [x [K [[j J] [X [Z L]]]]]]]; set (r := bisect_for_root f 0 30 75) in *.
  - destruct (Rle_lt_dec r 10) as [l|l]; [|lra]. pose proof (NEG r ltac:(lra)). pose proof (NEG a ltac:(lra)). nra.
  - destruct (Rle_lt_dec x 10) as [l|l]; [pose proof (NEG x ltac:(lra)); lra|]. destruct (Nat.eq_dec k 1) as [->|N1].
    + exfalso. assert (JJ : x = 15). { cbn [pow] in J. assert (x = 15 * IZR j) by lra. assert (0 < j < 2)%Z by (split; apply lt_IZR; lra). replace j with 1%Z in * by lia. lra. }
      subst x. rewrite JJ in Z. unfold f in Z. fold F in Z. rewrite F_at in Z by lra. pose proof exp_15. unfold S0 in *. lra.
    + assert (P4 : (30 - 0) / 2 ^ k <= 15 / 2). { replace k with (2 + (k - 2))%nat by lia. rewrite pow_add. assert (1 <= 2 ^ (k - 2)) by (apply pow_R1_Rle; lra). apply (Rmult_le_reg_r (2 ^ 2 * 2 ^ (k - 2))); [lra|]. unfold Rdiv at 1. rewrite Rmult_assoc, Rinv_l by lra. lra. }
      lra.
Qed.
(** the line inside, with its slope and intercept in each other's place *)
Let fm := let '(a, b) := sp_line kv lgamma inf p in a / 3 * s * s * s + b / 2 * s * s.
Lemma fm_value : fm = q0 * (- (2 / 3) * exp (- s) * s ^ 2 + 2 * t * s + 3 / 2 * exp (- s) - 3 * t / s).
Proof.
  pose proof s_range as SR. assert (SP : 1 / 10 ^ 10 < s) by (unfold S0 in SR; lra). unfold fm, sp_line, sp_rmin. rewrite NP, TP. fold s. unfold fz_nu. destruct (Rltb_spec (1 / 10 ^ 10) s); [|lra]. rewrite jpow_pos, K0 by lra.
  unfold sp_shootxnorm. rewrite NP, G1. replace (2 * PI * jpow 2 nu * sqrt PI) with (2 * PI * q0) by (rewrite <- jp2; ring). pose proof q0_pos. pose proof PI_RGT_0. field. repeat split; lra.
Qed.
Lemma fm_neg : fm <= - (7 / 5) * q0.
Proof.
  rewrite fm_value. pose proof s_range as SR. pose proof t_range as T. pose proof q0_pos as Q. assert (E1 : exp (- s) <= 1) by (rewrite <- exp_0; apply exp_le; unfold S0 in SR; lra). pose proof (exp_pos (- s)) as E0.
  assert (R1 : 299 / 100 <= 3 * t / s). { apply (Rmult_le_reg_r s); [unfold S0 in SR; lra|]. replace (3 * t / s * s) with (3 * t) by (field; unfold S0 in SR; lra). unfold S0 in *. lra. }
  assert (R2 : 0 <= exp (- s) * s ^ 2) by (apply Rmult_le_pos; [lra|nra]). assert (R3 : t * s <= 1 / 1000) by (unfold S0 in *; nra). 
  rewrite (Rmult_comm (- (7 / 5))). apply Rmult_le_compat_l; [lra|]. lra.
Qed.
Let c := fm / q0 + exp (- s).
Lemma c_neg : c <= - (2 / 5).
Proof.
  unfold c. pose proof fm_neg as H. pose proof q0_pos as Q. assert (E1 : exp (- s) <= 1) by (rewrite <- exp_0; apply exp_le; pose proof s_range; unfold S0 in *; lra).
  assert (fm / q0 <= - (7 / 5)); [|lra]. apply (Rmult_le_reg_r q0); [exact Q|]. replace (fm / q0 * q0) with fm by (field; lra). exact H.
Qed.
Lemma cumul : forall z norm, s < z -> norm <> 0 -> cumulflux kv lgamma inf z (fst (sp_line kv lgamma inf p)) (snd (sp_line kv lgamma inf p)) s nu norm = q0 * (c - exp (- z)) / norm.
Proof.
  intros z norm Z N. pose proof s_range as SR. assert (SP : 1 / 10 ^ 10 < s) by (unfold S0 in SR; lra). unfold cumulflux. destruct (Rltb_spec s z); [|lra]. unfold fz_nup1. destruct (Rltb_spec (1 / 10 ^ 10) s); [|lra]. destruct (Rltb_spec (1 / 10 ^ 10) z); [|lra]. rewrite !jpow_pos, !K1 by lra.
  unfold c, fm. destruct (sp_line kv lgamma inf p) as [a b]. cbn [fst snd]. pose proof q0_pos. field. lra.
Qed.
Lemma neg_at : forall n i, s < sp_z_cdf kv lgamma inf n p i -> sp_neg_cdf kv lgamma inf n p i = (c - exp (- sp_z_cdf kv lgamma inf n p i)) / (c - exp (- zm)).
Proof.
  intros n i H. pose proof c_neg as C. pose proof zm_range as ZR. pose proof s_range as SR. pose proof q0_pos as Q. pose proof (exp_pos (- zm)) as EZ. unfold sp_neg_cdf. pose proof (cumul zm 1 ltac:(unfold S0 in SR; lra) ltac:(lra)) as M.
  pose proof (cumul (sp_z_cdf kv lgamma inf n p i) (q0 * (c - exp (- zm)) / 1) H ltac:(assert (0 < q0 * (exp (- zm) - c)) by (apply Rmult_lt_0_compat; lra); lra)) as M2.
  destruct (sp_line kv lgamma inf p) as [a b]. cbn [fst snd] in M, M2. unfold sp_rmin. rewrite NP, TP. fold s zm. rewrite M, M2. field. repeat split; lra.
Qed.
Lemma neg_0 : forall n, (1 < n)%nat -> sp_neg_cdf kv lgamma inf n p 0 = 0.
Proof.
  intros n N. unfold sp_neg_cdf. destruct (sp_line kv lgamma inf p) as [a b]. unfold sp_z_cdf. rewrite linspace_0 by exact N. unfold cumulflux at 1. unfold sp_rmin. rewrite NP, TP. fold s. destruct (Rltb_spec s 0) as [l|l]; [pose proof s_range; unfold S0 in *; lra|]. unfold Rdiv. ring.
Qed.
Lemma node_range : forall n i, (1 < n)%nat -> INR (n - 1) <= 9999 -> (1 <= i)%nat -> s < sp_z_cdf kv lgamma inf n p i.
Proof.
  intros n i N P2 I1. pose proof zm_range as ZR. pose proof s_range as SR. eapply Rlt_le_trans; [|apply linspace_ge1; [lia|fold zm; lra|exact I1]]. fold zm. assert (P : 0 < INR (n - 1)) by (apply lt_0_INR; lia).
  apply (Rmult_lt_reg_r (INR (n - 1))); [exact P|]. replace (zm / INR (n - 1) * INR (n - 1)) with zm by (field; lra). unfold S0 in SR. nra.
Qed.
Lemma neg_table : forall n, (1 < n)%nat -> INR (n - 1) <= 9999 ->
  sp_neg_cdf kv lgamma inf n p 0 = 0 /\ sp_neg_cdf kv lgamma inf n p (n - 1) = 1 /\ (forall i j, (1 <= i)%nat -> (i < j)%nat -> sp_neg_cdf kv lgamma inf n p j < sp_neg_cdf kv lgamma inf n p i).
Proof.
  intros n N N2. pose proof c_neg as C. pose proof zm_range as ZR. pose proof (exp_pos (- zm)) as EZ. repeat split.
  - apply neg_0. lia.
  - rewrite neg_at by (apply node_range; [lia|exact N2|lia]). unfold sp_z_cdf. rewrite linspace_end by lia. fold zm. field. lra.
  - intros i j I1 IJ. rewrite !neg_at by (apply node_range; [lia|exact N2|lia]). set (zi := sp_z_cdf kv lgamma inf n p i). set (zj := sp_z_cdf kv lgamma inf n p j). assert (zi < zj) by (apply linspace_lt; [lia|fold zm; lra|exact IJ]).
    pose proof (exp_lt zi zj H). assert (E : forall x, (c - x) / (c - exp (- zm)) = (x - c) * / (exp (- zm) - c)) by (intro x; field; lra). rewrite !E. apply Rmult_lt_compat_r; [apply Rinv_0_lt_compat; lra|lra].
Qed.
(** so that every photon falls within the first step of the table *)
Lemma neg_photons : forall search n u, searches search -> (2 < n)%nat -> INR (n - 1) <= 9999 -> 0 <= u < 1 -> 0 <= sp_r0 p -> 0 <= sp_shoot_radius kv lgamma inf search n p u <= sp_r0 p * (30 / INR (n - 1)).
Proof.
  intros search n u SE N N2 U R0. destruct (neg_table n ltac:(lia) N2) as (T0 & T1 & TD). pose proof zm_range as ZR. unfold sp_shoot_radius. destruct (Rltb_spec 0 (sp_nu p)) as [l|_]; [rewrite NP in l; unfold nu in l; lra|].
  assert (GE : forall i, (1 <= i < n)%nat -> 1 <= sp_neg_cdf kv lgamma inf n p i).
  { intros i I1. destruct (Nat.eq_dec i (n - 1)) as [->|NE]; [lra|]. pose proof (TD i (n - 1)%nat ltac:(lia) ltac:(lia)). lra. }
  destruct (SE n (sp_neg_cdf kv lgamma inf n p) u) as (S1 & S2 & S3). unfold interp. set (j := search n (sp_neg_cdf kv lgamma inf n p) u) in *.
  clearbody j. assert (J : j = 1%nat). { destruct j as [|[|j]]; [specialize (S3 ltac:(lia)); lra|reflexivity|]. specialize (S2 ltac:(lia)). replace (S (S j) - 1)%nat with (S j) in S2 by lia. pose proof (GE (S j) ltac:(lia)). lra. }
  rewrite J. replace (Nat.min (Nat.max 1 1) (n - 1)) with 1%nat by lia. replace (1 - 1)%nat with 0%nat by lia. rewrite T0, T1. destruct (Rltb_spec 1 u); [lra|]. destruct (Rltb_spec u 0); [lra|].
  pose proof (GE 1%nat ltac:(lia)) as C1. set (c1 := sp_neg_cdf kv lgamma inf n p 1) in *. rewrite Rminus_0_r, Rabs_pos_eq by lra. destruct (Rltb_spec interp_eps c1) as [l|l]; [|exfalso; unfold interp_eps in l; lra].
  assert (Z0 : sp_z_cdf kv lgamma inf n p 0 = 0) by (unfold sp_z_cdf; apply linspace_0; lia). rewrite Z0. assert (P : 0 < INR (n - 1)) by (apply lt_0_INR; lia).
  assert (Z1 : sp_z_cdf kv lgamma inf n p 1 = zm / INR (n - 1)). { unfold sp_z_cdf, linspace. fold zm. cbn [INR]. field. lra. } rewrite Z1, !Rminus_0_r, Rplus_0_l.
  assert (W : 0 <= u / c1 <= 1). { split; [apply Rmult_le_pos; [lra|apply Rlt_le, Rinv_0_lt_compat; lra]|]. apply (Rmult_le_reg_r c1); [lra|]. replace (u / c1 * c1) with u by (field; lra). lra. }
  assert (V : 0 <= zm / INR (n - 1) <= 30 / INR (n - 1)). { split; [apply Rmult_le_pos; [lra|apply Rlt_le, Rinv_0_lt_compat; lra]|]. apply Rmult_le_compat_r; [apply Rlt_le, Rinv_0_lt_compat; lra|lra]. }
  set (w := u / c1) in *. set (v := zm / INR (n - 1)) in *. set (b := 30 / INR (n - 1)) in *. clearbody w v b. assert (0 <= w * v <= b) by nra. nra.
Qed.
End Minus.
