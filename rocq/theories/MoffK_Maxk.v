(** maxk in the coordinates of the fit; logarithms of rationals. *)
From Coq Require Import ZArith QArith Qreals Reals Bool List Lra Lia.
From Verif Require Import Base Bounds_Model GSP_Model Size_Model Num_Consts MoffK_Model MoffK_Int MoffK_Fit.
Import ListNotations.
Open Scope R_scope.

Definition bcoord (beta : R) : R := (ln beta - log_beta_min) / (log_beta_max - log_beta_min).
Definition tcoord (thr : R) : R := (ln thr - log_mkts_min) / (log_mkts_max - log_mkts_min).
Lemma maxk_fit : forall p, 0 < mo_r0 p -> mo_maxk p * mo_r0 p = exp (pade2 fit_table (bcoord (mo_beta p)) (tcoord (g_maxk (mo_gs p)))).
Proof. intros p R0. unfold mo_maxk, logmaxk, fit_table, bcoord, tcoord. cbv zeta. set (e := exp _). unfold Rdiv at 1. rewrite Rmult_assoc, Rinv_l by lra. apply Rmult_1_r. Qed.

(** * Logarithms *)
Lemma ln_pow : forall x n, 0 < x -> ln (x ^ n) = INR n * ln x.
Proof. intros x n X. induction n as [|n IH]; [cbn; rewrite ln_1; ring|]. rewrite S_INR. cbn [pow]. rewrite ln_mult, IH by (try apply pow_lt; exact X). ring. Qed.
Lemma two64 : IZR (2 ^ 64) = 18446744073709551616.
Proof. reflexivity. Qed.
(** x + x^3/3 + ... with the next power *)
Fixpoint iodd (xi x2 : itv) (n : nat) : itv * itv :=
  match n with
  | O => (xi, (0, 0)%Z)
  | S n => let r := iodd xi x2 n in
      let d := Z.of_nat (2 * n + 1) in
      (istep 64 x2 (fst r) (0, 0)%Z, ((fst (snd r) + fst (fst r) / d)%Z, (snd (snd r) + snd (fst r) / d + 1)%Z))
  end.
Lemma iodd_ok : forall x xi x2 n, inI 64 xi x -> inI 64 x2 (x * x) -> inI 64 (fst (iodd xi x2 n)) (x ^ (2 * n + 1)) /\ inI 64 (snd (iodd xi x2 n)) (odd_sum 1 n x).
Proof.
  intros x xi x2 n X X2. induction n as [|n [P A]].
  - cbn [iodd fst snd odd_sum]. split; [replace (x ^ (2 * 0 + 1)) with x by (cbn; ring); exact X|]. unfold inI. cbn [fst snd]. lra.
  - cbn [iodd odd_sum]. cbv zeta. set (r := iodd xi x2 n) in *. cbn [fst snd]. split.
    + replace (x ^ (2 * S n + 1)) with (x ^ (2 * n + 1) * (x * x) + 0) by (replace (2 * S n + 1)%nat with (2 + (2 * n + 1))%nat by lia; rewrite (pow_add x 2); cbn [pow]; ring).
      apply istep_ok; [discriminate|exact X2|exact P|]. unfold inI. cbn [fst snd]. lra.
    + rewrite pow1, Rmult_1_l. unfold inI in *. rewrite two64 in *. cbn [fst snd]. set (d := Z.of_nat (2 * n + 1)). assert (D : (0 < d)%Z) by (unfold d; lia). rewrite INR_IZR_INZ. fold d. apply IZR_lt in D as D'.
      rewrite !plus_IZR. pose proof (div_le (fst (fst r)) d D) as L1.
      assert (L2 : IZR (snd (fst r)) / IZR d <= IZR (snd (fst r) / d) + 1).
      { apply (Rmult_le_reg_r (IZR d)); [exact D'|]. unfold Rdiv. rewrite Rmult_assoc, Rinv_l, Rmult_1_r by lra. rewrite <- plus_IZR, <- mult_IZR. apply IZR_le.
        pose proof (Z.mod_pos_bound (snd (fst r)) d D). pose proof (Z.div_mod (snd (fst r)) d ltac:(lia)). nia. }
      assert (I0 : 0 < / IZR d) by (now apply Rinv_0_lt_compat). set (v := x ^ (2 * n + 1)) in *. unfold Rdiv in *. split.
      * apply Rle_trans with (IZR (fst (snd r)) + IZR (fst (fst r)) * / IZR d); [lra|]. assert (IZR (fst (fst r)) * / IZR d <= v * 18446744073709551616 * / IZR d) by (apply Rmult_le_compat_r; lra). lra.
      * assert (v * 18446744073709551616 * / IZR d <= IZR (snd (fst r)) * / IZR d) by (apply Rmult_le_compat_r; lra). lra.
Qed.
(** ln (a / b) for a / b = 2^k (1 + x) / (1 - x), 0 <= x <= 1/3 *)
Definition ln_num (k a : Z) : Z := (a * 2 ^ Z.max 0 (- k))%Z.
Definition ln_den (k b : Z) : Z := (b * 2 ^ Z.max 0 k)%Z.
Definition ln_i (k a b : Z) : itv :=
  let u := (ln_num k a - ln_den k b)%Z in let w := (ln_num k a + ln_den k b)%Z in
  let l := (u * 2 ^ 64 / w)%Z in let xi := (l, l + 1)%Z in
  let r := snd (iodd xi (istep 64 xi xi (0, 0)%Z) 20) in
  let k0 := Z.max 0 k in let k1 := Z.max 0 (- k) in
  ((2 * fst r + k0 * 12786308645202655659 - k1 * 12786308645202655660)%Z, (2 * snd r + 6 + k0 * 12786308645202655660 - k1 * 12786308645202655659)%Z).
Definition ln_cond (k a b : Z) : bool :=
  ((0 <? a) && (0 <? b) && (ln_den k b <=? ln_num k a) && (3 * (ln_num k a - ln_den k b) <=? ln_num k a + ln_den k b))%Z.
Lemma pow2_R : forall z, (0 <= z)%Z -> 0 < IZR (2 ^ z) /\ ln (IZR (2 ^ z)) = IZR z * ln 2.
Proof.
  intros z Z0. rewrite <- (Z2Nat.id z Z0). rewrite <- pow_IZR. split; [apply pow_lt; lra|]. rewrite ln_pow by lra. now rewrite INR_IZR_INZ.
Qed.
Lemma ln_i_ok : forall k a b, ln_cond k a b = true -> inI 64 (ln_i k a b) (ln (IZR a / IZR b)).
Proof.
  intros k a b H. unfold ln_cond in H. apply andb_true_iff in H as [H H4]. apply andb_true_iff in H as [H H3]. apply andb_true_iff in H as [H1 H2].
  apply Z.ltb_lt in H1, H2. apply Z.leb_le in H3, H4. unfold ln_i. cbv zeta.
  destruct (pow2_R (Z.max 0 k) ltac:(lia)) as [P0 L0]. destruct (pow2_R (Z.max 0 (- k)) ltac:(lia)) as [P1 L1].
  assert (NA : IZR (ln_num k a) = IZR a * IZR (2 ^ Z.max 0 (- k))) by (unfold ln_num; apply mult_IZR). assert (DB : IZR (ln_den k b) = IZR b * IZR (2 ^ Z.max 0 k)) by (unfold ln_den; apply mult_IZR).
  set (N := ln_num k a) in *. set (D := ln_den k b) in *. apply IZR_lt in H1, H2.
  assert (NP : 0 < IZR N) by (rewrite NA; now apply Rmult_lt_0_compat). assert (DP : 0 < IZR D) by (rewrite DB; now apply Rmult_lt_0_compat).
  assert (W : (0 < N + D)%Z) by (apply lt_IZR; rewrite plus_IZR; lra). set (u := (N - D)%Z) in *. set (w := (N + D)%Z) in *. set (x := IZR u / IZR w).
  assert (WR : 0 < IZR w) by now apply IZR_lt. assert (U0 : 0 <= IZR u) by (apply IZR_le; unfold u; lia).
  assert (E : ln (IZR a / IZR b) = IZR (Z.max 0 k) * ln 2 - IZR (Z.max 0 (- k)) * ln 2 + ln ((1 + x) / (1 - x))).
  { assert (XE : (1 + x) / (1 - x) = IZR N / IZR D). { unfold x, u, w. rewrite minus_IZR, plus_IZR. field. unfold w in WR. rewrite plus_IZR in WR. lra. }
    rewrite XE, NA, DB. unfold Rdiv. rewrite !ln_mult, !ln_Rinv, !ln_mult by (try apply Rinv_0_lt_compat; try apply Rmult_lt_0_compat; assumption). lra. }
  assert (XI : inI 64 ((u * 2 ^ 64 / w)%Z, (u * 2 ^ 64 / w + 1)%Z) x).
  { unfold inI. rewrite two64. cbn [fst snd]. pose proof (div_le (u * 2 ^ 64) w W) as Q1. rewrite mult_IZR, two64 in Q1. split; [unfold x, Rdiv in *; lra|].
    apply (Rmult_le_reg_r (IZR w)); [exact WR|]. replace (x * 18446744073709551616 * IZR w) with (IZR (u * 2 ^ 64)) by (rewrite mult_IZR, two64; unfold x; field; lra). rewrite <- mult_IZR. apply IZR_le.
    pose proof (Z.mod_pos_bound (u * 2 ^ 64) w W). pose proof (Z.div_mod (u * 2 ^ 64) w ltac:(lia)). nia. }
  set (xi := (_, _)) in XI |- *.
  assert (X2 : inI 64 (istep 64 xi xi (0, 0)%Z) (x * x)). { replace (x * x) with (x * x + 0) by ring. apply istep_ok; [discriminate|exact XI|exact XI|]. unfold inI. cbn [fst snd]. lra. }
  destruct (iodd_ok x xi _ 20 XI X2) as [_ [A1 A2]]. set (r := snd (iodd _ _ _)) in *. rewrite two64 in A1, A2.
  assert (XB : 0 <= x <= 1 / 3). { split; [apply Rmult_le_pos; [exact U0|left; now apply Rinv_0_lt_compat]|]. apply (Rmult_le_reg_r (IZR w)); [exact WR|]. replace (x * IZR w) with (IZR u) by (unfold x; field; lra). apply IZR_le in H4. rewrite mult_IZR in H4. lra. }
  set (q := u # Z.to_pos w). assert (QX : Q2R q = x) by (unfold q, Q2R, x; cbn [Qnum Qden]; now rewrite Z2Pos.id by exact W).
  pose proof (log_q q 20 (2 * odd_q 1 20 q) (2 * odd_q 1 20 q + 11 * qpow q (2 * 20 + 1))) as L.
  assert (Q0 : Qle_bool 0 q = true) by (apply Qle_bool_iff, Rle_Qle; rewrite QX, RMicromega.Q2R_0; lra).
  assert (Q9 : Qle_bool q (9 # 10) = true) by (apply Qle_bool_iff, Rle_Qle; rewrite QX; unfold Q2R; cbn [Qnum Qden]; lra).
  specialize (L Q0 Q9 ltac:(apply Qle_bool_iff, Qle_refl) ltac:(apply Qle_bool_iff, Qle_refl)). rewrite Q2R_plus, !Q2R_mult, Q2R_odd, Q2R_pow, QX, RMicromega.Q2R_1 in L.
  replace (Q2R 2) with 2 in L by (unfold Q2R; cbn; field). replace (Q2R 11) with 11 in L by (unfold Q2R; cbn; field).
  assert (R1 : 11 * x ^ (2 * 20 + 1) * 18446744073709551616 <= 6). { assert (x ^ (2 * 20 + 1) <= (1 / 3) ^ (2 * 20 + 1)) by (apply pow_incr; lra). assert ((1 / 3) ^ (2 * 20 + 1) <= 1 / 36472996377170786403) by (cbn [Nat.mul Nat.add pow]; lra). lra. }
  pose proof ln2_bounds as [M1 M2]. unfold ln2_lo, ln2_hi, Q2R in M1, M2. cbn [Qnum Qden] in M1, M2.
  assert (K0 : 0 <= IZR (Z.max 0 k)) by (apply IZR_le; lia). assert (K1 : 0 <= IZR (Z.max 0 (- k))) by (apply IZR_le; lia).
  set (o := odd_sum 1 20 x) in *. set (pw := x ^ (2 * 20 + 1)) in *. set (lx := ln ((1 + x) / (1 - x))) in *. unfold inI. rewrite two64. rewrite E. cbn [fst snd]. repeat rewrite ?plus_IZR, ?minus_IZR, ?mult_IZR.
  set (c0 := IZR (Z.max 0 k)) in *. set (c1 := IZR (Z.max 0 (- k))) in *.
  assert (T1 : 12786308645202655659 <= ln 2 * 18446744073709551616 <= 12786308645202655660) by lra. destruct T1 as [T1 T2].
  assert (Y1 := Rmult_le_compat_l c0 _ _ K0 T1). assert (Y2 := Rmult_le_compat_l c0 _ _ K0 T2). assert (Y3 := Rmult_le_compat_l c1 _ _ K1 T1). assert (Y4 := Rmult_le_compat_l c1 _ _ K1 T2).
  revert Y1 Y2 Y3 Y4 R1 A1 A2 L. generalize (ln 2) (IZR (fst r)) (IZR (snd r)). clear. intros l2 rl rh. intros. lra.
Qed.
(** lo / d <= ln (a / b) <= hi / d by computation *)
Definition ln_check (k a b lo hi d : Z) : bool :=
  ln_cond k a b && ((0 <? d) && (lo * 2 ^ 64 <=? fst (ln_i k a b) * d) && (snd (ln_i k a b) * d <=? hi * 2 ^ 64))%Z.
Lemma ln_between : forall k a b lo hi d, ln_check k a b lo hi d = true -> IZR lo / IZR d <= ln (IZR a / IZR b) <= IZR hi / IZR d.
Proof.
  intros k a b lo hi d H. unfold ln_check in H. apply andb_true_iff in H as [H H2]. apply andb_true_iff in H2 as [H2 H4]. apply andb_true_iff in H2 as [H2 H3].
  destruct (ln_i_ok k a b H) as [A B]. rewrite two64 in A, B. apply Z.ltb_lt, IZR_lt in H2. apply Z.leb_le, IZR_le in H3, H4. rewrite !mult_IZR, two64 in H3, H4. set (v := ln _) in *.
  split; (apply (Rmult_le_reg_r (IZR d)); [exact H2|]); unfold Rdiv; rewrite Rmult_assoc, Rinv_l, Rmult_1_r by lra.
  - assert (IZR (fst (ln_i k a b)) * IZR d <= v * 18446744073709551616 * IZR d) by (apply Rmult_le_compat_r; lra). lra.
  - assert (v * 18446744073709551616 * IZR d <= IZR (snd (ln_i k a b)) * IZR d) by (apply Rmult_le_compat_r; lra). lra.
Qed.

(** * The coordinates *)
Lemma ln10_b : 2.302585092994045 <= ln 10 <= 2.302585092994046.
Proof. pose proof (ln_between 3 10 1 2302585092994045 2302585092994046 1000000000000000 ltac:(vm_compute; reflexivity)) as H. replace (10 / 1) with 10 in H by field. lra. Qed.
Lemma log_beta_min_b : 0.09531108889482 <= log_beta_min <= 0.09531108889483.
Proof. pose proof (ln_between 0 1100001 1000000 9531108889482 9531108889483 100000000000000 ltac:(vm_compute; reflexivity)) as H. unfold log_beta_min. replace (1.1 + / 10 ^ 6) with (1100001 / 1000000) by lra. lra. Qed.
Lemma log_beta_max_v : log_beta_max = 2 * ln 10.
Proof. unfold log_beta_max. replace 100 with (10 ^ 2) by ring. rewrite ln_pow by lra. cbn [INR]. ring. Qed.
Lemma log_mkts_min_v : log_mkts_min = - (12 * ln 10).
Proof. unfold log_mkts_min. rewrite ln_Rinv by (apply pow_lt; lra). rewrite ln_pow by lra. rewrite INR_IZR_INZ. cbn. reflexivity. Qed.
Lemma log_mkts_max_v : log_mkts_max = - ln 10.
Proof. unfold log_mkts_max. replace 0.1 with (/ 10) by lra. rewrite ln_Rinv by lra. reflexivity. Qed.
Lemma ln_thr : forall m, ln (/ 10 ^ m) = - (INR m * ln 10).
Proof. intro m. rewrite ln_Rinv by (apply pow_lt; lra). rewrite ln_pow by lra. reflexivity. Qed.
Lemma tcoord_pow : forall m, tcoord (/ 10 ^ m) = (12 - INR m) / 11.
Proof. intro m. unfold tcoord. rewrite ln_thr, log_mkts_min_v, log_mkts_max_v. pose proof ln10_b. field. lra. Qed.
Lemma tcoord_range : forall t, / 10 ^ 12 <= t <= 1 / 10 -> 0 <= tcoord t <= 1.
Proof.
  intros t [A B]. assert (P : 0 < / 10 ^ 12) by (apply Rinv_0_lt_compat, pow_lt; lra). assert (L1 : log_mkts_min <= ln t) by (unfold log_mkts_min; destruct A as [A| <-]; [left; now apply ln_increasing|lra]).
  assert (L2 : ln t <= log_mkts_max). { unfold log_mkts_max. destruct B as [B| ->]; [left; apply ln_increasing; lra|right; f_equal; lra]. }
  unfold tcoord. rewrite log_mkts_min_v, log_mkts_max_v in *. pose proof ln10_b. set (d := - ln 10 - - (12 * ln 10)). assert (D : 0 < d) by (unfold d; lra). split.
  - apply Rmult_le_pos; [lra|left; now apply Rinv_0_lt_compat].
  - apply (Rmult_le_reg_r d); [exact D|]. unfold Rdiv. rewrite Rmult_assoc, Rinv_l by lra. unfold d. lra.
Qed.
Lemma bcoord_ge : forall b q, q * (log_beta_max - log_beta_min) <= ln b - log_beta_min -> q <= bcoord b.
Proof. intros b q H. unfold bcoord. pose proof log_beta_min_b. pose proof log_beta_max_v. pose proof ln10_b. apply (Rmult_le_reg_r (log_beta_max - log_beta_min)); [lra|]. unfold Rdiv. rewrite Rmult_assoc, Rinv_l by lra. lra. Qed.
Lemma bcoord_le : forall b q, ln b - log_beta_min <= q * (log_beta_max - log_beta_min) -> bcoord b <= q.
Proof. intros b q H. unfold bcoord. pose proof log_beta_min_b. pose proof log_beta_max_v. pose proof ln10_b. apply (Rmult_le_reg_r (log_beta_max - log_beta_min)); [lra|]. unfold Rdiv. rewrite Rmult_assoc, Rinv_l by lra. lra. Qed.
Lemma bcoord_range : forall b, 1.1 + / 10 ^ 6 <= b <= 100 -> 0 <= bcoord b <= 1.
Proof.
  intros b [A B]. assert (P : 0 < / 10 ^ 6) by (apply Rinv_0_lt_compat, pow_lt; lra). split.
  - apply bcoord_ge. assert (log_beta_min <= ln b) by (unfold log_beta_min; destruct A as [A| <-]; [left; apply ln_increasing; lra|lra]). lra.
  - apply bcoord_le. assert (ln b <= log_beta_max) by (unfold log_beta_max; destruct B as [B| ->]; [left; apply ln_increasing; lra|lra]). lra.
Qed.
Lemma ln15_b : 0.4054651081 <= ln (3 / 2) <= 0.4054651082.
Proof. pose proof (ln_between 0 3 2 4054651081 4054651082 10000000000 ltac:(vm_compute; reflexivity)) as H. lra. Qed.
Lemma bcoord_15 : forall b, 3 / 2 <= b -> 1 / 16 <= bcoord b.
Proof.
  intros b A. apply bcoord_ge. assert (ln (3 / 2) <= ln b) by (destruct A as [A| <-]; [left; apply ln_increasing; lra|lra]).
  pose proof ln15_b. pose proof log_beta_min_b. rewrite log_beta_max_v. pose proof ln10_b. lra.
Qed.
(** * Bounds *)
Lemma exp_ge : forall v x, 0 < x -> ln x <= v -> x <= exp v.
Proof. intros v x X H. rewrite <- (exp_ln x X). destruct H as [H|H]; [left; now apply exp_increasing|right; now f_equal]. Qed.
Lemma exp_le : forall v x, 0 < x -> v <= ln x -> exp v <= x.
Proof. intros v x X H. rewrite <- (exp_ln x X). destruct H as [H|H]; [left; now apply exp_increasing|right; now f_equal]. Qed.
Definition in_range (p : moffat) : Prop := 1.1 + / 10 ^ 6 <= mo_beta p <= 100 /\ / 10 ^ 12 <= g_maxk (mo_gs p) <= 1 / 10.
Lemma maxk_bounds : forall p, 0 < mo_r0 p -> in_range p -> 1 / 2 < mo_maxk p * mo_r0 p < 200 /\ (3 / 2 <= mo_beta p -> 2 < mo_maxk p * mo_r0 p).
Proof.
  intros p R0 [B T]. rewrite maxk_fit by exact R0. destruct (fit_range _ _ (bcoord_range _ B) (tcoord_range _ T)) as (_ & _ & [L U] & L2).
  set (v := pade2 _ _ _) in *. pose proof ln2_bounds as [A1 A2]. unfold ln2_lo, ln2_hi, Q2R in A1, A2. cbn [Qnum Qden] in A1, A2. pose proof ln10_b as T10.
  repeat split.
  - apply Rlt_le_trans with (exp (- 0.69)); [|destruct L as [L| L]; [left; now apply exp_increasing|right; f_equal; lra]]. rewrite <- (exp_ln (1 / 2)) by lra. apply exp_increasing. replace (1 / 2) with (/ 2) by field. rewrite ln_Rinv by lra. lra.
  - apply Rle_lt_trans with (exp 5.29); [destruct U as [U| ->]; [left; now apply exp_increasing|lra]|]. rewrite <- (exp_ln 200) by lra. apply exp_increasing. replace 200 with (2 * 10 ^ 2) by ring. rewrite ln_mult, ln_pow by lra. cbn [INR]. lra.
  - intro B2. specialize (L2 (bcoord_15 _ B2)). apply Rlt_le_trans with (exp 0.694); [|destruct L2 as [L2|L2]; [left; now apply exp_increasing|right; f_equal; lra]]. rewrite <- (exp_ln 2) by lra. apply exp_increasing. lra.
Qed.
