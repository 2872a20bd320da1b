(** The transform at maxk, and the tail, at particular parameters. *)
From Coq Require Import ZArith Reals Bool List Lra Lia.
From Verif Require Import Base Bounds_Model GSP_Model Size_Model Num_Consts Bes_Model Bes_Spec Bes_K MoffK_Model MoffK_Spec MoffK_Theta MoffK_Proofs MoffK_Int MoffK_Fit MoffK_Maxk MoffK_Pt.
Open Scope R_scope.

Lemma emul_le : forall q x T U, 0 < q -> ln q <= x -> T <= q * U -> 0 <= T -> exp (- x) * T <= U.
Proof.
  intros q x T U Q L H T0. apply exp_ge in L; [|exact Q]. rewrite exp_Ropp. apply (Rmult_le_reg_l (exp x)); [apply exp_pos|]. rewrite <- Rmult_assoc, Rinv_r by (pose proof (exp_pos x); lra). rewrite Rmult_1_l.
  assert (0 <= U). { destruct (Rle_lt_dec 0 U) as [|c]; [assumption|]. exfalso. assert (q * U < 0) by (rewrite <- (Rmult_0_r q); apply Rmult_lt_compat_l; assumption). lra. }
  apply Rle_trans with (1 := H). now apply Rmult_le_compat_r.
Qed.
Lemma emul_ge : forall q x T U, 0 < q -> x <= ln q -> q * U <= T -> 0 <= U -> U <= exp (- x) * T.
Proof.
  intros q x T U Q L H U0. apply exp_le in L; [|exact Q]. rewrite exp_Ropp. apply (Rmult_le_reg_l (exp x)); [apply exp_pos|]. rewrite <- Rmult_assoc, Rinv_r by (pose proof (exp_pos x); lra). rewrite Rmult_1_l.
  apply Rle_trans with (2 := H). now apply Rmult_le_compat_r.
Qed.
Lemma mk_0e : forall x, moffat_k 0 x = exp (- x) * 1.
Proof. intro x. rewrite mk_0. ring. Qed.
Lemma mk_1e : forall x, moffat_k 1 x = exp (- x) * (1 + x).
Proof. intro x. rewrite mk_1. ring. Qed.
Lemma mk_2e : forall x, moffat_k 2 x = exp (- x) * (1 + x + x * x / 3).
Proof. intro x. rewrite mk_rec, mk_1, mk_0. cbn [INR]. field. Qed.
Lemma mk_3e : forall x, moffat_k 3 x = exp (- x) * (1 + x + x * x / 3 + x * x * (1 + x) / 15).
Proof. intro x. rewrite mk_rec, mk_2e, mk_1. cbn [INR]. field. Qed.
Lemma near_15 : forall x, 863459 / 125000 <= x <= 276307 / 40000 -> Rabs (moffat_k 0 x - / 10 ^ 3) <= 1 / 10000000.
Proof.
  intros x [A B]. pose proof (mk_decr 0 (863459 / 125000) x ltac:(lra) A) as U. pose proof (mk_decr 0 x (276307 / 40000) ltac:(lra) B) as L.
  assert (U2 : moffat_k 0 (863459 / 125000) <= / 10 ^ 3 + 1 / 10000000).
  { rewrite mk_0e. apply (emul_le (499957 / 500)); [lra| |lra|lra]. pose proof (ln_between 9 499957 500 69076692752 69076692753 10000000000 ltac:(vm_compute; reflexivity)). lra. }
  assert (L2 : / 10 ^ 3 - 1 / 10000000 <= moffat_k 0 (276307 / 40000)).
  { rewrite mk_0e. apply (emul_ge (499961 / 500)); [lra| |lra|lra]. pose proof (ln_between 9 499961 500 69076772759 69076772760 10000000000 ltac:(vm_compute; reflexivity)). lra. }
  apply Rabs_le. lra.
Qed.
Lemma near_25 : forall x, 9233363 / 1000000 <= x <= 4616683 / 500000 -> Rabs (moffat_k 1 x - / 10 ^ 3) <= 1 / 10000000.
Proof.
  intros x [A B]. pose proof (mk_decr 1 (9233363 / 1000000) x ltac:(lra) A) as U. pose proof (mk_decr 1 x (4616683 / 500000) ltac:(lra) B) as L.
  assert (U2 : moffat_k 1 (9233363 / 1000000) <= / 10 ^ 3 + 1 / 10000000).
  { rewrite mk_1e. apply (emul_le (5116447 / 500)); [lra| |lra|lra]. pose proof (ln_between 13 5116447 500 92333627123 92333627124 10000000000 ltac:(vm_compute; reflexivity)). lra. }
  assert (L2 : / 10 ^ 3 - 1 / 10000000 <= moffat_k 1 (4616683 / 500000)).
  { rewrite mk_1e. apply (emul_ge (1023293 / 100)); [lra| |lra|lra]. pose proof (ln_between 13 1023293 100 92333662304 92333662305 10000000000 ltac:(vm_compute; reflexivity)). lra. }
  apply Rabs_le. lra.
Qed.
Lemma near_35 : forall x, 5419881 / 500000 <= x <= 2167953 / 200000 -> Rabs (moffat_k 2 x - / 10 ^ 3) <= 1 / 10000000.
Proof.
  intros x [A B]. pose proof (mk_decr 2 (5419881 / 500000) x ltac:(lra) A) as U. pose proof (mk_decr 2 x (2167953 / 200000) ltac:(lra) B) as L.
  assert (U2 : moffat_k 2 (5419881 / 500000) <= / 10 ^ 3 + 1 / 10000000).
  { rewrite mk_2e. apply (emul_le (25504617 / 500)); [lra| |lra|lra]. pose proof (ln_between 15 25504617 500 108397619541 108397619542 10000000000 ltac:(vm_compute; reflexivity)). lra. }
  assert (L2 : / 10 ^ 3 - 1 / 10000000 <= moffat_k 2 (2167953 / 200000)).
  { rewrite mk_2e. apply (emul_ge (6376174 / 125)); [lra| |lra|lra]. pose proof (ln_between 15 6376174 125 108397650516 108397650517 10000000000 ltac:(vm_compute; reflexivity)). lra. }
  apply Rabs_le. lra.
Qed.
Lemma near_45 : forall x, 1520983 / 125000 <= x <= 12167867 / 1000000 -> Rabs (moffat_k 3 x - / 10 ^ 3) <= 1 / 10000000.
Proof.
  intros x [A B]. pose proof (mk_decr 3 (1520983 / 125000) x ltac:(lra) A) as U. pose proof (mk_decr 3 x (12167867 / 1000000) ltac:(lra) B) as L.
  assert (U2 : moffat_k 3 (1520983 / 125000) <= / 10 ^ 3 + 1 / 10000000).
  { rewrite mk_3e. apply (emul_le (192502417 / 1000)); [lra| |lra|lra]. pose proof (ln_between 17 192502417 1000 121678639884 121678639885 10000000000 ltac:(vm_compute; reflexivity)). lra. }
  assert (L2 : / 10 ^ 3 - 1 / 10000000 <= moffat_k 3 (12167867 / 1000000)).
  { rewrite mk_3e. apply (emul_ge (192502999 / 1000)); [lra| |lra|lra]. pose proof (ln_between 17 192502999 1000 121678670118 121678670119 10000000000 ltac:(vm_compute; reflexivity)). lra. }
  apply Rabs_le. lra.
Qed.

(** Beyond beta = 100 *)
Lemma mk_ge_1 : forall n x, 0 <= x -> moffat_k 1 x <= moffat_k (S n) x.
Proof.
  intros n x X. induction n as [|n IH]; [lra|]. rewrite mk_rec. assert (0 <= x * x * moffat_k n x / ((2 * INR n + 3) * (2 * INR n + 1))); [|lra].
  pose proof (pos_INR n). pose proof (mk_pos n x X). apply Rmult_le_pos; [apply Rmult_le_pos; [apply Rmult_le_pos; exact X|lra]|left; apply Rinv_0_lt_compat, Rmult_lt_0_compat; lra].
Qed.
Lemma large_beta : forall p, 0 < mo_r0 p -> mo_beta p = 2001 / 2 -> g_maxk (mo_gs p) = / 10 ^ 3 -> 1 - / 10 ^ 6 <= moffat_k 999 (mo_maxk p * mo_r0 p).
Proof.
  intros p R0 B T. destruct (at_10005_3 p R0 B T) as [A1 A2]. set (x := mo_maxk p * mo_r0 p) in *. apply Rle_trans with (2 := mk_ge_1 998 x ltac:(lra)). rewrite mk_1.
  assert (1 - x <= exp (- x)) by (pose proof (exp_ineq1_le (- x)); lra). apply Rle_trans with (1 * (1 - x)); [lra|]. apply Rmult_le_compat; lra.
Qed.
Lemma small_threshold : forall p, 0 < mo_r0 p -> mo_beta p = 3 / 2 -> g_maxk (mo_gs p) = / 10 ^ 23 -> 4 / 100 <= moffat_k 0 (mo_maxk p * mo_r0 p).
Proof.
  intros p R0 B T. destruct (at_15_23 p R0 B T) as [A1 A2]. set (x := mo_maxk p * mo_r0 p) in *. rewrite mk_0e. apply (emul_ge 25); [lra| |lra|lra].
  pose proof (ln_between 4 25 1 32188758 32188759 10000000 ltac:(vm_compute; reflexivity)). replace (25 / 1) with 25 in H by field. lra.
Qed.
(** * The tail for many terms *)
(** lower bounds of the polynomial at 22, scaled by 2^64 *)
Fixpoint poly22 (n : nat) : Z * Z :=
  match n with
  | O => (2 ^ 64, 23 * 2 ^ 64)%Z
  | S n => let r := poly22 n in (snd r, (snd r + 484 * fst r / ((2 * Z.of_nat n + 3) * (2 * Z.of_nat n + 1)))%Z)
  end.
Lemma poly22_ok : forall n, IZR (fst (poly22 n)) * exp (- (22)) <= moffat_k n 22 * 18446744073709551616 /\ IZR (snd (poly22 n)) * exp (- (22)) <= moffat_k (S n) 22 * 18446744073709551616.
Proof.
  induction n as [|n [I1 I2]].
  - cbn [poly22 fst snd]. rewrite mk_0, mk_1. rewrite mult_IZR, two64. pose proof (exp_pos (- (22))). lra.
  - cbn [poly22]. cbv zeta. set (r := poly22 n) in *. cbn [fst snd]. split; [exact I2|]. rewrite mk_rec, plus_IZR. set (d := ((2 * Z.of_nat n + 3) * (2 * Z.of_nat n + 1))%Z). assert (D : (0 < d)%Z) by (unfold d; nia).
    pose proof (div_le (484 * fst r) d D) as Q. assert (ED : IZR d = (2 * INR n + 3) * (2 * INR n + 1)) by (unfold d; rewrite mult_IZR, !plus_IZR, !mult_IZR, <- INR_IZR_INZ; reflexivity).
    rewrite <- ED. apply IZR_lt in D. pose proof (exp_pos (- (22))) as E.
    assert (S1 : IZR (484 * fst r / d) * exp (- (22)) <= 22 * 22 * moffat_k n 22 / IZR d * 18446744073709551616).
    { apply Rle_trans with (IZR (484 * fst r) / IZR d * exp (- (22))); [apply Rmult_le_compat_r; lra|]. rewrite mult_IZR. assert (I0 : 0 < / IZR d) by now apply Rinv_0_lt_compat.
      replace (484 * IZR (fst r) / IZR d * exp (- (22))) with (484 * / IZR d * (IZR (fst r) * exp (- (22)))) by (unfold Rdiv; ring). replace (22 * 22 * moffat_k n 22 / IZR d * 18446744073709551616) with (484 * / IZR d * (moffat_k n 22 * 18446744073709551616)) by (unfold Rdiv; ring).
      apply Rmult_le_compat_l; [lra|exact I1]. }
    lra.
Qed.
Lemma mk49 : 8 / 100 <= moffat_k 49 22.
Proof.
  destruct (poly22_ok 49) as [H _]. assert (G : (314000000 * 2 ^ 64 <= fst (poly22 49))%Z) by (vm_compute; discriminate). apply IZR_le in G. rewrite mult_IZR, two64 in G.
  pose proof (exp_pos (- (22))) as E. assert (8 / 100 <= exp (- (22)) * 314000000).
  { apply (emul_ge 3590000000); [lra| |lra|lra]. pose proof (ln_between 31 3590000000 1 2200141 2200142 100000 ltac:(vm_compute; reflexivity)) as L. replace (3590000000 / 1) with 3590000000 in L by field. lra. }
  assert (314000000 * 18446744073709551616 * exp (- (22)) <= IZR (fst (poly22 49)) * exp (- (22))) by (apply Rmult_le_compat_r; lra). lra.
Qed.
(** the tail at x >= x1 over its value at x1 *)
Lemma tail_ratio : forall n x1 x, 0 < x1 -> x1 <= x -> moffat_k n x1 * (exp (- (x - x1)) * (x / x1) ^ n * (x1 / x)) <= env n x * (1 + (th n x1 - 1) * x1 / x).
Proof.
  intros n x1 x X1 X. rewrite mk_env by exact X1. pose proof (th_chord n x1 x1 X1 (Rle_refl x1)) as [T _]. assert (XP : 0 < x) by lra.
  assert (C : th n x1 * (x1 / x) <= 1 + (th n x1 - 1) * x1 / x). { assert (x1 / x <= 1) by (apply (Rmult_le_reg_r x); [exact XP|]; unfold Rdiv; rewrite Rmult_assoc, Rinv_l by lra; lra). unfold Rdiv in *. lra. }
  replace (env n x1 * th n x1 * (exp (- (x - x1)) * (x / x1) ^ n * (x1 / x))) with (env n x * (th n x1 * (x1 / x))).
  - apply Rmult_le_compat_l; [left; now apply env_pos|exact C].
  - unfold env. replace (- x) with (- (x - x1) + - x1) by ring. rewrite exp_plus. unfold Rdiv. rewrite (Rpow_mult_distr x (/ x1) n), pow_inv. assert (x1 ^ n <> 0) by (apply pow_nonzero; lra). field. repeat split; try assumption; try lra. pose proof (theta_pos n 0 (Rle_refl 0)). lra.
Qed.
Lemma tail_low : forall x1 q e m c, 0 < x1 < 48 -> 0 < q -> e <= x1 -> 48 - e <= ln q -> 0 <= m -> m <= 48 / x1 -> 0 <= c -> q * c <= m ^ 48 ->
  moffat_k 49 x1 * c <= env 49 48 * (1 + (th 49 x1 - 1) * x1 / 48).
Proof.
  intros x1 q e m c X Q E L M0 M C0 C. pose proof (tail_ratio 49 x1 48 ltac:(lra) ltac:(lra)) as T. apply Rle_trans with (2 := T). apply Rmult_le_compat_l; [left; apply mk_pos; lra|].
  replace (exp (- (48 - x1)) * (48 / x1) ^ 49 * (x1 / 48)) with (exp (- (48 - x1)) * (48 / x1) ^ 48) by (change ((48 / x1) ^ 49) with (48 / x1 * (48 / x1) ^ 48); generalize ((48 / x1) ^ 48); intro z; field; lra).
  apply (emul_ge q); [exact Q|lra| |exact C0]. apply Rle_trans with (1 := C). apply pow_incr. lra.
Qed.
Lemma over_x1 : forall m x1 u, 0 < x1 -> x1 <= u -> m * u <= 48 -> 0 <= m -> m <= 48 / x1.
Proof. intros m x1 u X U M M0. apply (Rmult_le_reg_r x1); [exact X|]. replace (48 / x1 * x1) with 48 by (field; lra). apply Rle_trans with (2 := M). now apply Rmult_le_compat_l. Qed.
Lemma tail_505_1 : forall x1, 534643 / 25000 <= x1 <= 21385723 / 1000000 -> 1000 <= env 49 48 * (1 + (th 49 x1 - 1) * x1 / 48).
Proof.
  intros x1 [A B]. apply Rle_trans with (moffat_k 49 x1 * 12500).
  - pose proof (mk_decr 49 x1 22 ltac:(lra) ltac:(lra)). pose proof mk49. lra.
  - apply (tail_low x1 400000000000 21.38 (11 / 5)); try lra.
    + pose proof (ln_between 38 400000000000 1 26714 26715 1000 ltac:(vm_compute; reflexivity)) as H. replace (400000000000 / 1) with 400000000000 in H by field. lra.
    + apply (over_x1 _ _ (21385723 / 1000000)); lra.
Qed.
Lemma tail_505_3 : forall x1, 37858113 / 1000000 <= x1 <= 9464529 / 250000 -> moffat_k 49 x1 * 3 <= env 49 48 * (1 + (th 49 x1 - 1) * x1 / 48).
Proof.
  intros x1 [A B]. apply (tail_low x1 25400 (37858113 / 1000000) (12678 / 10000)); try lra.
  - pose proof (ln_between 14 25400 1 101425 101426 10000 ltac:(vm_compute; reflexivity)) as H. replace (25400 / 1) with 25400 in H by field. lra.
  - apply (over_x1 _ _ (9464529 / 250000)); lra.
Qed.
