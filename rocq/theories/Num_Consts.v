(** Rational bounds on ln 2, pi and logarithms, by series with remainder. *)
From Coq Require Import ZArith QArith Qreals Reals Lra Lia Machin.
From Coquelicot Require Import Coquelicot.
Open Scope R_scope.

Lemma grows : forall (f df : R -> R) x, 0 <= x -> (forall t, 0 <= t <= x -> is_derive f t (df t)) -> (forall t, 0 <= t <= x -> 0 <= df t) -> f 0 <= f x.
Proof.
  intros f df x X D P. destruct (MVT_gen f 0 x df) as (c & C1 & C2).
  - intros t [A B]. apply D. rewrite Rmin_left in A by lra. rewrite Rmax_right in B by lra. lra.
  - intros t [A B]. rewrite Rmin_left in A by lra. rewrite Rmax_right in B by lra. apply continuity_pt_filterlim, @ex_derive_continuous. exists (df t). apply D. lra.
  - rewrite Rmin_left in C1 by lra. rewrite Rmax_right in C1 by lra. specialize (P c C1). assert (0 <= df c * (x - 0)) by (apply Rmult_le_pos; lra). lra.
Qed.

(** * The series *)
Fixpoint odd_sum (s : R) (n : nat) (x : R) : R :=
  match n with O => 0 | S n => odd_sum s n x + s ^ n * x ^ (2 * n + 1) / INR (2 * n + 1) end.
Fixpoint geo_sum (q : R) (n : nat) : R := match n with O => 0 | S n => geo_sum q n + q ^ n end.
Lemma odd_pos : forall n, 0 < INR (2 * n + 1).
Proof. intro n. apply lt_0_INR. lia. Qed.
Lemma odd_sum_0 : forall s n, odd_sum s n 0 = 0.
Proof. intros s. induction n as [|n IH]; [reflexivity|]. cbn [odd_sum]. rewrite IH, pow_i by lia. field. pose proof (odd_pos n). lra. Qed.
Lemma odd_sum_derive : forall s n x, is_derive (odd_sum s n) x (geo_sum (s * x ^ 2) n).
Proof.
  intros s n x. induction n as [|n IH]; cbn [odd_sum geo_sum]; [apply (@is_derive_const R_AbsRing)|].
  apply (is_derive_plus (odd_sum s n) (fun x => s ^ n * x ^ (2 * n + 1) / INR (2 * n + 1))); [exact IH|].
  evar_last. { apply (is_derive_ext (fun x => (s ^ n / INR (2 * n + 1)) * x ^ (2 * n + 1))). { intro t. unfold Rdiv. match goal with |- @eq _ ?a ?b => change (@eq R a b) end. ring. }
    apply is_derive_scal. apply is_derive_pow. apply (@is_derive_id R_AbsRing). }
  replace (Nat.pred (2 * n + 1)) with (2 * n)%nat by lia. unfold one; cbn -[pow INR Nat.mul]. rewrite Rpow_mult_distr, <- pow_mult. pose proof (odd_pos n). match goal with |- @eq _ ?a ?b => change (@eq R a b) end. field. lra.
Qed.
Lemma geo : forall q n, (1 - q) * geo_sum q n = 1 - q ^ n.
Proof. intros q. induction n as [|n IH]; cbn [geo_sum pow]; [ring|]. rewrite Rmult_plus_distr_l, IH. ring. Qed.

(** 2 atanh *)
Lemma log_ratio : forall x n, 0 <= x < 1 -> 0 <= ln ((1 + x) / (1 - x)) - 2 * odd_sum 1 n x <= 2 * x ^ (2 * n + 1) / (INR (2 * n + 1) * (1 - x ^ 2)).
Proof.
  intros x n [X0 X1]. pose proof (odd_pos n) as OP.
  assert (D : forall t, 0 <= t <= x -> is_derive (fun t => ln ((1 + t) / (1 - t)) - 2 * odd_sum 1 n t) t (2 * t ^ (2 * n) / (1 - t ^ 2))).
  { intros t T. assert (P : 0 < 1 - t ^ 2) by (assert (t * t < 1) by nra; cbn [pow]; lra). apply (is_derive_ext_loc (fun t => ln (1 + t) - ln (1 - t) - 2 * odd_sum 1 n t)).
    { exists (mkposreal ((1 - x) / 2) ltac:(lra)). intros s Hs. unfold ball in Hs. cbn in Hs. unfold AbsRing_ball, abs, minus, plus, opp in Hs. cbn in Hs. apply Rabs_def2 in Hs.
      rewrite ln_div by lra. reflexivity. }
    evar_last. { apply (is_derive_minus (fun t => ln (1 + t) - ln (1 - t)) (fun t => 2 * odd_sum 1 n t)). 2: apply is_derive_scal, odd_sum_derive. auto_derive. 2: reflexivity. repeat split; lra. }
    pose proof (geo (1 * t ^ 2) n) as G. assert (E : geo_sum (1 * t ^ 2) n = (1 - t ^ (2 * n)) / (1 - t ^ 2)).
    { rewrite (pow_mult t 2 n). rewrite Rmult_1_l in G |- *. rewrite <- G. field. cbn [pow] in *. lra. }
    rewrite E. unfold minus, plus, opp; cbn -[pow]. cbn [pow] in P |- *. generalize (t ^ (n + (n + 0))). intro z. field. repeat split; nra. }
  split.
  - pose proof (grows (fun t => ln ((1 + t) / (1 - t)) - 2 * odd_sum 1 n t) _ x X0 D) as G. cbv beta in G. rewrite odd_sum_0 in G. replace ((1 + 0) / (1 - 0)) with 1 in G by field. rewrite ln_1 in G.
    assert (0 - 2 * 0 <= ln ((1 + x) / (1 - x)) - 2 * odd_sum 1 n x); [|lra]. apply G. intros t T. apply Rmult_le_pos; [|apply Rlt_le, Rinv_0_lt_compat; cbn [pow]; nra]. apply Rmult_le_pos; [lra|apply pow_le; lra].
  - set (k := 2 / (1 - x ^ 2)). assert (P : 0 < 1 - x ^ 2) by (cbn [pow]; nra).
    pose proof (grows (fun t => k / INR (2 * n + 1) * t ^ (2 * n + 1) - (ln ((1 + t) / (1 - t)) - 2 * odd_sum 1 n t)) (fun t => k * t ^ (2 * n) - 2 * t ^ (2 * n) / (1 - t ^ 2)) x X0) as G. cbv beta in G.
    rewrite odd_sum_0, pow_i in G by lia. replace ((1 + 0) / (1 - 0)) with 1 in G by field. rewrite ln_1 in G.
    assert (H : k / INR (2 * n + 1) * 0 - (0 - 2 * 0) <= k / INR (2 * n + 1) * x ^ (2 * n + 1) - (ln ((1 + x) / (1 - x)) - 2 * odd_sum 1 n x)).
    { apply G.
      - intros t T. apply (is_derive_minus (fun t => k / INR (2 * n + 1) * t ^ (2 * n + 1))). 2: now apply D.
        evar_last. { apply is_derive_scal. apply is_derive_pow. apply (@is_derive_id R_AbsRing). } replace (Nat.pred (2 * n + 1)) with (2 * n)%nat by lia. unfold one; cbn -[INR Nat.mul pow]. field. lra.
      - intros t T. unfold k. assert (0 <= t ^ (2 * n)) by (apply pow_le; lra). replace (2 * t ^ (2 * n) / (1 - t ^ 2)) with (2 / (1 - t ^ 2) * t ^ (2 * n)) by (unfold Rdiv; ring).
        rewrite <- Rmult_minus_distr_r. apply Rmult_le_pos; [|assumption]. assert (1 - x ^ 2 <= 1 - t ^ 2) by (cbn [pow]; nra).
        assert (/ (1 - t ^ 2) <= / (1 - x ^ 2)) by (apply Rinv_le_contravar; lra). unfold Rdiv. lra. }
    replace (2 * x ^ (2 * n + 1) / (INR (2 * n + 1) * (1 - x ^ 2))) with (k / INR (2 * n + 1) * x ^ (2 * n + 1)) by (unfold k; field; lra). lra.
Qed.
(** arctangent *)
Lemma atan_even : forall x n, 0 <= x -> odd_sum (-1) (2 * n) x <= atan x.
Proof.
  intros x n X. pose proof (grows (fun t => atan t - odd_sum (-1) (2 * n) t) (fun t => (t ^ 2) ^ (2 * n) / (1 + t ^ 2)) x X) as G. cbv beta in G. rewrite atan_0, odd_sum_0 in G.
  assert (0 - 0 <= atan x - odd_sum (-1) (2 * n) x); [|lra]. apply G.
  - intros t T. evar_last. { apply (is_derive_minus atan); [apply is_derive_Reals, derivable_pt_lim_atan|apply odd_sum_derive]. }
    pose proof (geo (-1 * t ^ 2) (2 * n)) as Q. assert (P : 0 < 1 + t ^ 2) by (pose proof (pow2_ge_0 t); lra). rewrite Rpow_mult_distr in Q. rewrite pow_1_even in Q.
    assert (E : geo_sum (-1 * t ^ 2) (2 * n) = (1 - (t ^ 2) ^ (2 * n)) / (1 + t ^ 2)). { apply (Rmult_eq_reg_l (1 - -1 * t ^ 2)); [|lra]. rewrite Q. field. lra. }
    rewrite E. unfold minus, plus, opp; cbn -[pow]. unfold Rsqr. generalize ((t ^ 2) ^ (n + (n + 0))). intro z. cbn [pow] in *. field. repeat split; lra.
  - intros t T. apply Rmult_le_pos; [apply pow_le; apply pow2_ge_0|]. apply Rlt_le, Rinv_0_lt_compat. pose proof (pow2_ge_0 t). lra.
Qed.
Lemma atan_odd : forall x n, 0 <= x -> atan x <= odd_sum (-1) (S (2 * n)) x.
Proof.
  intros x n X. pose proof (grows (fun t => odd_sum (-1) (S (2 * n)) t - atan t) (fun t => (t ^ 2) ^ (S (2 * n)) / (1 + t ^ 2)) x X) as G. cbv beta in G. rewrite atan_0, odd_sum_0 in G.
  assert (0 - 0 <= odd_sum (-1) (S (2 * n)) x - atan x); [|lra]. apply G.
  - intros t T. evar_last. { apply (is_derive_minus (odd_sum (-1) (S (2 * n)))); [apply odd_sum_derive|apply is_derive_Reals, derivable_pt_lim_atan]. }
    pose proof (geo (-1 * t ^ 2) (S (2 * n))) as Q. assert (P : 0 < 1 + t ^ 2) by (pose proof (pow2_ge_0 t); lra). rewrite Rpow_mult_distr in Q. rewrite pow_1_odd in Q.
    assert (E : geo_sum (-1 * t ^ 2) (S (2 * n)) = (1 + (t ^ 2) ^ (S (2 * n))) / (1 + t ^ 2)). { apply (Rmult_eq_reg_l (1 - -1 * t ^ 2)); [|lra]. rewrite Q. field. lra. }
    rewrite E. unfold minus, plus, opp; cbn -[pow]. unfold Rsqr. generalize ((t ^ 2) ^ (S (n + (n + 0)))). intro z. cbn [pow] in *. field. repeat split; lra.
  - intros t T. apply Rmult_le_pos; [apply pow_le; apply pow2_ge_0|]. apply Rlt_le, Rinv_0_lt_compat. pose proof (pow2_ge_0 t). lra.
Qed.

(** * Values *)
Fixpoint qpow (x : Q) (n : nat) : Q := match n with O => 1%Q | S n => Qred (x * qpow x n) end.
Fixpoint odd_q (s : Q) (n : nat) (x : Q) : Q :=
  match n with O => 0%Q | S n => Qred (odd_q s n x + qpow s n * qpow x (2 * n + 1) / inject_Z (Z.of_nat (2 * n + 1))) end.
Lemma Q2R_red : forall q, Q2R (Qred q) = Q2R q.
Proof. intro q. apply Qeq_eqR, Qred_correct. Qed.
Lemma Q2R_pow : forall n x, Q2R (qpow x n) = Q2R x ^ n.
Proof. induction n as [|n IH]; intro x; cbn [qpow pow]; [apply RMicromega.Q2R_1|]. rewrite Q2R_red, Q2R_mult, IH. reflexivity. Qed.
Lemma Q2R_nat : forall n, Q2R (inject_Z (Z.of_nat n)) = INR n.
Proof. intro n. unfold Q2R, inject_Z. cbn [Qnum Qden]. rewrite INR_IZR_INZ. field. Qed.
Lemma Q2R_odd : forall n s x, Q2R (odd_q s n x) = odd_sum (Q2R s) n (Q2R x).
Proof.
  induction n as [|n IH]; intros s x; cbn [odd_q odd_sum]; [apply RMicromega.Q2R_0|]. rewrite Q2R_red, Q2R_plus, IH. f_equal. rewrite Q2R_div, Q2R_mult, !Q2R_pow, Q2R_nat; [reflexivity|].
  intro E. apply Qeq_eqR in E. rewrite Q2R_nat, RMicromega.Q2R_0 in E. pose proof (odd_pos n). lra.
Qed.
Lemma Qle_R : forall a b, Qle_bool a b = true -> Q2R a <= Q2R b.
Proof. intros a b H. apply Qle_Rle. now apply Qle_bool_iff. Qed.
Lemma log_q : forall x n a b, Qle_bool 0 x = true -> Qle_bool x (9 # 10) = true ->
  Qle_bool a (2 * odd_q 1 n x) = true -> Qle_bool (2 * odd_q 1 n x + 11 * qpow x (2 * n + 1)) b = true ->
  Q2R a <= ln ((1 + Q2R x) / (1 - Q2R x)) <= Q2R b.
Proof.
  intros x n a b X0 X1 A B. apply Qle_R in X0, X1, A, B. rewrite RMicromega.Q2R_0 in X0. replace (Q2R (9 # 10)) with (9 / 10) in X1 by (unfold Q2R; cbn; lra).
  rewrite Q2R_mult, Q2R_odd in A. rewrite Q2R_plus, !Q2R_mult, Q2R_odd, Q2R_pow in B. rewrite RMicromega.Q2R_1 in A, B.
  replace (Q2R 2) with 2 in A, B by (unfold Q2R; cbn; lra). replace (Q2R 11) with 11 in B by (unfold Q2R; cbn; lra).
  destruct (log_ratio (Q2R x) n) as [L U]; [lra|]. split; [lra|]. eapply Rle_trans; [|exact B].
  assert (K : 2 * Q2R x ^ (2 * n + 1) / (INR (2 * n + 1) * (1 - Q2R x ^ 2)) <= 11 * Q2R x ^ (2 * n + 1)).
  { assert (Z : 0 <= Q2R x ^ (2 * n + 1)) by (apply pow_le; lra). assert (O : 1 <= INR (2 * n + 1)) by (change 1 with (INR 1); apply le_INR; lia).
    assert (P : 19 / 100 <= 1 - Q2R x ^ 2) by (cbn [pow]; nra). assert (M : 19 / 100 <= INR (2 * n + 1) * (1 - Q2R x ^ 2)) by nra.
    unfold Rdiv. rewrite (Rmult_comm 2), Rmult_assoc, (Rmult_comm 11). apply Rmult_le_compat_l; [exact Z|]. apply (Rmult_le_reg_r (INR (2 * n + 1) * (1 - Q2R x ^ 2))); [lra|]. rewrite Rmult_assoc, Rinv_l by lra. lra. }
  lra.
Qed.
Definition ln2_lo : Q := 693147180559945309417 # 1000000000000000000000.
Definition ln2_hi : Q := 693147180559945309418 # 1000000000000000000000.
Lemma ln2_bounds : Q2R ln2_lo <= ln 2 <= Q2R ln2_hi.
Proof.
  pose proof (log_q (1 # 3) 23 ln2_lo ln2_hi ltac:(vm_compute; reflexivity) ltac:(vm_compute; reflexivity) ltac:(vm_compute; reflexivity) ltac:(vm_compute; reflexivity)) as H.
  replace ((1 + Q2R (1 # 3)) / (1 - Q2R (1 # 3))) with 2 in H by (unfold Q2R; cbn; field). exact H.
Qed.
Definition pi_lo : Q := 31415926535897932384 # 10000000000000000000.
Definition pi_hi : Q := 31415926535897932385 # 10000000000000000000.
Lemma pi_bounds : Q2R pi_lo <= PI <= Q2R pi_hi.
Proof.
  assert (A5 : Q2R (odd_q (-1) 16 (1 # 5)) <= atan (1 / 5) <= Q2R (odd_q (-1) 17 (1 # 5))).
  { rewrite !Q2R_odd. replace (Q2R (-1)) with (-1) by (unfold Q2R; cbn; lra). replace (Q2R (1 # 5)) with (1 / 5) by (unfold Q2R; cbn; lra). split; [apply (atan_even (1 / 5) 8); lra|apply (atan_odd (1 / 5) 8); lra]. }
  assert (A239 : Q2R (odd_q (-1) 6 (1 # 239)) <= atan (1 / 239) <= Q2R (odd_q (-1) 7 (1 # 239))).
  { rewrite !Q2R_odd. replace (Q2R (-1)) with (-1) by (unfold Q2R; cbn; lra). replace (Q2R (1 # 239)) with (1 / 239) by (unfold Q2R; cbn; lra). split; [apply (atan_even (1 / 239) 3); lra|apply (atan_odd (1 / 239) 3); lra]. }
  pose proof Machin_4_5_239 as M.
  assert (L : Q2R pi_lo <= 4 * (4 * Q2R (odd_q (-1) 16 (1 # 5)) - Q2R (odd_q (-1) 7 (1 # 239)))).
  { replace 4 with (Q2R 4) by (unfold Q2R; cbn; lra). rewrite <- Q2R_mult, <- Q2R_minus, <- Q2R_mult. apply Qle_R. vm_compute. reflexivity. }
  assert (U : 4 * (4 * Q2R (odd_q (-1) 17 (1 # 5)) - Q2R (odd_q (-1) 6 (1 # 239))) <= Q2R pi_hi).
  { replace 4 with (Q2R 4) by (unfold Q2R; cbn; lra). rewrite <- Q2R_mult, <- Q2R_minus, <- Q2R_mult. apply Qle_R. vm_compute. reflexivity. }
  revert A5 A239 M L U. generalize (Q2R pi_lo) (Q2R pi_hi) (Q2R (odd_q (-1) 16 (1 # 5))) (Q2R (odd_q (-1) 17 (1 # 5))) (Q2R (odd_q (-1) 6 (1 # 239))) (Q2R (odd_q (-1) 7 (1 # 239))). intros a b c d e f A5 A239 M L U.
  replace (/ 5) with (1 / 5) in M by field. replace (/ 239) with (1 / 239) in M by field. lra.
Qed.
Lemma exp_near : forall d e, Rabs d <= e -> e <= 1 / 2 -> Rabs (exp d - 1) <= 2 * e.
Proof.
  intros d e H E. apply Rabs_le_between in H. assert (A : exp d <= / (1 - d)).
  { rewrite <- (Rinv_inv (exp d)). rewrite <- exp_Ropp. apply Rinv_le_contravar; [lra|]. pose proof (exp_ineq1_le (- d)). lra. }
  pose proof (exp_ineq1_le d) as B. assert (C : / (1 - d) <= 1 + 2 * e).
  { apply (Rmult_le_reg_l (1 - d)); [lra|]. rewrite Rinv_r by lra. nra. }
  apply Rabs_le_between. lra.
Qed.
