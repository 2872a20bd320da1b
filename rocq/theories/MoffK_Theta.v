(** Reverse Bessel polynomials. *)
From Coq Require Import Reals Lra Lia Arith.
From Coquelicot Require Import Coquelicot.
From Verif Require Import Bes_Spec Bes_K MoffK_Spec.
Open Scope R_scope.

Lemma coeff_top : forall n, bessel_coeff n n = INR (fact (2 * n)) / INR (fact n).
Proof. intro n. unfold bessel_coeff. rewrite Nat.leb_refl, Nat.sub_diag. replace (n + n)%nat with (2 * n)%nat by lia. change (INR (fact 0)) with 1. field. apply INR_fact_neq_0. Qed.
Lemma theta_at_0 : forall n, theta n 0 = INR (fact (2 * n)) / INR (fact n) / 2 ^ n.
Proof.
  intro n. unfold theta. destruct n as [|n].
  - cbn [sum_f_R0 Nat.sub pow]. rewrite coeff_top. ring_simplify. reflexivity.
  - cbn [sum_f_R0]. rewrite sum_eq_R0.
    + rewrite Nat.sub_diag, coeff_top. cbn [pow]. ring.
    + intros k K. replace (S n - k)%nat with (S (n - k)) by lia. cbn [pow]. ring.
Qed.
Lemma theta_th : forall n x, x <> 0 -> theta n x = x ^ n * th n x.
Proof.
  intros n x X. unfold theta, th. rewrite scal_sum. apply sum_eq. intros k K. replace (x ^ n) with (x ^ (n - k) * x ^ k) by (rewrite <- pow_add; f_equal; lia).
  rewrite Rpow_mult_distr. field. split; apply pow_nonzero; [exact X|lra].
Qed.
Lemma theta_0 : forall x, theta 0 x = 1.
Proof. intro x. unfold theta. cbn [sum_f_R0 Nat.sub pow]. rewrite coeff_0. field. Qed.
Lemma fact_SS : forall n, INR (fact (2 * S n)) = 2 * (2 * INR n + 1) * INR (S n) * INR (fact (2 * n)).
Proof.
  intro n. replace (2 * S n)%nat with (S (S (2 * n))) by lia. rewrite !fact_simpl, !mult_INR. rewrite !S_INR, mult_INR. change (INR 2) with 2. ring.
Qed.
Lemma theta_0_step : forall n, theta (S n) 0 = (2 * INR n + 1) * theta n 0.
Proof.
  intro n. rewrite !theta_at_0, fact_SS. rewrite fact_simpl, mult_INR. cbn [pow]. field. repeat split; try apply INR_fact_neq_0; [apply pow_nonzero; lra|]. rewrite S_INR. pose proof (pos_INR n). lra.
Qed.
Lemma theta_1 : forall x, theta 1 x = 1 + x.
Proof.
  intro x. destruct (Req_dec x 0) as [->|X]; [rewrite theta_0_step, theta_0; change (INR 0) with 0; ring|]. rewrite theta_th, th_1 by exact X. field. exact X.
Qed.
Lemma theta_rec : forall n x, theta (S (S n)) x = (2 * INR n + 3) * theta (S n) x + x * x * theta n x.
Proof.
  intros n x. destruct (Req_dec x 0) as [->|X].
  - rewrite theta_0_step, S_INR. ring.
  - rewrite !theta_th, th_rec by exact X. rewrite S_INR. cbn [pow]. field. exact X.
Qed.
Lemma two_step : forall P : nat -> Prop, P 0%nat -> P 1%nat -> (forall n, P n -> P (S n) -> P (S (S n))) -> forall n, P n.
Proof. intros P A B H n. assert (K : P n /\ P (S n)) by (induction n as [|n [I J]]; split; auto). apply K. Qed.
Lemma theta_derive : forall n x, is_derive (theta (S n)) x (theta (S n) x - x * theta n x).
Proof.
  assert (H : forall n x, is_derive (theta (S n)) x (theta (S n) x - x * theta n x) /\ is_derive (theta (S (S n))) x (theta (S (S n)) x - x * theta (S n) x)).
  { assert (E0 : forall x, is_derive (theta 0) x 0) by (intro x; apply (is_derive_ext (fun _ => 1)); [intro t; symmetry; apply theta_0|auto_derive; auto]).
    assert (E1 : forall x, is_derive (theta 1) x (theta 1 x - x * theta 0 x)).
    { intro x. apply (is_derive_ext (fun t => 1 + t)); [intro t; symmetry; apply theta_1|]. rewrite theta_1, theta_0. auto_derive; [auto|]. ring. }
    assert (step : forall n x d0 d1, is_derive (theta n) x d0 -> is_derive (theta (S n)) x d1 -> is_derive (theta (S (S n))) x ((2 * INR n + 3) * d1 + 2 * x * theta n x + x * x * d0)).
    { intros n x d0 d1 A B. apply (is_derive_ext (fun t => (2 * INR n + 3) * theta (S n) t + t * t * theta n t)); [intro t; symmetry; apply theta_rec|].
      auto_derive; [repeat split; [exists d1; exact B|exists d0; exact A]|].
      replace (Derive (fun t => theta n t) x) with d0 by (symmetry; apply is_derive_unique; exact A).
      replace (Derive (fun t => theta (S n) t) x) with d1 by (symmetry; apply is_derive_unique; exact B). ring. }
    induction n as [|n IH]; intro x.
    - split; [apply E1|]. refine (eq_ind _ (fun d => is_derive (theta 2) x d) (step 0%nat x _ _ (E0 x) (E1 x)) _ _). rewrite theta_rec, theta_1, theta_0. change (INR 0) with 0.
      match goal with |- ?a = ?b => change (@eq R a b) end. ring.
    - destruct (IH x) as [A B]. split; [exact B|].
      refine (eq_ind _ (fun d => is_derive (theta (S (S (S n)))) x d) (step (S n) x _ _ A B) _ _).
      rewrite (theta_rec (S n) x), (theta_rec n x), S_INR. match goal with |- ?a = ?b => change (@eq R a b) end. ring. }
  intros n x. apply H.
Qed.
Lemma theta_pos : forall n x, 0 <= x -> 0 < theta n x.
Proof.
  intros n x X. revert n. apply (two_step (fun n => 0 < theta n x)); [rewrite theta_0; lra|rewrite theta_1; lra|].
  intros n A B. rewrite theta_rec. pose proof (pos_INR n). assert (0 < (2 * INR n + 3) * theta (S n) x) by (apply Rmult_lt_0_compat; lra).
  assert (0 <= x * x * theta n x) by (apply Rmult_le_pos; [apply Rle_0_sqr|lra]). lra.
Qed.

(** * The transform *)
Lemma mk_at_0 : forall n, moffat_k n 0 = 1.
Proof. intro n. unfold moffat_k. rewrite Ropp_0, exp_0. field. pose proof (theta_pos n 0 ltac:(lra)). lra. Qed.
Lemma mk_pos : forall n x, 0 <= x -> 0 < moffat_k n x.
Proof.
  intros n x X. unfold moffat_k. apply Rdiv_lt_0_compat; [|apply theta_pos; lra]. apply Rmult_lt_0_compat; [apply exp_pos|now apply theta_pos].
Qed.
Lemma mk_0 : forall x, moffat_k 0 x = exp (- x).
Proof. intro x. unfold moffat_k. rewrite !theta_0. field. Qed.
Lemma mk_1 : forall x, moffat_k 1 x = (1 + x) * exp (- x).
Proof. intro x. unfold moffat_k. rewrite !theta_1. field. Qed.
Lemma mk_derive_0 : forall x, is_derive (moffat_k 0) x (- moffat_k 0 x).
Proof. intro x. apply (is_derive_ext (fun t => exp (- t))); [intro t; symmetry; apply mk_0|]. rewrite mk_0. auto_derive; [auto|]. ring. Qed.
Lemma mk_derive : forall n x, is_derive (moffat_k (S n)) x (- (x * moffat_k n x / (2 * INR n + 1))).
Proof.
  intros n x. unfold moffat_k at 1. pose proof (theta_derive n x) as H. auto_derive; [exists (theta (S n) x - x * theta n x); exact H|].
  replace (Derive (fun t => theta (S n) t) x) with (theta (S n) x - x * theta n x) by (symmetry; apply is_derive_unique; exact H).
  unfold moffat_k. rewrite theta_0_step. pose proof (theta_pos n 0 ltac:(lra)). pose proof (pos_INR n). field. split; lra.
Qed.
Lemma mk_rec : forall n x, moffat_k (S (S n)) x = moffat_k (S n) x + x * x * moffat_k n x / ((2 * INR n + 3) * (2 * INR n + 1)).
Proof.
  intros n x. unfold moffat_k. rewrite theta_rec, (theta_0_step (S n)), (theta_0_step n), S_INR. pose proof (theta_pos n 0 ltac:(lra)). pose proof (pos_INR n). field. repeat split; lra.
Qed.
Lemma drop : forall (f df : R -> R) a b, a <= b -> (forall t, a <= t <= b -> is_derive f t (df t)) -> (forall t, a <= t <= b -> df t <= 0) -> f b <= f a.
Proof.
  intros f df a b X D P. destruct (MVT_gen f a b df) as (c & C1 & C2).
  - intros t [A B]. apply D. rewrite Rmin_left in A by lra. rewrite Rmax_right in B by lra. lra.
  - intros t [A B]. rewrite Rmin_left in A by lra. rewrite Rmax_right in B by lra. apply continuity_pt_filterlim, @ex_derive_continuous. exists (df t). apply D. lra.
  - rewrite Rmin_left in C1 by lra. rewrite Rmax_right in C1 by lra. specialize (P c C1). assert (0 <= - df c * (b - a)) by (apply Rmult_le_pos; lra). lra.
Qed.
Lemma mk_decr : forall n x y, 0 <= x -> x <= y -> moffat_k n y <= moffat_k n x.
Proof.
  intros [|n] x y X Y.
  - apply (drop _ (fun t => - moffat_k 0 t)); [exact Y| |]; intros t T; [apply mk_derive_0|]. pose proof (mk_pos 0 t ltac:(lra)). lra.
  - apply (drop _ (fun t => - (t * moffat_k n t / (2 * INR n + 1)))); [exact Y| |]; intros t T; [apply mk_derive|].
    pose proof (mk_pos n t ltac:(lra)). pose proof (pos_INR n). assert (0 <= t * moffat_k n t / (2 * INR n + 1)); [|lra].
    apply Rmult_le_pos; [apply Rmult_le_pos; lra|left; apply Rinv_0_lt_compat; lra].
Qed.
Lemma mk_le_1 : forall n x, 0 <= x -> moffat_k n x <= 1.
Proof. intros n x X. rewrite <- (mk_at_0 n). apply mk_decr; lra. Qed.
(** First and second derivative; the second is at most 1. *)
Definition dmk (n : nat) (x : R) : R := match n with O => - moffat_k 0 x | S n => - (x * moffat_k n x / (2 * INR n + 1)) end.
Definition ddmk (n : nat) (x : R) : R :=
  match n with O => moffat_k 0 x | S O => moffat_k 1 x - 2 * moffat_k 0 x
  | S (S n) => moffat_k (S (S n)) x - moffat_k (S n) x - moffat_k (S n) x / (2 * INR n + 3) end.
Lemma dmk_ok : forall n x, is_derive (moffat_k n) x (dmk n x).
Proof. intros [|n] x; [apply mk_derive_0|apply mk_derive]. Qed.
Lemma ddmk_ok : forall n x, is_derive (dmk n) x (ddmk n x).
Proof.
  intros [|n] x; unfold dmk.
  - pose proof (mk_derive_0 x) as H. auto_derive; [eexists; exact H|]. replace (Derive (fun t => moffat_k 0 t) x) with (- moffat_k 0 x) by (symmetry; apply is_derive_unique; exact H). unfold ddmk. ring.
  - pose proof (dmk_ok n x) as H. auto_derive; [eexists; exact H|]. replace (Derive (fun t => moffat_k n t) x) with (dmk n x) by (symmetry; apply is_derive_unique; exact H).
    pose proof (pos_INR n). destruct n as [|n]; unfold ddmk, dmk.
    + rewrite mk_1, mk_0. change (INR 0) with 0. field.
    + rewrite mk_rec, S_INR in *. pose proof (pos_INR n). field. split; lra.
Qed.
Lemma ddmk_small : forall n x, 0 <= x -> Rabs (ddmk n x) <= 1.
Proof.
  intros n x X. apply Rabs_le_between. destruct n as [|[|n]]; unfold ddmk.
  - pose proof (mk_pos 0 x X). pose proof (mk_le_1 0 x X). lra.
  - pose proof (mk_pos 0 x X) as P. pose proof (mk_le_1 0 x X). rewrite mk_1 in *. rewrite mk_0 in *. pose proof (mk_le_1 1 x X) as Q. rewrite mk_1 in Q.
    assert (0 <= x * exp (- x)) by (apply Rmult_le_pos; lra). lra.
  - pose proof (mk_pos (S n) x X) as P. pose proof (mk_le_1 (S n) x X) as P1. pose proof (mk_le_1 (S (S n)) x X) as Q. pose proof (pos_INR n) as N.
    assert (E : moffat_k (S n) x <= moffat_k (S (S n)) x).
    { rewrite mk_rec. pose proof (mk_pos n x X). assert (0 <= x * x * moffat_k n x / ((2 * INR n + 3) * (2 * INR n + 1))); [|lra].
      apply Rmult_le_pos; [apply Rmult_le_pos; [apply Rle_0_sqr|lra]|left; apply Rinv_0_lt_compat, Rmult_lt_0_compat; lra]. }
    assert (B : 0 <= moffat_k (S n) x / (2 * INR n + 3) <= moffat_k (S n) x).
    { split; [apply Rmult_le_pos; [lra|left; apply Rinv_0_lt_compat; lra]|]. apply (Rmult_le_reg_r (2 * INR n + 3)); [lra|]. unfold Rdiv. rewrite Rmult_assoc, Rinv_l by lra.
      assert (moffat_k (S n) x * 1 <= moffat_k (S n) x * (2 * INR n + 3)) by (apply Rmult_le_compat_l; lra). lra. }
    lra.
Qed.
