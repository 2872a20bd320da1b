(** J0 solves Bessel's equation: from the power series. *)
From Coq Require Import ZArith Reals Lra Lia.
From Coquelicot Require Import Coquelicot.
From Verif Require Import Bes_Spec.
Open Scope R_scope.

(** * The series in z = x^2 *)
Definition cJ (k : nat) : R := (-1) ^ k / (4 ^ k * (INR (fact k) * INR (fact k))).
Lemma cJ_term : forall x k, J0_term x k = cJ k * (x * x) ^ k.
Proof.
  intros x k. unfold J0_term, cJ. rewrite pow_mult. replace ((x / 2) ^ 2) with (x * x / 4) by (cbn [pow]; field). unfold Rdiv at 2. rewrite Rpow_mult_distr, pow_inv.
  assert (A := INR_fact_neq_0 k). assert (B : 4 ^ k <> 0) by (apply pow_nonzero; lra). field. split; assumption.
Qed.
Lemma cJ_next : forall k, INR (S k) * (INR (S k) * cJ (S k)) = - cJ k / 4.
Proof.
  intro k. unfold cJ. rewrite fact_simpl, mult_INR. cbn [pow]. assert (A := INR_fact_neq_0 k). assert (B : 4 ^ k <> 0) by (apply pow_nonzero; lra). assert (N : INR (S k) <> 0) by (apply not_0_INR; lia). field. repeat split; assumption.
Qed.
Lemma cJ_nz : forall k, cJ k <> 0.
Proof.
  intro k. unfold cJ. assert (A := INR_fact_neq_0 k). assert (B : 4 ^ k <> 0) by (apply pow_nonzero; lra). assert (C : (-1) ^ k <> 0) by (apply pow_nonzero; lra). unfold Rdiv. apply Rmult_integral_contrapositive_currified; [exact C|]. apply Rinv_neq_0_compat. repeat apply Rmult_integral_contrapositive_currified; assumption.
Qed.
Lemma cJ_radius : CV_radius cJ = p_infty.
Proof.
  apply CV_radius_infinite_DAlembert; [exact cJ_nz|]. apply (is_lim_seq_le_le (fun _ => 0) _ (fun n => / INR (S n))).
  - intro n. split; [apply Rabs_pos|]. assert (E : cJ (S n) / cJ n = - / (4 * (INR (S n) * INR (S n)))).
    { pose proof (cJ_next n) as H. assert (N : INR (S n) <> 0) by (apply not_0_INR; lia). pose proof (cJ_nz n). replace (cJ (S n)) with (- cJ n / 4 / (INR (S n) * INR (S n))); [field; split; assumption|]. rewrite <- H. field. exact N. }
    rewrite E, Rabs_Ropp. assert (N : 1 <= INR (S n)) by (rewrite S_INR; pose proof (pos_INR n); lra). rewrite Rabs_pos_eq by (left; apply Rinv_0_lt_compat; nra). apply Rinv_le_contravar; nra.
  - apply is_lim_seq_const.
  - apply (is_lim_seq_incr_1 (fun n => / INR n)). apply (is_lim_seq_inv INR p_infty); [apply is_lim_seq_INR|discriminate].
Qed.
Definition F (z : R) : R := PSeries cJ z.
Definition F1 (z : R) : R := PSeries (PS_derive cJ) z.
Lemma inside : forall a z, CV_radius a = p_infty -> Rbar_lt (Rabs z) (CV_radius a).
Proof. intros a z ->. exact Logic.I. Qed.
Lemma F_derive : forall z, is_derive F z (F1 z).
Proof. intro z. apply is_derive_PSeries, inside, cJ_radius. Qed.
Lemma zF1_derive : forall z, is_derive (fun z => z * F1 z) z (- F z / 4).
Proof.
  intro z. apply (is_derive_ext (PSeries (PS_incr_1 (PS_derive cJ)))); [intro t; apply PSeries_incr_1|].
  assert (E : PSeries (PS_derive (PS_incr_1 (PS_derive cJ))) z = - F z / 4).
  { unfold F. replace (- PSeries cJ z / 4) with ((- / 4) * PSeries cJ z) by (match goal with |- ?a = ?b => change (@eq R a b); field end). rewrite <- PSeries_scal. apply PSeries_ext. intro n. unfold PS_derive, PS_incr_1, PS_scal. cbn [Nat.add]. rewrite cJ_next.
    change (- cJ n / 4 = (- / 4) * cJ n). field. }
  rewrite <- E. apply is_derive_PSeries, inside. rewrite CV_radius_incr_1, CV_radius_derive. exact cJ_radius.
Qed.
Lemma J_F : forall J, J0_of J -> forall x, J x = F (x * x).
Proof.
  intros J HJ x. apply (uniqueness_sum (J0_term x)); [apply HJ|]. apply is_series_Reals. apply (is_series_ext (fun k => scal (pow_n (x * x) k) (cJ k))).
  - intro n. rewrite cJ_term, pow_n_pow. change ((x * x) ^ n * cJ n = cJ n * (x * x) ^ n). ring.
  - apply PSeries_correct. apply CV_radius_inside, inside, cJ_radius.
Qed.
(** * J' = 2 x F'(x^2); x J' = w, w' = - x J *)
Definition J1 (x : R) : R := 2 * x * F1 (x * x).
Definition w (x : R) : R := 2 * ((x * x) * F1 (x * x)).
Lemma sq_derive : forall x, is_derive (fun x => x * x) x (2 * x).
Proof. intro x. auto_derive; [exact Logic.I|ring]. Qed.
Lemma J_derive : forall J, J0_of J -> forall x, is_derive J x (J1 x).
Proof.
  intros J HJ x. apply (is_derive_ext (fun x => F (x * x))); [intro t; symmetry; apply J_F, HJ|]. unfold J1. replace (2 * x * F1 (x * x)) with (scal (2 * x) (F1 (x * x))) by reflexivity.
  apply (is_derive_comp F (fun x => x * x)); [apply F_derive|apply sq_derive].
Qed.
Lemma w_derive : forall J, J0_of J -> forall x, is_derive w x (- (x * J x)).
Proof.
  intros J HJ x. rewrite (J_F J HJ x). unfold w. replace (- (x * F (x * x))) with (2 * scal (2 * x) (- F (x * x) / 4)) by (change (2 * ((2 * x) * (- F (x * x) / 4)) = - (x * F (x * x))); field).
  apply (is_derive_scal (fun x => (x * x) * F1 (x * x))). apply (is_derive_comp (fun z => z * F1 z) (fun x => x * x)); [apply zF1_derive|apply sq_derive].
Qed.
Lemma w_0 : w 0 = 0. Proof. unfold w. ring. Qed.
Lemma w_J1 : forall x, w x = x * J1 x. Proof. intro x. unfold w, J1. ring. Qed.
(** * v = sqrt x J: v'' = - (1 + 1 / 4 x^2) v *)
Definition v (J : R -> R) (x : R) : R := sqrt x * J x.
Definition v1 (J : R -> R) (x : R) : R := / sqrt x * (w x + J x / 2).
Lemma v_derive : forall J, J0_of J -> forall x, 0 < x -> is_derive (v J) x (v1 J x).
Proof.
  intros J HJ x X. pose proof (J_derive J HJ x) as D. unfold v, v1. assert (Q : 0 < sqrt x) by (apply sqrt_lt_R0; exact X). auto_derive; [split; [exact X|split; [exists (J1 x); exact D|exact Logic.I]]|].
  replace (Derive (fun x => J x) x) with (J1 x) by (symmetry; apply is_derive_unique; exact D). rewrite w_J1. assert (E : x = sqrt x * sqrt x) by (symmetry; apply sqrt_sqrt; lra). set (s := sqrt x) in *. set (j := J x). set (i := J1 x). clearbody s i j. rewrite E. field. lra.
Qed.
Lemma v1_derive : forall J, J0_of J -> forall x, 0 < x -> is_derive (v1 J) x (- (1 + 1 / (4 * (x * x))) * v J x).
Proof.
  intros J HJ x X. pose proof (J_derive J HJ x) as D. pose proof (w_derive J HJ x) as DW. unfold v1, v. assert (Q : 0 < sqrt x) by (apply sqrt_lt_R0; exact X).
  auto_derive; [repeat split; first [exact X|lra|exists (J1 x); exact D|exists (- (x * J x)); exact DW]|].
  replace (Derive (fun x => J x) x) with (J1 x) by (symmetry; apply is_derive_unique; exact D). replace (Derive (fun x => w x) x) with (- (x * J x)) by (symmetry; apply is_derive_unique; exact DW). rewrite w_J1. assert (E : x = sqrt x * sqrt x) by (symmetry; apply sqrt_sqrt; lra). set (s := sqrt x) in *. set (j := J x). set (i := J1 x). clearbody s i j. rewrite E. field. lra.
Qed.
