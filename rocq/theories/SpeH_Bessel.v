(** The Bessel functions of half-integer order as a pair in the sense of Size_Spec. *)
From Coq Require Import Reals Lra Lia Arith.
From Coquelicot Require Import Coquelicot.
From Verif Require Import Base Bounds_Model Bounds_Proofs Size_Model Size_Spec Size_Neg Size_Pade Bes_Spec Bes_K SpeH_Spec.
Open Scope R_scope.

Lemma theta_rec : forall n z, theta (S (S n)) z = (2 * INR n + 3) * theta (S n) z + z ^ 2 * theta n z.
Proof. reflexivity. Qed.
Lemma theta_0 : forall z, theta 0 z = 1.
Proof. reflexivity. Qed.
Lemma theta_1 : forall z, theta 1 z = 1 + z.
Proof. reflexivity. Qed.
Lemma two_step : forall P : nat -> Prop, P 0%nat -> P 1%nat -> (forall n, P n -> P (S n) -> P (S (S n))) -> forall n, P n.
Proof.
  intros P P0 P1 PS n. enough (H : P n /\ P (S n)) by apply H. induction n as [|n [A B]]; [split; assumption|]. split; [exact B|apply PS; assumption].
Qed.
Lemma theta_pos : forall n z, 0 <= z -> 0 < theta n z.
Proof.
  intros n z Z. revert n. apply two_step; [rewrite theta_0; lra|rewrite theta_1; lra|]. intros n A B. rewrite theta_rec. pose proof (pos_INR n). pose proof (pow2_ge_0 z).
  pose proof (Rmult_le_pos _ _ H0 (Rlt_le _ _ A)). pose proof (Rmult_lt_0_compat (2 * INR n + 3) _ ltac:(lra) B). lra.
Qed.
Lemma theta_zero : forall n, theta n 0 = odd_fact n.
Proof.
  apply two_step; [reflexivity|rewrite theta_1; cbn [odd_fact]; change (INR 0) with 0; ring|]. intros n _ B. rewrite theta_rec, B. cbn [odd_fact]. rewrite S_INR. ring.
Qed.
Lemma odd_fact_pos : forall n, 0 < odd_fact n.
Proof. intros n. rewrite <- theta_zero. apply theta_pos. lra. Qed.
Lemma theta_derive : forall n z, is_derive (theta (S n)) z (theta (S n) z - z * theta n z).
Proof.
  apply (two_step (fun n => forall z, is_derive (theta (S n)) z (theta (S n) z - z * theta n z))).
  - intros z. apply (is_derive_ext (fun z => 1 + z)); [intros; reflexivity|]. rewrite theta_1, theta_0. auto_derive; [exact I|ring].
  - intros z. apply (is_derive_ext (fun z => 3 * (1 + z) + z ^ 2)).
    + intros t. rewrite theta_rec, theta_1, theta_0. change (INR 0) with 0. match goal with |- ?a = ?b => change (@eq R a b) end. ring.
    + rewrite theta_rec, theta_1, theta_0. change (INR 0) with 0. auto_derive; [exact I|ring].
  - intros n A B z. apply (is_derive_ext (fun z => (2 * INR (S n) + 3) * theta (S (S n)) z + z ^ 2 * theta (S n) z)); [intros; rewrite (theta_rec (S n)); reflexivity|].
    assert (D := is_derive_plus (fun z => (2 * INR (S n) + 3) * theta (S (S n)) z) (fun z => z ^ 2 * theta (S n) z) z _ _
      (is_derive_scal (theta (S (S n))) z (2 * INR (S n) + 3) _ (B z))
      (is_derive_mult (fun z => z ^ 2) (theta (S n)) z (2 * z) _ ltac:(auto_derive; [exact I|ring]) (A z) ltac:(intros; apply Rmult_comm))).
    match type of D with is_derive _ _ ?d => replace (theta (S (S (S n))) z - z * theta (S (S n)) z) with d; [exact D|] end.
    change plus with Rplus. change mult with Rmult. change scal with Rmult. rewrite (theta_rec (S n)), (theta_rec n), S_INR. match goal with |- ?a = ?b => change (@eq R a b) end. ring.
Qed.
Lemma theta_cont : forall n z, continuous (theta n) z.
Proof.
  intros [|n] z; [apply (continuous_ext (fun _ => 1)); [intros; reflexivity|apply continuous_const]|].
  apply (@ex_derive_continuous _ R_NormedModule). eexists. apply theta_derive.
Qed.

(** the polynomials and the functions *)
Lemma th_theta : forall n z, z <> 0 -> z ^ n * th n z = theta n z.
Proof.
  intros n z Z. revert n. apply two_step; [rewrite th_0, theta_0; ring|rewrite th_1, theta_1 by exact Z; field; exact Z|].
  intros n A B. rewrite theta_rec, <- A, <- B, th_rec by exact Z. rewrite S_INR. cbn [pow]. field. exact Z.
Qed.
Lemma K_theta : forall n z, 0 < z -> Rpower z (INR n + 1 / 2) * K_half n z = q0 * (theta n z * exp (- z)).
Proof.
  intros n z Z. rewrite K_th, sqrt_q0 by exact Z. rewrite Rpower_plus, Rpower_pow by exact Z. rewrite <- (th_theta n z) by lra. pose proof (half_powers z Z) as E.
  set (u := Rpower z (1 / 2)) in *. set (v := Rpower z (- (1 / 2))) in *.
  replace (z ^ n * u * (q0 * v * exp (- z) * th n z)) with (u * v * (q0 * (z ^ n * th n z * exp (- z)))) by ring. rewrite E. ring.
Qed.
Lemma K_half_pos : forall n z, 0 < z -> 0 < K_half n z.
Proof.
  intros n z Z. pose proof (K_theta n z Z) as E. pose proof (exp_pos ((INR n + 1 / 2) * ln z)) as P. change (0 < Rpower z (INR n + 1 / 2)) in P.
  pose proof (Rmult_lt_0_compat _ _ q0_pos (Rmult_lt_0_compat _ _ (theta_pos n z ltac:(lra)) (exp_pos (- z)))) as Q. rewrite <- E in Q.
  destruct (Rle_lt_dec (K_half n z) 0) as [L|L]; [|exact L]. pose proof (Rmult_le_compat_l _ _ _ (Rlt_le _ _ P) L). lra.
Qed.
Lemma K_half_cont : forall n z, 0 < z -> continuous (K_half n) z.
Proof.
  intros n z Z. apply (continuous_ext_loc (K_half n) (fun z => Rpower z (- (INR n + 1 / 2)) * (q0 * (theta n z * exp (- z))))).
  - exists (mkposreal z Z). intros y Y. change (Rabs (y - z) < z) in Y. apply Rabs_def2 in Y. rewrite <- (K_theta n y) by lra. rewrite Rpower_Ropp.
    match goal with |- ?a = ?b => change (@eq R a b) end. field. apply Rgt_not_eq. apply exp_pos.
  - apply (continuous_mult (K := R_AbsRing)).
    + apply (@ex_derive_continuous _ R_NormedModule). unfold Rpower. auto_derive. exact Z.
    + apply (continuous_mult (K := R_AbsRing)); [apply continuous_const|]. apply (continuous_mult (K := R_AbsRing)); [apply theta_cont|].
      apply (@ex_derive_continuous _ R_NormedModule). auto_derive. exact I.
Qed.
Lemma tail_derive : forall n z, is_derive (fun z => theta (S n) z * exp (- z)) z (- (z * (theta n z * exp (- z)))).
Proof.
  intros n z. assert (D := is_derive_mult (theta (S n)) (fun z => exp (- z)) z _ (- exp (- z)) (theta_derive n z) ltac:(auto_derive; [exact I|ring]) ltac:(intros; apply Rmult_comm)).
  match type of D with is_derive _ _ ?d => replace (- (z * (theta n z * exp (- z)))) with d; [exact D|] end.
  change plus with Rplus. change mult with Rmult. match goal with |- ?a = ?b => change (@eq R a b) end. ring.
Qed.

(** the limit at infinity *)
Lemma pow_exp_lim : forall k, is_lim (fun z => z ^ k * exp (- z)) p_infty 0.
Proof.
  intros k. set (c := INR (S k) ^ S k). assert (IP : 0 < INR (S k)) by (apply lt_0_INR; lia).
  apply (is_lim_le_le_loc (fun _ => 0) (fun z => c * / z)).
  - exists 0. intros z Z. split.
    + apply Rmult_le_pos; [apply pow_le; lra|apply Rlt_le, exp_pos].
    + assert (E : (z / INR (S k)) ^ S k <= exp z).
      { replace (exp z) with (exp (z / INR (S k)) ^ S k).
        - apply pow_incr. split; [apply Rlt_le, Rdiv_lt_0_compat; assumption|]. pose proof (exp_ineq1_le (z / INR (S k))). lra.
        - rewrite <- Rpower_pow by apply exp_pos. unfold Rpower. rewrite ln_exp. f_equal. field. lra. }
      unfold Rdiv in E. rewrite Rpow_mult_distr, pow_inv in E. fold c in E. assert (CP : 0 < c) by (unfold c; apply pow_lt; exact IP).
      rewrite exp_Ropp. apply (Rmult_le_reg_r (exp z)); [apply exp_pos|]. rewrite Rmult_assoc, Rinv_l, Rmult_1_r by (apply Rgt_not_eq, exp_pos).
      apply (Rmult_le_reg_r (z * / c)); [apply Rmult_lt_0_compat; [exact Z|apply Rinv_0_lt_compat; exact CP]|].
      replace (c * / z * exp z * (z * / c)) with (exp z) by (field; lra). replace (z ^ k * (z * / c)) with (z ^ S k * / c) by (cbn [pow]; ring). exact E.
  - apply is_lim_const.
  - replace (Finite 0) with (Rbar_mult (Finite c) (Rbar_inv p_infty)) by (cbn; f_equal; ring).
    apply is_lim_mult; [apply is_lim_const|apply is_lim_inv; [apply is_lim_id|discriminate]|exact I].
Qed.
Lemma theta_lim : forall n k, is_lim (fun z => z ^ k * (theta n z * exp (- z))) p_infty 0.
Proof.
  apply (two_step (fun n => forall k, is_lim (fun z => z ^ k * (theta n z * exp (- z))) p_infty 0)).
  - intros k. apply (is_lim_ext (fun z => z ^ k * exp (- z))); [intros; rewrite theta_0; ring|apply pow_exp_lim].
  - intros k. apply (is_lim_ext (fun z => z ^ k * exp (- z) + z ^ S k * exp (- z))); [intros; rewrite theta_1; cbn [pow]; ring|].
    replace (Finite 0) with (Rbar_plus (Finite 0) (Finite 0)) by (cbn; f_equal; ring). apply (is_lim_plus _ _ _ (Finite 0) (Finite 0)); [apply pow_exp_lim|apply pow_exp_lim|reflexivity].
  - intros n A B k. apply (is_lim_ext (fun z => (2 * INR n + 3) * (z ^ k * (theta (S n) z * exp (- z))) + z ^ S (S k) * (theta n z * exp (- z)))).
    + intros z. rewrite theta_rec. cbn [pow]. ring.
    + replace (Finite 0) with (Rbar_plus (Rbar_mult (2 * INR n + 3) (Finite 0)) (Finite 0)) by (cbn; f_equal; ring).
      apply (is_lim_plus _ _ _ (Rbar_mult (2 * INR n + 3) (Finite 0)) (Finite 0)); [apply is_lim_scal_l; apply B|apply A|reflexivity].
Qed.

(** * The pair *)
Lemma gamma_odd : forall n, Rpower 2 (INR n + 1 / 2) * gamma_half (S n) = q0 * odd_fact (S n).
Proof.
  induction n as [|n IH].
  - cbn [gamma_half odd_fact]. change (INR 0) with 0. replace (0 + 1 / 2) with (- (1 / 2) + 1) at 1 by lra. rewrite Rpower_plus, Rpower_1 by lra. unfold q0. field.
  - cbn [gamma_half odd_fact] in *. rewrite S_INR. replace (INR n + 1 + 1 / 2) with (INR n + 1 / 2 + 1) at 1 by ring. rewrite Rpower_plus, Rpower_1 by lra.
    replace (Rpower 2 (INR n + 1 / 2) * 2 * ((INR n + 1 + 1 / 2) * ((INR n + 1 / 2) * gamma_half n)))
      with (2 * (INR n + 1 + 1 / 2) * (Rpower 2 (INR n + 1 / 2) * ((INR n + 1 / 2) * gamma_half n))) by ring. rewrite IH. field.
Qed.
Lemma K_half_pair : forall n, bessel_pair (INR n + 1 / 2) (gamma_half (S n)) (K_half n) (K_half (S n)).
Proof.
  intros n. assert (E : forall z, 0 < z -> Rpower z (INR n + 1 / 2 + 1) * K_half (S n) z = q0 * (theta (S n) z * exp (- z))).
  { intros z Z. rewrite <- K_theta by exact Z. rewrite S_INR. replace (INR n + 1 / 2 + 1) with (INR n + 1 + 1 / 2) by ring. reflexivity. }
  split; [|split].
  - intros z Z. split; [apply K_half_pos; exact Z|]. split; [apply K_half_cont; exact Z|].
    apply (derive_near _ (fun z => q0 * (theta (S n) z * exp (- z))) z _ Z E).
    assert (D := is_derive_scal (fun z => theta (S n) z * exp (- z)) z q0 _ (tail_derive n z)).
    match type of D with is_derive _ _ ?d => replace (- (Rpower z (INR n + 1 / 2 + 1) * K_half n z)) with d; [exact D|] end.
    rewrite Rpower_plus, Rpower_1 by exact Z. pose proof (K_theta n z Z) as K. change scal with Rmult.
    match goal with |- ?a = ?b => change (@eq R a b) end.
    replace (Rpower z (INR n + 1 / 2) * z * K_half n z) with (z * (Rpower z (INR n + 1 / 2) * K_half n z)) by ring. rewrite K. ring.
  - rewrite gamma_odd. apply (filterlim_ext_loc (fun z => q0 * (theta (S n) z * exp (- z)))).
    + exists (mkposreal 1 Rlt_0_1). intros y _ Y. symmetry. apply E. exact Y.
    + assert (C : continuous (fun z => q0 * (theta (S n) z * exp (- z))) 0).
      { apply (continuous_mult (K := R_AbsRing)); [apply continuous_const|]. apply (continuous_mult (K := R_AbsRing)); [apply theta_cont|].
        apply (@ex_derive_continuous _ R_NormedModule). auto_derive. exact I. }
      unfold continuous in C. rewrite theta_zero, Ropp_0, exp_0, Rmult_1_r in C. intros P HP. destruct (C P HP) as [d D]. exists d. intros y By _. apply D. exact By.
  - apply (lim_near _ (fun z => q0 * (theta (S n) z * exp (- z)))); [exact E|].
    replace (Finite 0) with (Rbar_mult q0 (Finite 0)) by (cbn; f_equal; ring). apply is_lim_scal_l.
    apply (is_lim_ext (fun z => z ^ 0 * (theta (S n) z * exp (- z)))); [intros; cbn [pow]; ring|apply theta_lim].
Qed.
