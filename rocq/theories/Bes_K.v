(** kv: half-integer orders, recurrence, gradient. *)
From Coq Require Import ZArith Reals List Bool Lra Lia.
From Coquelicot Require Import Coquelicot.
From Verif Require Import Base Bounds_Model Bounds_Proofs Bes_Model Bes_Spec.
Open Scope R_scope.

(** * The closed form *)
Definition th (n : nat) (x : R) : R := sum_f_R0 (fun k => bessel_coeff n k / (2 * x) ^ k) n.
Lemma coeff_rec : forall n k, bessel_coeff (S (S n)) (S k) = bessel_coeff n (S k) + 2 * (2 * INR (S n) + 1) * bessel_coeff (S n) k.
Proof.
  intros n k. unfold bessel_coeff. assert (F : forall m, INR (fact m) <> 0) by (intro; apply INR_fact_neq_0). assert (FS : forall m, INR (fact (S m)) = (INR m + 1) * INR (fact m)) by (intro m; change (fact (S m)) with (S m * fact m)%nat; rewrite mult_INR, S_INR; reflexivity).
  destruct (Nat.leb_spec (S k) (S (S n))) as [A|A].
  - destruct (Nat.leb_spec k (S n)) as [C|C]; [|lia]. destruct (Nat.leb_spec (S k) n) as [B|B].
    + replace (S (S n) + S k)%nat with (S (S (n + S k))) by lia. replace (S n + k)%nat with (n + S k)%nat by lia. replace (S (S n) - S k)%nat with (S (S (n - S k))) by lia. replace (S n - k)%nat with (S (S (n - S k))) by lia. rewrite !FS, !S_INR, !plus_INR, !S_INR, minus_INR, !S_INR by lia. pose proof (F (n + S k)%nat). pose proof (F k). pose proof (F (n - S k)%nat). assert (0 <= INR k) by apply pos_INR. assert (INR k + 1 <= INR n) by (rewrite <- S_INR; apply le_INR; lia). field. repeat split; try assumption; try lra. all: try (apply INR_fact_neq_0). 
    + assert (E : k = n \/ k = S n) by lia. destruct E as [-> | ->].
      * replace (S (S n) - S n)%nat with 1%nat by lia. replace (S n - n)%nat with 1%nat by lia. change (INR (fact 1)) with 1. replace (S (S n) + S n)%nat with (S (S (S n + n))) by lia. rewrite !FS, !S_INR, !plus_INR, !S_INR. pose proof (F (S n + n)%nat). pose proof (F n). assert (0 <= INR n) by apply pos_INR. field. repeat split; try assumption; lra.
      * replace (S (S n) - S (S n))%nat with 0%nat by lia. replace (S n - S n)%nat with 0%nat by lia. change (INR (fact 0)) with 1. replace (S (S n) + S (S n))%nat with (S (S (S n + S n))) by lia. rewrite !FS, !S_INR, !plus_INR, !S_INR. pose proof (F (S n + S n)%nat). pose proof (F n). assert (0 <= INR n) by apply pos_INR. field. repeat split; try assumption; lra.
  - destruct (Nat.leb_spec (S k) n) as [B|B]; [lia|]. destruct (Nat.leb_spec k (S n)) as [C|C]; [lia|]. ring.
Qed.
Lemma coeff_0 : forall n, bessel_coeff n 0 = 1.
Proof. intro n. unfold bessel_coeff. cbn [Nat.leb]. rewrite Nat.add_0_r, Nat.sub_0_r. change (INR (fact 0)) with 1. field. apply INR_fact_neq_0. Qed.
(** the sum may run further *)
Lemma th_more : forall n m x, th n x = sum_f_R0 (fun k => bessel_coeff n k / (2 * x) ^ k) (n + m).
Proof.
  intros n m x. induction m as [|m IH]; [rewrite Nat.add_0_r; reflexivity|]. rewrite Nat.add_succ_r. cbn [sum_f_R0]. rewrite <- IH. unfold bessel_coeff at 1. destruct (Nat.leb_spec (S (n + m)) n); [lia|]. unfold Rdiv. ring.
Qed.
Lemma sum_first : forall f n, sum_f_R0 f (S n) = f 0%nat + sum_f_R0 (fun k => f (S k)) n.
Proof. intros f n. induction n as [|n IH]; [reflexivity|]. change (sum_f_R0 f (S (S n))) with (sum_f_R0 f (S n) + f (S (S n))). rewrite IH. cbn [sum_f_R0]. ring. Qed.
Lemma th_rec : forall n x, x <> 0 -> th (S (S n)) x = th n x + (2 * INR (S n) + 1) / x * th (S n) x.
Proof.
  intros n x X. rewrite (th_more n 2 x). replace (n + 2)%nat with (S (S n)) by lia. unfold th. rewrite !(sum_first _ (S n)), !coeff_0. replace ((2 * INR (S n) + 1) / x * sum_f_R0 (fun k => bessel_coeff (S n) k / (2 * x) ^ k) (S n)) with (sum_f_R0 (fun k => 2 * (2 * INR (S n) + 1) * bessel_coeff (S n) k / (2 * x) ^ S k) (S n)).
  - rewrite Rplus_assoc. f_equal. rewrite <- sum_plus. apply sum_eq. intros k K. rewrite coeff_rec. unfold Rdiv. ring.
  - rewrite (scal_sum (fun k => bessel_coeff (S n) k / (2 * x) ^ k)). apply sum_eq. intros k K. cbn [pow]. assert ((2 * x) ^ k <> 0) by (apply pow_nonzero; lra). field. split; assumption.
Qed.
Lemma th_0 : forall x, th 0 x = 1.
Proof. intro x. unfold th. cbn [sum_f_R0 pow]. rewrite coeff_0. field. Qed.
Lemma th_1 : forall x, x <> 0 -> th 1 x = 1 + 1 / x.
Proof. intros x X. unfold th. cbn [sum_f_R0 pow]. rewrite coeff_0. unfold bessel_coeff. cbn [Nat.leb Nat.add Nat.sub fact Nat.mul]. change (INR 1) with 1. change (INR 2) with 2. field. exact X. Qed.
Lemma K_th : forall n x, K_half n x = sqrt (PI / (2 * x)) * exp (- x) * th n x.
Proof. reflexivity. Qed.
Lemma K_rec : forall n x, x <> 0 -> K_half (S (S n)) x = K_half n x + (2 * INR (S n) + 1) / x * K_half (S n) x.
Proof. intros n x X. rewrite !K_th, th_rec by exact X. ring. Qed.
Lemma K_1 : forall x, x <> 0 -> K_half 1 x = K_half 0 x + 1 / x * K_half 0 x.
Proof. intros x X. rewrite !K_th, th_1, th_0 by exact X. ring. Qed.
(** the order below: K_{-1/2} = K_{1/2} *)
Definition K_before (n : nat) (x : R) : R := match n with O => K_half 0 x | S n => K_half n x end.
Lemma K_step : forall n x, x <> 0 -> K_half (S n) x = K_before n x + (2 * INR n + 1) / x * K_half n x.
Proof. intros [|n] x X; [cbn [K_before]; change (INR 0) with 0; rewrite K_1 by exact X; unfold Rdiv; ring|apply K_rec, X]. Qed.
Lemma K_derive : forall n x, 0 < x -> is_derive (K_half n) x (- K_before n x - (INR n + 1 / 2) / x * K_half n x).
Proof.
  assert (D0 : forall x, 0 < x -> is_derive (K_half 0) x (- K_half 0 x - (1 / 2) / x * K_half 0 x)).
  { intros x X. pose proof PI_RGT_0 as P. assert (Q : 0 < PI / (2 * x)) by (apply Rdiv_lt_0_compat; lra). pose proof (sqrt_lt_R0 _ Q) as SQ.
    apply (is_derive_ext (fun x => sqrt (PI / (2 * x)) * exp (- x))); [intro t; rewrite K_th, th_0; match goal with |- ?a = ?b => change (@eq R a b) end; ring|].
    auto_derive; [repeat split; lra|]. rewrite K_th, th_0. assert (EE : sqrt (PI / (2 * x)) * sqrt (PI / (2 * x)) = PI / (2 * x)) by (apply sqrt_sqrt; lra). change (PI * / (2 * x)) with (PI / (2 * x)). set (s := sqrt (PI / (2 * x))) in *. assert (PE : PI = 2 * x * (s * s)) by (rewrite EE; field; lra). rewrite PE. field. repeat split; lra. }
  assert (H : forall n, (forall x, 0 < x -> is_derive (K_half n) x (- K_before n x - (INR n + 1 / 2) / x * K_half n x)) /\ (forall x, 0 < x -> is_derive (K_before n) x (- K_half n x + (INR n - 1 / 2) / x * K_before n x))).
  { induction n as [|n [IH1 IH2]].
    - split; intros x X; specialize (D0 x X); cbn [K_before]; change (INR 0) with 0; [replace (0 + 1 / 2) with (1 / 2) by ring; exact D0|]. replace (- K_half 0 x + (0 - 1 / 2) / x * K_half 0 x) with (- K_half 0 x - 1 / 2 / x * K_half 0 x) by (field; lra). exact D0.
    - assert (B : forall x, 0 < x -> is_derive (K_half n) x (- K_half (S n) x + (INR n + 1 / 2) / x * K_half n x)). { intros x X. specialize (IH1 x X). rewrite K_step by lra. replace (- (K_before n x + (2 * INR n + 1) / x * K_half n x) + (INR n + 1 / 2) / x * K_half n x) with (- K_before n x - (INR n + 1 / 2) / x * K_half n x) by (field; lra). exact IH1. }
      split; intros x X; rewrite S_INR; cbn [K_before].
      + specialize (IH2 x X). specialize (B x X).
        assert (T : is_derive (fun x => (2 * INR n + 1) / x) x (- (2 * INR n + 1) / (x * x))) by (auto_derive; [lra|field; lra]).
        pose proof (is_derive_plus (K_before n) (fun x => (2 * INR n + 1) / x * K_half n x) x _ _ IH2 (is_derive_mult (fun x => (2 * INR n + 1) / x) (K_half n) x _ _ T B Rmult_comm)) as K.
        assert (L : locally x (fun t => plus (K_before n t) ((2 * INR n + 1) / t * K_half n t) = K_half (S n) t)). { exists (mkposreal x X). intros t T0. change (K_before n t + (2 * INR n + 1) / t * K_half n t = K_half (S n) t). rewrite K_step; [reflexivity|]. intro Z. subst t. change (Rabs (0 - x) < x) in T0. rewrite Rminus_0_l, Rabs_Ropp, Rabs_pos_eq in T0; lra. }
        pose proof (is_derive_ext_loc _ _ _ _ L K) as K2. refine (eq_ind _ (fun z => is_derive (K_half (S n)) x z) K2 _ _). 
        change (- K_half n x + (INR n - 1 / 2) / x * K_before n x + (- (2 * INR n + 1) / (x * x) * K_half n x + (2 * INR n + 1) / x * (- K_half (S n) x + (INR n + 1 / 2) / x * K_half n x)) = - K_half n x - (INR n + 1 + 1 / 2) / x * K_half (S n) x). rewrite K_step by lra. field. lra.
      + replace (INR n + 1 - 1 / 2) with (INR n + 1 / 2) by field. apply B, X. }
  intros n x X. apply H, X.
Qed.
Lemma K_pos : forall n x, 0 < x -> 0 < K_half n x.
Proof.
  assert (H : forall n x, 0 < x -> 0 < K_half n x /\ 0 < K_before n x).
  { intros n x X. pose proof PI_RGT_0 as P. assert (Z : 0 < K_half 0 x) by (rewrite K_th, th_0, Rmult_1_r; apply Rmult_lt_0_compat; [apply sqrt_lt_R0, Rdiv_lt_0_compat; lra|apply exp_pos]).
    induction n as [|n [A B]]; [split; exact Z|]. split; [|exact A]. rewrite K_step by lra. assert (0 <= INR n) by apply pos_INR. assert (0 < (2 * INR n + 1) / x) by (apply Rdiv_lt_0_compat; lra). assert (0 < (2 * INR n + 1) / x * K_half n x) by (apply Rmult_lt_0_compat; assumption). lra. }
  intros n x X. apply H, X.
Qed.
