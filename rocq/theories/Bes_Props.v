(** Properties of the Bessel functions of bessel.py. *)
From Coq Require Import ZArith Reals List Bool Lra Lia.
From Coquelicot Require Import Coquelicot.
From Verif Require Import Base Bounds_Model Bounds_Proofs Interp_Spec Interp_Lanczos Bes_Model Bes_Spec Bes_Si2 Bes_K Bes_K2 Bes_J Bes_T3 Bes_Jend Bes_Miller Bes_Steed.
Import ListNotations.
Open Scope R_scope.
Local Ltac rfield := match goal with |- ?a = ?b => change (@eq R a b); field end.

(** * C119 kv *)
(** The closed forms solve Bessel's modified equation x^2 K'' + x K' = (x^2 + nu^2) K, nu = n + 1/2. *)
Theorem C119_bessel_equation : forall n x, 0 < x -> exists d dd, (forall y, 0 < y -> is_derive (K_half n) y (d y)) /\ is_derive d x dd /\
  x * x * dd + x * d x = (x * x + (INR n + 1 / 2) * (INR n + 1 / 2)) * K_half n x.
Proof.
  intros n x X. exists (fun y => - K_before n y - (INR n + 1 / 2) / y * K_half n y).
  assert (B : is_derive (K_before n) x (- K_half n x + (INR n - 1 / 2) / x * K_before n x)).
  { destruct n as [|n]; cbn [K_before].
    - refine (eq_ind _ (fun z => is_derive (K_half 0) x z) (K_derive 0 x X) _ _). cbn [K_before]. change (INR 0) with 0. rfield. lra.
    - refine (eq_ind _ (fun z => is_derive (K_half n) x z) (K_derive n x X) _ _). rewrite S_INR, (K_step n x) by lra. rfield. lra. }
  pose proof (K_derive n x X) as A. set (nu := INR n + 1 / 2) in *. set (k := K_half n x) in *. set (b := K_before n x) in *.
  exists (- (- k + (nu - 1) / x * b) + nu / (x * x) * k - nu / x * (- b - nu / x * k)). split; [intros y Y; apply K_derive, Y|]. split.
  - assert (E1 : is_derive (fun y => nu / y) x (- nu / (x * x))) by (auto_derive; [lra|field; lra]).
    refine (eq_ind _ (fun z => is_derive _ x z) (is_derive_minus _ _ x _ _ (is_derive_opp _ x _ B) (is_derive_mult _ _ x _ _ E1 A Rmult_comm)) _ _). change (- (- k + (INR n - 1 / 2) / x * b) - (- nu / (x * x) * k + nu / x * (- b - nu / x * k)) = - (- k + (nu - 1) / x * b) + nu / (x * x) * k - nu / x * (- b - nu / x * k)). replace (INR n - 1 / 2) with (nu - 1) by (unfold nu; lra). field. lra.
  - field. lra.
Qed.
Print Assumptions C119_bessel_equation.
(** Half-integer orders up to 99/2, arguments above 2: the value is K_nu(x). *)
Theorem C119_half_orders : forall olver n x, (n < 50)%nat -> 2 < x -> kv olver (INR n + 1 / 2) x = Num (K_half n x) /\ kv olver (- (INR n + 1 / 2)) x = Num (K_half n x).
Proof. intros olver n x N X. rewrite kv_even. split; apply kv_half; assumption. Qed.
Print Assumptions C119_half_orders.
(** All positive arguments: within a part in 10^12, Temme's series and its stopping rule included. *)
Theorem C119_close : forall olver n x, (n < 50)%nat -> 0 < x -> exists r, kv olver (INR n + 1 / 2) x = Num r /\ Rabs (r - K_half n x) <= 1 / 10 ^ 12 * K_half n x.
Proof. exact kv_close. Qed.
Print Assumptions C119_close.
(** The order may have either sign; infinity at 0, nan for negative arguments, a number otherwise. *)
Theorem C119_edges : forall olver nu x, kv olver (- nu) x = kv olver nu x /\
  (x = 0 -> kv olver nu x = Inf) /\ (x < 0 -> kv olver nu x = Nan) /\ (0 < x -> exists r, kv olver nu x = Num r).
Proof. intros olver nu x. split; [apply kv_even|]. split; [intros ->; apply kv_zero|]. split; [apply kv_neg|]. intro X. eexists. apply kv_num, X. Qed.
Print Assumptions C119_edges.
(** Three neighbouring orders satisfy K_{v+1} = K_{v-1} + 2 v / x K_v, for every argument. *)
Theorem C119_orders_partial : forall olver n v x, - (1 / 2) < v - INR n < 1 / 2 -> 1 <= v -> v + 1 < 50 -> 0 < x ->
  exists a b c, kv olver (v - 1) x = Num a /\ kv olver v x = Num b /\ kv olver (v + 1) x = Num c /\ c = a + 2 * v / x * b.
Proof.
  intros olver n v x H V V2 X. do 3 eexists. split; [apply kv_num, X|]. split; [apply kv_num, X|]. split; [apply kv_num, X|]. pose proof (kv_three olver n v x H V V2 X) as K. rewrite !kv_num in K by exact X. exact K.
Qed.
Print Assumptions C119_orders_partial.
(** orders up to 1/2, beyond 2: the loop of the continued fraction yields Miller's algorithm with some number N of terms, from its one solution that ends in 0 *)
Theorem C119_miller : forall olver v x, Rabs v <= 1 / 2 -> 2 < x ->
  (exists N w, (1 <= N <= 1001)%nat /\ miller v x N w /\ kv olver v x = Num (sqrt (PI / (2 * x)) * exp (- x) / miller_sum v N w)) /\
  (forall N w w' n, miller v x N w -> miller v x N w' -> (n <= N)%nat -> w n = w' n /\ 0 < w n).
Proof. exact (fun olver v x V X => conj (kv_miller olver v x V X) (fun N w w' n H H' L => conj (miller_unique v x V ltac:(lra) N w w' H H' n L) (miller_pos v x V ltac:(lra) N w H n L))). Qed.
Print Assumptions C119_miller.
(** so the value lies between 0 and that of order 1/2, as K_v is increasing in the order *)
Theorem C119_small_orders : forall olver v x, Rabs v <= 1 / 2 -> 2 < x -> exists r, kv olver v x = Num r /\ 0 < r <= K_half 0 x.
Proof. intros olver v x V X. destruct (kv_between olver v x V X) as (r & E & B). exists r. split; [exact E|]. rewrite K_th, th_0 by lra. rewrite Rmult_1_r. exact B. Qed.
Print Assumptions C119_small_orders.
Example C119_ex_miller : forall olver, exists N w, (1 <= N <= 1001)%nat /\ miller 0 3 N w /\ kv olver 0 3 = Num (sqrt (PI / (2 * 3)) * exp (- (3)) / miller_sum 0 N w).
Proof. intro olver. apply (C119_miller olver 0 3); [rewrite Rabs_R0|]; lra. Qed.
(** The gradient with respect to the argument is the derivative. *)
Theorem C119_gradient : forall olver n x g, (n < 49)%nat -> 2 < x -> exists d, kv_bwd olver (INR n + 1 / 2) x g = Some (0, d * g) /\
  is_derive (fun t => val (kv olver (INR n + 1 / 2) t)) x d.
Proof. exact kv_gradient. Qed.
Print Assumptions C119_gradient.
Theorem C119_gradient_close : forall olver n x g, (n < 49)%nat -> 0 < x -> exists d, kv_bwd olver (INR n + 1 / 2) x g = Some (0, d * g) /\
  exists d', is_derive (K_half n) x d' /\ Rabs (d - d') <= 1 / 10 ^ 12 * Rabs d'.
Proof. exact kv_grad_close. Qed.
Print Assumptions C119_gradient_close.
(** The gradient with respect to the order is not. *)
Theorem C119_order_gradient_refuted : forall olver x, 2 < x ->
  ~ (forall nu, 1 / 2 <= nu <= 3 / 2 -> exists d, kv_bwd olver nu x 1 = Some d /\ is_derive (fun nu => val (kv olver nu x)) nu (fst d)).
Proof. exact kv_nu_gradient. Qed.
Print Assumptions C119_order_gradient_refuted.
Example C119_ex : forall olver, kv olver (3 / 2) 3 = Num (sqrt (PI / 6) * exp (- 3) * (4 / 3)) /\ kv olver (- (5 / 2)) 3 = Num (sqrt (PI / 6) * exp (- 3) * (7 / 3)).
Proof.
  intro olver. assert (P : PI / (2 * 3) = PI / 6) by field. replace (-3) with (Ropp 3) by ring. split.
  - replace (3 / 2) with (INR 1 + 1 / 2) by (change (INR 1) with 1; field). rewrite (proj1 (C119_half_orders olver 1 3 ltac:(lia) ltac:(lra))), K_th, th_1 by lra. rewrite P. f_equal. field.
  - replace (5 / 2) with (INR 2 + 1 / 2) by (change (INR 2) with (1 + 1); field). rewrite (proj2 (C119_half_orders olver 2 3 ltac:(lia) ltac:(lra))), K_rec, !K_th, th_0, th_1 by lra. rewrite P. f_equal. change (INR 1) with 1. field.
Qed.
Example C119_ex_close : forall olver, exists r, kv olver (3 / 2) (1 / 2) = Num r /\ Rabs (r - sqrt PI * exp (- (1 / 2)) * 3) <= 1 / 10 ^ 12 * (sqrt PI * exp (- (1 / 2)) * 3).
Proof.
  intro olver. destruct (C119_close olver 1 (1 / 2) ltac:(lia) ltac:(lra)) as (r & E & H). exists r. change (INR 1) with 1 in E. replace (1 + 1 / 2) with (3 / 2) in E by field. split; [exact E|]. rewrite K_th, th_1 in H by lra. replace (PI / (2 * (1 / 2))) with PI in H by field. replace (1 + 1 / (1 / 2)) with 3 in H by field. exact H.
Qed.
Example C119_ex_orders : forall olver, exists a b c, kv olver (7 / 5) (1 / 3) = Num a /\ kv olver (12 / 5) (1 / 3) = Num b /\ kv olver (17 / 5) (1 / 3) = Num c /\ c = a + 72 / 5 * b.
Proof.
  intro olver. destruct (C119_orders_partial olver 2 (12 / 5) (1 / 3)) as (a & b & c & A & B & D & E); try (rewrite ?INR_IZR_INZ; cbn; lra). exists a, b, c. replace (12 / 5 - 1) with (7 / 5) in A by field. replace (12 / 5 + 1) with (17 / 5) in D by field. repeat split; try assumption. rewrite E. field.
Qed.

(** * C120 si *)
Theorem C120_close : forall Si, Si_of Si -> forall x, Rabs (si x - Si x) <= 1 / 10 ^ 14.
Proof. exact si_close. Qed.
Print Assumptions C120_close.
Theorem C120_small : forall Si, Si_of Si -> forall x, Rabs x <= 4 -> Rabs (si x - Si x) <= 1 / 10 ^ 16 * Rabs x.
Proof. exact si_close_small. Qed.
Print Assumptions C120_small.
Theorem C120_odd : forall x, si (- x) = - si x.
Proof. exact si_opp. Qed.
Print Assumptions C120_odd.
Example C120_ex : exists Si, Si_of Si /\ Rabs (si 3 - Si 3) <= 3 / 10 ^ 16 /\ Rabs (si 1000 - Si 1000) <= 1 / 10 ^ 14.
Proof.
  assert (E : Si_of (fun x => RInt (fun t => sincR (t / PI)) 0 x)).
  { intro x. apply (RInt_correct (V := R_CompleteNormedModule)). apply (ex_RInt_continuous (V := R_CompleteNormedModule)). intros z _. apply scaled_cont. }
  eexists. split; [exact E|]. split; [|apply C120_close, E]. pose proof (C120_small _ E 3) as H. rewrite (Rabs_pos_eq 3) in H by lra. specialize (H ltac:(lra)). cbv beta in *. lra.
Qed.

(** * C121 j0 *)
Theorem C121_close : forall J, J0_of J -> forall x, Rabs (j0 x - J x) <= 2 / 10 ^ 16.
Proof. exact j0_everywhere. Qed.
Print Assumptions C121_close.
(** the bound falls off as the function itself *)
Theorem C121_far : forall J, J0_of J -> forall x, 8 < Rabs x -> Rabs (j0 x - J x) <= 53 / 10 ^ 17 / sqrt (Rabs x).
Proof. exact j0_far. Qed.
Print Assumptions C121_far.
Theorem C121_even : forall x, j0 (- x) = j0 x /\ j0 0 = 1.
Proof. intro x. split; [apply j0_even|]. unfold j0. rewrite Rabs_R0. destruct (Req_EM_T 0 0); [reflexivity|lra]. Qed.
Print Assumptions C121_even.
(** There is such a function J. *)
Lemma J0_exists : exists J, J0_of J.
Proof.
  assert (H : forall x, { l | infinite_sum (J0_term x) l }).
  { intro x. set (A := fun n => (-1) ^ n / (INR (fact n) * INR (fact n))). assert (N : forall n, A n <> 0). { intro n. unfold A. apply Rmult_integral_contrapositive_currified; [apply pow_nonzero; lra|]. apply Rinv_neq_0_compat, Rmult_integral_contrapositive_currified; apply INR_fact_neq_0. }
    assert (U : Un_cv (fun n => Rabs (A (S n) / A n)) 0).
    { intros e E. destruct (archimed_cor1 e E) as (m & M & P). exists m. intros n L. assert (V : A (S n) / A n = - / (INR (S n) * INR (S n))). { unfold A. rewrite fact_simpl, mult_INR. cbn [pow]. assert (F := INR_fact_neq_0 n). assert (Q : INR (S n) <> 0) by (apply not_0_INR; lia). assert (W : (-1) ^ n <> 0) by (apply pow_nonzero; lra). field. repeat split; assumption. }
      assert (Q : 1 <= INR (S n)) by (rewrite S_INR; pose proof (pos_INR n); lra). unfold R_dist. rewrite V, Rabs_Ropp, Rminus_0_r, Rabs_Rabsolu, Rabs_pos_eq by (left; apply Rinv_0_lt_compat; nra).
      eapply Rle_lt_trans; [|exact M]. apply Rinv_le_contravar; [apply lt_0_INR; exact P|]. assert (INR m <= INR (S n)) by (apply le_INR; lia). nra. }
    destruct (Alembert_C3 A ((x / 2) ^ 2) N U) as [l L]. exists l. unfold Pser in L. intros e E. destruct (L e E) as [m M]. exists m. intros n K. specialize (M n K). rewrite (sum_eq (J0_term x) (fun n => A n * ((x / 2) ^ 2) ^ n)); [exact M|]. intros i _. unfold J0_term, A. rewrite pow_mult. unfold Rdiv. ring. }
  exists (fun x => proj1_sig (H x)). intro x. exact (proj2_sig (H x)).
Qed.
Example C121_ex : exists J, J0_of J /\ Rabs (j0 (12 / 5) - J (12 / 5)) <= 2 / 10 ^ 16 /\ Rabs (j0 (- 7) - J (- 7)) <= 2 / 10 ^ 16 /\ Rabs (j0 (- 10000) - J (- 10000)) <= 53 / 10 ^ 17 / sqrt (Rabs (- 10000)).
Proof.
  destruct J0_exists as [J H]. exists J. split; [exact H|]. split; [apply C121_close, H|]. split; [apply C121_close, H|]. apply C121_far; [exact H|]. rewrite Rabs_left; lra.
Qed.
