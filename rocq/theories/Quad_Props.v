(** Properties of one-dimensional integration (integ.py) and Clenshaw-Curtis quadrature (core/integrate.py). *)
From Coq Require Import Arith Reals Bool List Lia Lra.
From Coquelicot Require Import Coquelicot.
From Verif Require Import Base Bounds_Model Quad_Model Quad_Spec Quad_Proofs Quad_Exact Quad_More.
Import ListNotations.
Open Scope R_scope.

(** * C117 int1d *)
(** Given an integrator that keeps its tolerances whenever it reports success, int1d returns the integral or raises, for
    limits that are infinite or not beyond 10^4. *)
Theorem C117_integral : forall quadgk ea er f a b v, integrates quadgk ea er -> plain a -> plain b -> isinf a && isinf b = false -> integral f a b v ->
  match int1d quadgk f a b with Ok r => Rabs (r - v) <= tolerance ea er v | Err e => e = RuntimeError end.
Proof. exact int1d_one. Qed.
Print Assumptions C117_integral.
(** Over the whole line the two halves have their own tolerances. *)
Theorem C117_whole_line : forall quadgk ea er f a b v1 v2, integrates quadgk ea er -> isinf a && isinf b = true -> integral f a (Finite 0) v1 -> integral f (Finite 0) b v2 ->
  integral f a b (v1 + v2) /\
  match int1d quadgk f a b with Ok r => Rabs (r - (v1 + v2)) <= tolerance ea er v1 + tolerance ea er v2 | Err e => e = RuntimeError end.
Proof.
  intros quadgk ea er f a b v1 v2 Q E V1 V2. pose proof (approach_proper a) as FA. pose proof (approach_proper b) as FB. assert (GA : Filter (approach a)) by apply FA. assert (GB : Filter (approach b)) by apply FB.
  assert (V : integral f a b (v1 + v2)) by exact (is_RInt_gen_Chasles (V := R_NormedModule) f 0 v1 v2 V1 V2). split; [exact V|].
  pose proof (int1d_ok quadgk ea er f a b (v1 + v2) v1 v2 Q) as H. rewrite E in H. apply H; try assumption; [destruct a|destruct b]; try discriminate E; try exact Logic.I. destruct a; discriminate E.
Qed.
Print Assumptions C117_whole_line.
(** A failure of either half is reported. *)
Theorem C117_failure : forall quadgk f a b, isinf a && isinf b = true ->
  (int1d quadgk f a b = Err RuntimeError <-> snd (quadgk f a (Finite 0)) <> 0%nat \/ snd (quadgk f (Finite 0) b) <> 0%nat).
Proof.
  intros quadgk f a b E. unfold int1d. assert (L : limit a = a /\ limit b = b) by (destruct a, b; try discriminate E; split; reflexivity). destruct L as [-> ->]. rewrite E. destruct (quadgk f a (Finite 0)) as [w1 s1]. destruct (quadgk f (Finite 0) b) as [w2 s2]. cbn [snd].
  destruct (Nat.eqb_spec (Nat.lor s1 s2) 0) as [S|S].
  - apply Nat.lor_eq_0_iff in S. destruct S as [-> ->]. split; [discriminate|intros [X|X]; congruence].
  - split; [intros _|reflexivity]. destruct (Nat.eq_dec s1 0) as [->|]; [|left; assumption]. destruct (Nat.eq_dec s2 0) as [->|]; [|right; assumption]. elim S. reflexivity.
Qed.
Print Assumptions C117_failure.
(** A finite limit beyond 10^4 is replaced by infinity: int1d does not return the integral that was asked for. *)
Theorem C117_far_limit_refuted : forall quadgk, integrates quadgk (1 / 10 ^ 12) (1 / 10 ^ 6) -> exists f b v, integral f (Finite 1) (Finite b) v /\ 0 < v /\
  forall r, int1d quadgk f (Finite 1) (Finite b) = Ok r -> 40 * tolerance (1 / 10 ^ 12) (1 / 10 ^ 6) v < Rabs (r - v).
Proof. exact int1d_far. Qed.
Print Assumptions C117_far_limit_refuted.
(** A limit beyond 10^4 on either side is infinite. *)
Theorem C117_limits : forall quadgk f x y,
  (x < -10000 -> int1d quadgk f (Finite x) y = int1d quadgk f m_infty y /\ int1d quadgk f y (Finite x) = int1d quadgk f y m_infty) /\
  (10000 < x -> int1d quadgk f (Finite x) y = int1d quadgk f p_infty y /\ int1d quadgk f y (Finite x) = int1d quadgk f y p_infty).
Proof. exact int1d_limits. Qed.
Print Assumptions C117_limits.
(** With both limits beyond 10^4 on one side the answer is zero up to the tolerances, whatever the integral is. *)
Theorem C117_same_side_refuted : forall quadgk ea er f a b v w, integrates quadgk ea er -> inf_cutoff < a -> inf_cutoff < b -> integral f (Finite a) (Finite b) v -> integral f (Finite 0) p_infty w ->
  forall r, int1d quadgk f (Finite a) (Finite b) = Ok r -> Rabs r <= 2 * tolerance ea er w.
Proof. exact int1d_same_side. Qed.
Print Assumptions C117_same_side_refuted.
(** an integrator that makes no error *)
Definition exact_quad (f : R -> R) (a b : Rbar) : R * nat := (RInt_gen f (approach a) (approach b), 0%nat).
Lemma exact_quad_ok : forall ea er, 0 <= ea -> integrates exact_quad ea er.
Proof.
  intros ea er E f a b v V _. pose proof (approach_proper a) as FA. pose proof (approach_proper b) as FB. cbn [exact_quad fst]. rewrite (is_RInt_gen_unique (V := R_CompleteNormedModule) f v V). unfold Rminus. rewrite Rplus_opp_r, Rabs_R0. eapply Rle_trans; [exact E|apply Rmax_l].
Qed.
Example C117_ex : exists r, int1d exact_quad (fun x => / x ^ 2) (Finite 1) p_infty = Ok r /\ Rabs (r - 1) <= 1 / 10 ^ 6.
Proof.
  pose proof (C117_integral exact_quad (1 / 10 ^ 12) (1 / 10 ^ 6) (fun x => / x ^ 2) (Finite 1) p_infty 1 (exact_quad_ok (1 / 10 ^ 12) (1 / 10 ^ 6) ltac:(lra)) ltac:(cbn; unfold inf_cutoff; rewrite Rabs_R1; lra) Logic.I eq_refl inv_sq_inf) as H.
  assert (O : exists r, int1d exact_quad (fun x => / x ^ 2) (Finite 1) p_infty = Ok r) by (unfold int1d, exact_quad; destruct (isinf _ && isinf _); eexists; reflexivity). destruct O as [r O]. rewrite O in H. exists r. split; [exact O|]. unfold tolerance in H. rewrite Rabs_R1, Rmax_right in H by lra. lra.
Qed.
Example C117_ex_far : exists f b v r, integral f (Finite 1) (Finite b) v /\ int1d exact_quad f (Finite 1) (Finite b) = Ok r /\ 40 * tolerance (1 / 10 ^ 12) (1 / 10 ^ 6) v < Rabs (r - v).
Proof.
  destruct (C117_far_limit_refuted exact_quad (exact_quad_ok (1 / 10 ^ 12) (1 / 10 ^ 6) ltac:(lra))) as (f & b & v & V & _ & H). assert (O : exists r, int1d exact_quad f (Finite 1) (Finite b) = Ok r) by (unfold int1d, exact_quad; destruct (isinf _ && isinf _); eexists; reflexivity). destruct O as [r O]. exists f, b, v, r. exact (conj V (conj O (H r O))).
Qed.

(** * C118 Clenshaw-Curtis *)
(** A rule of order h integrates every polynomial of degree at most 2 h + 1 exactly, over any interval. *)
Theorem C118_exact : forall h q c a b, quad_init h = Some q -> (length c <= 2 * h + 2)%nat -> is_RInt (peval c) a b (quad_integral (peval c) a b q).
Proof. exact quad_poly. Qed.
Print Assumptions C118_exact.
(** Rules exist for every positive order, and only for those. *)
Theorem C118_orders : forall h, (exists q, quad_init h = Some q) <-> (0 < h)%nat.
Proof. intro h. split; [intros [q Q]; exact (proj1 (init_eq h q Q))|]. destruct h as [|h]; [lia|]. intros _. unfold quad_init. rewrite (proj2 (Nat.ltb_lt 1 _)) by lia. eexists. reflexivity. Qed.
Print Assumptions C118_orders.
(** The result is linear in the function and monotone; constants integrate to the constant times the length. *)
Theorem C118_linear : forall f g s t a b q, quad_integral (fun x => s * f x + t * g x) a b q = s * quad_integral f a b q + t * quad_integral g a b q.
Proof. exact quad_lin. Qed.
Print Assumptions C118_linear.
Theorem C118_monotone : forall h q f g a b, quad_init h = Some q -> a <= b -> (forall x, a <= x <= b -> f x <= g x) -> quad_integral f a b q <= quad_integral g a b q.
Proof. exact quad_le. Qed.
Print Assumptions C118_monotone.
Theorem C118_constants : forall h q c a b, quad_init h = Some q -> quad_integral (fun _ => c) a b q = c * (b - a).
Proof. exact quad_const. Qed.
Print Assumptions C118_constants.
(** Any integrable function: the error is at most twice its distance to the polynomials of that degree times the length. *)
Theorem C118_error : forall h q f c eps v a b, quad_init h = Some q -> (length c <= 2 * h + 2)%nat -> a <= b -> is_RInt f a b v -> (forall x, a <= x <= b -> Rabs (f x - peval c x) <= eps) ->
  Rabs (quad_integral f a b q - v) <= 2 * eps * (b - a).
Proof. exact quad_error. Qed.
Print Assumptions C118_error.
(** The error weights should give the difference to the rule of half the order. They are not rescaled to [0, 1] with the
    others: they give twice the difference, for every function. *)
Theorem C118_error_weights_partial : forall h q q' f a b, quad_init (2 * h) = Some q -> quad_init h = Some q' -> error_estimate f a b q = 2 * (quad_integral f a b q - quad_integral f a b q').
Proof. exact quad_err. Qed.
Print Assumptions C118_error_weights_partial.
(** The error estimate vanishes for polynomials of degree up to the order, whatever its parity. *)
Theorem C118_error_of_polynomials : forall h q c a b, quad_init h = Some q -> (length c <= h + 1)%nat -> error_estimate (peval c) a b q = 0.
Proof. exact quad_err_poly. Qed.
Print Assumptions C118_error_of_polynomials.
(** order 1 is Simpson's rule *)
Example C118_ex_simpson : forall q f a b, quad_init 1 = Some q -> quad_integral f a b q = (b - a) / 6 * (f a + 4 * f ((a + b) / 2) + f b).
Proof.
  intros q f a b Q. rewrite (quad_rule 1 q f a b Q). unfold apply_rule. cbn [Nat.mul Nat.add asumn]. 
  assert (P0 : cc_point 2 0 = -1). { unfold cc_point. replace (PI * INR 0 / INR 2) with 0 by (change (INR 0) with 0; unfold Rdiv; ring). rewrite cos_0. ring. }
  assert (P1 : cc_point 2 1 = 0). { unfold cc_point. replace (PI * INR 1 / INR 2) with (PI / 2) by (change (INR 1) with 1; change (INR 2) with 2; field). rewrite cos_PI2. ring. }
  assert (P2 : cc_point 2 2 = 1). { unfold cc_point. replace (PI * INR 2 / INR 2) with PI by (change (INR 2) with 2; field). rewrite cos_PI. ring. }
  assert (W : cc_w 2 0 = 1 / 3 /\ cc_w 2 1 = 4 / 3).
  { assert (A : cc_v2 2 0 + cc_g 2 0 = 5 / 3 /\ cc_v2 2 1 + cc_g 2 1 = -1). { unfold cc_v2, cc_g, cc_v0, cc_N, cc_length. cbn [Nat.div Nat.divmod fst Nat.sub Nat.ltb Nat.leb Nat.eqb Nat.modulo snd]. change (INR 0) with 0. change (INR 1) with 1. change (INR 2) with 2. split; field. }
    destruct A as [A0 A1]. unfold cc_w, ihfft_re. cbn [asumn]. rewrite A0, A1. change (INR 0) with 0. change (INR 1) with 1. change (INR 2) with 2. replace (2 * PI * 0 * 0 / 2) with 0 by field. replace (2 * PI * 1 * 0 / 2) with 0 by field. replace (2 * PI * 0 * 1 / 2) with 0 by field. replace (2 * PI * 1 * 1 / 2) with PI by field. rewrite cos_0, cos_PI. split; field. }
  destruct W as [W0 W1]. replace (cc_weight 2 0) with (1 / 3) by (rewrite <- W0; reflexivity). replace (cc_weight 2 1) with (4 / 3) by (rewrite <- W1; reflexivity). replace (cc_weight 2 2) with (1 / 3) by (rewrite <- W0; reflexivity).
  rewrite P0, P1, P2. replace ((b - a) / 2 * -1 + (a + b) / 2) with a by field. replace ((b - a) / 2 * 0 + (a + b) / 2) with ((a + b) / 2) by field. replace ((b - a) / 2 * 1 + (a + b) / 2) with b by field. field.
Qed.
Example C118_ex_cubic : exists q, quad_init 1 = Some q /\ is_RInt (peval [1; 0; 0; 4]) 0 2 (quad_integral (peval [1; 0; 0; 4]) 0 2 q) /\ quad_integral (peval [1; 0; 0; 4]) 0 2 q = 18.
Proof.
  destruct (proj2 (C118_orders 1) ltac:(lia)) as [q Q]. exists q. split; [exact Q|]. split; [apply (C118_exact 1); [exact Q|cbn; lia]|]. rewrite (C118_ex_simpson q _ _ _ Q). cbn [peval]. field.
Qed.
(** the degree cannot be raised: x^4 on [-1, 1] *)
Example C118_ex_sharp : exists q, quad_init 1 = Some q /\ ~ is_RInt (peval [0; 0; 0; 0; 1]) (-1) 1 (quad_integral (peval [0; 0; 0; 0; 1]) (-1) 1 q).
Proof.
  destruct (proj2 (C118_orders 1) ltac:(lia)) as [q Q]. exists q. split; [exact Q|]. rewrite (C118_ex_simpson q _ _ _ Q). intro K. destruct (proj2 (C118_orders 2) ltac:(lia)) as [q2 Q2].
  assert (T : is_RInt (peval [0; 0; 0; 0; 1]) (-1) 1 (2 / 5)). { replace (2 / 5) with ((fun x => x ^ 5 / 5) 1 - (fun x => x ^ 5 / 5) (-1)) by (cbn; field). apply (is_RInt_derive (fun x => x ^ 5 / 5) (peval [0; 0; 0; 0; 1])); intros x _; [|apply peval_cont]. auto_derive; [exact Logic.I|]. cbn [peval]. field. }
  apply (@is_RInt_unique R_CompleteNormedModule) in T. apply (@is_RInt_unique R_CompleteNormedModule) in K. rewrite K in T. cbn [peval] in T. lra.
Qed.
Example C118_ex_estimate : exists q q', quad_init 2 = Some q /\ quad_init 1 = Some q' /\ error_estimate (peval [0; 0; 0; 0; 1]) (-1) 1 q = 2 * (2 / 5 - 2 / 3).
Proof.
  destruct (proj2 (C118_orders 1) ltac:(lia)) as [q Q]. destruct (proj2 (C118_orders 2) ltac:(lia)) as [q2 Q2]. exists q2, q. split; [exact Q2|]. split; [exact Q|]. rewrite (C118_error_weights_partial 1 q2 q _ _ _ Q2 Q), (C118_ex_simpson q _ _ _ Q).
  assert (T : is_RInt (peval [0; 0; 0; 0; 1]) (-1) 1 (2 / 5)). { replace (2 / 5) with ((fun x => x ^ 5 / 5) 1 - (fun x => x ^ 5 / 5) (-1)) by (cbn; field). apply (is_RInt_derive (fun x => x ^ 5 / 5) (peval [0; 0; 0; 0; 1])); intros x _; [|apply peval_cont]. auto_derive; [exact Logic.I|]. cbn [peval]. field. }
  pose proof (C118_exact 2 q2 [0; 0; 0; 0; 1] (-1) 1 Q2 ltac:(cbn; lia)) as K. apply (@is_RInt_unique R_CompleteNormedModule) in T. apply (@is_RInt_unique R_CompleteNormedModule) in K. rewrite T in K. rewrite <- K. cbn [peval]. field.
Qed.
