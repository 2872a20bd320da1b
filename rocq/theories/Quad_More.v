(** quad_integral and int1d. *)
From Coq Require Import Arith Reals Bool List Lra Lia Psatz.
From Coquelicot Require Import Coquelicot.
From Verif Require Import Base Bounds_Model Bounds_Proofs Quad_Model Quad_Spec Quad_Proofs Quad_Exact.
Open Scope R_scope.

Lemma init_eq : forall h q, quad_init h = Some q -> (0 < h)%nat /\ q = Quad (2 * h + 1) (fun i => rescale_points (cc_point (2 * h) i)) (fun i => rescale_weight (cc_weight (2 * h) i)) (cc_errw (2 * h + 1)).
Proof. intros h q Q. destruct h as [|h]; [discriminate Q|]. split; [lia|]. unfold quad_init in Q. rewrite (proj2 (Nat.ltb_lt 1 _)) in Q by lia. replace (2 * Datatypes.S h + 1 - 1)%nat with (2 * Datatypes.S h)%nat in Q by lia. congruence. Qed.
Lemma quad_rule : forall h q f a b, quad_init h = Some q -> quad_integral f a b q = (b - a) / 2 * apply_rule (2 * h) (fun x => f ((b - a) / 2 * x + (a + b) / 2)).
Proof.
  intros h q f a b Q. destruct (init_eq h q Q) as [H0 Q1]. subst q. unfold quad_integral. cbn [q_order q_absc q_absw]. unfold apply_rule, Rdiv. rewrite (Rmult_assoc (b - a) (/ 2)), <- (as_scal _ (/ 2)). f_equal. apply as_ext. intros k K. unfold rescale_points, rescale_weight. replace (a + ((cc_point (2 * h) k - -1) * 1 - (cc_point (2 * h) k - 1) * 0) / (1 - -1) * (b - a)) with ((b - a) * / 2 * cc_point (2 * h) k + (a + b) * / 2) by field. field.
Qed.
Lemma exact_affine : forall n u v c d, (forall e, (e < d + length c)%nat -> exact n (fun x => x ^ e)) -> exact n (fun x => x ^ d * peval c (u * x + v)).
Proof.
  intros n u v c. induction c as [|a c IH]; intros d H.
  - apply (exact_ext n (fun x => x ^ d * peval nil x)); [intro; cbn; ring|]. apply exact_peval. exact H.
  - apply (exact_ext n (fun x => a * x ^ d + (v * (x ^ d * peval c (u * x + v)) + u * (x ^ Datatypes.S d * peval c (u * x + v))))); [intro x; cbn [peval pow]; ring|]. apply exact_plus; [apply exact_scal, H; cbn [length]; lia|]. apply exact_plus; apply exact_scal, IH; intros e E; apply H; cbn [length]; lia.
Qed.
Lemma peval_cont : forall c x, continuous (peval c) x.
Proof.
  induction c as [|a c IH]; intro x; [apply (continuous_ext (fun _ => 0)); [reflexivity|apply continuous_const]|]. cbn [peval]. apply (@continuous_plus _ _ R_NormedModule (fun _ => a) (fun x => x * peval c x)); [apply continuous_const|]. apply (@continuous_mult _ R_AbsRing (fun x => x) (peval c)); [apply continuous_id|apply IH].
Qed.
Lemma quad_poly : forall h q c a b, quad_init h = Some q -> (length c <= 2 * h + 2)%nat -> is_RInt (peval c) a b (quad_integral (peval c) a b q).
Proof.
  intros h q c a b Q L. assert (H : (0 < h)%nat) by (destruct h; [discriminate Q|lia]). rewrite (quad_rule h q _ a b Q). set (u := (b - a) / 2). set (v := (a + b) / 2).
  assert (E : exact (2 * h) (fun x => peval c (u * x + v))). { apply (exact_ext _ (fun x => x ^ 0 * peval c (u * x + v))); [intro; cbn; ring|]. apply exact_affine. intros e EE. destruct (Nat.le_gt_cases e (2 * h)) as [l|l]; [apply exact_pow; lia|]. apply exact_odd; [lia|]. replace e with (2 * h + 1)%nat by lia. rewrite Nat.even_add, Nat.even_mul. reflexivity. }
  assert (X : ex_RInt (peval c) a b) by (apply (@ex_RInt_continuous R_CompleteNormedModule); intros; apply peval_cont).
  assert (V : RInt (peval c) a b = u * apply_rule (2 * h) (fun x => peval c (u * x + v))). { apply (is_RInt_scal _ _ _ u) in E. pose proof (is_RInt_unique _ _ _ _ E) as U. replace a with (u * -1 + v) by (unfold u, v; field). replace b with (u * 1 + v) at 1 by (unfold u, v; field). assert (X' : ex_RInt (peval c) (u * -1 + v) (u * 1 + v)) by (replace (u * -1 + v) with a by (unfold u, v; field); replace (u * 1 + v) with b by (unfold u, v; field); exact X). rewrite <- (RInt_comp_lin (peval c) u v (-1) 1 X'). etransitivity; [|exact U]. reflexivity. }
  rewrite <- V. apply (RInt_correct (peval c)), X.
Qed.
(** positive weights *)
Lemma closed_pos : forall n k, (1 < n)%nat -> 0 < closed n k.
Proof.
  intros n k H. rewrite closed_split by exact H. destruct (DD n H) as [L1 DDn]. assert (N0 : 0 < INR n) by (apply lt_0_INR; lia). apply Rmult_lt_0_compat; [apply Rdiv_lt_0_compat; lra|].
  assert (B : forall j, -1 <= cct n k j <= 1) by (intro j; apply COS_bound).
  assert (S : asumn (n / 2 - 1) (fun j => 2 / (4 * INR (Datatypes.S j) ^ 2 - 1) * cct n k (Datatypes.S j)) <= asumn (n / 2 - 1) (fun j => 2 / (4 * INR (Datatypes.S j) ^ 2 - 1))).
  { generalize (n / 2 - 1)%nat. induction n0 as [|m IH]; cbn [asumn]; [lra|]. assert (0 < 2 / (4 * INR (Datatypes.S m) ^ 2 - 1)). { rewrite S_INR. pose proof (pos_INR m). apply Rdiv_lt_0_compat; nra. } specialize (B (Datatypes.S m)). nra. }
  rewrite telescope in S. rewrite minus_INR in S by (apply Nat.div_str_pos; lia). set (L := INR (n / 2)) in *. change (INR 1) with 1 in S. replace (2 * (L - 1) + 1) with (2 * L - 1) in S by ring. specialize (B (n / 2)%nat).
  assert (P : 0 < bb n (n / 2) /\ bb n (n / 2) < 1 / (2 * L - 1)). { unfold bb. fold L. destruct DDn as [(P & Q & T)|(P & Q & T)]; destruct (Nat.eqb_spec (2 * (n / 2)) n) as [F|F]; try lia.
    - split; [apply Rdiv_lt_0_compat; nra|]. apply (Rmult_lt_reg_r ((2 * L - 1) * (2 * L + 1))); [nra|]. replace (1 / (4 * L ^ 2 - 1) * ((2 * L - 1) * (2 * L + 1))) with 1 by (field; nra). replace (1 / (2 * L - 1) * ((2 * L - 1) * (2 * L + 1))) with (2 * L + 1) by (field; lra). lra.
    - split; [apply Rdiv_lt_0_compat; nra|]. apply (Rmult_lt_reg_r ((2 * L - 1) * (2 * L + 1))); [nra|]. replace (2 / (4 * L ^ 2 - 1) * ((2 * L - 1) * (2 * L + 1))) with 2 by (field; nra). replace (1 / (2 * L - 1) * ((2 * L - 1) * (2 * L + 1))) with (2 * L + 1) by (field; lra). lra. }
  destruct P as [P1 P2]. set (t := 1 / (2 * L - 1)) in *. set (y := bb n (n / 2)) in *. set (c := cct n k (n / 2)) in *. assert (y * c <= y) by nra. lra.
Qed.
Lemma weight_pos : forall n k, (1 < n)%nat -> (k <= n)%nat -> 0 < cc_weight n k.
Proof. intros n k H K. rewrite weight_w, w_closed by assumption. pose proof (closed_pos n k H). unfold half_end. destruct (_ || _)%bool; lra. Qed.
Lemma as_le : forall n f g, (forall j, (j < n)%nat -> f j <= g j) -> asumn n f <= asumn n g.
Proof. induction n as [|n IH]; intros f g H; cbn [asumn]; [lra|]. apply Rplus_le_compat; [apply IH; intros; apply H; lia|apply H; lia]. Qed.
Lemma point_range : forall n k, -1 <= cc_point n k <= 1.
Proof. intros. unfold cc_point. pose proof (COS_bound (PI * INR k / INR n)). lra. Qed.
Lemma quad_le : forall h q f g a b, quad_init h = Some q -> a <= b -> (forall x, a <= x <= b -> f x <= g x) -> quad_integral f a b q <= quad_integral g a b q.
Proof.
  intros h q f g a b Q AB H. assert (H0 : (0 < h)%nat) by (destruct h; [discriminate Q|lia]). rewrite !(quad_rule h q _ a b Q). apply Rmult_le_compat_l; [lra|]. apply as_le. intros k K. apply Rmult_le_compat_l; [apply Rlt_le, weight_pos; lia|]. apply H. pose proof (point_range (2 * h) k). nra.
Qed.
Lemma quad_lin : forall f g s t a b q, quad_integral (fun x => s * f x + t * g x) a b q = s * quad_integral f a b q + t * quad_integral g a b q.
Proof.
  intros f g s t a b q. unfold quad_integral. set (d := b - a).
  rewrite (as_ext _ _ (fun i => s * (q_absw q i * f (a + q_absc q i * d)) + t * (q_absw q i * g (a + q_absc q i * d)))) by (intros; ring). rewrite as_plus, !as_scal. ring.
Qed.
Lemma quad_const : forall h q c a b, quad_init h = Some q -> quad_integral (fun _ => c) a b q = c * (b - a).
Proof.
  intros h q c a b Q. pose proof (quad_poly h q (c :: nil) a b Q ltac:(cbn; lia)) as P. apply (@is_RInt_unique R_CompleteNormedModule) in P. assert (E : quad_integral (peval (c :: nil)) a b q = quad_integral (fun _ => c) a b q) by (unfold quad_integral; f_equal; apply as_ext; intros; cbn [peval]; f_equal; ring). rewrite <- E, <- P.
  apply (@is_RInt_unique R_CompleteNormedModule). apply (is_RInt_ext (fun _ => c)); [intros x _; cbn [peval]; change (c = c + x * 0); ring|]. refine (eq_ind _ (fun z => is_RInt (fun _ : R => c) a b z) (is_RInt_const a b c) _ _). change ((b - a) * c = c * (b - a)). ring.
Qed.
(** close to a polynomial: the error is at most twice the distance times the length *)
Lemma quad_error : forall h q f c eps v a b, quad_init h = Some q -> (length c <= 2 * h + 2)%nat -> a <= b -> is_RInt f a b v -> (forall x, a <= x <= b -> Rabs (f x - peval c x) <= eps) ->
  Rabs (quad_integral f a b q - v) <= 2 * eps * (b - a).
Proof.
  intros h q f c eps v a b Q L AB F H. pose proof (quad_poly h q c a b Q L) as P. set (w := quad_integral (peval c) a b q) in *.
  assert (A : Rabs (quad_integral f a b q - w) <= eps * (b - a)).
  { assert (E : quad_integral f a b q - w = quad_integral (fun x => f x - peval c x) a b q). { replace (quad_integral f a b q - w) with (1 * quad_integral f a b q + (-1) * quad_integral (peval c) a b q) by (unfold w; ring). rewrite <- quad_lin. unfold quad_integral. f_equal. apply as_ext. intros. ring. } rewrite E.
    apply Rabs_le. split.
    - replace (- (eps * (b - a))) with ((- eps) * (b - a)) by ring. rewrite <- (quad_const h q (- eps) a b Q). apply (quad_le h q _ _ a b Q AB). intros x X. specialize (H x X). apply Rabs_le_between in H. lra.
    - rewrite <- (quad_const h q eps a b Q). apply (quad_le h q _ _ a b Q AB). intros x X. specialize (H x X). apply Rabs_le_between in H. lra. }
  assert (B : Rabs (v - w) <= (b - a) * eps).
  { assert (K : is_RInt (fun x => f x - peval c x) a b (v - w)) by (apply (is_RInt_minus f (peval c)); assumption). apply (norm_RInt_le_const (fun x => f x - peval c x) a b (v - w) eps AB); [|exact K]. intros x X. exact (H x X). }
  replace (quad_integral f a b q - v) with ((quad_integral f a b q - w) - (v - w)) by ring. eapply Rle_trans; [apply Rabs_triang|]. rewrite Rabs_Ropp. lra.
Qed.
(** the weights of the error estimate *)
Lemma point_nested : forall h k, (0 < h)%nat -> cc_point (2 * h) (2 * k) = cc_point h k.
Proof. intros h k H. unfold cc_point. rewrite !mult_INR. change (INR 2) with 2. do 2 f_equal. field. apply not_0_INR. lia. Qed.
Lemma as_even : forall n (f : nat -> R), asumn (2 * n + 1) (fun i => if (i mod 2 =? 0)%nat then f (i / 2)%nat else 0) = asumn (n + 1) f.
Proof.
  induction n as [|n IH]; intro f; [cbn; ring|]. replace (2 * Datatypes.S n + 1)%nat with (Datatypes.S (Datatypes.S (2 * n + 1))) by lia. cbn [asumn]. rewrite IH. replace (Datatypes.S n + 1)%nat with (Datatypes.S (n + 1)) by lia. cbn [asumn].
  replace (2 * n + 1)%nat with (1 + n * 2)%nat by lia. rewrite Nat.mod_add by lia. change (1 mod 2 =? 0)%nat with false. replace (Datatypes.S (1 + n * 2))%nat with (0 + (n + 1) * 2)%nat by lia. rewrite Nat.mod_add, Nat.div_add by lia. cbn [Nat.modulo Nat.divmod fst snd Nat.eqb Nat.div Nat.sub]. rewrite Nat.add_0_l. cbn [Nat.add]. ring.
Qed.
Definition error_estimate (f : R -> R) (a b : R) (q : quad) : R := (b - a) * asumn (q_order q) (fun i => q_errw q i * f (a + q_absc q i * (b - a))).
Lemma quad_err : forall h q q' f a b, quad_init (2 * h) = Some q -> quad_init h = Some q' -> error_estimate f a b q = 2 * (quad_integral f a b q - quad_integral f a b q').
Proof.
  intros h q q' f a b Q Q'. rewrite (quad_rule _ _ f a b Q), (quad_rule _ _ f a b Q'). assert (H : (0 < h)%nat) by (destruct h; [discriminate Q'|lia]). destruct (init_eq _ q Q) as [_ Q1]. subst q. unfold error_estimate. cbn [q_order q_errw q_absc].
  set (g := fun x => f ((b - a) / 2 * x + (a + b) / 2)). replace (2 * ((b - a) / 2 * apply_rule (2 * (2 * h)) g - (b - a) / 2 * apply_rule (2 * h) g)) with ((b - a) * (apply_rule (2 * (2 * h)) g + -1 * apply_rule (2 * h) g)) by field. f_equal. unfold apply_rule. rewrite <- (as_scal _ (-1)), <- (as_even (2 * h)), <- as_plus. apply as_ext. intros i I. unfold cc_errw, rescale_points. replace (2 * (2 * h) + 1 - 1)%nat with (2 * (2 * h))%nat by lia. replace ((2 * (2 * h) + 1 + 1) / 2 - 1)%nat with (2 * h)%nat by (replace (2 * (2 * h) + 1 + 1)%nat with ((2 * h + 1) * 2)%nat by lia; rewrite Nat.div_mul by lia; lia).
  assert (G : f (a + ((cc_point (2 * (2 * h)) i - -1) * 1 - (cc_point (2 * (2 * h)) i - 1) * 0) / (1 - -1) * (b - a)) = g (cc_point (2 * (2 * h)) i)) by (unfold g; f_equal; field). rewrite G.
  destruct (Nat.eqb_spec (i mod 2) 0) as [E|E]; [|ring]. pose proof (Nat.div_mod i 2 ltac:(lia)) as D. rewrite E in D. assert (PN : cc_point (2 * (2 * h)) i = cc_point (2 * h) (i / 2)) by (rewrite <- (point_nested (2 * h) (i / 2)) by lia; f_equal; lia). rewrite PN. ring.
Qed.

(** the same for every order: the rule of half the points *)
Lemma quad_err_rule : forall h q f a b, quad_init h = Some q -> let g := fun x => f ((b - a) / 2 * x + (a + b) / 2) in error_estimate f a b q = (b - a) * (apply_rule (2 * h) g - apply_rule h g).
Proof.
  intros h q f a b Q g. destruct (init_eq _ q Q) as [H Q1]. subst q. unfold error_estimate. cbn [q_order q_errw q_absc]. f_equal. unfold Rminus. replace (- apply_rule h g) with (-1 * apply_rule h g) by ring.
  unfold apply_rule. rewrite <- (as_scal _ (-1)), <- (as_even h), <- as_plus. apply as_ext. intros i I. unfold cc_errw, rescale_points. replace (2 * h + 1 - 1)%nat with (2 * h)%nat by lia. replace ((2 * h + 1 + 1) / 2 - 1)%nat with h by (replace (2 * h + 1 + 1)%nat with ((h + 1) * 2)%nat by lia; rewrite Nat.div_mul by lia; lia).
  assert (G : f (a + ((cc_point (2 * h) i + - -1) * 1 + - ((cc_point (2 * h) i + - (1)) * 0)) / (1 + - -1) * (b + - a)) = g (cc_point (2 * h) i)) by (unfold g; f_equal; field). unfold Rminus. rewrite G.
  destruct (Nat.eqb_spec (i mod 2) 0) as [E|E]; [|ring]. pose proof (Nat.div_mod i 2 ltac:(lia)) as D. rewrite E in D. assert (PN : cc_point (2 * h) i = cc_point h (i / 2)) by (rewrite <- (point_nested h (i / 2)) by lia; f_equal; lia). rewrite PN. ring.
Qed.
Lemma exact_1 : forall e, (e <= 1)%nat -> exact 1 (fun x => x ^ e).
Proof.
  intros e L. unfold exact, apply_rule. cbn [Nat.add asumn]. change (cc_weight 1 0) with 1. change (cc_weight 1 1) with 1.
  assert (P0 : cc_point 1 0 = -1) by (unfold cc_point; replace (PI * INR 0 / INR 1) with 0 by (cbn; field); rewrite cos_0; ring). assert (P1 : cc_point 1 1 = 1) by (unfold cc_point; replace (PI * INR 1 / INR 1) with PI by (cbn; field); rewrite cos_PI; ring).
  rewrite P0, P1. destruct e as [|[|]]; [| |lia]; cbn [pow].
  - replace (0 + 1 * 1 + 1 * 1) with (scal (1 - -1) 1) by (unfold scal; cbn; unfold mult; cbn; ring). apply (@is_RInt_const R_NormedModule).
  - apply (is_RInt_ext (fun x : R => x)); [intros x _; match goal with |- ?u = ?v => change (@eq R u v) end; ring|]. replace (0 + 1 * (-1 * 1) + 1 * (1 * 1)) with (minus ((fun x : R => x * x / 2) 1) ((fun x : R => x * x / 2) (-1))) by (unfold minus, plus, opp; cbn; match goal with |- ?u = ?v => change (@eq R u v) end; field).
    apply (@is_RInt_derive R_CompleteNormedModule (fun x => x * x / 2) (fun x => x)); [intros x _; auto_derive; [exact I|]; match goal with |- ?u = ?v => change (@eq R u v) end; field|intros x _; apply continuous_id].
Qed.
Lemma quad_err_poly : forall h q c a b, quad_init h = Some q -> (length c <= h + 1)%nat -> error_estimate (peval c) a b q = 0.
Proof.
  intros h q c a b Q L. rewrite (quad_err_rule h q _ a b Q). assert (H : (0 < h)%nat) by (destruct h; [discriminate Q|lia]). set (u := (b - a) / 2). set (v := (a + b) / 2).
  assert (E : forall n, (h <= n)%nat -> exact n (fun x => peval c (u * x + v))).
  { intros n N. apply (exact_ext _ (fun x => x ^ 0 * peval c (u * x + v))); [intro; cbn; ring|]. apply exact_affine. intros e EE. destruct (Nat.eq_dec n 1) as [->|N1]; [apply exact_1; lia|apply exact_pow; lia]. }
  pose proof (is_RInt_unique _ _ _ _ (E (2 * h)%nat ltac:(lia))) as A. pose proof (is_RInt_unique _ _ _ _ (E h ltac:(lia))) as B. rewrite <- A, <- B. ring.
Qed.

(** * int1d *)
Definition plain (x : Rbar) : Prop := match x with Finite x => Rabs x <= inf_cutoff | _ => True end.
Lemma limit_plain : forall x, plain x -> limit x = x.
Proof. intros [x| |] H; try reflexivity. cbn in *. destruct (Rltb_spec inf_cutoff (Rabs x)); [lra|reflexivity]. Qed.
Lemma limit_far : forall x, (x < - inf_cutoff -> limit (Finite x) = m_infty) /\ (inf_cutoff < x -> limit (Finite x) = p_infty).
Proof.
  intro x. unfold limit, inf_cutoff. split; intro H.
  - destruct (Rltb_spec 10000 (Rabs x)) as [|c]; [|rewrite Rabs_left in c by lra; lra]. destruct (Rltb_spec 0 x); [lra|reflexivity].
  - destruct (Rltb_spec 10000 (Rabs x)) as [|c]; [|rewrite Rabs_pos_eq in c by lra; lra]. destruct (Rltb_spec 0 x); [reflexivity|lra].
Qed.
Lemma int1d_limits : forall quadgk f x y,
  (x < -10000 -> int1d quadgk f (Finite x) y = int1d quadgk f m_infty y /\ int1d quadgk f y (Finite x) = int1d quadgk f y m_infty) /\
  (10000 < x -> int1d quadgk f (Finite x) y = int1d quadgk f p_infty y /\ int1d quadgk f y (Finite x) = int1d quadgk f y p_infty).
Proof.
  intros quadgk f x y. destruct (limit_far x) as [A B]. unfold inf_cutoff in A, B. split; intro H; unfold int1d.
  - rewrite A by lra. split; reflexivity.
  - rewrite B by lra. split; reflexivity.
Qed.
Lemma int1d_ok : forall quadgk ea er f a b v v1 v2, integrates quadgk ea er -> plain a -> plain b -> integral f a b v -> integral f a (Finite 0) v1 -> integral f (Finite 0) b v2 ->
  match int1d quadgk f a b with Ok r => Rabs (r - v) <= (if isinf a && isinf b then tolerance ea er v1 + tolerance ea er v2 else tolerance ea er v) | Err e => e = RuntimeError end.
Proof.
  intros quadgk ea er f a b v v1 v2 Q A B V V1 V2. unfold int1d. rewrite !limit_plain by assumption. destruct (isinf a && isinf b) eqn:E.
  - destruct (quadgk f a (Finite 0)) as [w1 s1] eqn:W1. destruct (quadgk f (Finite 0) b) as [w2 s2] eqn:W2. destruct (Nat.eqb_spec (Nat.lor s1 s2) 0) as [S|S]; [|reflexivity]. apply Nat.lor_eq_0_iff in S. destruct S as [-> ->].
    pose proof (Q f a (Finite 0) v1 V1) as T1. pose proof (Q f (Finite 0) b v2 V2) as T2. rewrite W1 in T1. rewrite W2 in T2. cbn [fst snd] in *. specialize (T1 eq_refl). specialize (T2 eq_refl).
    assert (FA : ProperFilter' (approach a)) by (destruct a; cbn [approach]; typeclasses eauto). assert (FB : ProperFilter' (approach b)) by (destruct b; cbn [approach]; typeclasses eauto). assert (GA : Filter (approach a)) by apply FA. assert (GB : Filter (approach b)) by apply FB.
    assert (VV : v = v1 + v2). { pose proof (is_RInt_gen_Chasles (V := R_NormedModule) f 0 v1 v2 V1 V2) as CH. etransitivity; [symmetry; apply (is_RInt_gen_unique (V := R_CompleteNormedModule) f v V)|]. apply (is_RInt_gen_unique (V := R_CompleteNormedModule) f _ CH). }
    rewrite VV. replace (w1 + w2 - (v1 + v2)) with ((w1 - v1) + (w2 - v2)) by ring. eapply Rle_trans; [apply Rabs_triang|]. lra.
  - pose proof (Q f a b v V) as T. destruct (quadgk f a b) as [w s]. cbn [fst snd] in T. destruct (Nat.eqb_spec s 0) as [->|S]; [exact (T eq_refl)|reflexivity].
Qed.
Lemma int_finite : forall f a b v, integral f (Finite a) (Finite b) v <-> is_RInt f a b v.
Proof. intros. unfold integral. cbn [approach]. apply is_RInt_gen_at_point. Qed.
(** 1 / x^2 from 1 to 20000 *)
Lemma inv_sq_int : forall b, 1 <= b -> is_RInt (fun x => / x ^ 2) 1 b (1 - / b).
Proof.
  intros b B. replace (1 - / b) with ((fun x => - / x) b - (fun x => - / x) 1) by (cbn; rewrite Rinv_1; ring). apply (is_RInt_derive (fun x => - / x) (fun x => / x ^ 2)); intros x X; rewrite Rmin_left, Rmax_right in X by exact B.
  - auto_derive; [lra|field; lra].
  - apply (@ex_derive_continuous R_AbsRing R_NormedModule (fun x => / x ^ 2)). auto_derive. intro E. assert (0 < x ^ 2) by (apply pow_lt; lra). lra.
Qed.
Lemma inv_sq_inf : integral (fun x => / x ^ 2) (Finite 1) p_infty 1.
Proof.
  unfold integral. cbn [approach]. apply (is_RInt_gen_ext (fun x => / x ^ 2)); [apply filter_forall; reflexivity|]. unfold is_RInt_gen. intros P HP. 
  assert (L : is_lim (fun b => 1 - / b) p_infty 1). { replace (Finite 1) with (Finite (1 - 0)) by (f_equal; ring). apply (is_lim_minus' (fun _ => 1) (fun b => / b) p_infty 1 0); [apply is_lim_const|]. pose proof (is_lim_inv (fun b => b) p_infty p_infty (is_lim_id p_infty) ltac:(discriminate)) as K. exact K. }
  specialize (L P HP). cbn in L. destruct L as [M L]. apply Filter_prod with (fun a => a = 1) (fun b => Rmax M 1 < b); [reflexivity|exists (Rmax M 1); tauto|]. intros a b -> B. exists (1 - / b). pose proof (Rmax_l M 1). pose proof (Rmax_r M 1). split; [apply inv_sq_int; cbn; lra|apply L; lra].
Qed.
Lemma int1d_far : forall quadgk, integrates quadgk (1 / 10 ^ 12) (1 / 10 ^ 6) -> exists f b v, integral f (Finite 1) (Finite b) v /\ 0 < v /\
  forall r, int1d quadgk f (Finite 1) (Finite b) = Ok r -> 40 * tolerance (1 / 10 ^ 12) (1 / 10 ^ 6) v < Rabs (r - v).
Proof.
  intros quadgk Q. exists (fun x => / x ^ 2), 20000, (1 - / 20000). split; [apply int_finite, inv_sq_int; lra|]. split; [lra|]. intros r E. unfold int1d in E. replace (limit (Finite 1)) with (Finite 1) in E by (symmetry; apply limit_plain; cbn; unfold inf_cutoff; rewrite Rabs_R1; lra).
  assert (L : limit (Finite 20000) = p_infty). { cbn [limit]. unfold inf_cutoff. rewrite Rabs_pos_eq by lra. destruct (Rltb_spec 10000 20000); [|lra]. destruct (Rltb_spec 0 20000); [reflexivity|lra]. } rewrite L in E. cbn [isinf andb] in E. pose proof (Q _ _ _ _ inv_sq_inf) as T. destruct (quadgk (fun x => / x ^ 2) (Finite 1) p_infty) as [w s]. cbn [fst snd] in T. destruct (Nat.eqb_spec s 0) as [Z|Z]; [|discriminate]. injection E as E. subst r. specialize (T Z).
  unfold tolerance in *. rewrite Rabs_R1 in T. rewrite Rmax_right in T by lra. rewrite (Rabs_pos_eq (1 - / 20000)) by lra. rewrite Rmax_right by lra. apply Rabs_le_between in T. rewrite Rabs_pos_eq; lra.
Qed.
(** limits on the same side beyond the cutoff: the answer is that of an integral over nothing *)
Lemma int1d_same_side : forall quadgk ea er f a b v w, integrates quadgk ea er -> inf_cutoff < a -> inf_cutoff < b -> integral f (Finite a) (Finite b) v -> integral f (Finite 0) p_infty w ->
  forall r, int1d quadgk f (Finite a) (Finite b) = Ok r -> Rabs r <= 2 * tolerance ea er w.
Proof.
  intros quadgk ea er f a b v w Q A B V W r E. assert (L : forall x, inf_cutoff < x -> limit (Finite x) = p_infty). { intros x X. cbn [limit]. assert (0 < inf_cutoff) by (unfold inf_cutoff; lra). rewrite Rabs_pos_eq by lra. destruct (Rltb_spec inf_cutoff x); [|lra]. destruct (Rltb_spec 0 x); [reflexivity|lra]. }
  unfold int1d in E. rewrite !L in E by assumption. cbn [isinf andb] in E. assert (W' : integral f p_infty (Finite 0) (- w)) by (exact (is_RInt_gen_swap (V := R_NormedModule) f w W)). pose proof (Q _ _ _ _ W) as T. pose proof (Q _ _ _ _ W') as T'. destruct (quadgk f p_infty (Finite 0)) as [w1 s1]. destruct (quadgk f (Finite 0) p_infty) as [w2 s2]. cbn [fst snd] in *. destruct (Nat.eqb_spec (Nat.lor s1 s2) 0) as [S|]; [|discriminate]. apply Nat.lor_eq_0_iff in S. destruct S as [-> ->]. injection E as <-. specialize (T eq_refl). specialize (T' eq_refl).
  replace (tolerance ea er (- w)) with (tolerance ea er w) in T' by (unfold tolerance; rewrite Rabs_Ropp; reflexivity). replace (w1 + w2) with ((w1 - - w) + (w2 - w)) by ring. eapply Rle_trans; [apply Rabs_triang|]. lra.
Qed.
Lemma int1d_one : forall quadgk ea er f a b v, integrates quadgk ea er -> plain a -> plain b -> isinf a && isinf b = false -> integral f a b v ->
  match int1d quadgk f a b with Ok r => Rabs (r - v) <= tolerance ea er v | Err e => e = RuntimeError end.
Proof.
  intros quadgk ea er f a b v Q A B E V. unfold int1d. rewrite !limit_plain by assumption. rewrite E. pose proof (Q f a b v V) as T. destruct (quadgk f a b) as [w s]. cbn [fst snd] in T. destruct (Nat.eqb_spec s 0) as [->|S]; [exact (T eq_refl)|reflexivity].
Qed.
Lemma approach_proper : forall a, ProperFilter' (approach a).
Proof. intros [a| |]; cbn [approach]; typeclasses eauto. Qed.
