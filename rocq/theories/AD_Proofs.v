(** Backpropagation computes derivatives. *)
From Coq Require Import Reals Lra Lia FunctionalExtensionality Bool.
From Coquelicot Require Import Coquelicot.
From Verif Require Import Base Bounds_Model Bounds_Proofs GSP_Model Geo_Model Sky_Model Size_Model Shear_Model AD_Model AD_Spec.
Open Scope R_scope.

Definition unit_ (v n : nat) : R := if Nat.eqb n v then 1 else 0.
Definition fin (env : nat -> R) (n : nat) : ext := Fin (env n).
Definition linear_ (D : (nat -> R) -> R) : Prop :=
  forall (a b : R) (u w : nat -> R), D (fun n => a * u n + b * w n) = a * D u + b * D w.
Definition diffs (e : expr) (env : nat -> R) (D : (nat -> R) -> R) : Prop :=
  forall (g : R -> nat -> R) (t0 : R) (dg : nat -> R),
    (forall n, g t0 n = env n) -> (forall n, is_derive (fun t => g t n) t0 (dg n)) ->
    is_derive (fun t => reval e (g t)) t0 (D dg).
Definition good (e : expr) (env : nat -> R) : Prop :=
  val e (fin env) = Fin (reval e env) /\
  exists D, linear_ D /\ diffs e env D /\ forall ct v, back e (fin env) (Fin ct) v = Fin (ct * D (unit_ v)).

Lemma fin_scons : forall r env, fin (scons r env) = scons (Fin r) (fin env).
Proof. intros r env. extensionality n. destruct n; reflexivity. Qed.
Lemma emul_fin : forall a b, emul (Fin a) (Fin b) = Fin (a * b). Proof. reflexivity. Qed.
Lemma ediv_fin : forall a b, b <> 0 -> ediv (Fin a) (Fin b) = Fin (a / b).
Proof. intros a b B. unfold ediv. destruct (Reqb_spec b 0); [contradiction|reflexivity]. Qed.
Lemma esqrt_fin : forall a, 0 <= a -> esqrt (Fin a) = Fin (sqrt a).
Proof. intros a A. unfold esqrt. destruct (Rltb_spec a 0); [lra|reflexivity]. Qed.
Lemma epow_fin : forall a b, 0 < a -> epow (Fin a) (Fin b) = Fin (Rpower a b).
Proof. intros a b A. unfold epow. destruct (Rltb_spec 0 a); [reflexivity|lra]. Qed.
Lemma jpow_pos : forall a b, 0 < a -> jpow a b = Rpower a b.
Proof. intros a b A. unfold jpow. destruct (Reqb_spec a 0); [lra|reflexivity]. Qed.

Lemma env_at : forall (g : R -> nat -> R) t0 env, (forall n, g t0 n = env n) -> g t0 = env.
Proof. intros g t0 env H. extensionality n. apply H. Qed.
Lemma near_pos : forall (f : R -> R) t0 l, is_derive f t0 l -> 0 < f t0 -> locally t0 (fun t => 0 < f t).
Proof.
  intros f t0 l H P. assert (K : continuous f t0) by (apply (ex_derive_continuous f); exists l; exact H).
  apply (K (fun y => 0 < y)). apply (open_gt 0); exact P.
Qed.
Lemma near_ne : forall (f : R -> R) t0 l, is_derive f t0 l -> f t0 <> 0 -> locally t0 (fun t => f t <> 0 /\ (0 < f t <-> 0 < f t0)).
Proof.
  intros f t0 l H P. destruct (Rlt_dec 0 (f t0)) as [Q|Q].
  - generalize (near_pos f t0 l H Q). apply filter_imp. intros t T. split; [lra|tauto].
  - assert (H' : is_derive (fun t => - f t) t0 (- l)) by (apply is_derive_opp with (f := f); exact H).
    assert (Q' : 0 < - f t0) by lra.
    generalize (near_pos _ t0 _ H' Q'). apply filter_imp. intros t T. split; [lra|split; lra].
Qed.

Ltac lin := intros a_ b_ u_ w_; cbv beta;
  repeat match goal with L : linear_ _ |- _ => rewrite L end; try field; auto.
Ltac fins := f_equal; try field; auto.

Lemma good_var : forall n env, good (Var n) env.
Proof.
  intros n env. split; [reflexivity|]. exists (fun d => d n). split; [intros a b u w; reflexivity|]. split.
  - intros g t0 dg E H. apply H.
  - intros ct v. cbn. unfold unit_. destruct (Nat.eqb n v); f_equal; ring.
Qed.
Lemma good_cst : forall r env, good (Cst r) env.
Proof.
  intros r env. split; [reflexivity|]. exists (fun d => 0). split; [intros a b u w; ring|]. split.
  - intros g t0 dg E H. cbn. apply (is_derive_const (K := R_AbsRing) (V := R_NormedModule)).
  - intros ct v. cbn. f_equal; ring.
Qed.
Lemma scons_comb : forall (a b x y : R) u w,
  (fun n => a * scons x u n + b * scons y w n) = scons (a * x + b * y) (fun n => a * u n + b * w n).
Proof. intros. extensionality n. destruct n; reflexivity. Qed.
Lemma good_let : forall a b env, good a env -> good b (scons (reval a env) env) -> good (Let a b) env.
Proof.
  intros a b env [Va [Da [La [Ha Ba]]]] [Vb [Db [Lb [Hb Bb]]]].
  split; [cbn; rewrite Va, <- fin_scons; exact Vb|].
  exists (fun d => Db (scons (Da d) d)). split.
  { intros p q u w. rewrite La, <- scons_comb, Lb. reflexivity. }
  split.
  - intros g t0 dg E H. cbn. apply (Hb (fun t => scons (reval a (g t)) (g t))).
    + intros [|n]; cbn; [rewrite (env_at g t0 env E); reflexivity|apply E].
    + intros [|n]; cbn; [apply Ha; auto|apply H].
  - intros ct v. cbn [back]. rewrite Va, <- fin_scons, !Bb, Ba. cbn. f_equal.
    assert (Q : scons (Da (unit_ v)) (unit_ v) = (fun n => 1 * unit_ (S v) n + Da (unit_ v) * unit_ 0 n)).
    { extensionality n. destruct n; unfold unit_; cbn; [ring|]. destruct (Nat.eqb n v); ring. }
    rewrite Q, Lb. ring.
Qed.
Lemma good_add : forall a b env, good a env -> good b env -> good (Add a b) env.
Proof.
  intros a b env [Va [Da [La [Ha Ba]]]] [Vb [Db [Lb [Hb Bb]]]].
  split; [cbn; rewrite Va, Vb; reflexivity|]. exists (fun d => Da d + Db d). split; [intros p q u w; rewrite La, Lb; ring|]. split.
  - intros g t0 dg E H. cbn. apply (is_derive_plus (fun t => reval a (g t)) (fun t => reval b (g t))); auto.
  - intros ct v. cbn. rewrite Ba, Bb. cbn. f_equal; ring.
Qed.
Lemma good_neg : forall a env, good a env -> good (Neg a) env.
Proof.
  intros a env [Va [Da [La [Ha Ba]]]].
  split; [cbn; rewrite Va; reflexivity|]. exists (fun d => - Da d). split; [intros p q u w; rewrite La; ring|]. split.
  - intros g t0 dg E H. cbn. apply (is_derive_opp (fun t => reval a (g t))); auto.
  - intros ct v. cbn. rewrite Ba. f_equal; ring.
Qed.
Lemma good_sub : forall a b env, good a env -> good b env -> good (Sub a b) env.
Proof.
  intros a b env [Va [Da [La [Ha Ba]]]] [Vb [Db [Lb [Hb Bb]]]].
  split; [cbn; rewrite Va, Vb; reflexivity|]. exists (fun d => Da d - Db d). split; [intros p q u w; rewrite La, Lb; ring|]. split.
  - intros g t0 dg E H. cbn. apply (is_derive_minus (fun t => reval a (g t)) (fun t => reval b (g t))); auto.
  - intros ct v. cbn. rewrite Ba, Bb. cbn. f_equal; ring.
Qed.
Lemma good_mul : forall a b env, good a env -> good b env -> good (Mul a b) env.
Proof.
  intros a b env [Va [Da [La [Ha Ba]]]] [Vb [Db [Lb [Hb Bb]]]].
  split; [cbn; rewrite Va, Vb; reflexivity|]. exists (fun d => Da d * reval b env + reval a env * Db d).
  split; [intros p q u w; rewrite La, Lb; ring|]. split.
  - intros g t0 dg E H. cbn. rewrite <- (env_at g t0 env E).
    apply (is_derive_mult (fun t => reval a (g t)) (fun t => reval b (g t))); [apply Ha; auto|apply Hb; auto|].
    intros; apply Rmult_comm.
  - intros ct v. cbn [back]. rewrite Va, Vb, !emul_fin, Ba, Bb. cbn. f_equal; ring.
Qed.
(** A function of one number applied *)
Lemma diff_comp : forall a env D (f : R -> R) d, diffs a env D -> is_derive f (reval a env) d ->
  forall (g : R -> nat -> R) t0 dg, (forall n, g t0 n = env n) -> (forall n, is_derive (fun t => g t n) t0 (dg n)) ->
  is_derive (fun t => f (reval a (g t))) t0 (D dg * d).
Proof.
  intros a env D f d Ha F g t0 dg E H.
  pose proof (is_derive_comp f (fun t => reval a (g t)) t0 d (D dg)) as K. cbv beta in K.
  rewrite (env_at g t0 env E) in K. apply (K F). apply Ha; auto.
Qed.
Lemma lin_scale : forall D c, linear_ D -> linear_ (fun d => D d * c).
Proof. intros D c L a b u w. rewrite L. ring. Qed.
Lemma good_sq : forall a env, good a env -> good (Sq a) env.
Proof.
  intros a env [Va [Da [La [Ha Ba]]]].
  split; [cbn; rewrite Va; reflexivity|]. exists (fun d => Da d * (2 * reval a env)). split; [apply lin_scale; auto|]. split.
  - intros g t0 dg E H. cbn. apply (diff_comp a env Da (fun x => x * x)); auto. auto_derive; [auto|ring].
  - intros ct v. cbn [back]. rewrite Va, !emul_fin, Ba. f_equal; ring.
Qed.
Lemma good_exp : forall a env, good a env -> good (Exp a) env.
Proof.
  intros a env [Va [Da [La [Ha Ba]]]].
  split; [cbn; rewrite Va; reflexivity|]. exists (fun d => Da d * exp (reval a env)). split; [apply lin_scale; auto|]. split.
  - intros g t0 dg E H. cbn. apply (diff_comp a env Da exp); auto. apply is_derive_exp.
  - intros ct v. cbn [back]. rewrite Va. cbn [eexp]. rewrite emul_fin, Ba. f_equal; ring.
Qed.
Lemma good_sqrt : forall a env, good a env -> 0 < reval a env -> good (Sqrt a) env.
Proof.
  intros a env [Va [Da [La [Ha Ba]]]] P. assert (Q := sqrt_lt_R0 _ P).
  split; [cbn; rewrite Va, esqrt_fin; [reflexivity|lra]|].
  exists (fun d => Da d * (1 / 2 / sqrt (reval a env))). split; [apply lin_scale; auto|]. split.
  - intros g t0 dg E H. cbn. apply (diff_comp a env Da sqrt); auto. auto_derive; [exact P|field; lra].
  - intros ct v. cbn [back]. rewrite Va, esqrt_fin by lra. unfold ehalf. rewrite ediv_fin, emul_fin, Ba by lra. f_equal; ring.
Qed.
Lemma good_prim : forall p a env r d, good a env -> p_val p (Fin (reval a env)) = Fin r -> p_der p (Fin (reval a env)) = Fin d ->
  is_derive (fun t => toR (p_val p (Fin t))) (reval a env) d -> good (Prim p a) env.
Proof.
  intros p a env r d [Va [Da [La [Ha Ba]]]] V W F.
  split; [cbn; rewrite Va, V; reflexivity|]. exists (fun u => Da u * d). split; [apply lin_scale; auto|]. split.
  - intros g t0 dg E H. cbn. apply (diff_comp a env Da (fun t => toR (p_val p (Fin t)))); auto.
  - intros ct v. cbn [back]. rewrite Va, W, emul_fin, Ba. f_equal; ring.
Qed.
Lemma good_div : forall a b env, good a env -> good b env -> reval b env <> 0 -> good (Div a b) env.
Proof.
  intros a b env [Va [Da [La [Ha Ba]]]] [Vb [Db [Lb [Hb Bb]]]] N.
  split; [cbn; rewrite Va, Vb, ediv_fin; auto|].
  exists (fun d => (Da d * reval b env - reval a env * Db d) / (reval b env) ^ 2).
  split; [intros p q u w; rewrite La, Lb; field; auto|]. split.
  - intros g t0 dg E H. cbn. pose proof (env_at g t0 env E) as E'.
    pose proof (is_derive_div (fun t => reval a (g t)) (fun t => reval b (g t)) t0 (Da dg) (Db dg)) as K. cbv beta in K.
    rewrite E' in K. apply K; auto.
  - intros ct v. cbn [back]. rewrite Va, Vb, ediv_fin, Ba by auto. cbn [eneg]. rewrite !emul_fin.
    rewrite ediv_fin by (intro Q; apply Rmult_integral in Q; tauto). rewrite emul_fin, Bb. cbn. f_equal; field; auto.
Qed.
Lemma good_pow : forall a b env, good a env -> good b env -> 0 < reval a env -> good (Pow a b) env.
Proof.
  intros a b env [Va [Da [La [Ha Ba]]]] [Vb [Db [Lb [Hb Bb]]]] P.
  split; [cbn; rewrite Va, Vb, epow_fin, jpow_pos; auto|].
  set (x := reval a env). set (y := reval b env).
  exists (fun d => Da d * (y * Rpower x (y - 1)) + Db d * (ln x * Rpower x y)).
  split; [intros p q u w; rewrite La, Lb; ring|]. split.
  - intros g t0 dg E H. cbn. pose proof (env_at g t0 env E) as E'.
    assert (HA := Ha g t0 dg E H). assert (HB := Hb g t0 dg E H).
    assert (N : locally t0 (fun t => 0 < reval a (g t))) by (eapply near_pos; [exact HA|rewrite E'; exact P]).
    apply (is_derive_ext_loc (fun t => exp (reval b (g t) * ln (reval a (g t))))).
    { revert N. apply filter_imp. intros t T. rewrite jpow_pos by exact T. reflexivity. }
    assert (HL : is_derive (fun t => ln (reval a (g t))) t0 (Da dg * / x)).
    { apply (diff_comp a env Da ln); auto. fold x. auto_derive; [exact P|]. field. unfold x; lra. }
    assert (HM := is_derive_mult (fun t => reval b (g t)) (fun t => ln (reval a (g t))) t0 _ _ HB HL (fun m n => Rmult_comm m n)).
    cbv beta in HM. rewrite E' in HM. fold x y in HM.
    pose proof (is_derive_comp exp (fun t => reval b (g t) * ln (reval a (g t))) t0 (exp (y * ln x)) (Db dg * ln x + y * (Da dg * / x))) as K. cbv beta in K.
    rewrite E' in K. specialize (K (is_derive_exp (y * ln x)) HM).
    assert (X : x <> 0) by (unfold x; lra).
    assert (W : Rpower x (y - 1) = exp (y * ln x) / x).
    { change (Rpower x (y - 1) = Rpower x y / x). unfold Rminus. rewrite Rpower_plus, Rpower_Ropp, Rpower_1 by exact P. reflexivity. }
    replace (Da dg * (y * Rpower x (y - 1)) + Db dg * (ln x * Rpower x y)) with
      ((Db dg * ln x + y * (Da dg * / x)) * exp (y * ln x)); [exact K|].
    rewrite W. unfold Rpower. match goal with |- ?l = ?r => change (@eq R l r) end. field. exact X.
  - intros ct v. cbn [back]. rewrite Va, Vb. fold x y. cbv zeta. cbn [eadd].
    rewrite !epow_fin by exact P. rewrite emul_fin.
    assert (Z : replace_zero (Fin x) = Fin x) by (unfold replace_zero; destruct (Reqb_spec x 0); [unfold x in *; lra|reflexivity]).
    rewrite Z. assert (LG : elog (Fin x) = Fin (ln x)) by (unfold elog; destruct (Rltb_spec 0 x); [reflexivity|unfold x in *; lra]).
    rewrite LG, !emul_fin, Ba, Bb. cbn [eadd]. f_equal. replace (y + -1) with (y - 1) by ring. ring.
Qed.
Lemma sum_sq_pos : forall a b : R, a <> 0 \/ b <> 0 -> 0 < a * a + b * b.
Proof. intros a b [A|B]; [assert (0 < a * a) by nra|assert (0 < b * b) by nra]; nra. Qed.
Lemma good_cabs : forall a b env, good a env -> good b env -> (reval a env <> 0 \/ reval b env <> 0) -> good (Cabs a b) env.
Proof.
  intros a b env Ga Gb N. pose proof (sum_sq_pos _ _ N) as P.
  assert (G : good (Sqrt (Add (Mul a a) (Mul b b))) env) by (apply good_sqrt; [apply good_add; apply good_mul; auto|exact P]).
  destruct Ga as [Va [Da [La [Ha Ba]]]]. destruct Gb as [Vb [Db [Lb [Hb Bb]]]].
  destruct G as [V _]. set (n := sqrt (reval a env * reval a env + reval b env * reval b env)).
  assert (Q : 0 < n) by (apply sqrt_lt_R0; exact P).
  split; [exact V|]. exists (fun d => (Da d * reval a env + Db d * reval b env) / n). split.
  { intros p q u w. rewrite La, Lb. field. lra. }
  split.
  - intros g t0 dg E H. cbn. pose proof (env_at g t0 env E) as E'.
    assert (HA := Ha g t0 dg E H). assert (HB := Hb g t0 dg E H).
    assert (K : is_derive (fun t => reval a (g t) * reval a (g t) + reval b (g t) * reval b (g t)) t0
                  (2 * (Da dg * reval a env + Db dg * reval b env))).
    { replace (2 * (Da dg * reval a env + Db dg * reval b env)) with
        ((Da dg * (2 * reval a env)) + (Db dg * (2 * reval b env))) by ring.
      apply (is_derive_plus (fun t => reval a (g t) * reval a (g t)) (fun t => reval b (g t) * reval b (g t))).
      - apply (diff_comp a env Da (fun x => x * x)); auto. auto_derive; [auto|ring].
      - apply (diff_comp b env Db (fun x => x * x)); auto. auto_derive; [auto|ring]. }
    pose proof (is_derive_comp sqrt (fun t => reval a (g t) * reval a (g t) + reval b (g t) * reval b (g t)) t0 (/ (2 * n)) (2 * (Da dg * reval a env + Db dg * reval b env))) as M.
    cbv beta in M. rewrite E' in M.
    replace ((Da dg * reval a env + Db dg * reval b env) / n) with (2 * (Da dg * reval a env + Db dg * reval b env) * / (2 * n)) by (field; lra).
    apply M; [|exact K]. auto_derive; [exact P|]. fold n. field. lra.
  - intros ct v. cbn [back]. rewrite Va, Vb, !emul_fin. cbn [eadd]. rewrite esqrt_fin by lra. fold n.
    assert (Z : replace_zero (Fin n) = Fin n) by (unfold replace_zero; destruct (Reqb_spec n 0); [lra|reflexivity]).
    cbv zeta. rewrite Z, !ediv_fin, !emul_fin, Ba, Bb by lra. cbn [eadd]. f_equal. field. lra.
Qed.
(** abs(z) ** 2 *)
Lemma good_sqabs : forall a b env, good a env -> good b env -> good (Sq (Cabs a b)) env.
Proof.
  intros a b env Ga Gb. destruct (Req_dec (reval a env) 0) as [A0|A0]; [|apply good_sq, good_cabs; auto].
  destruct (Req_dec (reval b env) 0) as [B0|B0]; [|apply good_sq, good_cabs; auto].
  destruct (good_add (Mul a a) (Mul b b) env (good_mul _ _ _ Ga Ga) (good_mul _ _ _ Gb Gb)) as [V [D [L [H B]]]].
  assert (E0 : reval a env * reval a env + reval b env * reval b env = 0) by (rewrite A0, B0; ring).
  destruct Ga as [Va [Da [La [Ha Ba]]]]. destruct Gb as [Vb [Db [Lb [Hb Bb]]]].
  split.
  { cbn. rewrite Va, Vb. cbn [emul eadd]. rewrite E0, esqrt_fin by lra. reflexivity. }
  exists D. split; [exact L|]. split.
  - intros g t0 dg E K. apply (is_derive_ext (fun t => reval (Add (Mul a a) (Mul b b)) (g t))); [|apply H; auto].
    intro t. cbn. match goal with |- ?x = _ => change (@eq R x (sqrt x * sqrt x)) end. rewrite sqrt_sqrt; [reflexivity|nra].
  - intros ct v. cbn [back]. cbn [val]. cbn [back] in B. rewrite Va, Vb, !emul_fin in *. cbn [eadd]. rewrite A0, B0 in *.
    replace (0 * 0 + 0 * 0) with 0 by ring. rewrite esqrt_fin, sqrt_0 by lra.
    assert (Z : replace_zero (Fin 0) = Fin 1) by (unfold replace_zero; destruct (Reqb_spec 0 0); [reflexivity|lra]).
    cbv zeta. rewrite Z, ediv_fin, !emul_fin, Ba, Bb by lra. cbn [eadd].
    specialize (B ct v). cbn [eadd] in B. rewrite !emul_fin, Ba, Bb in B. cbn [eadd] in B.
    injection B as B. rewrite <- B. f_equal. field.
Qed.
Lemma rcmp_stable : forall c (l r l' r' : R), l' - r' <> 0 -> l - r <> 0 -> (0 < l - r <-> 0 < l' - r') -> rcmp c l r = rcmp c l' r'.
Proof.
  intros c l r l' r' N' N P. unfold rcmp, ecmp. destruct c.
  - destruct (Rltb_spec r l), (Rltb_spec r' l'); auto; exfalso; [apply n|apply n]; apply Rminus_gt_0_lt || idtac; try (assert (0 < l - r) by lra; apply P in H; lra); assert (0 < l' - r') by lra; apply P in H; lra.
  - f_equal. destruct (Rltb_spec r l), (Rltb_spec r' l'); auto; exfalso.
    + assert (0 < l - r) by lra. apply P in H. lra.
    + assert (0 < l' - r') by lra. apply P in H. lra.
  - destruct (Reqb_spec l r), (Reqb_spec l' r'); auto; exfalso; lra.
Qed.
Lemma good_where : forall c l r a b env, good l env -> good r env -> good a env -> good b env -> reval l env <> reval r env ->
  good (Where c l r a b) env.
Proof.
  intros c l r a b env Gl Gr [Va [Da [La [Ha Ba]]]] [Vb [Db [Lb [Hb Bb]]]] N.
  destruct (good_sub l r env Gl Gr) as [_ [Ds [_ [Hs _]]]].
  destruct Gl as [Vl _]. destruct Gr as [Vr _].
  split. { cbn [val reval]. rewrite Vl, Vr, Va, Vb. unfold rcmp. destruct (ecmp c (Fin (reval l env)) (Fin (reval r env))); reflexivity. }
  set (t := rcmp c (reval l env) (reval r env)).
  exists (fun d => if t then Da d else Db d). split; [intros p q u w; destruct t; auto|]. split.
  - intros g t0 dg E H. pose proof (env_at g t0 env E) as E'.
    assert (HS := Hs g t0 dg E H). cbn in HS.
    assert (M : locally t0 (fun s => rcmp c (reval l (g s)) (reval r (g s)) = t)).
    { pose proof (near_ne _ t0 _ HS) as K. cbv beta in K. rewrite E' in K. specialize (K ltac:(lra)).
      revert K. apply filter_imp. intros s [S1 S2]. apply rcmp_stable; [lra|exact S1|exact S2]. }
    apply (is_derive_ext_loc (fun s => if t then reval a (g s) else reval b (g s))).
    { revert M. apply filter_imp. intros s S. cbn [reval]. rewrite S. reflexivity. }
    destruct t; auto.
  - intros ct v. cbn [back]. rewrite Vl, Vr. fold (rcmp c (reval l env) (reval r env)). fold t. cbv zeta.
    destruct t; rewrite Ba, Bb; cbn [eadd]; f_equal; ring.
Qed.
Lemma smooth_good : forall e env, smooth e env -> good e env.
Proof.
  assert (forall e env, (smooth e env -> good e env) /\
    match e with Cabs b c => smooth b env /\ smooth c env -> good b env /\ good c env | _ => True end) as H; [|intros e env; apply H].
  induction e; intros env; cbn [smooth]; (split; [|try exact I]).
  - intros _. apply good_var.
  - intros _. apply good_cst.
  - intros [A B]. apply good_let; [apply IHe1|apply IHe2]; auto.
  - intros [A B]. apply good_add; [apply IHe1|apply IHe2]; auto.
  - intros [A B]. apply good_sub; [apply IHe1|apply IHe2]; auto.
  - intros [A B]. apply good_mul; [apply IHe1|apply IHe2]; auto.
  - intros [A [B N]]. apply good_div; [apply IHe1|apply IHe2|]; auto.
  - intros A. apply good_neg, IHe; auto.
  - intros [A|A]; [apply good_sq, IHe; auto|].
    destruct e; try contradiction. destruct (IHe env) as [_ K]. destruct (K A). apply good_sqabs; auto.
  - intros [A P]. apply good_sqrt; [apply IHe|]; auto.
  - intros A. apply good_exp, IHe; auto.
  - intros [A [B P]]. apply good_pow; [apply IHe1|apply IHe2|]; auto.
  - intros [A [B P]]. apply good_cabs; [apply IHe1|apply IHe2|]; auto.
  - intros [A B]. split; [apply IHe1|apply IHe2]; auto.
  - intros [A [B [D [E N]]]]. apply good_where; [apply IHe1|apply IHe2|apply IHe3|apply IHe4|]; auto.
  - contradiction.
  - intros [A [r [d [V [W F]]]]]. apply (good_prim p e env r d); [apply IHe|..]; auto.
Qed.
Lemma good_gradient : forall e env v, good e env -> is_gradient e (reval e) env v.
Proof.
  intros e env v [V [D [L [H B]]]]. exists (D (unit_ v)). split.
  - unfold grad. change (fun n => Fin (env n)) with (fin env). rewrite B. f_equal; ring.
  - apply (H (fun t => upd env v t)).
    + intro n. unfold upd. destruct (Nat.eqb_spec n v); [subst; reflexivity|reflexivity].
    + intro n. unfold upd, unit_. destruct (Nat.eqb n v).
      * apply (is_derive_id (K := R_AbsRing)).
      * apply (is_derive_const (K := R_AbsRing) (V := R_NormedModule)).
Qed.
Lemma gradient_ok : forall e env v, smooth e env -> is_gradient e (reval e) env v.
Proof. intros e env v H. apply good_gradient, smooth_good, H. Qed.
Lemma value_ok : forall e env, smooth e env -> val e (fun n => Fin (env n)) = Fin (reval e env).
Proof. intros e env H. destruct (smooth_good e env H) as [V _]. exact V. Qed.
Lemma gradient_ext : forall e f g env v, (forall env', f env' = g env') -> is_gradient e f env v -> is_gradient e g env v.
Proof. intros e f g env v E [d [G H]]. exists d. split; [exact G|]. apply (is_derive_ext (fun t => f (upd env v t))); auto. Qed.
