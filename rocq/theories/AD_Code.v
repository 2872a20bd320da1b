(** The programs of the profiles and of Shear: where they are smooth, what they compute. *)
From Coq Require Import Reals Lra Lia FunctionalExtensionality Bool.
From Coquelicot Require Import Coquelicot.
From Verif Require Import Base Bounds_Model Bounds_Proofs GSP_Model Geo_Model Sky_Model Sky_Jac Size_Model Shear_Model AD_Model AD_Spec AD_Proofs.
Open Scope R_scope.

Ltac envs := cbn [Nat.eqb scons] in *.
Lemma via : forall e f env v, (forall env', reval e env' = f env') -> smooth e env -> is_gradient e f env v.
Proof. intros e f env v E H. apply (gradient_ext e (reval e)); [exact E|]. apply gradient_ok, H. Qed.
Lemma rsq_smooth : forall env, smooth rsq env. Proof. intro env. cbn. tauto. Qed.
Lemma sq_ne : forall x : R, x <> 0 -> x * x <> 0. Proof. intros x X Q. apply Rmult_integral in Q. tauto. Qed.

Lemma rsq_pos : forall a b c : R, 0 < 1 + (a * a + b * b) * (c * c).
Proof. intros a b c. assert (0 <= (a * a + b * b) * (c * c)) by (apply Rmult_le_pos; nra). lra. Qed.
Lemma gaussian_x_ok : forall gs env v, env 3%nat <> 0 ->
  is_gradient gaussian_x (fun w => ga_xValue (gaussian_of gs w) (at_ w)) env v.
Proof.
  intros gs env v S. apply via.
  - intro w. cbn. unfold ga_xValue, ga_norm, ga_inv_sigsq, ga_sigsq, norm2, gaussian_of, at_. cbn. rewrite Rmult_1_r. reflexivity.
  - cbn. pose proof (sq_ne _ S). tauto.
Qed.
Lemma gaussian_k_ok : forall gs env v, is_gradient gaussian_k (fun w => ga_kValue (gaussian_of gs w) (at_ w)) env v.
Proof.
  intros gs env v. apply via.
  - intro w. cbn. unfold ga_kValue, ga_sigsq, norm2, gaussian_of, at_. cbn. rewrite Rmult_1_r. reflexivity.
  - cbn. tauto.
Qed.
Lemma exponential_x_ok : forall gs env v, env 3%nat <> 0 -> at_ env <> (0, 0) ->
  is_gradient exponential_x (fun w => ex_xValue (exponential_of gs w) (at_ w)) env v.
Proof.
  intros gs env v S P. apply via.
  - intro w. cbn. unfold ex_xValue, ex_norm, ex_inv_r0, norm2, exponential_of, at_. cbn. rewrite Rmult_1_r. reflexivity.
  - assert (Q : 0 < env 0%nat * env 0%nat + env 1%nat * env 1%nat).
    { apply sum_sq_pos. destruct (Req_dec (env 0%nat) 0) as [A|A]; [|left; exact A]. right. intro B. apply P. unfold at_. rewrite A, B. reflexivity. }
    cbn. tauto.
Qed.
Lemma exponential_k_ok : forall gs env v, is_gradient exponential_k (fun w => ex_kValue (exponential_of gs w) (at_ w)) env v.
Proof.
  intros gs env v. apply via.
  - intro w. cbn. unfold ex_kValue, norm2, exponential_of, at_. cbn. rewrite Rmult_1_r. reflexivity.
  - cbn. set (k := (_ * _ + _ * _) * _ + 1). assert (K : 0 < k) by (unfold k; rewrite Rplus_comm; apply rsq_pos).
    pose proof (sqrt_lt_R0 k K). assert (0 < k * sqrt k) by (apply Rmult_lt_0_compat; auto). repeat split; auto. lra.
Qed.
Lemma spergel_k_ok : forall gs env v, is_gradient spergel_k (fun w => sp_kValue (spergel_of gs w) (at_ w)) env v.
Proof.
  intros gs env v. apply via.
  - intro w. cbn. unfold sp_kValue, sp_r0_sq, norm2, spergel_of, at_. cbn. reflexivity.
  - cbn. assert (0 < 1 + (env 0%nat * env 0%nat + env 1%nat * env 1%nat) * (env 3%nat * env 3%nat)) by apply rsq_pos. tauto.
Qed.
(** Moffat *)
Lemma pow_gt_1 : forall x b, 0 < x < 1 -> 1 < b -> 1 < jpow x (1 / (1 - b)).
Proof.
  intros x b X B. rewrite jpow_pos by lra. unfold Rpower. apply (Rle_lt_trans _ (exp 0)); [rewrite exp_0; lra|]. apply exp_increasing.
  assert (L : ln x < 0) by (rewrite <- ln_1; apply ln_increasing; lra).
  replace (1 / (1 - b) * ln x) with ((- ln x) * / (b - 1)) by (field; lra). apply Rmult_lt_0_compat; [exact (Ropp_0_gt_lt_contravar _ L)|apply Rinv_0_lt_compat; lra].
Qed.
Lemma moffat_x_ok : forall gs env v, 0 < g_xacc gs < 1 -> env 3%nat <> 0 -> 1 < env 4%nat ->
  norm2 (at_ env) * mo_inv_r0_sq (moffat_of gs env) <> mo_maxRrD_sq (moffat_of gs env) ->
  is_gradient (moffat_x (g_xacc gs)) (fun w => mo_xValue (moffat_of gs w) (at_ w)) env v.
Proof.
  intros gs env v X S B N. apply via.
  - intro w. cbn. unfold mo_xValue, mo_norm, mo_inv_r0_sq, mo_inv_r0, mo_maxRrD_sq, mo_maxRrD, mo_fluxFactor, norm2, moffat_of, at_. cbn. rewrite !Rmult_1_r.
    reflexivity.
  - unfold mo_inv_r0_sq, mo_inv_r0, mo_maxRrD_sq, mo_maxRrD, norm2, moffat_of, at_ in N. cbn in N.
    pose proof (pow_gt_1 _ _ X B) as Q. pose proof PI_RGT_0. cbn.
    assert (0 < 1 + (env 0%nat * env 0%nat + env 1%nat * env 1%nat) * (1 / env 3%nat * (1 / env 3%nat))).
    { apply rsq_pos. }
    pose proof (sq_ne _ S) as S2. assert (PI * 1 * (env 3%nat * env 3%nat) <> 0) by (rewrite Rmult_1_r; apply Rmult_integral_contrapositive; split; lra).
    repeat split; auto; lra.
Qed.
(** Box *)
Lemma sinc_derive : forall x, is_derive sinc x (dsinc x).
Proof.
  intro x. pose proof PI_RGT_0 as P. unfold dsinc. destruct (Reqb_spec x 0) as [e|e].
  - subst x. apply is_derive_Reals. intros eps H. pose proof PI_4.
    assert (D : 0 < Rmin (1 / 8) (eps / 16)) by (apply Rmin_glb_lt; lra).
    exists (mkposreal _ D). intros h Hn Hh. cbn in Hh. pose proof (Rmin_l (1 / 8) (eps / 16)). pose proof (Rmin_r (1 / 8) (eps / 16)).
    rewrite Rplus_0_l, Rminus_0_r. unfold sinc. destruct (Reqb_spec 0 0); [|lra]. destruct (Reqb_spec h 0); [contradiction|].
    assert (A : sin (PI * h) / (PI * h) = sin (PI * Rabs h) / (PI * Rabs h)).
    { unfold Rabs. destruct (Rcase_abs h); auto. replace (PI * - h) with (- (PI * h)) by ring. rewrite sin_neg. field. split; lra. }
    assert (W : 0 < Rabs h) by (apply Rabs_pos_lt; exact Hn).
    assert (T : PI * Rabs h <= 4 * Rabs h) by nra. assert (T0 : 0 < PI * Rabs h) by nra.
    assert (Q : Rabs (sin (PI * Rabs h) / (PI * Rabs h) - 1) <= (PI * Rabs h) * (PI * Rabs h) / 2) by (apply Sky_Jac.sinc_near; nra).
    rewrite A. unfold Rdiv at 1. rewrite Rabs_mult, Rabs_inv.
    apply (Rmult_lt_reg_r (Rabs h)); [exact W|]. rewrite Rmult_assoc, Rinv_l, Rmult_1_r by lra.
    apply (Rle_lt_trans _ _ _ Q). assert (T2 : PI * Rabs h * (PI * Rabs h) <= 4 * Rabs h * (4 * Rabs h)) by (apply Rmult_le_compat; lra).
    assert (T3 : Rabs h * Rabs h <= eps / 16 * Rabs h) by (apply Rmult_le_compat_r; lra). assert (0 < eps * Rabs h) by (apply Rmult_lt_0_compat; lra). lra.
  - apply (is_derive_ext_loc (fun x => sin (PI * x) / (PI * x))).
    + pose proof (near_ne (fun t => t) x 1 (is_derive_id x) e) as K. revert K. apply filter_imp. intros t [T _].
      unfold sinc. destruct (Reqb_spec t 0); [contradiction|reflexivity].
    + unfold sinc. destruct (Reqb_spec x 0); [contradiction|].
      auto_derive; [repeat split; auto; intro Q; apply Rmult_integral in Q; lra|]. field. split; lra.
Qed.
Lemma box_k_ok : forall gs env v, is_gradient box_k (fun w => bx_kValue (box_of gs w) (at_ w)) env v.
Proof.
  intros gs env v. apply via; [intro w; reflexivity|].
  pose proof PI_RGT_0. cbn. repeat split; auto; try lra; eexists; eexists; (split; [reflexivity|split; [reflexivity|]]); apply sinc_derive.
Qed.
(** Shear *)
Lemma tanh_derive : forall x, is_derive tanh x (1 - tanh x * tanh x).
Proof.
  intro x. pose proof (exp_pos x). pose proof (exp_pos (- x)). unfold tanh, sinh, cosh.
  auto_derive; [lra|]. field. lra.
Qed.
Lemma arctanh_derive : forall x, -1 < x < 1 -> is_derive arctanh x (1 / (1 - x * x)).
Proof.
  intros x H. unfold arctanh. auto_derive.
  - split; [lra|]. split; auto. apply Rmult_lt_0_compat; [lra|apply Rinv_0_lt_compat; lra].
  - field. repeat split; nra.
Qed.
Lemma cabs_is : forall a b : R, sqrt (a * a + b * b) = Cmod (a, b).
Proof. intros a b. unfold Cmod. cbn. rewrite !Rmult_1_r. reflexivity. Qed.
Lemma g1_of_e_ok : forall env v, norm2 (at_ env) < 1 -> norm2 (at_ env) <> 1 / 10000 ->
  is_gradient g1_of_e (fun w => w 0%nat * e2g (norm2 (at_ w))) env v.
Proof.
  intros env v L N. apply via.
  - intro w. cbn. unfold e2g, norm2, at_, rcmp, ecmp. cbn. destruct (Rltb _ _); [reflexivity|]. lra.
  - unfold norm2, at_ in *. cbn in *. set (n := _ + _) in *. assert (0 < 1 - n) by lra. pose proof (sqrt_pos (1 - n)). repeat split; auto; lra.
Qed.
Lemma cmod_pos : forall a b : R, (a, b) <> (0, 0) -> 0 < sqrt (a * a + b * b) /\ (a <> 0 \/ b <> 0).
Proof.
  intros a b N. assert (Q : a <> 0 \/ b <> 0).
  { destruct (Req_dec a 0) as [A|A]; [|left; exact A]. right. intro B. apply N. rewrite A, B. reflexivity. }
  split; [|exact Q]. apply sqrt_lt_R0, sum_sq_pos, Q.
Qed.
Lemma g1_of_eta_ok : forall env v, at_ env <> (0, 0) -> Cmod (at_ env) <> 1 / 10000 ->
  is_gradient g1_of_eta (fun w => w 0%nat * eta2g (Cmod (at_ w))) env v.
Proof.
  intros env v P N. destruct (cmod_pos _ _ P) as [Q O]. apply via.
  - intro w. unfold at_. rewrite <- cabs_is. cbn. unfold eta2g, rcmp, ecmp. reflexivity.
  - unfold at_ in N. rewrite <- cabs_is in N. cbn. set (n := sqrt _) in *. repeat split; auto; try lra.
    eexists; eexists. split; [reflexivity|]. split; [reflexivity|]. apply tanh_derive.
Qed.
Lemma eta1_of_g_ok : forall env v, at_ env <> (0, 0) -> Cmod (at_ env) <> 1 / 10000 -> Cmod (at_ env) < 1 ->
  is_gradient eta1_of_g (fun w => w 0%nat * g2eta (Cmod (at_ w))) env v.
Proof.
  intros env v P N L. destruct (cmod_pos _ _ P) as [Q O]. apply via.
  - intro w. unfold at_. rewrite <- cabs_is. cbn. unfold g2eta, rcmp, ecmp. cbn. destruct (Rltb _ _); [reflexivity|]. lra.
  - unfold at_ in N, L. rewrite <- cabs_is in N, L. cbn. set (n := sqrt _) in *. repeat split; auto; try lra.
    eexists; eexists. split; [reflexivity|]. split; [reflexivity|]. apply arctanh_derive. lra.
Qed.
(** safe_sqrt *)
Lemma safe_sqrt_pos : forall env v, 0 < env 0%nat -> is_gradient (safe_sqrt (Var 0)) (fun w => sqrt (w 0%nat)) env v.
Proof.
  intros env v P. apply via.
  - intro w. cbn. unfold rcmp, ecmp. destruct (Rltb_spec 0 (w 0%nat)); [reflexivity|]. symmetry. apply sqrt_neg_0. lra.
  - cbn. unfold rcmp, ecmp. destruct (Rltb_spec 0 (env 0%nat)); [|lra]. repeat split; auto; lra.
Qed.
Lemma eadd_r : forall a, eadd a NaN = NaN. Proof. destruct a; reflexivity. Qed.
Lemma eadd_l : forall a, eadd NaN a = NaN. Proof. destruct a; reflexivity. Qed.
Lemma emul_r : forall a, emul a NaN = NaN. Proof. destruct a; reflexivity. Qed.
Lemma emul_l : forall a, emul NaN a = NaN. Proof. destruct a; reflexivity. Qed.
Lemma ediv_l : forall a, ediv NaN a = NaN. Proof. destruct a; reflexivity. Qed.
Lemma ediv_0_0 : ediv (Fin 0) (Fin 0) = NaN.
Proof. unfold ediv, esign. destruct (Reqb_spec 0 0); [|lra]. destruct (Rltb_spec 0 0); [lra|reflexivity]. Qed.
Lemma half_over_0 : ediv ehalf (Fin 0) = PInf.
Proof. unfold ediv, ehalf, esign. destruct (Reqb_spec 0 0); [|lra]. destruct (Rltb_spec 0 (1 / 2)); [reflexivity|lra]. Qed.
Lemma inf_times_0 : emul PInf (Fin 0) = NaN /\ emul NInf (Fin 0) = NaN /\ emul (Fin 0) PInf = NaN.
Proof.
  unfold emul, esign. assert (A : - 0 = 0) by ring. rewrite A. destruct (Rltb_spec 0 0); [lra|]. auto.
Qed.
Lemma safe_sqrt_0 : forall env, env 0%nat <= 0 -> grad (safe_sqrt (Var 0)) env 0 = Fin 0.
Proof.
  intros env P. unfold grad, safe_sqrt, one. cbn [back val scons Nat.eqb ecmp].
  destruct (Rltb_spec 0 (env 0%nat)); [lra|]. cbn. f_equal. ring.
Qed.

(** * Where the gradient is lost *)
Lemma pixel_body_nan : forall (env : nat -> R) fs u, env 0%nat = 0 -> env 1%nat = 0 -> env 2%nat <> 0 -> env 4%nat <> 0 -> (u < 2)%nat ->
  back (let inv_r0 := Div one (Var 4) in
   Mul (Mul (Mul (Mul (Var 3) (Cst inv_twopi)) (Sq inv_r0)) (Exp (Mul (Neg (Sqrt (Add (Sq (Var 1)) (Sq (Var 0))))) inv_r0)))
       (Div (Cst fs) (Cabs (Var 2) (Cst 0)))) (fin env) (Fin 1) u = NaN.
Proof.
  intros env fs u Y X D R0 U. cbv zeta.
  assert (V1 : val (Div (Cst fs) (Cabs (Var 2) (Cst 0))) (fin env) = Fin (reval (Div (Cst fs) (Cabs (Var 2) (Cst 0))) env)).
  { apply value_ok. cbn. repeat split; auto. pose proof (cmod_pos (env 2%nat) 0 ltac:(intro Q; injection Q; auto)). lra. }
  assert (V3 : val (Mul (Mul (Var 3) (Cst inv_twopi)) (Sq (Div one (Var 4)))) (fin env) =
               Fin (reval (Mul (Mul (Var 3) (Cst inv_twopi)) (Sq (Div one (Var 4)))) env)) by (apply value_ok; cbn; tauto).
  assert (V4 : val (Div one (Var 4)) (fin env) = Fin (reval (Div one (Var 4)) env)) by (apply value_ok; cbn; tauto).
  assert (V5 : val (Add (Sq (Var 1)) (Sq (Var 0))) (fin env) = Fin 0) by (cbn; rewrite X, Y; f_equal; ring).
  set (A := Div (Cst fs) (Cabs (Var 2) (Cst 0))) in *. set (B := Mul (Mul (Var 3) (Cst inv_twopi)) (Sq (Div one (Var 4)))) in *.
  set (I := Div one (Var 4)) in *. set (Q := Add (Sq (Var 1)) (Sq (Var 0))) in *.
  assert (V6 : val (Exp (Mul (Neg (Sqrt Q)) I)) (fin env) = Fin (exp (- 0 * reval I env))).
  { cbn [val]. rewrite V5, V4, esqrt_fin, sqrt_0 by lra. reflexivity. }
  cbn [back]. rewrite V1, V3. cbn [val] in V6 |- *. rewrite V5, V4, esqrt_fin, sqrt_0 in * by lra. cbn [eneg emul eexp] in V6 |- *.
  rewrite half_over_0.
  assert (K : forall c, back Q (fin env) (esign c) u = NaN).
  { intro c. subst Q. cbn [back val]. unfold fin. rewrite X, Y. cbn [emul]. rewrite !Rmult_0_r.
    assert (Z : emul (esign c) (Fin 0) = NaN).
    { destruct inf_times_0 as [I1 [I2 I3]]. unfold esign. destruct (Rltb 0 c); [exact I1|]. destruct (Rltb c 0); [exact I2|reflexivity]. }
    rewrite Z. destruct u as [|[|u]]; [| |lia]; reflexivity. }
  cbn [emul eneg]. rewrite K. rewrite ?eadd_l, ?eadd_r, ?eadd_l. reflexivity.
Qed.
Lemma back_let : forall a b env ct v, back (Let a b) env ct v =
  eadd (back b (scons (val a env) env) ct (S v)) (back a env (back b (scons (val a env) env) ct 0) v).
Proof. reflexivity. Qed.
Lemma pixel_nan : forall (env : nat -> R) fs u, env 2%nat * env 5%nat - env 3%nat * env 4%nat <> 0 -> env 1%nat <> 0 -> (2 <= u < 6)%nat ->
  back (exponential_pixel 0 0 fs) (fin env) (Fin 1) u = NaN.
Proof.
  intros env fs u D R0 U. unfold exponential_pixel. rewrite back_let.
  set (det := Sub (Mul (Var 2) (Var 5)) (Mul (Var 3) (Var 4))).
  assert (V1 : val det (fin env) = Fin (reval det env)) by (apply value_ok; cbn; tauto).
  assert (D' : reval det env <> 0) by exact D.
  rewrite V1, <- fin_scons. set (env1 := scons (reval det env) env).
  set (xe := Div (Sub (Mul (Cst 0) (Var 6)) (Mul (Cst 0) (Var 4))) (Var 0)).
  set (ye := Div (Sub (Mul (Cst 0) (Var 4)) (Mul (Cst 0) (Var 6))) (Var 1)).
  match goal with |- eadd _ (back det (fin env) ?c u) = NaN => assert (K : c = NaN) end.
  { rewrite back_let.
    assert (V2 : val xe (fin env1) = Fin 0).
    { transitivity (Fin (reval xe env1)); [apply (value_ok xe); cbn; cbn in D'; tauto|]. f_equal. cbn. cbn in D'. field. exact D'. }
    rewrite V2, <- fin_scons. set (env2 := scons 0 env1).
    match goal with |- eadd _ (back xe (fin env1) ?c 0) = NaN => assert (K : c = NaN) end.
    { rewrite back_let.
      assert (V3 : val ye (fin env2) = Fin 0).
      { transitivity (Fin (reval ye env2)); [apply (value_ok ye); cbn; cbn in D'; tauto|]. f_equal. cbn. cbn in D'. field. exact D'. }
      rewrite V3, <- fin_scons. rewrite pixel_body_nan; [apply eadd_l|reflexivity|reflexivity|exact D'|exact R0|lia]. }
    rewrite K. unfold xe. cbn. rewrite ?eadd_r. reflexivity. }
  rewrite K. unfold det. destruct u as [|[|[|[|[|[|u]]]]]]; try lia; cbn; rewrite ?eadd_r, ?eadd_l, ?eadd_r; reflexivity.
Qed.
Lemma shear_pos : forall a b : R, a ^ 2 + b ^ 2 < 1 -> 0 < 1 - sqrt (a * a + b * b) * sqrt (a * a + b * b).
Proof. intros a b H. rewrite sqrt_sqrt by nra. lra. Qed.
Lemma sheared_nan : forall (env : nat -> R) fs v, env 2%nat ^ 2 + env 3%nat ^ 2 < 1 -> env 1%nat <> 0 -> (v = 2 \/ v = 3)%nat ->
  grad (sheared_pixel 0 0 fs) env v = NaN.
Proof.
  intros env fs v G R0 V. unfold grad. change (fun n => Fin (env n)) with (fin env). unfold sheared_pixel.
  pose proof (shear_pos _ _ G) as P. set (s2 := 1 - _) in P. pose proof (sqrt_lt_R0 _ P) as S0.
  assert (S1 : sqrt s2 * sqrt s2 = 1 - env 2%nat ^ 2 - env 3%nat ^ 2).
  { rewrite sqrt_sqrt by lra. unfold s2. rewrite sqrt_sqrt by nra. ring. }
  rewrite back_let.
  assert (V1 : val (Sqrt (Sub one (Sq (Cabs (Var 2) (Var 3))))) (fin env) = Fin (sqrt s2)).
  { apply (value_ok (Sqrt (Sub one (Sq (Cabs (Var 2) (Var 3)))))). cbn. split; [tauto|exact P]. }
  rewrite V1, <- fin_scons. set (s := sqrt s2) in *. set (env1 := scons s env).
  match goal with |- eadd ?c _ = NaN => assert (K : c = NaN); [|rewrite K; apply eadd_l] end.
  rewrite back_let.
  assert (V2 : val (Div (Sub one (Var 3)) (Var 0)) (fin env1) = Fin ((1 - env 2%nat) / s)).
  { apply (value_ok (Div (Sub one (Var 3)) (Var 0))). cbn. repeat split; auto. lra. }
  rewrite V2, <- fin_scons. set (env2 := scons _ env1).
  match goal with |- eadd ?c _ = NaN => assert (K : c = NaN); [|rewrite K; apply eadd_l] end.
  rewrite back_let.
  assert (V3 : val (Div (Var 5) (Var 1)) (fin env2) = Fin (env 3%nat / s)).
  { apply (value_ok (Div (Var 5) (Var 1))). cbn. repeat split; auto. lra. }
  rewrite V3, <- fin_scons. set (env3 := scons _ env2).
  match goal with |- eadd ?c _ = NaN => assert (K : c = NaN); [|rewrite K; apply eadd_l] end.
  rewrite back_let.
  assert (V4 : val (Div (Var 6) (Var 2)) (fin env3) = Fin (env 3%nat / s)).
  { apply (value_ok (Div (Var 6) (Var 2))). cbn. repeat split; auto. lra. }
  rewrite V4, <- fin_scons. set (env4 := scons _ env3).
  assert (V5 : val (Div (Add one (Var 6)) (Var 3)) (fin env4) = Fin ((1 + env 2%nat) / s)).
  { apply (value_ok (Div (Add one (Var 6)) (Var 3))). cbn. repeat split; auto. lra. }
  set (inner := Let (Var 6) (Let (Var 6) (exponential_pixel 0 0 fs))).
  assert (IN : forall u, (u < 4)%nat -> back inner (fin (scons ((1 + env 2%nat) / s) env4)) (Fin 1) u = NaN).
  { intros u U. unfold inner. rewrite back_let. cbn [val]. change (fin (scons ((1 + env 2%nat) / s) env4) 6) with (Fin (env 1%nat)).
    rewrite <- fin_scons, back_let. cbn [val].
    match goal with |- context [fin ?e 6] => change (fin e 6) with (Fin (env 0%nat)) end. rewrite <- fin_scons.
    rewrite pixel_nan; [rewrite !eadd_l; reflexivity| |exact R0|lia]. cbn.
    replace ((1 + env 2%nat) / s * ((1 - env 2%nat) / s) - env 3%nat / s * (env 3%nat / s)) with ((1 - env 2%nat ^ 2 - env 3%nat ^ 2) / (s * s)) by (field; lra).
    rewrite S1. apply Rmult_integral_contrapositive. split; [nra|]. apply Rinv_neq_0_compat. nra. }
  destruct V as [-> | ->].
  - rewrite (back_let (Div (Add one (Var 6)) (Var 3))), V5, <- fin_scons.
    match goal with |- eadd ?c _ = NaN => assert (K : c = NaN); [|rewrite K; apply eadd_l] end.
    fold inner. rewrite (IN 0%nat) by lia. cbn. rewrite ?eadd_r, ?eadd_l, ?eadd_r. reflexivity.
  - rewrite !(back_let (Div (Add one (Var 6)) (Var 3))), V5, <- fin_scons. fold inner. rewrite (IN 1%nat) by lia. rewrite eadd_l.
    match goal with |- eadd _ ?c = NaN => assert (K : c = NaN); [|rewrite K; apply eadd_r] end. reflexivity.
Qed.
Lemma cabs_0 : forall env : nat -> R, at_ env = (0, 0) -> val (Cabs (Var 0) (Var 1)) (fin env) = Fin 0.
Proof.
  intros env H. unfold at_ in H. injection H as A B. cbn [val]. unfold fin. rewrite A, B. cbn [emul eadd].
  replace (0 * 0 + 0 * 0) with 0 by ring. rewrite esqrt_fin, sqrt_0 by lra. reflexivity.
Qed.
Lemma back_cabs_nan : forall (env : nat -> R) v, (v < 2)%nat -> back (Cabs (Var 0) (Var 1)) (fin env) NaN v = NaN.
Proof. intros env v V. destruct v as [|[|v]]; [| |lia]; cbn; rewrite ?eadd_r, ?eadd_l; reflexivity. Qed.
Lemma gt_false : forall t : R, 0 < t -> ecmp Gt (Fin 0) (Fin t) = false.
Proof. intros t T. unfold ecmp. destruct (Rltb_spec t 0); [lra|reflexivity]. Qed.
(** A factor that divides by its argument in the branch not taken *)
Lemma lost_factor : forall (num : expr) (c1 c2 c3 : R) (env : nat -> R) v, at_ env = (0, 0) -> (v < 2)%nat ->
  val num (fin (scons (0 * 0) (scons 0 env))) = Fin 0 ->
  grad (Mul (Var 0) (Let (Cabs (Var 0) (Var 1)) (Let (Mul (Var 0) (Var 0))
    (Where Gt (Var 1) (Cst (1 / 10000)) (Div num (Var 1)) (Add (Cst c1) (Mul (Var 0) (Add (Cst c2) (Mul (Var 0) (Cst c3))))))))) env v = NaN.
Proof.
  intros num c1 c2 c3 env v H V N. unfold grad. change (fun n => Fin (env n)) with (fin env).
  set (W := Where _ _ _ _ _). set (A := Cabs _ _). set (L2 := Let _ W). 
  change (eadd (back (Var 0) (fin env) (emul (Fin 1) (val (Let A L2) (fin env))) v) (back (Let A L2) (fin env) (emul (Fin 1) (fin env 0)) v) = NaN).
  assert (K : back (Let A L2) (fin env) (emul (Fin 1) (fin env 0)) v = NaN); [|rewrite K; apply eadd_r].
  assert (E0 : env 0%nat = 0) by (unfold at_ in H; injection H; auto).
  unfold fin at 2. rewrite E0, emul_fin, back_let. replace (val A (fin env)) with (Fin 0) by (symmetry; apply cabs_0, H). rewrite <- fin_scons.
  pose proof (back_cabs_nan env v V) as BC. fold A in BC.
  match goal with |- eadd _ (back _ _ ?c v) = NaN => assert (K : c = NaN); [|rewrite K, BC; apply eadd_r] end.
  unfold L2. rewrite back_let. cbn [val]. change (fin (scons 0 env) 0%nat) with (Fin 0). rewrite emul_fin, <- fin_scons.
  match goal with |- eadd ?c _ = NaN => assert (K : c = NaN); [|rewrite K; apply eadd_l] end.
  unfold W. cbn [back]. cbn [val]. change (fin (scons (0 * 0) (scons 0 env)) 1%nat) with (Fin 0). rewrite gt_false by lra.
  cbv zeta. rewrite N. cbn [Nat.eqb]. replace (1 * 0) with 0 by ring.
  cbn [eneg]. rewrite !emul_fin. 
  assert (Q : emul (Fin (- 0 * 0)) (ediv (Fin 1) (Fin (0 * 0))) = NaN).
  { replace (0 * 0) with 0 by ring. unfold ediv, esign. destruct (Reqb_spec 0 0); [|lra]. destruct (Rltb_spec 0 1); [|lra].
    replace (- 0 * 0) with 0 by ring. apply inf_times_0. }
  rewrite Q, eadd_r, eadd_l. reflexivity.
Qed.
Lemma tanh_0 : tanh 0 = 0. Proof. unfold tanh, sinh. rewrite Ropp_0. field. apply Rgt_not_eq. unfold cosh. rewrite Ropp_0, exp_0. lra. Qed.
Lemma arctanh_0 : arctanh 0 = 0. Proof. unfold arctanh. replace ((1 + 0) / (1 - 0)) with 1 by field. rewrite ln_1. ring. Qed.
Lemma g1_of_eta_nan : forall env v, at_ env = (0, 0) -> (v < 2)%nat -> grad g1_of_eta env v = NaN.
Proof.
  intros env v H V. unfold g1_of_eta, eta2g_expr. apply lost_factor; auto. cbn. f_equal. rewrite Rmult_0_r. apply tanh_0.
Qed.
Lemma eta1_of_g_nan : forall env v, at_ env = (0, 0) -> (v < 2)%nat -> grad eta1_of_g env v = NaN.
Proof.
  intros env v H V. unfold eta1_of_g, g2eta_expr. apply lost_factor; auto. cbn. f_equal. rewrite arctanh_0. ring.
Qed.
(** x f(|x|) at 0 for a polynomial f near 0 *)
Lemma odd_poly : forall (f : R -> R) (a b c : R), (forall x, 0 <= x < 1 / 10000 -> f x = a + x * x * (b + x * x * c)) ->
  is_derive (fun t => t * f (Rabs t)) 0 a.
Proof.
  intros f a b c H. apply (is_derive_ext_loc (fun t => t * (a + t * t * (b + t * t * c)))).
  - exists (mkposreal (1 / 10000) ltac:(lra)). intros t T. unfold ball in T. cbn in T. unfold AbsRing_ball, abs, minus, plus, opp in T. cbn in T.
    rewrite Ropp_0, Rplus_0_r in T. rewrite H by (split; [apply Rabs_pos|exact T]).
    assert (E : Rabs t * Rabs t = t * t) by (rewrite <- Rabs_mult; apply Rabs_pos_eq; nra). rewrite E. reflexivity.
  - auto_derive; [auto|ring].
Qed.
Lemma cmod_axis : forall t, Cmod (t, 0) = Rabs t.
Proof. intro t. unfold Cmod. cbn. replace (t * (t * 1) + 0 * (0 * 1)) with (Rsqr t) by (unfold Rsqr; ring). apply sqrt_Rsqr_abs. Qed.
Lemma g1_of_eta_derive : is_derive (fun t => t * eta2g (Cmod (t, 0))) 0 (1 / 2).
Proof.
  apply (is_derive_ext (fun t => t * eta2g (Rabs t))); [intro t; rewrite cmod_axis; reflexivity|].
  apply (odd_poly eta2g _ (-1 / 24) (1 / 240)). intros x X. unfold eta2g. destruct (Rltb_spec (1 / 10000) x); [lra|reflexivity].
Qed.
Lemma eta1_of_g_derive : is_derive (fun t => t * g2eta (Cmod (t, 0))) 0 2.
Proof.
  apply (is_derive_ext (fun t => t * g2eta (Rabs t))); [intro t; rewrite cmod_axis; reflexivity|].
  apply (odd_poly g2eta _ (2 / 3) (4 / 10)). intros x X. unfold g2eta. destruct (Rltb_spec (1 / 10000) x); [lra|reflexivity].
Qed.
(** minLinearScale *)
Lemma min_scale_val : forall env, 0 < env 0%nat -> reval min_scale env = env 0%nat.
Proof.
  intros env P. cbn. set (x := env 0%nat) in *.
  replace ((x + x) * (x + x) + (0 - 0) * (0 - 0)) with ((2 * x) * (2 * x)) by ring.
  replace ((x - x) * (x - x) + (0 + 0) * (0 + 0)) with 0 by ring. rewrite sqrt_0, sqrt_square by lra.
  replace ((2 * x - 0) * (2 * x - 0) + 0 * 0) with ((2 * x) * (2 * x)) by ring. rewrite sqrt_square by lra. lra.
Qed.
Lemma min_scale_nan : forall env, 0 < env 0%nat -> grad min_scale env 0 = NaN.
Proof.
  intros env P. unfold grad, min_scale. cbv zeta. change (fun n => Fin (env n)) with (fin env).
  set (h1 := Sqrt (Add (Sq (Add (Var 0) (Var 0))) (Sq (Sub (Cst 0) (Cst 0))))).
  set (S2 := Add (Sq (Sub (Var 0) (Var 0))) (Sq (Add (Cst 0) (Cst 0)))).
  set (x := env 0%nat) in *.
  assert (V1 : val h1 (fin env) = Fin (2 * x)).
  { transitivity (Fin (reval h1 env)); [apply (value_ok h1); cbn; fold x; repeat split; auto; nra|]. f_equal. cbn. fold x.
    replace ((x + x) * (x + x) + (0 - 0) * (0 - 0)) with ((2 * x) * (2 * x)) by ring. apply sqrt_square. lra. }
  assert (V2 : val S2 (fin env) = Fin 0) by (cbn; fold x; f_equal; ring).
  assert (K : forall c, back S2 (fin env) (esign c) 0 = NaN).
  { intro c. unfold S2. cbn [back val]. change (fin env 0) with (Fin x). cbn [eneg eadd emul Nat.eqb].
    assert (Z : emul (esign c) (Fin (2 * (x + - x))) = NaN).
    { replace (2 * (x + - x)) with 0 by ring. destruct inf_times_0 as [I1 [I2 I3]]. unfold esign.
      destruct (Rltb 0 c); [exact I1|]. destruct (Rltb c 0); [exact I2|reflexivity]. }
    rewrite Z. reflexivity. }
  cbn [back]. cbn [val]. rewrite V1, V2, esqrt_fin, sqrt_0 by lra. cbn [eneg eadd emul]. rewrite esqrt_fin by nra.
  replace ((2 * x + - 0) * (2 * x + - 0) + 0 * 0) with ((2 * x) * (2 * x)) by ring. rewrite sqrt_square by lra. cbv zeta.
  assert (Z : replace_zero (Fin (2 * x)) = Fin (2 * x)) by (unfold replace_zero; destruct (Reqb_spec (2 * x) 0); [lra|reflexivity]).
  rewrite Z, ediv_fin by lra. rewrite half_over_0. cbn [eneg emul]. rewrite K, eadd_r, ?eadd_l, ?eadd_r. reflexivity.
Qed.
(** Spergel at its centre *)
Lemma spergel_x_nan : forall nu kv small sn x0 env, p_val kv (Fin 0) = PInf -> at_ env = (0, 0) -> env 3%nat <> 0 ->
  grad (spergel_x nu kv small sn x0) env 3 = NaN.
Proof.
  intros nu kv small sn x0 env KV H R0. unfold grad. change (fun n => Fin (env n)) with (fin env). unfold at_ in H. injection H as A B.
  unfold spergel_x. cbv zeta. rewrite back_let.
  assert (V : val (Mul (Sqrt rsq) (Div one (Var 3))) (fin env) = Fin 0).
  { cbn [val rsq one]. unfold fin. rewrite A, B, ediv_fin by exact R0. cbn [emul eadd]. replace (0 * 0 + 0 * 0) with 0 by ring.
    rewrite esqrt_fin, sqrt_0 by lra. cbn. f_equal. ring. }
  rewrite V, <- fin_scons.
  match goal with |- eadd _ (back _ _ ?c _) = NaN => assert (K : c = NaN); [|rewrite K] end.
  - set (X := Mul (Mul (Cst sn) (Var 3)) (Mul (Div one (Var 4)) (Div one (Var 4)))).
    set (F := Where Le (Var 0) (Cst (1 / 10 ^ 10)) small (Mul (Pow (Var 0) (Cst nu)) (Prim kv (Var 0)))).
    assert (VX : val X (fin (scons 0 env)) = Fin (reval X (scons 0 env))) by (apply value_ok; cbn; tauto).
    cbn [back]. rewrite VX.
    assert (T1 : ecmp Is (val (Var 0) (fin (scons 0 env))) (val (Cst 0) (fin (scons 0 env))) = true).
    { cbn. destruct (Reqb_spec 0 0); [reflexivity|lra]. }
    cbn [back]. rewrite T1. cbv zeta.
    assert (KF : back F (fin (scons 0 env)) (Fin 0) 0 = NaN).
    { unfold F. cbn [back].
      assert (T2 : ecmp Le (val (Var 0) (fin (scons 0 env))) (val (Cst (1 / 10 ^ 10)) (fin (scons 0 env))) = true).
      { cbn. assert (0 < 1 / 10 ^ 10) by lra. destruct (Rltb_spec (1 / (10 * (10 * (10 * (10 * (10 * (10 * (10 * (10 * (10 * (10 * 1))))))))))) 0); [lra|reflexivity]. }
      rewrite T2. cbv zeta.
      assert (PV : val (Prim kv (Var 0)) (fin (scons 0 env)) = PInf) by exact KV.
      rewrite PV. destruct inf_times_0 as [_ [_ I3]]. rewrite I3. cbn [Nat.eqb]. rewrite !emul_l, !eadd_l, !eadd_r. reflexivity. }
    rewrite KF, !eadd_r. reflexivity.
  - cbn. rewrite ?eadd_r, ?eadd_l, ?eadd_r. reflexivity.
Qed.
Lemma spergel_x_derive : forall nu kv small sn x0 env, at_ env = (0, 0) -> env 3%nat <> 0 ->
  is_derive (fun t => reval (spergel_x nu kv small sn x0) (upd env 3 t)) (env 3%nat) (- 2 * sn * env 2%nat * x0 / env 3%nat ^ 3).
Proof.
  intros nu kv small sn x0 env H R0. unfold at_ in H. injection H as A B.
  apply (is_derive_ext (fun t => sn * env 2%nat * (1 / t * (1 / t)) * x0)).
  - intro t. unfold spergel_x. cbv zeta. cbn [reval rsq one scons].
    assert (E : sqrt (upd env 3 t 0 * upd env 3 t 0 + upd env 3 t 1 * upd env 3 t 1) * (1 / upd env 3 t 3) = 0).
    { unfold upd. cbn [Nat.eqb]. rewrite A, B. replace (0 * 0 + 0 * 0) with 0 by ring. rewrite sqrt_0. ring. }
    rewrite E. assert (T : rcmp Is 0 0 = true) by (cbn; destruct (Reqb_spec 0 0); [reflexivity|lra]). rewrite T. reflexivity.
  - auto_derive; [auto|]. field. exact R0.
Qed.
(** Spergel and nu *)
Lemma spergel_nu_grad : forall (shoot dshoot fz dfz : R -> R) i env,
  (forall x, is_derive shoot x (dshoot x)) ->
  grad (spergel_nu (prim_of shoot dshoot) (prim_of fz dfz) i) env 1 = Fin (dshoot (env 1%nat) * env 0%nat * i * fz (env 1%nat)).
Proof. intros. unfold grad. cbn. f_equal. ring. Qed.
Lemma spergel_nu_derive : forall (shoot dshoot fz dfz : R -> R) i env,
  is_derive shoot (env 1%nat) (dshoot (env 1%nat)) -> is_derive fz (env 1%nat) (dfz (env 1%nat)) ->
  is_derive (fun t => reval (spergel_nu (prim_of shoot dshoot) (prim_of fz dfz) i) (upd env 1 t)) (env 1%nat)
    (dshoot (env 1%nat) * env 0%nat * i * fz (env 1%nat) + shoot (env 1%nat) * env 0%nat * i * dfz (env 1%nat)).
Proof.
  intros shoot dshoot fz dfz i env H1 H2. cbn.
  assert (E1 : is_derive (fun t => shoot t * env 0%nat * i) (env 1%nat) (dshoot (env 1%nat) * env 0%nat * i)).
  { apply (is_derive_ext (fun t => (env 0%nat * i) * shoot t)); [intro t; match goal with |- ?a = ?b => change (@eq R a b); ring end|].
    replace (dshoot (env 1%nat) * env 0%nat * i) with ((env 0%nat * i) * dshoot (env 1%nat)) by ring. apply is_derive_scal. exact H1. }
  exact (is_derive_mult _ _ _ _ _ E1 H2 (fun m n => Rmult_comm m n)).
Qed.

(** * Zero is not special where the code is written with care *)
Lemma via_loc : forall e f env v, locally (env v) (fun t => reval e (upd env v t) = f (upd env v t)) -> smooth e env -> is_gradient e f env v.
Proof.
  intros e f env v L H. destruct (gradient_ok e env v H) as [d [G D]]. exists d. split; [exact G|].
  apply (is_derive_ext_loc (fun t => reval e (upd env v t))); auto.
Qed.
Lemma upd_same : forall env v, upd env v (env v) = env.
Proof. intros env v. extensionality n. unfold upd. destruct (Nat.eqb_spec n v); [subst; reflexivity|reflexivity]. Qed.
Lemma shear_near : forall env v, env 2%nat ^ 2 + env 3%nat ^ 2 < 1 ->
  locally (env v) (fun t => upd env v t 2%nat ^ 2 + upd env v t 3%nat ^ 2 < 1).
Proof.
  intros env v G. set (e := Sub one (Add (Sq (Var 2)) (Sq (Var 3)))).
  destruct (gradient_ok e env v) as [d [_ D]]; [cbn; tauto|].
  assert (L := near_pos _ _ _ D). cbv beta in L. rewrite upd_same in L. specialize (L ltac:(cbn; nra)).
  revert L. apply filter_imp. intros t T. cbn in T. nra.
Qed.
Lemma sheared_is : forall gs cx cy fs env, env 2%nat ^ 2 + env 3%nat ^ 2 < 1 -> reval (sheared_pixel cx cy fs) env = sheared gs cx cy fs env.
Proof.
  intros gs cx cy fs env G. pose proof (shear_pos _ _ G) as P.
  unfold sheared_pixel, exponential_pixel, sheared, ex_xValue, ex_norm, ex_inv_r0, norm2. cbn -[sqrt exp inv_twopi pow].
  rewrite (sqrt_sqrt (env 2%nat * env 2%nat + env 3%nat * env 3%nat)) in * by nra.
  replace (1 - env 2%nat ^ 2 - env 3%nat ^ 2) with (1 - (env 2%nat * env 2%nat + env 3%nat * env 3%nat)) by ring.
  set (g1 := env 2%nat) in *. set (g2 := env 3%nat) in *. set (s := sqrt (1 - (g1 * g1 + g2 * g2))).
  assert (S0 : 0 < s) by (apply sqrt_lt_R0; exact P). assert (S1 : s * s = 1 - (g1 * g1 + g2 * g2)) by (apply sqrt_sqrt; lra).
  assert (D : (1 + g1) / s * ((1 - g1) / s) - g2 / s * (g2 / s) = 1).
  { replace ((1 + g1) / s * ((1 - g1) / s) - g2 / s * (g2 / s)) with ((1 - (g1 * g1 + g2 * g2)) / (s * s)) by (field; lra). rewrite S1. field. lra. }
  rewrite D. replace (1 * 1 + 0 * 0) with (1 * 1) by ring. rewrite sqrt_square by lra.
  replace ((cx * ((1 - g1) / s) - cy * (g2 / s)) / 1) with (((1 - g1) * cx - g2 * cy) / s) by (field; lra).
  replace ((cy * ((1 + g1) / s) - cx * (g2 / s)) / 1) with (((1 + g1) * cy - g2 * cx) / s) by (field; lra).
  f_equal; [|field]. f_equal. f_equal. ring.
Qed.
Lemma sheared_smooth : forall cx cy fs env, env 2%nat ^ 2 + env 3%nat ^ 2 < 1 -> env 1%nat <> 0 -> (cx, cy) <> (0, 0) ->
  smooth (sheared_pixel cx cy fs) env.
Proof.
  intros cx cy fs env G R0 N. pose proof (shear_pos _ _ G) as P.
  unfold sheared_pixel, exponential_pixel. cbn -[sqrt exp inv_twopi pow].
  rewrite (sqrt_sqrt (env 2%nat * env 2%nat + env 3%nat * env 3%nat)) in * by nra.
  set (g1 := env 2%nat) in *. set (g2 := env 3%nat) in *. set (s := sqrt (1 - (g1 * g1 + g2 * g2))).
  assert (S0 : 0 < s) by (apply sqrt_lt_R0; exact P). assert (S1 : s * s = 1 - (g1 * g1 + g2 * g2)) by (apply sqrt_sqrt; lra).
  assert (D : (1 + g1) / s * ((1 - g1) / s) - g2 / s * (g2 / s) = 1).
  { replace ((1 + g1) / s * ((1 - g1) / s) - g2 / s * (g2 / s)) with ((1 - (g1 * g1 + g2 * g2)) / (s * s)) by (field; lra). rewrite S1. field. lra. }
  rewrite D. replace (1 * 1 + 0 * 0) with (1 * 1) by ring. rewrite sqrt_square by lra.
  set (x := (cx * ((1 - g1) / s) - cy * (g2 / s)) / 1). set (y := (cy * ((1 + g1) / s) - cx * (g2 / s)) / 1).
  assert (Q : 0 < x * x + y * y).
  { apply sum_sq_pos. destruct (Req_dec x 0) as [A|A]; [|left; exact A]. right. intro B.
    assert (X : cx * (1 - g1) - cy * g2 = 0) by (replace (cx * (1 - g1) - cy * g2) with (x * s) by (unfold x; field; lra); rewrite A; ring).
    assert (Y : cy * (1 + g1) - cx * g2 = 0) by (replace (cy * (1 + g1) - cx * g2) with (y * s) by (unfold y; field; lra); rewrite B; ring).
    apply N. assert (E1 : cx * (1 - (g1 * g1 + g2 * g2)) = 0).
    { replace (cx * (1 - (g1 * g1 + g2 * g2))) with ((cx * (1 - g1) - cy * g2) * (1 + g1) + (cy * (1 + g1) - cx * g2) * g2) by ring. rewrite X, Y. ring. }
    assert (E2 : cy * (1 - (g1 * g1 + g2 * g2)) = 0).
    { replace (cy * (1 - (g1 * g1 + g2 * g2))) with ((cy * (1 + g1) - cx * g2) * (1 - g1) + (cx * (1 - g1) - cy * g2) * g2) by ring. rewrite X, Y. ring. }
    apply Rmult_integral in E1. apply Rmult_integral in E2. destruct E1, E2; try lra. subst. reflexivity. }
  repeat split; auto; try lra. 
Qed.
Lemma sheared_ok : forall gs cx cy fs env v, env 2%nat ^ 2 + env 3%nat ^ 2 < 1 -> env 1%nat <> 0 -> (cx, cy) <> (0, 0) ->
  is_gradient (sheared_pixel cx cy fs) (sheared gs cx cy fs) env v.
Proof.
  intros gs cx cy fs env v G R0 N. apply via_loc; [|apply sheared_smooth; auto].
  generalize (shear_near env v G). apply filter_imp. intros t T. apply sheared_is, T.
Qed.
Lemma sheared_centre : forall gs fs env v, env 2%nat ^ 2 + env 3%nat ^ 2 < 1 -> (v = 2 \/ v = 3)%nat ->
  is_derive (fun t => sheared gs 0 0 fs (upd env v t)) (env v) 0.
Proof.
  intros gs fs env v G V.
  apply (is_derive_ext_loc (fun t => ex_xValue (Exn (env 1%nat) (env 0%nat) gs) (0, 0) * fs)).
  - generalize (shear_near env v G). apply filter_imp. intros t T. unfold sheared. cbv zeta.
    assert (P : 0 < 1 - upd env v t 2%nat ^ 2 - upd env v t 3%nat ^ 2) by lra. pose proof (sqrt_lt_R0 _ P) as Q.
    set (s := sqrt _) in *. replace (((1 - upd env v t 2%nat) * 0 - upd env v t 3%nat * 0) / s) with 0 by (field; lra).
    replace (((1 + upd env v t 2%nat) * 0 - upd env v t 3%nat * 0) / s) with 0 by (field; lra).
    destruct V as [-> | ->]; reflexivity.
  - apply (is_derive_const (K := R_AbsRing) (V := R_NormedModule)).
Qed.
(** Flux and size at the centre of an Exponential that is not transformed *)
Lemma exponential_centre : forall gs env v, env 3%nat <> 0 -> at_ env = (0, 0) -> (v = 2 \/ v = 3)%nat ->
  is_gradient exponential_x (fun w => ex_xValue (exponential_of gs w) (at_ w)) env v.
Proof.
  intros gs env v S H V. unfold at_ in H. injection H as A B.
  assert (E : forall w t, (v = 2 \/ v = 3)%nat -> w = upd env v t -> ex_xValue (exponential_of gs w) (at_ w) = reval (Mul (Mul (Var 2) (Cst inv_twopi)) (Sq (Div one (Var 3)))) w).
  { intros w t W ->. unfold ex_xValue, ex_norm, ex_inv_r0, norm2, exponential_of, at_. cbn [reval fst snd ex_r0 ex_flux].
    assert (A' : upd env v t 0 = 0) by (destruct W as [-> | ->]; exact A). assert (B' : upd env v t 1 = 0) by (destruct W as [-> | ->]; exact B).
    rewrite A', B'. replace (0 * 0 + 0 * 0) with 0 by ring. rewrite sqrt_0. replace (- 0 * (1 / upd env v t 3)) with 0 by ring. rewrite exp_0. cbn [reval one]. ring. }
  destruct (gradient_ok (Mul (Mul (Var 2) (Cst inv_twopi)) (Sq (Div one (Var 3)))) env v) as [d [G D]]; [cbn; tauto|].
  exists d. split.
  - rewrite <- G. unfold grad. change (fun n => Fin (env n)) with (fin env). unfold exponential_x.
    set (I := Div one (Var 3)). set (P := Mul (Mul (Var 2) (Cst inv_twopi)) (Sq I)).
    assert (VI : val I (fin env) = Fin (reval I env)) by (apply value_ok; cbn; tauto).
    assert (VP : val P (fin env) = Fin (reval P env)) by (apply value_ok; cbn; tauto).
    assert (VQ : val rsq (fin env) = Fin 0) by (cbn; rewrite A, B; f_equal; ring).
    assert (VE : val (Exp (Mul (Neg (Sqrt rsq)) I)) (fin env) = Fin 1).
    { cbn [val]. rewrite VI, VQ, esqrt_fin, sqrt_0 by lra. cbn. f_equal. replace (- 0 * (1 / env 3%nat)) with 0 by ring. apply exp_0. }
    change (back (Mul P (Exp (Mul (Neg (Sqrt rsq)) I))) (fin env) (Fin 1) v) with
      (eadd (back P (fin env) (emul (Fin 1) (val (Exp (Mul (Neg (Sqrt rsq)) I)) (fin env))) v)
            (back (Exp (Mul (Neg (Sqrt rsq)) I)) (fin env) (emul (Fin 1) (val P (fin env))) v)).
    rewrite VE, emul_fin. replace (1 * 1) with 1 by ring.
    assert (Z : forall ct, back rsq (fin env) ct v = Fin 0) by (intro ct; destruct V as [-> | ->]; cbn; f_equal; ring).
    assert (Q : back (Exp (Mul (Neg (Sqrt rsq)) I)) (fin env) (emul (Fin 1) (val P (fin env))) v = Fin 0).
    { cbn [back]. rewrite Z. cbn [val]. rewrite VP, VI, VQ, esqrt_fin, sqrt_0 by lra. cbn [emul eneg eexp].
      assert (G0 : good I env) by (apply smooth_good; cbn; tauto). destruct G0 as [_ [D0 [_ [_ B0]]]]. rewrite B0. cbn. f_equal. ring. }
    rewrite Q. assert (GP : good P env) by (apply smooth_good; cbn; tauto). destruct GP as [_ [D0 [_ [_ B0]]]]. rewrite B0. cbn. f_equal. ring.
  - apply (is_derive_ext (fun t => reval (Mul (Mul (Var 2) (Cst inv_twopi)) (Sq (Div one (Var 3)))) (upd env v t))); [|exact D].
    intro t. symmetry. apply (E _ t); auto.
Qed.
