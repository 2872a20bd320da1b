(** C131, C132: gradients. *)
From Coq Require Import Reals Lra Lia.
From Coquelicot Require Import Coquelicot.
From Verif Require Import Base Bounds_Model GSP_Model Geo_Model Sky_Model Size_Model Shear_Model AD_Model AD_Spec AD_Proofs AD_Code.
Open Scope R_scope.

(** Any program: where every operation is differentiable, the value is the value over the reals and the gradient its partial derivative *)
Theorem C131_gradient : forall (e : expr) (env : nat -> R) (v : nat), smooth e env ->
  val e (fun n => Fin (env n)) = Fin (reval e env) /\ is_gradient e (reval e) env v.
Proof. intros e env v H. split; [apply value_ok, H|apply gradient_ok, H]. Qed.
Print Assumptions C131_gradient.
Example C131_gradient_example : smooth (Let (Add (Var 0) (Var 0)) (Mul (Var 0) (Sqrt (Var 0)))) (fun _ => 2) /\
  grad (Let (Add (Var 0) (Var 0)) (Mul (Var 0) (Sqrt (Var 0)))) (fun _ => 2) 0 = Fin 6.
Proof.
  split; [cbn; repeat split; auto; lra|]. unfold grad. cbn [back val scons Nat.eqb eadd]. rewrite !esqrt_fin by lra.
  assert (E : sqrt (2 + 2) = 2) by (replace (2 + 2) with (2 * 2) by ring; apply sqrt_square; lra).
  cbn [emul]. rewrite E. unfold ehalf. rewrite ediv_fin by lra. cbn. f_equal. field.
Qed.

(** Profiles. v: any of position, flux, sizes *)
Theorem C131_gaussian : forall (gs : gsp R) (env : nat -> R) (v : nat),
  (env 3%nat <> 0 -> is_gradient gaussian_x (fun w => ga_xValue (gaussian_of gs w) (at_ w)) env v) /\
  is_gradient gaussian_k (fun w => ga_kValue (gaussian_of gs w) (at_ w)) env v.
Proof. intros gs env v. split; [apply gaussian_x_ok|apply gaussian_k_ok]. Qed.
Print Assumptions C131_gaussian.
Example C131_gaussian_example : forall gs : gsp R,
  is_gradient gaussian_x (fun w => ga_xValue (gaussian_of gs w) (at_ w)) (fun n => match n with 0%nat | 1%nat => 0 | _ => 2 end) 3.
Proof. intro gs. apply C131_gaussian. lra. Qed.

Theorem C131_exponential : forall (gs : gsp R) (env : nat -> R) (v : nat),
  (env 3%nat <> 0 -> at_ env <> (0, 0) -> is_gradient exponential_x (fun w => ex_xValue (exponential_of gs w) (at_ w)) env v) /\
  is_gradient exponential_k (fun w => ex_kValue (exponential_of gs w) (at_ w)) env v.
Proof. intros gs env v. split; [apply exponential_x_ok|apply exponential_k_ok]. Qed.
Print Assumptions C131_exponential.
Example C131_exponential_example : forall gs : gsp R,
  is_gradient exponential_x (fun w => ex_xValue (exponential_of gs w) (at_ w)) (fun _ => 2) 0.
Proof. intro gs. apply C131_exponential; [lra|]. intro H. injection H. lra. Qed.

(** Off the circle where the profile is cut; beta included *)
Theorem C131_moffat : forall (gs : gsp R) (env : nat -> R) (v : nat), 0 < g_xacc gs < 1 -> env 3%nat <> 0 -> 1 < env 4%nat ->
  norm2 (at_ env) * mo_inv_r0_sq (moffat_of gs env) <> mo_maxRrD_sq (moffat_of gs env) ->
  is_gradient (moffat_x (g_xacc gs)) (fun w => mo_xValue (moffat_of gs w) (at_ w)) env v.
Proof. exact moffat_x_ok. Qed.
Print Assumptions C131_moffat.
Example C131_moffat_example : forall gs : gsp R, 0 < g_xacc gs < 1 ->
  is_gradient (moffat_x (g_xacc gs)) (fun w => mo_xValue (moffat_of gs w) (at_ w)) (fun n => match n with 0%nat | 1%nat => 0 | 4%nat => 3 | _ => 1 end) 3.
Proof.
  intros gs X. apply C131_moffat; auto; try lra. unfold norm2, at_, mo_maxRrD_sq, mo_maxRrD, moffat_of. cbn [fst snd mo_beta mo_gs].
  pose proof (pow_gt_1 (g_xacc gs) 3 X ltac:(lra)) as P. rewrite sqrt_sqrt by lra. lra.
Qed.

(** nu included *)
Theorem C131_spergel_k : forall (gs : gsp R) (env : nat -> R) (v : nat),
  is_gradient spergel_k (fun w => sp_kValue (spergel_of gs w) (at_ w)) env v.
Proof. exact spergel_k_ok. Qed.
Print Assumptions C131_spergel_k.

(** At k = 0 too *)
Theorem C131_box : forall (gs : gsp R) (env : nat -> R) (v : nat), is_gradient box_k (fun w => bx_kValue (box_of gs w) (at_ w)) env v.
Proof. exact box_k_ok. Qed.
Print Assumptions C131_box.

(** A pixel of a sheared Exponential, in flux, size and shear, at zero shear too, away from the centre *)
Theorem C131_sheared_exponential : forall (gs : gsp R) (cx cy fs : R) (env : nat -> R) (v : nat),
  env 2%nat ^ 2 + env 3%nat ^ 2 < 1 -> env 1%nat <> 0 -> (cx, cy) <> (0, 0) ->
  is_gradient (sheared_pixel cx cy fs) (sheared gs cx cy fs) env v.
Proof. exact sheared_ok. Qed.
Print Assumptions C131_sheared_exponential.
Example C131_sheared_example : forall gs : gsp R,
  is_gradient (sheared_pixel 1 2 1) (sheared gs 1 2 1) (fun n => match n with 0%nat | 1%nat => 1 | _ => 0 end) 2.
Proof. intro gs. apply C131_sheared_exponential; try lra. intro H. injection H. lra. Qed.

(** Shear(e1, e2), Shear(eta1, eta2), Shear.eta1 as functions of the two components *)
Theorem C131_shear : forall (env : nat -> R) (v : nat),
  (norm2 (at_ env) < 1 -> norm2 (at_ env) <> 1 / 10000 -> is_gradient g1_of_e (fun w => w 0%nat * e2g (norm2 (at_ w))) env v) /\
  (at_ env <> (0, 0) -> Cmod (at_ env) <> 1 / 10000 -> is_gradient g1_of_eta (fun w => w 0%nat * eta2g (Cmod (at_ w))) env v) /\
  (at_ env <> (0, 0) -> Cmod (at_ env) <> 1 / 10000 -> Cmod (at_ env) < 1 ->
     is_gradient eta1_of_g (fun w => w 0%nat * g2eta (Cmod (at_ w))) env v).
Proof. intros env v. split; [apply g1_of_e_ok|split; [apply g1_of_eta_ok|apply eta1_of_g_ok]]. Qed.
Print Assumptions C131_shear.
Example C131_shear_example : is_gradient g1_of_eta (fun w => w 0%nat * eta2g (Cmod (at_ w))) (fun n => match n with 0%nat => 1 / 2 | _ => 0 end) 0.
Proof.
  apply C131_shear; unfold at_; [intro H; injection H; lra|]. rewrite cmod_axis, Rabs_pos_eq by lra. lra.
Qed.

(** Spergel in real space, off the centre: the gradient in nu leaves out the dependence of z^nu K_nu(z) on nu *)
Theorem C131_spergel_nu_refuted : forall (shoot dshoot fz dfz : R -> R) (inv_r0_sq : R) (env : nat -> R),
  (forall x, is_derive shoot x (dshoot x)) -> (forall x, is_derive fz x (dfz x)) ->
  let e := spergel_nu (prim_of shoot dshoot) (prim_of fz dfz) inv_r0_sq in
  let nu := env 1%nat in let xnorm := shoot nu * env 0%nat * inv_r0_sq in
  exists g d : R, grad e env 1 = Fin g /\ is_derive (fun t => reval e (upd env 1 t)) nu d /\ d - g = xnorm * dfz nu /\
    (xnorm * dfz nu <> 0 -> ~ is_gradient e (reval e) env 1).
Proof.
  intros shoot dshoot fz dfz i env H1 H2 e nu xnorm.
  pose proof (spergel_nu_grad shoot dshoot fz dfz i env H1) as G. pose proof (spergel_nu_derive shoot dshoot fz dfz i env (H1 _) (H2 _)) as D.
  eexists; eexists. split; [exact G|]. split; [exact D|]. split; [unfold xnorm, nu; ring|].
  intros N [d' [G' D']]. fold e in G, D. rewrite G in G'. injection G' as G'.
  apply is_derive_unique in D. apply is_derive_unique in D'. rewrite D in D'. apply N. unfold xnorm, nu. lra.
Qed.
Print Assumptions C131_spergel_nu_refuted.
Example C131_spergel_nu_example : exists env, ~ is_gradient (spergel_nu (prim_of (fun _ => 1) (fun _ => 0)) (prim_of exp exp) 1)
  (reval (spergel_nu (prim_of (fun _ => 1) (fun _ => 0)) (prim_of exp exp) 1)) env 1.
Proof.
  exists (fun _ => 1). destruct (C131_spergel_nu_refuted (fun _ => 1) (fun _ => 0) exp exp 1 (fun _ => 1)) as [g [d [_ [_ [_ N]]]]].
  - intro x. apply (is_derive_const (K := R_AbsRing) (V := R_NormedModule)).
  - apply is_derive_exp.
  - apply N. pose proof (exp_pos 1). lra.
Qed.

(** safe_sqrt: the derivative where positive, 0 elsewhere *)
Theorem C132_safe_sqrt : forall (env : nat -> R),
  (0 < env 0%nat -> is_gradient (safe_sqrt (Var 0)) (fun w => sqrt (w 0%nat)) env 0) /\ (env 0%nat <= 0 -> grad (safe_sqrt (Var 0)) env 0 = Fin 0).
Proof. intro env. split; [apply safe_sqrt_pos|apply safe_sqrt_0]. Qed.
Print Assumptions C132_safe_sqrt.

(** The centre of an Exponential, in flux (2) and size (3) *)
Theorem C132_exponential_centre : forall (gs : gsp R) (env : nat -> R) (v : nat), env 3%nat <> 0 -> at_ env = (0, 0) -> (v = 2 \/ v = 3)%nat ->
  is_gradient exponential_x (fun w => ex_xValue (exponential_of gs w) (at_ w)) env v.
Proof. exact exponential_centre. Qed.
Print Assumptions C132_exponential_centre.
Example C132_exponential_example : forall gs : gsp R,
  is_gradient exponential_x (fun w => ex_xValue (exponential_of gs w) (at_ w)) (fun n => match n with 0%nat | 1%nat => 0 | _ => 2 end) 3.
Proof. intro gs. apply C132_exponential_centre; [lra|reflexivity|auto]. Qed.

(** The pixel at the centre of a sheared Exponential does not depend on the shear; its gradient is nan, whatever shear, flux and size *)
Theorem C132_sheared_exponential_refuted : forall (gs : gsp R) (fs : R) (env : nat -> R) (v : nat),
  env 2%nat ^ 2 + env 3%nat ^ 2 < 1 -> env 1%nat <> 0 -> (v = 2 \/ v = 3)%nat ->
  lost (sheared_pixel 0 0 fs) (sheared gs 0 0 fs) env v.
Proof. intros gs fs env v G R0 V. split; [apply sheared_nan; auto|]. exists 0. apply sheared_centre; auto. Qed.
Print Assumptions C132_sheared_exponential_refuted.
Example C132_sheared_example : forall gs : gsp R, lost (sheared_pixel 0 0 1) (sheared gs 0 0 1) (fun n => match n with 0%nat | 1%nat => 1 | _ => 1 / 10 end) 2.
Proof. intro gs. apply C132_sheared_exponential_refuted; try lra. auto. Qed.

(** The centre of a Spergel in real space, in the scale radius: kv(nu, 0) = inf is met in a branch not taken *)
Theorem C132_spergel_refuted : forall (nu : R) (kv : prim) (small : expr) (shootxnorm xnorm0 : R) (env : nat -> R),
  p_val kv (Fin 0) = PInf -> at_ env = (0, 0) -> env 3%nat <> 0 ->
  lost (spergel_x nu kv small shootxnorm xnorm0) (reval (spergel_x nu kv small shootxnorm xnorm0)) env 3.
Proof. intros nu kv small sn x0 env K H R0. split; [apply spergel_x_nan; auto|]. eexists. apply spergel_x_derive; auto. Qed.
Print Assumptions C132_spergel_refuted.
Example C132_spergel_example : lost (spergel_x (1 / 2) (Fun (fun _ => PInf) (fun _ => NInf)) (Cst 0) 1 1)
  (reval (spergel_x (1 / 2) (Fun (fun _ => PInf) (fun _ => NInf)) (Cst 0) 1 1)) (fun n => match n with 0%nat | 1%nat => 0 | _ => 2 end) 3.
Proof. apply C132_spergel_refuted; [reflexivity|reflexivity|lra]. Qed.

(** Zero shear given by eta1, eta2, and eta1 of zero shear; e1, e2 are safe *)
Theorem C132_zero_shear_refuted : forall env : nat -> R, at_ env = (0, 0) ->
  is_gradient g1_of_e (fun w => w 0%nat * e2g (norm2 (at_ w))) env 0 /\
  lost g1_of_eta (fun w => w 0%nat * eta2g (Cmod (at_ w))) env 0 /\
  lost eta1_of_g (fun w => w 0%nat * g2eta (Cmod (at_ w))) env 0.
Proof.
  intros env H. assert (E : forall t, at_ (upd env 0 t) = (t, 0)) by (intro t; unfold at_ in H; injection H as A B; unfold at_, upd; cbn; rewrite B; reflexivity).
  assert (E0 : env 0%nat = 0) by (unfold at_ in H; injection H; auto).
  split; [|split; split].
  - apply g1_of_e_ok; rewrite H; unfold norm2; cbn; lra.
  - apply g1_of_eta_nan; auto.
  - exists (1 / 2). rewrite E0. apply (is_derive_ext (fun t => t * eta2g (Cmod (t, 0)))); [intro t; rewrite E; reflexivity|apply g1_of_eta_derive].
  - apply eta1_of_g_nan; auto.
  - exists 2. rewrite E0. apply (is_derive_ext (fun t => t * g2eta (Cmod (t, 0)))); [intro t; rewrite E; reflexivity|apply eta1_of_g_derive].
Qed.
Print Assumptions C132_zero_shear_refuted.

(** minLinearScale of JacobianWCS(s, 0, 0, s) is s, its gradient nan *)
Theorem C132_min_scale_refuted : forall env : nat -> R, 0 < env 0%nat ->
  reval min_scale env = env 0%nat /\ grad min_scale env 0 = NaN.
Proof. intros env P. split; [apply min_scale_val, P|apply min_scale_nan, P]. Qed.
Print Assumptions C132_min_scale_refuted.
