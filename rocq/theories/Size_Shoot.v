(** Photon positions of the elementary profiles, and the half-light radius of a Spergel profile. *)
From Coq Require Import ZArith QArith Qreals Reals Bool List Lra Lia.
From Coquelicot Require Import Coquelicot.
From Verif Require Import Base Bounds_Model Bounds_Proofs GSP_Model Sky_Model Util_Model Util_Spec Util_Proofs Size_Model Size_Spec Num_Consts Size_Proofs Size_Moffat Size_Band Size_Spergel Size_Neg.
Import ListNotations.
Open Scope R_scope.

(** * Exponential *)
Lemma ex_umax : forall acc, 0 < acc -> 1 - exp (- - ln acc) = 1 - acc.
Proof. intros acc A. rewrite Ropp_involutive, exp_ln by exact A. reflexivity. Qed.
Lemma ex_u_at : forall n acc i, 0 < acc -> ex_u_cdf n acc i = linspace 0 (1 - acc) n i.
Proof. intros n acc i A. unfold ex_u_cdf. rewrite ex_umax by exact A. reflexivity. Qed.
Lemma cdf0_derive : forall u, u < 1 -> is_derive ex_cdf0 u (- ln (1 - u)).
Proof. intros u U. unfold ex_cdf0. auto_derive; [lra|]. replace (1 + - u) with (1 - u) by ring. field. lra. Qed.
Lemma cdf0_step : forall a b, 0 <= a -> a < b -> b < 1 -> (b - a) * (b - a) / 2 <= ex_cdf0 b - ex_cdf0 a.
Proof.
  intros a b A B C. pose proof (grows (fun t => ex_cdf0 (a + t) - ex_cdf0 a - t * t / 2) (fun t => - ln (1 - (a + t)) - t) (b - a)) as G. cbv beta in G.
  replace (a + (b - a)) with b in G by ring. replace (a + 0) with a in G by ring. assert (ex_cdf0 a - ex_cdf0 a - 0 * 0 / 2 <= ex_cdf0 b - ex_cdf0 a - (b - a) * (b - a) / 2); [|lra]. apply G; [lra| |].
  - intros t T. apply (is_derive_ext (fun t => ex_cdf0 (a + t) - (ex_cdf0 a + t * t / 2))); [intro y; match goal with |- @eq _ ?x ?z => change (@eq R x z) end; ring|].
    apply @is_derive_minus.
    + replace (- ln (1 - (a + t))) with (1 * - ln (1 - (a + t))) by ring. apply (is_derive_comp ex_cdf0 (fun t => a + t) t); [apply cdf0_derive; lra|auto_derive; [exact I|ring]].
    + auto_derive; [exact I|field].
  - intros t T. pose proof (ln_1p_le (- (a + t)) ltac:(lra)) as L. replace (1 + - (a + t)) with (1 - (a + t)) in L by ring. lra.
Qed.
Lemma cdf0_within : forall p u, 0 < ex_r0 p -> 0 <= u < 1 -> flux_within (ex_xValue p) (- ln (1 - u) * ex_r0 p) = ex_flux p * (2 * PI * inv_twopi) * ex_cdf0 u.
Proof.
  intros p u S U. assert (L : 0 <= - ln (1 - u)) by (pose proof (ln_neg (1 - u) ltac:(lra)); lra). rewrite exponential_within by nra. replace (- ln (1 - u) * ex_r0 p / ex_r0 p) with (- ln (1 - u)) by (field; lra).
  rewrite Ropp_involutive, exp_ln by lra. unfold ex_cdf0. ring.
Qed.
Lemma cdf0_0 : ex_cdf0 0 = 0.
Proof. unfold ex_cdf0. rewrite Rminus_0_r, ln_1. ring. Qed.
Lemma cdf0_le1 : forall u, 0 <= u < 1 -> ex_cdf0 u <= 1.
Proof. intros u U. unfold ex_cdf0. pose proof (ln_neg (1 - u) ltac:(lra)). nra. Qed.
Definition ex_node (n : nat) (acc r0 : R) (i : nat) : R := - ln (1 - (1 - acc) * INR i / INR (n - 1)) * r0.
Lemma exponential_shoot : forall search n p u i, searches search -> (1 < n)%nat -> INR (n - 1) <= 10 ^ 9 -> (i < n)%nat -> 0 < g_shoot (ex_gs p) <= 1 / 2 -> 0 < ex_r0 p -> 0 < ex_flux p -> 0 <= u <= 1 ->
  (ex_shoot_radius search n p u <= ex_node n (g_shoot (ex_gs p)) (ex_r0 p) i <-> u * flux_within (ex_xValue p) (- ln (g_shoot (ex_gs p)) * ex_r0 p) <= flux_within (ex_xValue p) (ex_node n (g_shoot (ex_gs p)) (ex_r0 p) i)).
Proof.
  intros search n p u i SE N NB I1 A S FP U. set (acc := g_shoot (ex_gs p)) in *. assert (PN : 1 <= INR (n - 1)) by (change 1 with (INR 1); apply le_INR; lia).
  assert (UR : forall j, (j < n)%nat -> 0 <= ex_u_cdf n acc j <= 1 - acc).
  { intros j J. rewrite ex_u_at by lra. unfold linspace. rewrite Rplus_0_l, Rminus_0_r. assert (0 <= INR j / INR (n - 1) <= 1). { assert (JN : 0 <= INR j <= INR (n - 1)) by (split; [apply pos_INR|apply le_INR; lia]). split; [apply Rmult_le_pos; [lra|apply Rlt_le, Rinv_0_lt_compat; lra]|]. apply (Rmult_le_reg_r (INR (n - 1))); [lra|]. unfold Rdiv. rewrite Rmult_assoc, Rinv_l by lra. lra. }
    replace ((1 - acc) * INR j / INR (n - 1)) with ((1 - acc) * (INR j / INR (n - 1))) by (field; lra). nra. }
  assert (UI : forall j k, (j < k)%nat -> ex_u_cdf n acc j < ex_u_cdf n acc k) by (intros j k JK; rewrite !ex_u_at by lra; apply linspace_lt; [exact N|lra|exact JK]).
  assert (UM : ex_u_cdf n acc (n - 1) = 1 - acc) by (rewrite ex_u_at by lra; now apply linspace_end).
  set (M := ex_cdf0 (1 - acc)). assert (MP : 0 < M <= 1). { split; [|apply cdf0_le1; lra]. pose proof (cdf0_step 0 (1 - acc) ltac:(lra) ltac:(lra) ltac:(lra)) as Q. rewrite cdf0_0 in Q. unfold M. nra. }
  assert (CE : forall j, ex_cdf n acc j = ex_cdf0 (ex_u_cdf n acc j) / M) by (intro j; unfold ex_cdf; rewrite UM; reflexivity).
  assert (CI : forall j k, (j < k)%nat -> (k < n)%nat -> ex_cdf n acc j < ex_cdf n acc k).
  { intros j k JK K. rewrite !CE. apply Rmult_lt_compat_r; [apply Rinv_0_lt_compat; lra|]. pose proof (UR j ltac:(lia)). pose proof (UR k K). pose proof (UI j k JK). pose proof (cdf0_step (ex_u_cdf n acc j) (ex_u_cdf n acc k) ltac:(lra) ltac:(lra) ltac:(lra)). nra. }
  assert (ST : forall j, (Datatypes.S j < n)%nat -> ex_cdf n acc j + interp_eps < ex_cdf n acc (Datatypes.S j)).
  { intros j J. rewrite !CE. pose proof (UR j ltac:(lia)). pose proof (UR _ J). pose proof (UI j (Datatypes.S j) ltac:(lia)) as L. pose proof (cdf0_step (ex_u_cdf n acc j) (ex_u_cdf n acc (Datatypes.S j)) ltac:(lra) L ltac:(lra)) as Q.
    assert (D : ex_u_cdf n acc (Datatypes.S j) - ex_u_cdf n acc j = (1 - acc) / INR (n - 1)). { rewrite !ex_u_at by lra. unfold linspace. rewrite S_INR. field. lra. }
    rewrite D in Q. assert (W : 1 / 2 / 10 ^ 9 <= (1 - acc) / INR (n - 1)). { unfold Rdiv at 2 3. apply Rmult_le_compat; [lra|apply Rlt_le, Rinv_0_lt_compat; lra|lra|]. apply Rinv_le_contravar; lra. }
    set (w := (1 - acc) / INR (n - 1)) in *. assert (W2 : 2 * interp_eps < w * w / 2) by (unfold interp_eps; nra).
    set (a := ex_cdf0 (ex_u_cdf n acc j)) in *. set (b := ex_cdf0 (ex_u_cdf n acc (Datatypes.S j))) in *. assert (EP : 0 < interp_eps) by (unfold interp_eps; lra).
    apply (Rmult_lt_reg_r M); [lra|]. replace ((a / M + interp_eps) * M) with (a + interp_eps * M) by (field; lra). replace (b / M * M) with b by (field; lra). nra. }
  assert (C0 : ex_cdf n acc 0 = 0) by (rewrite CE, ex_u_at, linspace_0, cdf0_0 by (try exact N; lra); field; lra).
  assert (C1 : ex_cdf n acc (n - 1) = 1) by (rewrite CE, UM; fold M; field; lra).
  pose proof (interp_rank search n (ex_cdf n acc) (ex_u_cdf n acc) u i SE N I1 ST (fun j k JK K => conj (CI j k JK K) (UI j k JK)) ltac:(rewrite C0, C1; lra)) as IR.
  assert (IT : interp search n u (ex_cdf n acc) (ex_u_cdf n acc) <= 1 - acc).
  { pose proof (interp_rank search n (ex_cdf n acc) (ex_u_cdf n acc) u (n - 1) SE N ltac:(lia) ST (fun j k JK K => conj (CI j k JK K) (UI j k JK)) ltac:(rewrite C0, C1; lra)) as IR2. rewrite UM in IR2. apply IR2. rewrite C1. lra. }
  assert (NE : ex_node n acc (ex_r0 p) i = - ln (1 - ex_u_cdf n acc i) * ex_r0 p) by (unfold ex_node; rewrite ex_u_at by lra; unfold linspace; do 3 f_equal; lra).
  pose proof (UR i I1) as URi. rewrite NE, cdf0_within by lra. replace (- ln acc) with (- ln (1 - (1 - acc))) by (do 2 f_equal; ring). rewrite cdf0_within by lra. fold M.
  assert (K : 0 < ex_flux p * (2 * PI * inv_twopi)). { apply Rmult_lt_0_compat; [exact FP|]. pose proof twopi_near as TN. apply Rabs_le_between in TN. lra. } set (Q := ex_flux p * (2 * PI * inv_twopi)) in *.
  unfold ex_shoot_radius. fold acc. set (v := interp search n u (ex_cdf n acc) (ex_u_cdf n acc)) in *. set (ui := ex_u_cdf n acc i) in *.
  assert (E1 : - ln (1 - v) * ex_r0 p <= - ln (1 - ui) * ex_r0 p <-> v <= ui).
  { split; intro H.
    - destruct (Rle_lt_dec v ui) as [l|l]; [exact l|]. exfalso. assert (ln (1 - v) < ln (1 - ui)) by (apply ln_increasing; lra). nra.
    - assert (ln (1 - ui) <= ln (1 - v)) by (apply ln_le; lra). nra. }
  rewrite E1, IR, CE. fold ui. assert (E2 : ex_cdf0 ui = ex_cdf0 ui / M * M) by (field; lra). set (x := ex_cdf0 ui / M) in *. rewrite E2. split; intro H; [|apply (Rmult_le_reg_r (Q * M)); [apply Rmult_lt_0_compat; lra|lra]]. replace (u * (Q * M)) with (Q * (u * M)) by ring. apply Rmult_le_compat_l; [lra|]. apply Rmult_le_compat_r; lra.
Qed.
(** * Spergel, nu > 0 *)
Lemma spergel_shoot : forall kv lgamma inf nu G search n p u i, 0 < nu -> bessel_pair nu G (kv nu) (kv (nu + 1)) -> gammap1 lgamma inf nu = G -> sp_nu p = nu -> 0 < sp_r0 p ->
  searches search -> (1 < n)%nat -> (i < n)%nat -> 1 / 10 ^ 10 * INR (n - 1) < sp_zmax kv lgamma inf p -> (forall j, (Datatypes.S j < n)%nat -> sp_pos_cdf kv lgamma inf n p j + interp_eps < sp_pos_cdf kv lgamma inf n p (Datatypes.S j)) -> 0 <= u <= 1 ->
  (sp_shoot_radius kv lgamma inf search n p u <= sp_z_cdf kv lgamma inf n p i * sp_r0 p <->
   u * sp_calculateIntegratedFlux kv lgamma inf p (sp_zmax kv lgamma inf p * sp_r0 p) <= sp_calculateIntegratedFlux kv lgamma inf p (sp_z_cdf kv lgamma inf n p i * sp_r0 p)).
Proof.
  intros kv lgamma inf nu G search n p u i NU BP HG N S SE N1 I1 Z ST U. destruct (pos_table kv lgamma inf nu G ltac:(lra) BP HG p n N N1 Z) as (P0 & P1 & PI1).
  assert (PN : 1 <= INR (n - 1)) by (change 1 with (INR 1); apply le_INR; lia). set (zm := sp_zmax kv lgamma inf p) in *. assert (ZP : 1 / 10 ^ 10 < zm) by nra.
  assert (FI : forall j k, (j < k)%nat -> sp_z_cdf kv lgamma inf n p j < sp_z_cdf kv lgamma inf n p k) by (intros j k JK; apply linspace_lt; [exact N1|fold zm; lra|exact JK]).
  pose proof (interp_rank search n (sp_pos_cdf kv lgamma inf n p) (sp_z_cdf kv lgamma inf n p) u i SE N1 I1 ST (fun j k JK _ => conj (PI1 j k JK) (FI j k JK)) ltac:(rewrite P0, P1; lra)) as IR.
  unfold sp_shoot_radius. destruct (Rltb_spec 0 (sp_nu p)) as [_|l]; [|lra]. set (v := interp _ _ _ _ _) in *. set (zi := sp_z_cdf kv lgamma inf n p i) in *.
  assert (E1 : v * sp_r0 p <= zi * sp_r0 p <-> v <= zi) by (split; intro H; [apply (Rmult_le_reg_r (sp_r0 p)); lra|apply Rmult_le_compat_r; lra]). rewrite E1, IR.
  unfold sp_calculateIntegratedFlux. replace (zm * sp_r0 p / sp_r0 p) with zm by (field; lra). replace (zi * sp_r0 p / sp_r0 p) with zi by (field; lra). rewrite N.
  unfold sp_pos_cdf, reducedfluxfraction. fold zi zm. rewrite N. pose proof (frac_range kv lgamma inf nu G BP HG zm ZP) as FR. set (M := fluxfraction kv lgamma inf zm nu 0) in *. set (x := fluxfraction kv lgamma inf zi nu 0).
  split; intro H; [apply (Rmult_le_compat_r M) in H; [|lra]|apply (Rmult_le_reg_r M); [lra|]]; replace (x / M * M) with x in * by (field; lra); exact H.
Qed.
(** * Box *)
Lemma box_shoot : forall p u v x y, 0 < bx_width p -> 0 < bx_height p ->
  (fst (bx_shoot p u v) <= x <-> u * bx_width p <= x + bx_width p / 2) /\ (snd (bx_shoot p u v) <= y <-> v * bx_height p <= y + bx_height p / 2).
Proof. intros p u v x y W H. unfold bx_shoot. cbn [fst snd]. split; split; intro K; lra. Qed.
Lemma box_shoot_in : forall p u v, 0 < bx_width p -> 0 < bx_height p -> 0 < u < 1 -> 0 < v < 1 -> bx_xValue p (bx_shoot p u v) = bx_max_sb p.
Proof.
  intros p u v W H U V. unfold bx_xValue, bx_shoot. cbn [fst snd].
  assert (X : 2 * Rabs ((u - 0.5) * bx_width p) < bx_width p) by (rewrite Rabs_mult, (Rabs_pos_eq (bx_width p)) by lra; assert (Rabs (u - 0.5) < 1 / 2) by (apply Rabs_def1; lra); nra).
  assert (Y : 2 * Rabs ((v - 0.5) * bx_height p) < bx_height p) by (rewrite Rabs_mult, (Rabs_pos_eq (bx_height p)) by lra; assert (Rabs (v - 0.5) < 1 / 2) by (apply Rabs_def1; lra); nra).
  destruct (Rltb_spec (2 * Rabs ((u - 0.5) * bx_width p)) (bx_width p)); [|lra]. destruct (Rltb_spec (2 * Rabs ((v - 0.5) * bx_height p)) (bx_height p)); [|lra]. reflexivity.
Qed.
Lemma polar_radius : forall r v, 0 <= r -> sqrt (fst (polar r v) * fst (polar r v) + snd (polar r v) * snd (polar r v)) = r.
Proof.
  intros r v H. unfold polar. cbn [fst snd]. set (a := v * 2 * PI). replace (r * cos a * (r * cos a) + r * sin a * (r * sin a)) with (r * r * (cos a * cos a + sin a * sin a)) by ring.
  assert (E : cos a * cos a + sin a * sin a = 1) by (pose proof (sin2_cos2 a) as Q; unfold Rsqr in Q; lra). rewrite E, Rmult_1_r. now apply sqrt_square.
Qed.
