(** A Spergel profile with nu = 1/2 is an Exponential. *)
From Coq Require Import ZArith Reals Bool List Lra Lia.
From Coquelicot Require Import Coquelicot.
From Verif Require Import Base Bounds_Model Bounds_Proofs GSP_Model Sky_Model Util_Model Size_Model Size_Spec Num_Consts Size_Proofs Size_Moffat Size_Band Size_Spergel Size_Neg Size_Pade.
Import ListNotations.
Open Scope R_scope.

Section Same.
Variables (kv : R -> R -> R) (lgamma : R -> R) (inf : R).
Hypothesis HO : half_orders kv lgamma.
Lemma k_half : forall z, 0 < z -> Rpower z (1 / 2) * kv (1 / 2) z = q0 * exp (- z).
Proof. intros z Z. pose proof (ho_K1 kv lgamma HO z Z) as E. replace (- (1 / 2) + 1) with (1 / 2) in E by lra. exact E. Qed.
Lemma xnorm_half : forall p, sp_nu p = 1 / 2 -> sp_r0 p <> 0 -> sp_xnorm lgamma inf p * q0 = sp_flux p / (2 * PI * (sp_r0 p * sp_r0 p)).
Proof.
  intros p N S. destruct (ho_gamma kv lgamma inf HO) as (_ & G & _). unfold sp_xnorm, sp_shootxnorm, sp_inv_r0_sq, sp_inv_r0. rewrite N, G, jpow_pos by lra. replace (2 * PI * Rpower 2 (1 / 2) * (sqrt PI / 2)) with (2 * PI * (Rpower 2 (1 / 2) * (sqrt PI / 2))) by ring. rewrite q0_half. pose proof q0_pos. pose proof PI_RGT_0. field. lra.
Qed.
Lemma spergel_exponential_x : forall p x y, sp_nu p = 1 / 2 -> 0 < sp_r0 p -> (x = 0 /\ y = 0) \/ 1 / 10 ^ 10 * sp_r0 p < sqrt (x * x + y * y) ->
  let e := Exn (sp_r0 p) (sp_flux p) (sp_gs p) in
  Rabs (ex_xValue e (x, y) - sp_xValue kv lgamma inf p (x, y)) <= 1 / 10 ^ 16 * Rabs (sp_xValue kv lgamma inf p (x, y)).
Proof.
  intros p x y N S H e. pose proof PI_RGT_0 as P. assert (E : sp_xValue kv lgamma inf p (x, y) = sp_flux p / (2 * PI * (sp_r0 p * sp_r0 p)) * exp (- (sqrt (x * x + y * y) / sp_r0 p))).
  { unfold sp_xValue, norm2, sp_inv_r0. cbn [fst snd]. rewrite <- (xnorm_half p N ltac:(lra)), Rmult_assoc. f_equal. destruct H as [[-> ->]|H].
    - replace (0 * 0 + 0 * 0) with 0 by ring. rewrite sqrt_0. replace (0 * (1 / sp_r0 p)) with 0 by ring. destruct (Reqb_spec 0 0); [|lra]. replace (- (0 / sp_r0 p)) with 0 by (field; lra). rewrite exp_0, Rmult_1_r. unfold sp_xnorm0. rewrite N. destruct (Rltb_spec 0 (1 / 2)); [|lra]. rewrite gamma_half by tauto. destruct HO as (_ & -> & _). rewrite jpow_pos by lra. replace (1 / 2 - 1) with (- (1 / 2)) by lra. unfold q0. ring.
    - set (r := sqrt (x * x + y * y)) in *. replace (r * (1 / sp_r0 p)) with (r / sp_r0 p) by (field; lra). assert (Z : 1 / 10 ^ 10 < r / sp_r0 p) by (apply (Rmult_lt_reg_r (sp_r0 p)); [lra|]; replace (r / sp_r0 p * sp_r0 p) with r by (field; lra); lra). destruct (Reqb_spec (r / sp_r0 p) 0); [lra|]. unfold fz_nu. destruct (Rltb_spec (1 / 10 ^ 10) (r / sp_r0 p)); [|lra]. rewrite N, jpow_pos by lra. apply k_half. lra. }
  rewrite E. unfold ex_xValue, norm2, ex_norm, ex_inv_r0. cbn [ex_r0 ex_flux e fst snd]. set (r := sqrt (x * x + y * y)). replace (- r * (1 / sp_r0 p)) with (- (r / sp_r0 p)) by (field; lra). set (w := exp (- (r / sp_r0 p))).
  replace (sp_flux p * inv_twopi * (1 / sp_r0 p) ^ 2 * w - sp_flux p / (2 * PI * (sp_r0 p * sp_r0 p)) * w) with ((2 * PI * inv_twopi - 1) * (sp_flux p / (2 * PI * (sp_r0 p * sp_r0 p)) * w)) by (field; lra). rewrite Rabs_mult. apply Rmult_le_compat_r; [apply Rabs_pos|exact twopi_near].
Qed.
Lemma spergel_exponential_k : forall p k, sp_nu p = 1 / 2 -> sp_kValue p k = ex_kValue (Exn (sp_r0 p) (sp_flux p) (sp_gs p)) k.
Proof.
  intros p k N. unfold sp_kValue, ex_kValue, sp_r0_sq. cbn [ex_r0 ex_flux]. rewrite N. replace (norm2 k * sp_r0 p ^ 2 + 1) with (1 + norm2 k * (sp_r0 p * sp_r0 p)) by ring. set (q := 1 + norm2 k * (sp_r0 p * sp_r0 p)). assert (Q : 1 <= q) by (unfold q; pose proof (norm2_nonneg k); assert (0 <= sp_r0 p * sp_r0 p) by nra; nra).
  rewrite jpow_pos by lra. replace (-1 - 1 / 2) with (- (1 + / 2)) by lra. rewrite Rpower_Ropp, Rpower_plus, Rpower_1, Rpower_sqrt by lra. reflexivity.
Qed.
Lemma spergel_exponential_hlr : forall p, sp_nu p = 1 / 2 -> 0 < sp_r0 p -> Rabs (sp_half_light_radius p - ex_half_light_radius (Exn (sp_r0 p) (sp_flux p) (sp_gs p))) <= 1 / 10 ^ 9 * sp_r0 p.
Proof.
  intros p N S. unfold sp_half_light_radius, ex_half_light_radius. cbn [ex_r0]. rewrite N. pose proof pade_half as P. set (h := hlr_pade (1 / 2)) in *. rewrite <- Rmult_minus_distr_l, Rabs_mult, (Rabs_pos_eq (sp_r0 p)), Rmult_comm by lra. apply Rmult_le_compat_r; [lra|]. apply Rabs_le_between. lra.
Qed.
End Same.
(** The transform of the delta function: the flux at every wave number; what the code gives at the centre stands for infinity. *)
Lemma delta_k : forall p k, de_kValue p k = de_flux p.
Proof. intros p k. unfold de_kValue. ring. Qed.
Lemma delta_x : forall p x y, de_xValue p (x, y) = 0 \/ (x = 0 /\ y = 0).
Proof. intros p x y. unfold de_xValue. cbn [fst snd]. destruct (Reqb_spec x 0); [|now left]. destruct (Reqb_spec y 0); [now right|now left]. Qed.
(** Fourier amplitude at k = 0. *)
Lemma k_zero : (forall p, ga_kValue p (0, 0) = ga_flux p) /\ (forall p, ex_kValue p (0, 0) = ex_flux p) /\ (forall p, bx_kValue p (0, 0) = bx_flux p) /\ (forall p, sp_kValue p (0, 0) = sp_flux p).
Proof.
  repeat split; intro p.
  - unfold ga_kValue, norm2. cbn [fst snd]. replace (-0.5 * ((0 * 0 + 0 * 0) * ga_sigsq p)) with 0 by ring. rewrite exp_0. ring.
  - unfold ex_kValue, norm2. cbn [fst snd]. replace ((0 * 0 + 0 * 0) * ex_r0 p ^ 2 + 1) with 1 by ring. rewrite sqrt_1. field.
  - unfold bx_kValue. cbn [fst snd]. rewrite !Rmult_0_l. unfold sinc. destruct (Reqb_spec 0 0); [ring|lra].
  - unfold sp_kValue, norm2. cbn [fst snd]. replace (1 + (0 * 0 + 0 * 0) * sp_r0_sq p) with 1 by ring. rewrite jpow_pos by lra. unfold Rpower. rewrite ln_1, Rmult_0_r, exp_0. ring.
Qed.
(** The box: its flux on the plane and its peak. *)
Lemma box_peak : forall p, 0 < bx_width p -> 0 < bx_height p -> bx_xValue p (0, 0) = bx_max_sb p.
Proof.
  intros p W H. unfold bx_xValue, bx_max_sb. cbn [fst snd]. rewrite Rabs_R0, Rmult_0_r. destruct (Rltb_spec 0 (bx_width p)); [|lra]. destruct (Rltb_spec 0 (bx_height p)); [reflexivity|lra].
Qed.
Lemma exponential_peak : forall p, ex_xValue p (0, 0) = ex_max_sb p.
Proof. intro p. unfold ex_xValue, ex_max_sb, norm2. cbn [fst snd]. replace (0 * 0 + 0 * 0) with 0 by ring. rewrite sqrt_0, Ropp_0, Rmult_0_l, exp_0. ring. Qed.
(** * More of stepk and shooting *)
Lemma exponential_stepk_hlr : forall p f, 0 < ex_r0 p -> 0 < g_fold (ex_gs p) < 1 -> total_flux (ex_xValue p) f ->
  (let m := g_hlr (ex_gs p) * ex_hlr_factor in 0 <= m /\ (1 + m) * exp (- m) <= g_fold (ex_gs p)) ->
  Rabs (f - flux_within (ex_xValue p) (PI / ex_stepk p)) <= g_fold (ex_gs p) * Rabs f.
Proof.
  intros p f S T F [H0 H]. rewrite (total_unique _ _ _ F (exponential_tot p S)). destruct (ex_step_radius p S T) as [M0 M]. rewrite M. set (t := g_fold (ex_gs p)) in *. set (m := Rmax _ _) in *.
  assert (M2 : g_hlr (ex_gs p) * ex_hlr_factor <= m) by apply Rmax_r. rewrite exponential_within by nra. replace (m * ex_r0 p / ex_r0 p) with m by (field; lra). apply share_le. split; [apply Rmult_le_pos; [lra|apply Rlt_le, exp_pos]|]. eapply Rle_trans; [apply (tail_decr (g_hlr (ex_gs p) * ex_hlr_factor)); lra|exact H].
Qed.
Lemma mhalf_beyond : forall kv lgamma inf p r, half_orders kv lgamma -> sp_nu p = - (1 / 2) -> 0 < sp_r0 p -> 1 / 10 ^ 10 < r -> flux_beyond (sp_xValue kv lgamma inf p) (sp_r0 p * r) (sp_flux p * exp (- r)).
Proof.
  intros kv lgamma inf p r HO N S H. destruct (ho_gamma kv lgamma inf HO) as (G & _ & _). pose proof (sp_beyond kv lgamma inf _ (sqrt PI) (ho_mhalf kv lgamma HO) G p (sp_r0 p * r) N S ltac:(nra)) as B. replace (sp_r0 p * r / sp_r0 p) with r in B by (field; lra). rewrite (ho_frac_mhalf kv lgamma inf HO) in B by exact H. replace (1 - (1 - exp (- r))) with (exp (- r)) in B by ring. exact B.
Qed.
