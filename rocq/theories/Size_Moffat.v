(** Moffat and Box: sizes, fluxes and positions of photons. *)
From Coq Require Import ZArith Reals Bool List Lra Lia.
From Coquelicot Require Import Coquelicot.
From Verif Require Import Base Bounds_Model Bounds_Proofs GSP_Model Sky_Model Util_Model Size_Model Size_Spec Num_Consts Size_Proofs.
Import ListNotations.
Open Scope R_scope.

Lemma jpow_exp : forall x y, 0 < x -> jpow x y = exp (y * ln x).
Proof. intros x y X. rewrite jpow_pos by exact X. reflexivity. Qed.
Lemma inv_neg : forall b, 1 < b -> 1 / (1 - b) < 0.
Proof. intros b B. unfold Rdiv. rewrite Rmult_1_l. apply Rinv_lt_0_compat. lra. Qed.
Lemma Rpower_le_base : forall a x y, 0 <= a -> 0 < x -> x <= y -> Rpower x a <= Rpower y a.
Proof. intros a x y A X Y. apply Rle_Rpower_l; lra. Qed.
Lemma moffat_circular : forall p, circular (mo_xValue p).
Proof. intros p x y. unfold mo_xValue, norm2. cbn [fst snd]. rewrite sqrt_sqrt by nra. replace (x * x + y * y + 0 * 0) with (x * x + y * y) by ring. reflexivity. Qed.
Lemma moffat_maxR : forall p, 1 < mo_beta p -> 0 < g_xacc (mo_gs p) <= 1 -> 0 <= mo_maxRrD p /\ 1 + mo_maxRrD p * mo_maxRrD p = Rpower (g_xacc (mo_gs p)) (1 / (1 - mo_beta p)).
Proof.
  intros p B X. unfold mo_maxRrD. split; [apply sqrt_pos|]. rewrite jpow_pos by lra. rewrite sqrt_sqrt; [ring|].
  pose proof (inv_neg _ B). pose proof (Rpower_ge1 (g_xacc (mo_gs p)) (1 / (1 - mo_beta p))). lra.
Qed.
Lemma moffat_at : forall p t, 1 < mo_beta p -> 0 < g_xacc (mo_gs p) <= 1 -> 0 < mo_r0 p -> 0 <= t ->
  mo_xValue p (t, 0) = if Rltb (mo_maxR p) t then 0 else mo_norm p * Rpower (1 + (t / mo_r0 p) ^ 2) (- mo_beta p).
Proof.
  intros p t B X P T. destruct (moffat_maxR p B X) as [M _]. unfold mo_xValue, norm2, mo_inv_r0_sq, mo_inv_r0, mo_maxRrD_sq, mo_maxR. cbn [fst snd].
  replace ((t * t + 0 * 0) * (1 / mo_r0 p * (1 / mo_r0 p))) with ((t / mo_r0 p) ^ 2) by (field; lra). set (q := t / mo_r0 p). assert (Tq : t = q * mo_r0 p) by (unfold q; field; lra).
  assert (Q0 : 0 <= q) by (unfold q; apply Rmult_le_pos; [lra|apply Rlt_le, Rinv_0_lt_compat; lra]). clearbody q. subst t.
  destruct (Rltb_spec (mo_maxRrD p * mo_maxRrD p) (q ^ 2)) as [l|l], (Rltb_spec (mo_maxRrD p * mo_r0 p) (q * mo_r0 p)) as [m|m]; try reflexivity.
  - assert (q <= mo_maxRrD p) by nra. nra.
  - assert (mo_maxRrD p < q) by nra. nra.
  - rewrite jpow_pos by nra. reflexivity.
Qed.
Lemma moffat_within : forall p r, 1 < mo_beta p -> 0 < g_xacc (mo_gs p) <= 1 -> 0 < mo_r0 p -> 0 <= r <= mo_maxR p ->
  is_RInt (fun t => 2 * PI * t * mo_xValue p (t, 0)) 0 r (mo_flux p * (1 - Rpower (1 + (r / mo_r0 p) ^ 2) (1 - mo_beta p))).
Proof.
  intros p r B X P H. set (s := mo_r0 p) in *. set (b := mo_beta p) in *.
  set (G := fun t => - mo_flux p * exp ((1 - b) * ln (1 + (t / s) ^ 2))).
  apply (is_RInt_ext (fun t => 2 * PI * t * (mo_norm p * exp (- b * ln (1 + (t / s) ^ 2))))).
  { intros t T. rewrite Rmin_left, Rmax_right in T by lra. unfold b, s in *. rewrite moffat_at by lra. destruct (Rltb_spec (mo_maxR p) t); [lra|]. reflexivity. }
  replace (mo_flux p * (1 - Rpower (1 + (r / s) ^ 2) (1 - b))) with (G r - G 0).
  2:{ unfold G, Rpower. replace (1 + (0 / s) ^ 2) with 1 by (field; lra). rewrite ln_1, Rmult_0_r, exp_0. ring. }
  assert (POS : forall x, 0 < 1 + (x / s) ^ 2) by (intro x; assert (0 <= (x / s) ^ 2) by (cbn [pow]; rewrite Rmult_1_r; apply Rle_0_sqr); lra).
  apply radial_rint; [lra| |].
  - intro x. unfold G. assert (D : is_derive (fun t => - mo_flux p * exp ((1 - b) * ln (1 + (t / s) ^ 2))) x (- mo_flux p * (exp ((1 - b) * ln (1 + (x / s) ^ 2)) * ((1 - b) * (2 * x / s ^ 2 * / (1 + (x / s) ^ 2)))))).
    { auto_derive; [apply POS|]. pose proof (POS x) as PX. unfold Rdiv in *. cbn [pow] in *. rewrite Rmult_1_r in *. field. split; [lra|].
      nra. }
    replace (2 * PI * x * (mo_norm p * exp (- b * ln (1 + (x / s) ^ 2)))) with (- mo_flux p * (exp ((1 - b) * ln (1 + (x / s) ^ 2)) * ((1 - b) * (2 * x / s ^ 2 * / (1 + (x / s) ^ 2))))); [exact D|].
    replace ((1 - b) * ln (1 + (x / s) ^ 2)) with (- b * ln (1 + (x / s) ^ 2) + ln (1 + (x / s) ^ 2)) by ring. rewrite exp_plus, exp_ln by apply POS.
    unfold mo_norm, mo_fluxFactor. fold s b. generalize (exp (- b * ln (1 + (x / s) ^ 2))). intro z. pose proof (POS x) as PX. pose proof PI_RGT_0 as PP. set (w := 1 + (x / s) ^ 2) in *. clearbody w. field. repeat split; lra.
  - intro x. apply (@ex_derive_continuous _ R_NormedModule). auto_derive. apply POS.
Qed.
Lemma Rpower_1m : forall x b, 0 < x -> 1 < b -> Rpower (Rpower x (1 / (1 - b))) (1 - b) = x.
Proof. intros x b X B. apply Rpower_inv; lra. Qed.
Lemma moffat_outside : forall p r, 1 < mo_beta p -> 0 < g_xacc (mo_gs p) <= 1 -> 0 < mo_r0 p -> mo_maxR p <= r ->
  is_RInt (fun t => 2 * PI * t * mo_xValue p (t, 0)) 0 r (mo_flux p * (1 - g_xacc (mo_gs p))).
Proof.
  intros p r B X P H. destruct (moffat_maxR p B X) as [M E]. assert (M0 : 0 <= mo_maxR p) by (unfold mo_maxR; nra).
  pose proof (moffat_within p (mo_maxR p) B X P ltac:(lra)) as W.
  replace (mo_maxR p / mo_r0 p) with (mo_maxRrD p) in W by (unfold mo_maxR; field; lra). cbn [pow] in W. rewrite Rmult_1_r, E in W. rewrite Rpower_1m in W by lra.
  assert (V : is_RInt (fun t => 2 * PI * t * mo_xValue p (t, 0)) (mo_maxR p) r (scal (r - mo_maxR p) 0)).
  2:{ pose proof (is_RInt_Chasles _ _ _ _ _ _ W V) as K. replace (mo_flux p * (1 - g_xacc (mo_gs p))) with (plus (mo_flux p * (1 - g_xacc (mo_gs p))) (scal (r - mo_maxR p) 0)); [exact K|]. unfold plus, scal; cbn. unfold mult; cbn. ring. }
  apply (is_RInt_ext (fun _ => 0)); [|apply @is_RInt_const].
  intros t T. rewrite Rmin_left, Rmax_right in T by lra. rewrite moffat_at by lra. destruct (Rltb_spec (mo_maxR p) t); [rewrite Rmult_0_r; reflexivity|lra].
Qed.
Lemma moffat_total : forall p, 1 < mo_beta p -> 0 < g_xacc (mo_gs p) <= 1 -> 0 < mo_r0 p -> total_flux (mo_xValue p) (mo_flux p * (1 - g_xacc (mo_gs p))).
Proof.
  intros p B X P. unfold total_flux. apply (is_lim_ext_loc (fun _ => mo_flux p * (1 - g_xacc (mo_gs p)))); [|apply is_lim_const].
  exists (mo_maxR p). intros x H. symmetry. apply is_RInt_unique. apply moffat_outside; lra.
Qed.
(** half the flux parameter within the half-light radius *)
Lemma moffat_hlr_sq : forall p, 1 < mo_beta p -> 0 < mo_r0 p -> 0 <= mo_half_light_radius p / mo_r0 p /\ 1 + (mo_half_light_radius p / mo_r0 p) ^ 2 = Rpower (1 / 2) (1 / (1 - mo_beta p)).
Proof.
  intros p B P. unfold mo_half_light_radius, mo_fluxFactor. replace (1 - 0.5 * 1) with (1 / 2) by lra. rewrite jpow_pos by lra.
  set (z := Rpower (1 / 2) (1 / (1 - mo_beta p))). replace (mo_r0 p * sqrt (z - 1) / mo_r0 p) with (sqrt (z - 1)) by (field; lra).
  split; [apply sqrt_pos|]. cbn [pow]. rewrite Rmult_1_r, sqrt_sqrt; [ring|]. pose proof (Rpower_ge1 (1 / 2) (1 / (1 - mo_beta p)) ltac:(lra) ltac:(lra) ltac:(pose proof (inv_neg _ B); lra)). unfold z. lra.
Qed.
Lemma sq_le_le : forall a b, 0 <= b -> a * a <= b * b -> a <= b.
Proof. intros a b B H. destruct (Rle_lt_dec a b); [assumption|nra]. Qed.
Lemma moffat_half : forall p, 1 < mo_beta p -> 0 < g_xacc (mo_gs p) <= 1 / 2 -> 0 < mo_r0 p -> flux_within (mo_xValue p) (mo_half_light_radius p) = mo_flux p * (1 / 2).
Proof.
  intros p B X P. destruct (moffat_hlr_sq p B P) as [Q0 Q]. destruct (moffat_maxR p B ltac:(lra)) as [M E].
  unfold flux_within. apply is_RInt_unique. replace (mo_flux p * (1 / 2)) with (mo_flux p * (1 - Rpower (1 + (mo_half_light_radius p / mo_r0 p) ^ 2) (1 - mo_beta p))).
  2:{ rewrite Q, Rpower_1m by lra. lra. }
  set (q := mo_half_light_radius p / mo_r0 p) in *. assert (H : mo_half_light_radius p = q * mo_r0 p) by (unfold q; field; lra).
  apply moffat_within; try lra. rewrite H. unfold mo_maxR. split; [nra|]. apply Rmult_le_compat_r; [lra|]. apply sq_le_le; [exact M|].
  pose proof (Rpower_anti (1 / (1 - mo_beta p)) (g_xacc (mo_gs p)) (1 / 2) ltac:(pose proof (inv_neg _ B); lra) ltac:(lra) ltac:(lra)) as A. rewrite <- E, <- Q in A. cbn [pow] in A. rewrite Rmult_1_r in A. lra.
Qed.
(** half the peak at half the full width *)
Lemma moffat_peak : forall p, 1 < mo_beta p -> 0 < g_xacc (mo_gs p) <= 1 -> 0 < mo_r0 p ->
  mo_xValue p (0, 0) = mo_max_sb p /\ (mo_fwhm p / 2 <= mo_maxR p -> mo_xValue p (mo_fwhm p / 2, 0) = mo_max_sb p * (1 / 2)).
Proof.
  intros p B X P. destruct (moffat_maxR p B X) as [M _]. split.
  - rewrite moffat_at by lra. destruct (Rltb_spec (mo_maxR p) 0) as [l|l]; [unfold mo_maxR in l; nra|]. replace (1 + (0 / mo_r0 p) ^ 2) with 1 by (field; lra). unfold Rpower. rewrite ln_1, Rmult_0_r, exp_0. unfold mo_max_sb. ring.
  - intro H. assert (W : 0 <= mo_fwhm p / 2 / mo_r0 p /\ 1 + (mo_fwhm p / 2 / mo_r0 p) ^ 2 = Rpower 2 (1 / mo_beta p)).
    { unfold mo_fwhm. rewrite jpow_pos by lra. set (z := Rpower 2 (1 / mo_beta p)). replace (mo_r0 p * (2 * sqrt (z - 1)) / 2 / mo_r0 p) with (sqrt (z - 1)) by (field; lra). split; [apply sqrt_pos|].
      cbn [pow]. rewrite Rmult_1_r, sqrt_sqrt; [ring|]. assert (1 < z); [|lra]. unfold z, Rpower. apply (Rle_lt_trans _ (exp 0)); [rewrite exp_0; lra|]. apply exp_increasing.
      apply Rmult_lt_0_compat; [unfold Rdiv; rewrite Rmult_1_l; apply Rinv_0_lt_compat; lra|]. pose proof (ln_lt_2). lra. }
    destruct W as [W0 W]. assert (W1 : 0 <= mo_fwhm p / 2). { replace (mo_fwhm p / 2) with (mo_fwhm p / 2 / mo_r0 p * mo_r0 p) by (field; lra). apply Rmult_le_pos; lra. }
    rewrite moffat_at by lra. destruct (Rltb_spec (mo_maxR p) (mo_fwhm p / 2)) as [l|l]; [lra|]. rewrite W, Rpower_mult. replace (1 / mo_beta p * - mo_beta p) with (- (1)) by (field; lra). rewrite Rpower_Ropp, Rpower_1 by lra. unfold mo_max_sb. field.
Qed.
(** the radius of a photon *)
Lemma moffat_shoot : forall p u r, 1 < mo_beta p -> 0 < g_xacc (mo_gs p) <= 1 -> 0 < mo_r0 p -> 0 <= u < 1 -> 0 <= r <= mo_maxR p -> 0 < mo_flux p ->
  (mo_shoot_radius p u <= r <-> mo_flux p * u <= flux_within (mo_xValue p) r).
Proof.
  intros p u r B X P U H F.
  unfold flux_within. rewrite (is_RInt_unique _ _ _ _ (moffat_within p r B X P H)).
  unfold mo_shoot_radius, mo_fluxFactor. rewrite Rmult_1_r, jpow_pos by lra. set (z := Rpower (1 - u) (1 / (1 - mo_beta p))).
  assert (Z : 1 <= z) by (unfold z; apply Rpower_ge1; [lra|lra|pose proof (inv_neg _ B); lra]).
  set (q := r / mo_r0 p). assert (Hq : r = q * mo_r0 p) by (unfold q; field; lra). assert (Q0 : 0 <= q) by (unfold q; apply Rmult_le_pos; [lra|apply Rlt_le, Rinv_0_lt_compat; lra]).
  assert (E1 : mo_r0 p * sqrt (z - 1) <= r <-> z <= 1 + q ^ 2).
  { rewrite Hq. assert (SS : sqrt (z - 1) * sqrt (z - 1) = z - 1) by (apply sqrt_sqrt; lra). pose proof (sqrt_pos (z - 1)). split; intro K.
    - assert (sqrt (z - 1) <= q) by nra. nra.
    - assert (sqrt (z - 1) <= q) by (apply sq_le_le; nra). nra. }
  rewrite E1. set (w := 1 + q ^ 2) in *. assert (W : 1 <= w) by (unfold w; nra). assert (ZE : Rpower z (1 - mo_beta p) = 1 - u) by (unfold z; apply Rpower_1m; lra).
  split; intro K.
  - apply Rmult_le_compat_l; [lra|]. pose proof (Rpower_anti (1 - mo_beta p) z w ltac:(lra) ltac:(lra) K). lra.
  - destruct (Rle_lt_dec z w) as [L|L]; [exact L|]. exfalso. assert (U1 : u <= 1 - Rpower w (1 - mo_beta p)) by (apply (Rmult_le_reg_l (mo_flux p)); lra).
    assert (Rpower z (1 - mo_beta p) < Rpower w (1 - mo_beta p)); [|lra]. unfold Rpower. apply exp_increasing. assert (ln w < ln z) by (apply ln_increasing; lra). nra.
Qed.
