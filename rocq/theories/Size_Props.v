(** Properties C47, C48, C74 and C113-C116: sizes, fluxes, bandwidths, transforms and photon radii of the elementary profiles. *)
From Coq Require Import ZArith Reals Bool List Lra Lia.
From Coquelicot Require Import Coquelicot.
From Verif Require Import Base Bounds_Model Bounds_Proofs GSP_Model Sky_Model Util_Model Util_Spec Size_Model Size_Spec Num_Consts Size_Proofs Size_Moffat Size_Band Size_Spergel Size_Neg Size_NegTable Size_Shoot Size_Pade Size_Ex Size_FT Size_Same.
Import ListNotations.
Open Scope R_scope.

(** * Parameters for the examples: the defaults, with a choice of the folding threshold and of the shoot accuracy *)
Definition gs_ex (fold shoot : R) : gsp R :=
  GSP 128 8192 fold 5 (1 / 1000) (1 / 100000) (1 / 100000) 1 (1 / 10000) (1 / 1000000) (1 / 1000000) (1 / 100000000) shoot.
Definition gs_def : gsp R := gs_ex (5 / 1000) (1 / 100000).

(** * C47 *)
(** Exactly one size must be given. *)
Theorem C47_one_size : 
  (forall h s f flux gs, (given_of [h; s; f] = 1%nat -> exists p, gaussian_new h s f flux gs = Ok p) /\
     (given_of [h; s; f] <> 1%nat -> gaussian_new h s f flux gs = Err GalSimIncompatibleValuesError)) /\
  (forall h s flux gs, (given_of [h; s] = 1%nat -> exists p, exponential_new h s flux gs = Ok p) /\
     (given_of [h; s] <> 1%nat -> exponential_new h s flux gs = Err GalSimIncompatibleValuesError)) /\
  (forall nu s h flux gs, (given_of [s; h] = 1%nat -> exists p, spergel_new nu s h flux gs = Ok p) /\
     (given_of [s; h] <> 1%nat -> spergel_new nu s h flux gs = Err GalSimIncompatibleValuesError)) /\
  (forall beta s h f flux gs, 11 / 10 < nv beta -> g_maxk gs <= 1 / 10 ->
     (given_of [s; h; f] = 1%nat -> exists p, moffat_new beta s h f (py 0) flux gs = Ok p) /\
     (given_of [s; h; f] <> 1%nat -> moffat_new beta s h f (py 0) flux gs = Err GalSimIncompatibleValuesError)).
Proof. exact (conj gaussian_sizes (conj exponential_sizes (conj spergel_sizes moffat_sizes))). Qed.
Print Assumptions C47_one_size.
(** The size that was given is read back, with the flux and the parameters. *)
Theorem C47_gaussian_read_back : forall x flux gs,
  (exists p, gaussian_new (Some x) None None flux gs = Ok p /\ ga_half_light_radius p = x /\ ga_flux p = flux /\ ga_gs p = gs) /\
  (exists p, gaussian_new None (Some x) None flux gs = Ok p /\ ga_sigma p = x /\ ga_flux p = flux /\ ga_gs p = gs) /\
  (exists p, gaussian_new None None (Some x) flux gs = Ok p /\ ga_fwhm p = x /\ ga_flux p = flux /\ ga_gs p = gs).
Proof. exact gaussian_back. Qed.
Print Assumptions C47_gaussian_read_back.
Theorem C47_exponential_read_back : forall x flux gs,
  (exists p, exponential_new (Some x) None flux gs = Ok p /\ ex_half_light_radius p = x /\ ex_flux p = flux /\ ex_gs p = gs) /\
  (exists p, exponential_new None (Some x) flux gs = Ok p /\ ex_r0 p = x /\ ex_flux p = flux /\ ex_gs p = gs).
Proof. exact exponential_back. Qed.
Print Assumptions C47_exponential_read_back.
Theorem C47_moffat_read_back : forall beta x flux gs, 11 / 10 < nv beta -> g_maxk gs <= 1 / 10 ->
  (exists p, moffat_new beta (Some x) None None (py 0) flux gs = Ok p /\ mo_r0 p = x /\ mo_beta p = nv beta /\ mo_flux p = flux /\ mo_gs p = gs) /\
  (exists p, moffat_new beta None (Some x) None (py 0) flux gs = Ok p /\ mo_half_light_radius p = x /\ mo_beta p = nv beta /\ mo_flux p = flux /\ mo_gs p = gs) /\
  (exists p, moffat_new beta None None (Some x) (py 0) flux gs = Ok p /\ mo_fwhm p = x /\ mo_beta p = nv beta /\ mo_flux p = flux /\ mo_gs p = gs).
Proof. exact moffat_back. Qed.
Print Assumptions C47_moffat_read_back.
(** The documented range of nu. The fitted rational function has no zero and no pole there. *)
Theorem C47_spergel_read_back : forall nu x flux gs, - (17 / 20) <= nu <= 4 ->
  (exists p, spergel_new nu (Some x) None flux gs = Ok p /\ sp_r0 p = x /\ sp_nu p = nu /\ sp_flux p = flux /\ sp_gs p = gs) /\
  (exists p, spergel_new nu None (Some x) flux gs = Ok p /\ sp_half_light_radius p = x /\ sp_nu p = nu /\ sp_flux p = flux /\ sp_gs p = gs).
Proof. exact spergel_back. Qed.
Print Assumptions C47_spergel_read_back.
(** Half of the flux lies within the half-light radius. *)
Theorem C47_half_light_gaussian : forall p, 0 < ga_sigma p ->
  circular (ga_xValue p) /\ Rabs (flux_within (ga_xValue p) (ga_half_light_radius p) - ga_flux p * (1 / 2)) <= 4 / 10 ^ 16 * Rabs (ga_flux p).
Proof. intros p S. exact (conj (gaussian_circular p) (gaussian_half p S)). Qed.
Print Assumptions C47_half_light_gaussian.
Theorem C47_half_light_exponential : forall p, 0 < ex_r0 p ->
  circular (ex_xValue p) /\ Rabs (flux_within (ex_xValue p) (ex_half_light_radius p) - ex_flux p * (1 / 2)) <= 4 / 10 ^ 16 * Rabs (ex_flux p).
Proof. intros p S. exact (conj (exponential_circular p) (exponential_half p S)). Qed.
Print Assumptions C47_half_light_exponential.
Theorem C47_half_light_moffat : forall p, 1 < mo_beta p -> 0 < g_xacc (mo_gs p) <= 1 / 2 -> 0 < mo_r0 p ->
  circular (mo_xValue p) /\ flux_within (mo_xValue p) (mo_half_light_radius p) = mo_flux p * (1 / 2).
Proof. intros p B X S. exact (conj (moffat_circular p) (moffat_half p B X S)). Qed.
Print Assumptions C47_half_light_moffat.
(** For the Spergel profile the same is wanted for every nu in [-0.85, 4]; proved for nu = -1/2 and nu = 1/2, where the
    Bessel functions have a closed form (3/2, 5/2 and 7/2 follow in SpeH_Props). Missing: the other nu, where the error of the
    fitted function is not known here. *)
Theorem C47_half_light_spergel_partial : forall kv lgamma inf, half_orders kv lgamma -> forall p f, sp_nu p = - (1 / 2) \/ sp_nu p = 1 / 2 -> 0 < sp_r0 p ->
  flux_beyond (sp_xValue kv lgamma inf p) (sp_half_light_radius p) f -> Rabs (f - sp_flux p * (1 / 2)) <= 1 / (5 * 10 ^ 7) * Rabs (sp_flux p).
Proof. exact spergel_half. Qed.
Print Assumptions C47_half_light_spergel_partial.
(** Half of the peak is reached at half of the full width. *)
Theorem C47_half_peak_gaussian : forall p, 0 < ga_sigma p -> ga_xValue p (0, 0) = ga_max_sb p /\
  Rabs (ga_xValue p (ga_fwhm p / 2, 0) - ga_xValue p (0, 0) * (1 / 2)) <= 1 / 10 ^ 16 * Rabs (ga_xValue p (0, 0)).
Proof. exact gaussian_peak. Qed.
Print Assumptions C47_half_peak_gaussian.
Theorem C47_half_peak_moffat : forall p, 1 < mo_beta p -> 0 < g_xacc (mo_gs p) <= 1 -> 0 < mo_r0 p ->
  mo_xValue p (0, 0) = mo_max_sb p /\ (mo_fwhm p / 2 <= mo_maxR p -> mo_xValue p (mo_fwhm p / 2, 0) = mo_max_sb p * (1 / 2)).
Proof. exact moffat_peak. Qed.
Print Assumptions C47_half_peak_moffat.
Example C47_ex_sizes : gaussian_new (Some 2) None None 3 gs_def = Ok (Gau (2 / ga_hlr_factor) 3 gs_def) /\ ga_half_light_radius (Gau (2 / ga_hlr_factor) 3 gs_def) = 2 /\
  gaussian_new (Some 2) (Some 1) None 3 gs_def = Err GalSimIncompatibleValuesError /\ moffat_new (py 3) None None None (py 0) 1 gs_def = Err GalSimIncompatibleValuesError.
Proof.
  repeat split.
  - unfold ga_half_light_radius. cbn [ga_sigma]. assert (ga_hlr_factor <> 0) by (unfold ga_hlr_factor; lra). field. assumption.
  - refine (proj2 (moffat_sizes (py 3) None None None 1 gs_def _ _) _); [cbn [py nv]; lra|cbn; lra|discriminate].
Qed.
Example C47_ex_spergel : (forall f, flux_beyond (sp_xValue kv0 lg0 0 (Spe (1 / 2) 2 3 gs_def)) (sp_half_light_radius (Spe (1 / 2) 2 3 gs_def)) f -> Rabs (f - 3 * (1 / 2)) <= 1 / (5 * 10 ^ 7) * Rabs 3) /\ half_orders kv0 lg0.
Proof. split; [|exact half_orders_ex]. intros f F. exact (C47_half_light_spergel_partial kv0 lg0 0 half_orders_ex (Spe (1 / 2) 2 3 gs_def) f (or_intror eq_refl) ltac:(cbn; lra) F). Qed.

(** * C48 *)
(** At wave numbers as far out as maxk, or farther, the amplitude is at most the threshold times the flux. *)
Theorem C48_maxk_gaussian : forall p k, 0 < ga_sigma p -> 0 < g_maxk (ga_gs p) <= 1 -> beyond (ga_maxk p) k -> Rabs (ga_kValue p k) <= g_maxk (ga_gs p) * Rabs (ga_flux p).
Proof. exact gaussian_maxk. Qed.
Print Assumptions C48_maxk_gaussian.
Theorem C48_maxk_exponential : forall p k, 0 < ex_r0 p -> 0 < g_maxk (ex_gs p) -> beyond (ex_maxk p) k -> Rabs (ex_kValue p k) <= g_maxk (ex_gs p) * Rabs (ex_flux p).
Proof. exact exponential_maxk. Qed.
Print Assumptions C48_maxk_exponential.
Theorem C48_maxk_spergel : forall p k, -1 < sp_nu p -> 0 < sp_r0 p -> 0 < g_maxk (sp_gs p) <= 1 -> beyond (sp_maxk p) k -> Rabs (sp_kValue p k) <= g_maxk (sp_gs p) * Rabs (sp_flux p).
Proof. exact spergel_maxk. Qed.
Print Assumptions C48_maxk_spergel.
(** The Box: in every direction, thresholds up to 2/5. *)
Theorem C48_maxk_box : forall p k, 0 < bx_width p -> 0 < bx_height p -> 0 < g_maxk (bx_gs p) <= 2 / 5 -> beyond (bx_maxk p) k -> Rabs (bx_kValue p k) <= g_maxk (bx_gs p) * Rabs (bx_flux p).
Proof. exact box_maxk. Qed.
Print Assumptions C48_maxk_box.
(** Outside pi / stepk there is at most the folding threshold of the flux, and pi / stepk is at least the wanted multiple
    of the half-light radius. *)
Theorem C48_stepk_gaussian : forall p f, 0 < ga_sigma p -> 0 < g_fold (ga_gs p) < 1 -> total_flux (ga_xValue p) f ->
  Rabs (f - flux_within (ga_xValue p) (PI / ga_stepk p)) <= g_fold (ga_gs p) * Rabs f /\ g_hlr (ga_gs p) * ga_half_light_radius p <= PI / ga_stepk p.
Proof. exact gaussian_stepk. Qed.
Print Assumptions C48_stepk_gaussian.
Theorem C48_stepk_moffat : forall p f, beta_thr < mo_beta p -> 0 < g_xacc (mo_gs p) < 1 -> 0 < mo_r0 p -> 0 < g_fold (mo_gs p) <= 1 -> total_flux (mo_xValue p) f ->
  Rabs (f - flux_within (mo_xValue p) (PI / mo_stepk p)) <= g_fold (mo_gs p) * Rabs f /\ g_hlr (mo_gs p) * mo_half_light_radius p <= PI / mo_stepk p.
Proof. exact moffat_stepk. Qed.
Print Assumptions C48_stepk_moffat.
Theorem C48_stepk_box : forall p x y, 0 < bx_width p -> 0 < bx_height p -> PI / bx_stepk p <= Rabs x \/ PI / bx_stepk p <= Rabs y -> bx_xValue p (x, y) = 0.
Proof. exact box_stepk. Qed.
Print Assumptions C48_stepk_box.
(** The Spergel profile, for every nu > -1 and every pair of functions that has the properties of the Bessel functions:
    unless bisection hits the radius exactly, or the radius is of the order of 10^-10. *)
Theorem C48_stepk_spergel_partial : forall kv lgamma inf nu G, -1 < nu -> bessel_pair nu G (kv nu) (kv (nu + 1)) -> gammap1 lgamma inf nu = G ->
  forall p f, sp_nu p = nu -> 0 < sp_r0 p -> 0 < g_fold (sp_gs p) < 1 ->
  0 < fluxfraction kv lgamma inf 40 nu (1 - g_fold (sp_gs p)) ->
  (forall k x, dyadic 0 40 k x -> 0 < x < 40 -> fluxfraction kv lgamma inf x nu (1 - g_fold (sp_gs p)) <> 0) ->
  2 / 10 ^ 10 < flux_radius kv lgamma inf (1 - g_fold (sp_gs p)) nu 0 40 ->
  flux_beyond (sp_xValue kv lgamma inf p) (PI / sp_stepk kv lgamma inf p) f ->
  Rabs f <= g_fold (sp_gs p) * Rabs (sp_flux p) /\ g_hlr (sp_gs p) * sp_half_light_radius p <= PI / sp_stepk kv lgamma inf p.
Proof. exact spergel_stepk. Qed.
Print Assumptions C48_stepk_spergel_partial.
(** The Exponential: three steps of a fixed-point iteration stop short of the radius. What lies outside may exceed the
    threshold, by no more than the factor given. *)
Theorem C48_stepk_exponential_partial : forall p f, 0 < ex_r0 p -> 0 < g_fold (ex_gs p) < 1 -> total_flux (ex_xValue p) f ->
  let L := - ln (g_fold (ex_gs p)) in
  Rabs (f - flux_within (ex_xValue p) (PI / ex_stepk p)) <= g_fold (ex_gs p) * (1 + ln (1 + L) / (1 + L) ^ 3) * Rabs f /\ g_hlr (ex_gs p) * ex_half_light_radius p <= PI / ex_stepk p.
Proof. exact exponential_stepk. Qed.
Print Assumptions C48_stepk_exponential_partial.
(** The bound holds where the multiple of the half-light radius already leaves so little outside, as with the defaults... *)
Theorem C48_stepk_exponential_by_radius : forall p f, 0 < ex_r0 p -> 0 < g_fold (ex_gs p) < 1 -> total_flux (ex_xValue p) f ->
  (let m := g_hlr (ex_gs p) * ex_hlr_factor in 0 <= m /\ (1 + m) * exp (- m) <= g_fold (ex_gs p)) ->
  Rabs (f - flux_within (ex_xValue p) (PI / ex_stepk p)) <= g_fold (ex_gs p) * Rabs f.
Proof. exact exponential_stepk_hlr. Qed.
Print Assumptions C48_stepk_exponential_by_radius.
(** ... and fails whenever the iteration decides. *)
Theorem C48_stepk_exponential_refuted : forall p f, 0 < ex_r0 p -> 0 < g_fold (ex_gs p) < 1 -> total_flux (ex_xValue p) f -> f <> 0 ->
  g_hlr (ex_gs p) * ex_hlr_factor <= ex_radius (g_fold (ex_gs p)) ->
  g_fold (ex_gs p) * Rabs f < Rabs (f - flux_within (ex_xValue p) (PI / ex_stepk p)).
Proof. exact exponential_stepk_above. Qed.
Print Assumptions C48_stepk_exponential_refuted.
Example C48_ex_maxk : Rabs (ga_kValue (Gau 2 3 gs_def) (ga_maxk (Gau 2 3 gs_def), 1)) <= 1 / 1000 * Rabs 3.
Proof. apply (C48_maxk_gaussian (Gau 2 3 gs_def)); [cbn; lra|cbn; lra|]. unfold beyond. cbn [fst snd]. lra. Qed.
Example C48_ex_default : forall f, total_flux (ex_xValue (Exn 2 3 gs_def)) f -> Rabs (f - flux_within (ex_xValue (Exn 2 3 gs_def)) (PI / ex_stepk (Exn 2 3 gs_def))) <= 5 / 1000 * Rabs f.
Proof.
  intros f F. apply (C48_stepk_exponential_by_radius (Exn 2 3 gs_def) f); [cbn; lra|cbn; lra|exact F|]. cbn [ex_gs gs_def gs_ex g_hlr g_fold]. unfold ex_hlr_factor. split; [lra|]. set (m := 5 * 1.6783469900166605). assert (M : 8.39 < m < 8.4) by (unfold m; lra).
  assert (E : exp (- m) <= 1 / 2000). { rewrite exp_Ropp. unfold Rdiv. rewrite Rmult_1_l. apply Rinv_le_contravar; [lra|]. apply (Rle_trans _ ((1 + 1 / 8) ^ 67)); [lra|]. apply (Rle_trans _ (exp (1 / 8) ^ 67)); [apply pow_incr; pose proof (exp_ineq1_le (1 / 8)); lra|]. rewrite <- exp_mult_nat. apply exp_le. replace (INR 67) with 67 by (rewrite INR_IZR_INZ; reflexivity). lra. }
  pose proof (exp_pos (- m)). nra.
Qed.
Example C48_ex_iteration : exists f, f <> 0 /\ total_flux (ex_xValue (Exn 2 3 (gs_ex (exp (- (7))) (1 / 100000)))) f /\
  exp (- (7)) * Rabs f < Rabs (f - flux_within (ex_xValue (Exn 2 3 (gs_ex (exp (- (7))) (1 / 100000)))) (PI / ex_stepk (Exn 2 3 (gs_ex (exp (- (7))) (1 / 100000))))).
Proof.
  set (p := Exn 2 3 (gs_ex (exp (- (7))) (1 / 100000))). assert (S : 0 < ex_r0 p) by (cbn; lra). pose proof (exponential_tot p S) as F. exists (ex_flux p * (2 * PI * inv_twopi)). assert (N : ex_flux p * (2 * PI * inv_twopi) <> 0) by (cbn [p ex_flux]; unfold inv_twopi; pose proof PI_RGT_0; nra). split; [exact N|]. split; [exact F|].
  apply (C48_stepk_exponential_refuted p _ S); [|exact F|exact N|].
  - cbn [p ex_gs gs_ex g_fold]. split; [apply exp_pos|]. rewrite <- exp_0. apply exp_increasing. lra.
  - cbn [p ex_gs gs_ex g_fold g_hlr]. rewrite ex_radius_eq. cbv zeta. rewrite ln_exp. replace (- - (7)) with 7 by ring. unfold ex_hlr_factor. assert (L : forall x, 0 <= x -> 2 <= ln (1 + (7 + x))).
    { intros x X. rewrite <- (ln_exp 2). apply Rcomplements.ln_le; [apply exp_pos|]. apply (Rle_trans _ ((32 / 31) ^ 64)); [|lra]. replace 2 with (INR 64 * (1 / 32)) at 1 by (rewrite INR_IZR_INZ; cbn [Z.of_nat Pos.of_succ_nat Pos.succ]; lra). rewrite exp_mult_nat. apply pow_incr. split; [apply Rlt_le, exp_pos|]. pose proof (exp_ineq1_le (- (1 / 32))) as E. rewrite exp_Ropp in E. pose proof (exp_pos (1 / 32)) as P. apply (Rmult_le_compat_r (exp (1 / 32))) in E; [|lra]. rewrite Rinv_l in E by lra. lra. }
    assert (P : forall x, 0 <= x -> 0 <= ln (1 + x)) by (intros x X; rewrite <- ln_1; apply Rcomplements.ln_le; lra). pose proof (P 7 ltac:(lra)). pose proof (P (7 + ln (1 + 7)) ltac:(lra)). pose proof (L (ln (1 + (7 + ln (1 + 7)))) ltac:(lra)). lra.
Qed.
Example C48_ex_spergel : forall f, flux_beyond (sp_xValue kv0 lg0 0 (Spe (- (1 / 2)) 2 3 (gs_ex (exp (- (16 / 3))) (1 / 100000)))) (PI / sp_stepk kv0 lg0 0 (Spe (- (1 / 2)) 2 3 (gs_ex (exp (- (16 / 3))) (1 / 100000)))) f -> Rabs f <= exp (- (16 / 3)) * Rabs 3.
Proof.
  intros f F. destruct (mhalf_radius kv0 lg0 0 half_orders_ex) as (A & B & D). destruct (ho_gamma kv0 lg0 0 half_orders_ex) as (G & _ & _). 
  refine (proj1 (C48_stepk_spergel_partial kv0 lg0 0 (- (1 / 2)) (sqrt PI) ltac:(lra) (ho_mhalf kv0 lg0 half_orders_ex) G (Spe (- (1 / 2)) 2 3 (gs_ex (exp (- (16 / 3))) (1 / 100000))) f eq_refl _ _ _ _ _ F)); cbn [sp_r0 sp_gs gs_ex g_fold].
  - lra.
  - split; [apply exp_pos|]. pose proof e163. lra.
  - exact A.
  - exact B.
  - lra.
Qed.

(** * C74 *)
(** nu > 0: the table starts at 0, ends at 1 and increases strictly, for every number of points that keeps the first
    step above 10^-10. *)
Theorem C74_table_positive : forall kv lgamma inf nu G, -1 < nu -> bessel_pair nu G (kv nu) (kv (nu + 1)) -> gammap1 lgamma inf nu = G ->
  forall p n, sp_nu p = nu -> (1 < n)%nat -> 1 / 10 ^ 10 * INR (n - 1) < sp_zmax kv lgamma inf p ->
  sp_pos_cdf kv lgamma inf n p 0 = 0 /\ sp_pos_cdf kv lgamma inf n p (n - 1) = 1 /\ (forall i j, (i < j)%nat -> sp_pos_cdf kv lgamma inf n p i < sp_pos_cdf kv lgamma inf n p j).
Proof. exact pos_table. Qed.
Print Assumptions C74_table_positive.
(** nu = -1/2: the table starts at 0 and ends at 1, but from the second entry on it decreases: every other entry is above 1. *)
Theorem C74_table_negative_refuted : forall kv lgamma inf p n, half_orders kv lgamma -> sp_nu p = - (1 / 2) -> g_shoot (sp_gs p) = 1 - exp (- (1 / 100000)) ->
  (1 < n)%nat -> INR (n - 1) <= 9999 ->
  sp_neg_cdf kv lgamma inf n p 0 = 0 /\ sp_neg_cdf kv lgamma inf n p (n - 1) = 1 /\
  (forall i j, (1 <= i)%nat -> (i < j)%nat -> sp_neg_cdf kv lgamma inf n p j < sp_neg_cdf kv lgamma inf n p i).
Proof.
  intros kv lgamma inf p n HO N T H I. destruct (ho_gamma kv lgamma inf HO) as (G & _ & G3). exact (neg_table kv lgamma inf (ho_K1 kv lgamma HO) (ho_K0 kv lgamma HO) G G3 p N T n H I).
Qed.
Print Assumptions C74_table_negative_refuted.
(** Every photon then falls into the first step of the table, outside of which there is nearly all of the flux. *)
Theorem C74_photons_negative_refuted : forall kv lgamma inf p n, half_orders kv lgamma -> sp_nu p = - (1 / 2) -> g_shoot (sp_gs p) = 1 - exp (- (1 / 100000)) ->
  (2 < n)%nat -> INR (n - 1) <= 9999 -> 0 < sp_r0 p ->
  flux_beyond (sp_xValue kv lgamma inf p) (sp_r0 p * (30 / INR (n - 1))) (sp_flux p * exp (- (30 / INR (n - 1)))) /\
  (forall search u, searches search -> 0 <= u < 1 -> 0 <= sp_shoot_radius kv lgamma inf search n p u <= sp_r0 p * (30 / INR (n - 1))).
Proof.
  intros kv lgamma inf p n HO N T H I S. destruct (ho_gamma kv lgamma inf HO) as (G & _ & G3). assert (P : 1 <= INR (n - 1)) by (change 1 with (INR 1); apply le_INR; lia). split.
  - apply mhalf_beyond; [exact HO|exact N|exact S|]. apply (Rmult_lt_reg_r (INR (n - 1))); [lra|]. replace (30 / INR (n - 1) * INR (n - 1)) with 30 by (field; lra). lra.
  - intros search u SE U. exact (neg_photons kv lgamma inf (ho_K1 kv lgamma HO) (ho_K0 kv lgamma HO) G G3 p N T search n u SE H I U (Rlt_le _ _ S)).
Qed.
Print Assumptions C74_photons_negative_refuted.
Example C74_ex_positive : sp_pos_cdf kv0 lg0 0 100 (Spe (1 / 2) 2 3 (gs_ex (5 / 1000) (17 * exp (- (16))))) 3 < sp_pos_cdf kv0 lg0 0 100 (Spe (1 / 2) 2 3 (gs_ex (5 / 1000) (17 * exp (- (16))))) 50.
Proof.
  destruct (ho_gamma kv0 lg0 0 half_orders_ex) as (_ & G & _). refine (proj2 (proj2 (C74_table_positive kv0 lg0 0 (1 / 2) (sqrt PI / 2) ltac:(lra) (ho_half kv0 lg0 half_orders_ex) G (Spe (1 / 2) 2 3 (gs_ex (5 / 1000) (17 * exp (- (16))))) 100%nat eq_refl ltac:(lia) _)) 3%nat 50%nat ltac:(lia)).
  pose proof (half_zmax kv0 lg0 0 half_orders_ex (Spe (1 / 2) 2 3 (gs_ex (5 / 1000) (17 * exp (- (16))))) eq_refl eq_refl). replace (INR (100 - 1)) with 99 by (rewrite INR_IZR_INZ; reflexivity). lra.
Qed.
Example C74_ex_negative : 1 < sp_neg_cdf kv0 lg0 0 100 (Spe (- (1 / 2)) 2 3 (gs_ex (5 / 1000) (1 - exp (- (1 / 100000))))) 50.
Proof.
  assert (I : INR (100 - 1) <= 9999) by (rewrite INR_IZR_INZ; change (Z.of_nat (100 - 1)) with 99%Z; lra). destruct (C74_table_negative_refuted kv0 lg0 0 (Spe (- (1 / 2)) 2 3 (gs_ex (5 / 1000) (1 - exp (- (1 / 100000))))) 100 half_orders_ex eq_refl eq_refl ltac:(lia) I) as (_ & E & D).
  specialize (D 50%nat 99%nat ltac:(lia) ltac:(lia)). change (100 - 1)%nat with 99%nat in E. rewrite E in D. exact D.
Qed.

(** * C113 *)
(** The flux of the surface brightness, over the plane, is the flux of the profile (up to the rounding of 1 / (2 pi)). *)
Theorem C113_total_flux : 
  (forall p, 0 < ga_sigma p -> exists f, total_flux (ga_xValue p) f /\ Rabs (f - ga_flux p) <= 1 / 10 ^ 16 * Rabs (ga_flux p)) /\
  (forall p, 0 < ex_r0 p -> exists f, total_flux (ex_xValue p) f /\ Rabs (f - ex_flux p) <= 1 / 10 ^ 16 * Rabs (ex_flux p)).
Proof. exact (conj gaussian_total exponential_total). Qed.
Print Assumptions C113_total_flux.
(** The Moffat profile is cut where xvalue_accuracy of its flux is left, and this share is missing. *)
Theorem C113_total_flux_moffat : forall p, 1 < mo_beta p -> 0 < g_xacc (mo_gs p) <= 1 -> 0 < mo_r0 p -> total_flux (mo_xValue p) (mo_flux p * (1 - g_xacc (mo_gs p))).
Proof. exact moffat_total. Qed.
Print Assumptions C113_total_flux_moffat.
(** Beyond any radius above 10^-10 r0 the Spergel profile has the flux that its own fraction says. *)
Theorem C113_flux_spergel : forall kv lgamma inf nu G, bessel_pair nu G (kv nu) (kv (nu + 1)) -> gammap1 lgamma inf nu = G ->
  forall p r, sp_nu p = nu -> 0 < sp_r0 p -> 1 / 10 ^ 10 * sp_r0 p < r ->
  flux_beyond (sp_xValue kv lgamma inf p) r (sp_flux p * (1 - fluxfraction kv lgamma inf (r / sp_r0 p) nu 0)).
Proof. exact sp_beyond. Qed.
Print Assumptions C113_flux_spergel.
(** The amplitude at k = 0 is the flux, the value in the centre is the peak. *)
Theorem C113_centre : (forall p, ga_kValue p (0, 0) = ga_flux p) /\ (forall p, ex_kValue p (0, 0) = ex_flux p) /\ (forall p, bx_kValue p (0, 0) = bx_flux p) /\ (forall p, sp_kValue p (0, 0) = sp_flux p) /\
  (forall p, ex_xValue p (0, 0) = ex_max_sb p) /\ (forall p, 0 < bx_width p -> 0 < bx_height p -> bx_xValue p (0, 0) = bx_max_sb p).
Proof. destruct k_zero as (A & B & C & D). exact (conj A (conj B (conj C (conj D (conj exponential_peak box_peak))))). Qed.
Print Assumptions C113_centre.
Example C113_ex : (exists f, total_flux (ga_xValue (Gau 2 3 gs_def)) f /\ Rabs (f - 3) <= 1 / 10 ^ 16 * Rabs 3) /\ total_flux (mo_xValue (Mof 3 2 5 gs_def)) (5 * (1 - 1 / 100000)).
Proof. split; [apply (proj1 C113_total_flux (Gau 2 3 gs_def)); cbn; lra|apply (C113_total_flux_moffat (Mof 3 2 5 gs_def)); cbn; lra]. Qed.

(** * C114 *)
(** The amplitude at every wave vector is the Fourier transform of the surface brightness. *)
Theorem C114_box : forall p k, 0 < bx_width p -> 0 < bx_height p -> transform (bx_xValue p) k (bx_kValue p k).
Proof. exact box_transform. Qed.
Print Assumptions C114_box.
Theorem C114_gaussian : forall p k, 0 < ga_sigma p -> exists v, transform (ga_xValue p) k v /\ Rabs (v - ga_kValue p k) <= 1 / 10 ^ 16 * Rabs (ga_kValue p k).
Proof. exact gaussian_transform. Qed.
Print Assumptions C114_gaussian.
Theorem C114_exponential : forall p kx ky, 0 < ex_r0 p -> exists v, polar_transform (ex_xValue p) (sqrt (kx * kx + ky * ky)) v /\ Rabs (v - ex_kValue p (kx, ky)) <= 1 / 10 ^ 16 * Rabs (ex_kValue p (kx, ky)).
Proof. exact exponential_transform. Qed.
Print Assumptions C114_exponential.
(** The point source: the flux at every wave number, and nothing away from the centre. *)
Theorem C114_delta : forall p k x y, de_kValue p k = de_flux p /\ (de_xValue p (x, y) = 0 \/ (x = 0 /\ y = 0)).
Proof. intros p k x y. exact (conj (delta_k p k) (delta_x p x y)). Qed.
Print Assumptions C114_delta.
Example C114_ex : transform (bx_xValue (Box 2 3 5 gs_def)) (1, 2) (5 * sinc (1 * (2 / (2 * PI))) * sinc (2 * (3 / (2 * PI)))) /\ (exists v, transform (ga_xValue (Gau 2 3 gs_def)) (1, 2) v).
Proof. split; [apply (C114_box (Box 2 3 5 gs_def) (1, 2)); cbn; lra|]. destruct (C114_gaussian (Gau 2 3 gs_def) (1, 2) ltac:(cbn; lra)) as [v [V _]]. now exists v. Qed.

(** * C115 *)
(** A photon of deviate u lands within r exactly when u of the flux lies within r. *)
Theorem C115_moffat : forall p u r, 1 < mo_beta p -> 0 < g_xacc (mo_gs p) <= 1 -> 0 < mo_r0 p -> 0 <= u < 1 -> 0 <= r <= mo_maxR p -> 0 < mo_flux p ->
  (mo_shoot_radius p u <= r <-> mo_flux p * u <= flux_within (mo_xValue p) r).
Proof. exact moffat_shoot. Qed.
Print Assumptions C115_moffat.
(** The tables: the same at every node, whatever search is used, with the flux within the last node in place of all of it. *)
Theorem C115_exponential : forall search n p u i, searches search -> (1 < n)%nat -> INR (n - 1) <= 10 ^ 9 -> (i < n)%nat -> 0 < g_shoot (ex_gs p) <= 1 / 2 -> 0 < ex_r0 p -> 0 < ex_flux p -> 0 <= u <= 1 ->
  (ex_shoot_radius search n p u <= ex_node n (g_shoot (ex_gs p)) (ex_r0 p) i <->
   u * flux_within (ex_xValue p) (- ln (g_shoot (ex_gs p)) * ex_r0 p) <= flux_within (ex_xValue p) (ex_node n (g_shoot (ex_gs p)) (ex_r0 p) i)).
Proof. exact exponential_shoot. Qed.
Print Assumptions C115_exponential.
Theorem C115_spergel_partial : forall kv lgamma inf nu G search n p u i, 0 < nu -> bessel_pair nu G (kv nu) (kv (nu + 1)) -> gammap1 lgamma inf nu = G -> sp_nu p = nu -> 0 < sp_r0 p ->
  searches search -> (1 < n)%nat -> (i < n)%nat -> 1 / 10 ^ 10 * INR (n - 1) < sp_zmax kv lgamma inf p ->
  (forall j, (Datatypes.S j < n)%nat -> sp_pos_cdf kv lgamma inf n p j + interp_eps < sp_pos_cdf kv lgamma inf n p (Datatypes.S j)) -> 0 <= u <= 1 ->
  (sp_shoot_radius kv lgamma inf search n p u <= sp_z_cdf kv lgamma inf n p i * sp_r0 p <->
   u * sp_calculateIntegratedFlux kv lgamma inf p (sp_zmax kv lgamma inf p * sp_r0 p) <= sp_calculateIntegratedFlux kv lgamma inf p (sp_z_cdf kv lgamma inf n p i * sp_r0 p)).
Proof. exact spergel_shoot. Qed.
Print Assumptions C115_spergel_partial.
(** The box: both coordinates are uniform and the photon lands where the box is bright. *)
Theorem C115_box : forall p u v, 0 < bx_width p -> 0 < bx_height p ->
  (forall x y, (fst (bx_shoot p u v) <= x <-> u * bx_width p <= x + bx_width p / 2) /\ (snd (bx_shoot p u v) <= y <-> v * bx_height p <= y + bx_height p / 2)) /\
  (0 < u < 1 -> 0 < v < 1 -> bx_xValue p (bx_shoot p u v) = bx_max_sb p).
Proof. intros p u v W H. split; [intros x y; exact (box_shoot p u v x y W H)|exact (box_shoot_in p u v W H)]. Qed.
Print Assumptions C115_box.
(** The second deviate is the angle and leaves the radius alone. *)
Theorem C115_angle : forall r v, 0 <= r -> sqrt (fst (polar r v) * fst (polar r v) + snd (polar r v) * snd (polar r v)) = r.
Proof. exact polar_radius. Qed.
Print Assumptions C115_angle.
(** a linear search *)
Definition count_search (n : nat) (xp : nat -> R) (x : R) : nat :=
  (fix go (k i : nat) : nat := match k with O => i | Datatypes.S k' => if Rltb x (xp i) then i else go k' (Datatypes.S i) end) n O.
Lemma count_search_ok : searches count_search.
Proof.
  intros n xp x. unfold count_search. set (go := fix go (k i : nat) : nat := match k with O => i | Datatypes.S k' => if Rltb x (xp i) then i else go k' (Datatypes.S i) end).
  assert (H : forall k i, (i + k = n)%nat -> ((0 < i)%nat -> xp (i - 1)%nat <= x) -> (go k i <= n)%nat /\ ((0 < go k i)%nat -> xp (go k i - 1)%nat <= x) /\ ((go k i < n)%nat -> x < xp (go k i))).
  { induction k as [|k IH]; intros i E P; cbn [go]; [split; [lia|]; split; [exact P|lia]|]. destruct (Rltb_spec x (xp i)) as [l|l]; [split; [lia|]; split; [exact P|intros _; exact l]|]. apply IH; [lia|]. intros _. replace (Datatypes.S i - 1)%nat with i by lia. lra. }
  apply (H n O); [lia|lia].
Qed.
Example C115_ex_moffat : mo_shoot_radius (Mof 3 2 5 gs_def) (3 / 4) <= 2 <-> 5 * (3 / 4) <= flux_within (mo_xValue (Mof 3 2 5 gs_def)) 2.
Proof.
  apply (C115_moffat (Mof 3 2 5 gs_def)); try (cbn; lra). split; [lra|]. destruct (moffat_maxR (Mof 3 2 5 gs_def) ltac:(cbn; lra) ltac:(cbn; lra)) as [A B]. unfold mo_maxR. cbn [mo_r0 mo_beta mo_gs gs_def gs_ex g_xacc] in *. set (m := mo_maxRrD (Mof 3 2 5 gs_def)) in *.
  assert (P : 2 <= Rpower (1 / 100000) (1 / (1 - 3))). { replace (1 / (1 - 3)) with (- / 2) by field. rewrite Rpower_Ropp, Rpower_sqrt by lra. rewrite <- (Rinv_inv 2). apply Rinv_le_contravar; [apply sqrt_lt_R0; lra|]. rewrite <- (sqrt_square (/ 2)) by lra. apply sqrt_le_1_alt. lra. }
  assert (1 <= m) by (apply sq_le_le; nra). lra.
Qed.
Example C115_ex_exponential : ex_shoot_radius count_search 100 (Exn 2 3 gs_def) (1 / 2) <= ex_node 100 (1 / 100000) 2 30 <->
  1 / 2 * flux_within (ex_xValue (Exn 2 3 gs_def)) (- ln (1 / 100000) * 2) <= flux_within (ex_xValue (Exn 2 3 gs_def)) (ex_node 100 (1 / 100000) 2 30).
Proof. assert (E : INR (100 - 1) = 99) by (rewrite INR_IZR_INZ; reflexivity). apply (C115_exponential count_search 100 (Exn 2 3 gs_def)); [exact count_search_ok|lia|rewrite E; lra|lia|cbn; lra|cbn; lra|cbn; lra|lra]. Qed.
Example C115_ex_spergel : let p := Spe (1 / 2) 2 3 (gs_ex (5 / 1000) (17 * exp (- (16)))) in
  sp_shoot_radius kv0 lg0 0 count_search 100 p (1 / 2) <= sp_z_cdf kv0 lg0 0 100 p 30 * 2 <->
  1 / 2 * sp_calculateIntegratedFlux kv0 lg0 0 p (sp_zmax kv0 lg0 0 p * 2) <= sp_calculateIntegratedFlux kv0 lg0 0 p (sp_z_cdf kv0 lg0 0 100 p 30 * 2).
Proof.
  intro p. destruct (ho_gamma kv0 lg0 0 half_orders_ex) as (_ & G & _). assert (I : INR (100 - 1) = 99) by (rewrite INR_IZR_INZ; reflexivity). refine (C115_spergel_partial kv0 lg0 0 (1 / 2) (sqrt PI / 2) count_search 100 p (1 / 2) 30 ltac:(lra) (ho_half kv0 lg0 half_orders_ex) G eq_refl ltac:(cbn; lra) count_search_ok ltac:(lia) ltac:(lia) _ _ ltac:(lra)).
  - pose proof (half_zmax kv0 lg0 0 half_orders_ex p eq_refl eq_refl). rewrite I. lra.
  - intros j J. apply (half_gaps kv0 lg0 0 half_orders_ex p eq_refl eq_refl); [lia|rewrite I; lra|exact J].
Qed.

(** * C116 *)
(** A Spergel profile with nu = 1/2 is the Exponential with the same scale radius and flux: the same amplitudes, the same
    surface brightness at the centre and beyond 10^-10 r0, and nearly the same half-light radius. *)
Theorem C116_spergel_is_exponential : forall kv lgamma inf, half_orders kv lgamma -> forall p, sp_nu p = 1 / 2 -> 0 < sp_r0 p ->
  let e := Exn (sp_r0 p) (sp_flux p) (sp_gs p) in
  (forall k, sp_kValue p k = ex_kValue e k) /\
  (forall x y, (x = 0 /\ y = 0) \/ 1 / 10 ^ 10 * sp_r0 p < sqrt (x * x + y * y) -> Rabs (ex_xValue e (x, y) - sp_xValue kv lgamma inf p (x, y)) <= 1 / 10 ^ 16 * Rabs (sp_xValue kv lgamma inf p (x, y))) /\
  Rabs (sp_half_light_radius p - ex_half_light_radius e) <= 1 / 10 ^ 9 * sp_r0 p.
Proof. intros kv lgamma inf HO p N S. exact (conj (fun k => spergel_exponential_k p k N) (conj (fun x y => spergel_exponential_x kv lgamma inf HO p x y N S) (spergel_exponential_hlr p N S))). Qed.
Print Assumptions C116_spergel_is_exponential.
Example C116_ex : Rabs (ex_xValue (Exn 2 3 gs_def) (3, 4) - sp_xValue kv0 lg0 0 (Spe (1 / 2) 2 3 gs_def) (3, 4)) <= 1 / 10 ^ 16 * Rabs (sp_xValue kv0 lg0 0 (Spe (1 / 2) 2 3 gs_def) (3, 4)).
Proof.
  destruct (C116_spergel_is_exponential kv0 lg0 0 half_orders_ex (Spe (1 / 2) 2 3 gs_def) eq_refl ltac:(cbn; lra)) as (_ & X & _). apply X. right. cbn [sp_r0]. replace (3 * 3 + 4 * 4) with (5 * 5) by ring. rewrite sqrt_square by lra. lra.
Qed.
