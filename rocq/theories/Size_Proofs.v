(** Sizes, fluxes, bandwidths and shooting of the elementary profiles. *)
From Coq Require Import ZArith QArith Qreals Reals Bool List Lra Lia.
From Coquelicot Require Import Coquelicot.
From Verif Require Import Base Bounds_Model Bounds_Proofs GSP_Model Sky_Model Util_Model Size_Model Size_Spec Num_Consts.
Import ListNotations.
Open Scope R_scope.

(** * Powers *)
Lemma jpow_pos : forall x y, 0 < x -> jpow x y = Rpower x y.
Proof. intros x y X. unfold jpow. destruct (Reqb_spec x 0); [lra|reflexivity]. Qed.
Lemma Rpower_pos : forall x y, 0 < Rpower x y.
Proof. intros. unfold Rpower. apply exp_pos. Qed.
Lemma Rpower_anti : forall a x y, a <= 0 -> 0 < x -> x <= y -> Rpower y a <= Rpower x a.
Proof.
  intros a x y A X Y. unfold Rpower. destruct (Req_dec x y) as [->|N]; [lra|]. assert (L : ln x <= ln y) by (apply Rlt_le, ln_increasing; lra).
  assert (H : a * ln y <= a * ln x) by nra. destruct H as [H|H]; [apply Rlt_le, exp_increasing, H|rewrite H; lra].
Qed.
Lemma Rpower_inv : forall x a, 0 < x -> a <> 0 -> Rpower (Rpower x (1 / a)) a = x.
Proof. intros x a X A. rewrite Rpower_mult. replace (1 / a * a) with 1 by (field; exact A). now apply Rpower_1. Qed.
Lemma Rpower_gt1 : forall x a, 0 < x -> x < 1 -> a < 0 -> 1 < Rpower x a.
Proof. intros x a X X1 A. unfold Rpower. rewrite <- exp_0. apply exp_increasing. assert (ln x < 0) by (rewrite <- ln_1; apply ln_increasing; lra). nra. Qed.
Lemma Rpower_ge1 : forall x a, 0 < x -> x <= 1 -> a <= 0 -> 1 <= Rpower x a.
Proof.
  intros x a X X1 A. unfold Rpower. assert (L : ln x <= 0) by (destruct (Req_dec x 1) as [->|]; [rewrite ln_1; lra|apply Rlt_le; rewrite <- ln_1; apply ln_increasing; lra]).
  assert (H : 0 <= a * ln x) by nra. rewrite <- exp_0. destruct H as [H|H]; [apply Rlt_le, exp_increasing, H|rewrite <- H; lra].
Qed.
(** * Constructors *)
Lemma gaussian_sizes : forall h s f flux gs, (given_of [h; s; f] = 1%nat -> exists p, gaussian_new h s f flux gs = Ok p) /\
  (given_of [h; s; f] <> 1%nat -> gaussian_new h s f flux gs = Err GalSimIncompatibleValuesError).
Proof. intros [h|] [s|] [f|] flux gs; cbn [given_of]; split; intro H; try discriminate; try (exfalso; now apply H); try reflexivity; eexists; reflexivity. Qed.
Lemma exponential_sizes : forall h s flux gs, (given_of [h; s] = 1%nat -> exists p, exponential_new h s flux gs = Ok p) /\
  (given_of [h; s] <> 1%nat -> exponential_new h s flux gs = Err GalSimIncompatibleValuesError).
Proof. intros [h|] [s|] flux gs; cbn [given_of]; split; intro H; try discriminate; try (exfalso; now apply H); try reflexivity; eexists; reflexivity. Qed.
Lemma spergel_sizes : forall nu s h flux gs, (given_of [s; h] = 1%nat -> exists p, spergel_new nu s h flux gs = Ok p) /\
  (given_of [s; h] <> 1%nat -> spergel_new nu s h flux gs = Err GalSimIncompatibleValuesError).
Proof. intros nu [s|] [h|] flux gs; cbn [given_of]; split; intro H; try discriminate; try (exfalso; now apply H); try reflexivity; eexists; reflexivity. Qed.
Lemma moffat_sizes : forall beta s h f flux gs, 11 / 10 < nv beta -> g_maxk gs <= 1 / 10 ->
  (given_of [s; h; f] = 1%nat -> exists p, moffat_new beta s h f (py 0) flux gs = Ok p) /\
  (given_of [s; h; f] <> 1%nat -> moffat_new beta s h f (py 0) flux gs = Err GalSimIncompatibleValuesError).
Proof.
  intros beta s h f flux gs B K. assert (E : forall p, mo_gs p = gs -> (if Rltb 0.1 (g_maxk (mo_gs p)) then Err ValueError else Ok p) = Ok p).
  { intros p ->. destruct (Rltb_spec 0.1 (g_maxk gs)); [lra|reflexivity]. }
  unfold moffat_new. cbn [npy nv py negb orb]. destruct (Reqb_spec 0 0); [|lra]. cbn [negb]. destruct (Rltb_spec beta_thr (nv beta)) as [l|l]; [|unfold beta_thr in l; lra]. cbn [negb].
  destruct s as [s|], h as [h|], f as [f|]; cbn [given_of some orb bind]; split; intro H; try discriminate; try (exfalso; now apply H); try reflexivity; eexists; apply E; reflexivity.
Qed.
Lemma gau_factors : ga_fwhm_factor <> 0 /\ ga_hlr_factor <> 0 /\ ex_hlr_factor <> 0.
Proof. unfold ga_fwhm_factor, ga_hlr_factor, ex_hlr_factor. lra. Qed.
Lemma gaussian_back : forall x flux gs,
  (exists p, gaussian_new (Some x) None None flux gs = Ok p /\ ga_half_light_radius p = x /\ ga_flux p = flux /\ ga_gs p = gs) /\
  (exists p, gaussian_new None (Some x) None flux gs = Ok p /\ ga_sigma p = x /\ ga_flux p = flux /\ ga_gs p = gs) /\
  (exists p, gaussian_new None None (Some x) flux gs = Ok p /\ ga_fwhm p = x /\ ga_flux p = flux /\ ga_gs p = gs).
Proof.
  intros x flux gs. destruct gau_factors as (F & H & _). repeat split; eexists; (split; [reflexivity|]); (split; [|split; reflexivity]); unfold ga_half_light_radius, ga_fwhm; cbn [ga_sigma]; try reflexivity; field; assumption.
Qed.
Lemma exponential_back : forall x flux gs,
  (exists p, exponential_new (Some x) None flux gs = Ok p /\ ex_half_light_radius p = x /\ ex_flux p = flux /\ ex_gs p = gs) /\
  (exists p, exponential_new None (Some x) flux gs = Ok p /\ ex_r0 p = x /\ ex_flux p = flux /\ ex_gs p = gs).
Proof.
  intros x flux gs. destruct gau_factors as (_ & _ & H). repeat split; eexists; (split; [reflexivity|]); (split; [|split; reflexivity]); unfold ex_half_light_radius; cbn [ex_r0]; try reflexivity; field; assumption.
Qed.
Lemma moffat_hlr_pos : forall b, 1 < b -> 0 < sqrt (jpow 0.5 (1 / (1 - b)) - 1).
Proof.
  intros b B. apply sqrt_lt_R0. rewrite jpow_pos by lra. assert (1 < Rpower 0.5 (1 / (1 - b))); [|lra]. apply Rpower_gt1; [lra|lra|].
  unfold Rdiv. rewrite Rmult_1_l. apply Rinv_lt_0_compat. lra.
Qed.
Lemma moffat_fwhm_pos : forall b, 1 < b -> 0 < sqrt (jpow 2 (1 / b) - 1).
Proof.
  intros b B. apply sqrt_lt_R0. rewrite jpow_pos by lra. assert (1 < Rpower 2 (1 / b)); [|lra]. unfold Rpower. apply (Rle_lt_trans _ (exp 0)); [rewrite exp_0; lra|]. apply exp_increasing.
  apply Rmult_lt_0_compat; [|rewrite <- ln_1; apply ln_increasing; lra]. unfold Rdiv. rewrite Rmult_1_l. apply Rinv_0_lt_compat. lra.
Qed.
Lemma moffat_back : forall beta x flux gs, 11 / 10 < nv beta -> g_maxk gs <= 1 / 10 ->
  (exists p, moffat_new beta (Some x) None None (py 0) flux gs = Ok p /\ mo_r0 p = x /\ mo_beta p = nv beta /\ mo_flux p = flux /\ mo_gs p = gs) /\
  (exists p, moffat_new beta None (Some x) None (py 0) flux gs = Ok p /\ mo_half_light_radius p = x /\ mo_beta p = nv beta /\ mo_flux p = flux /\ mo_gs p = gs) /\
  (exists p, moffat_new beta None None (Some x) (py 0) flux gs = Ok p /\ mo_fwhm p = x /\ mo_beta p = nv beta /\ mo_flux p = flux /\ mo_gs p = gs).
Proof.
  intros beta x flux gs B K. assert (E : forall p, mo_gs p = gs -> (if Rltb 0.1 (g_maxk (mo_gs p)) then Err ValueError else Ok p) = Ok p).
  { intros p ->. destruct (Rltb_spec 0.1 (g_maxk gs)); [lra|reflexivity]. }
  unfold moffat_new. cbn [npy nv py negb orb]. destruct (Reqb_spec 0 0); [|lra]. cbn [negb]. destruct (Rltb_spec beta_thr (nv beta)) as [l|l]; [|unfold beta_thr in l; lra]. cbn [negb some orb bind].
  pose proof (moffat_hlr_pos (nv beta) ltac:(lra)) as H1. pose proof (moffat_fwhm_pos (nv beta) ltac:(lra)) as H2.
  repeat split; eexists; (split; [apply E; reflexivity|]); (split; [|repeat split]); unfold mo_half_light_radius, mo_fwhm, mo_fluxFactor; cbn [mo_r0 mo_beta]; try reflexivity.
  - replace (1 - 0.5 * 1) with 0.5 by lra. field. lra.
  - field. lra.
Qed.

(** * Integrals *)
Lemma rint_of : forall (f F : R -> R) a b, a <= b -> (forall x, a <= x <= b -> is_derive F x (f x)) -> (forall x, a <= x <= b -> continuous f x) -> is_RInt f a b (F b - F a).
Proof. intros f F a b H D K. apply (@is_RInt_derive R_CompleteNormedModule); rewrite Rmin_left, Rmax_right by exact H; assumption. Qed.
Lemma radial_rint : forall (g G : R -> R) r, 0 <= r -> (forall x, is_derive G x (g x)) -> (forall x, continuous g x) -> is_RInt g 0 r (G r - G 0).
Proof. intros g G r H D K. apply rint_of; auto. Qed.
Lemma cont_of : forall (g dg : R -> R) x, is_derive g x (dg x) -> continuous g x.
Proof. intros g dg x D. apply @ex_derive_continuous. exists (dg x). exact D. Qed.

(** Gaussian *)
Lemma mhalf : -0.5 = -1 / 2.
Proof. lra. Qed.
Lemma gaussian_circular : forall p, circular (ga_xValue p).
Proof.
  intros p x y. unfold ga_xValue, norm2. cbn [fst snd]. rewrite sqrt_sqrt by nra. do 3 f_equal. ring.
Qed.
Lemma gaussian_within : forall p r, ga_sigma p <> 0 -> 0 <= r ->
  flux_within (ga_xValue p) r = ga_flux p * (2 * PI * inv_twopi) * (1 - exp (- (r / ga_sigma p) ^ 2 / 2)).
Proof.
  intros p r S H. unfold flux_within. apply is_RInt_unique. set (s := ga_sigma p) in *.
  set (G := fun t => - (ga_flux p * (2 * PI * inv_twopi)) * exp (- (t / s) ^ 2 / 2)).
  replace (ga_flux p * (2 * PI * inv_twopi) * (1 - exp (- (r / s) ^ 2 / 2))) with (G r - G 0).
  2:{ unfold G. replace (- (0 / s) ^ 2 / 2) with 0 by (field; exact S). rewrite exp_0. ring. }
  apply radial_rint; [exact H| |].
  - intro x. unfold G. auto_derive; [exact I|]. unfold ga_xValue, ga_norm, ga_inv_sigsq, ga_sigsq, norm2. cbn [fst snd]. fold s.
    rewrite mhalf. replace (-1 / 2 * (x * x + 0 * 0) * (1 / s ^ 2)) with (- (x * / s * (x * / s * 1)) * / 2) by (field; exact S).
    generalize (exp (- (x * / s * (x * / s * 1)) * / 2)). intro z. field. exact S.
  - intro x. unfold ga_xValue, norm2. cbn [fst snd]. apply (@ex_derive_continuous _ R_NormedModule). auto_derive. exact I.
Qed.
Lemma twopi_near : Rabs (2 * PI * inv_twopi - 1) <= 1 / 10 ^ 16.
Proof.
  destruct pi_bounds as [A B]. unfold inv_twopi. unfold pi_lo, pi_hi in A, B. unfold Q2R in *. cbn [Qnum Qden] in *. apply Rabs_le_between. lra.
Qed.
Lemma gaussian_half_exp : forall f, Rabs (Q2R f * Q2R f / 2 - ln 2) <= 1 / 10 ^ 16 -> Rabs (exp (- Q2R f ^ 2 / 2) - 1 / 2) <= 1 / 10 ^ 16.
Proof.
  intros f H. replace (- Q2R f ^ 2 / 2) with (- ln 2 + - (Q2R f * Q2R f / 2 - ln 2)) by (cbn [pow]; field). rewrite exp_plus, exp_Ropp, exp_ln by lra.
  pose proof (exp_near (- (Q2R f * Q2R f / 2 - ln 2)) (1 / 10 ^ 16)) as N. rewrite Rabs_Ropp in N. specialize (N H ltac:(lra)).
  apply Rabs_le_between in N. apply Rabs_le_between. lra.
Qed.
Lemma near_flux : forall F c e x, Rabs (c - 1) <= 1 / 10 ^ 16 -> Rabs (e - x) <= 2 / 10 ^ 16 -> 0 <= x <= 1 -> Rabs (F * c * e - F * x) <= 4 / 10 ^ 16 * Rabs F.
Proof.
  intros F c e x C E X. replace (F * c * e - F * x) with ((c * e - x) * F) by ring. rewrite Rabs_mult. apply Rmult_le_compat_r; [apply Rabs_pos|].
  replace (c * e - x) with ((c - 1) * e + (e - x)) by ring. eapply Rle_trans; [apply Rabs_triang|]. rewrite Rabs_mult.
  assert (B : Rabs e <= 2) by (apply Rabs_le_between in E; apply Rabs_le_between; lra). pose proof (Rabs_pos (c - 1)). pose proof (Rabs_pos e).
  assert (Rabs (c - 1) * Rabs e <= 1 / 10 ^ 16 * 2) by (apply Rmult_le_compat; lra). lra.
Qed.
Lemma gau_hlr_near : Rabs (exp (- ga_hlr_factor ^ 2 / 2) - 1 / 2) <= 1 / 10 ^ 16.
Proof. apply gaussian_half_exp. destruct ln2_bounds as [A B]. unfold ln2_lo, ln2_hi, Q2R in *. cbn [Qnum Qden] in *. apply Rabs_le_between. lra. Qed.
Lemma gau_fwhm_near : Rabs (exp (- (ga_fwhm_factor / 2) ^ 2 / 2) - 1 / 2) <= 1 / 10 ^ 16.
Proof.
  replace (ga_fwhm_factor / 2) with (Q2R (23548200450309493 # 20000000000000000)) by (unfold ga_fwhm_factor, Q2R; cbn [Qnum Qden]; lra).
  apply gaussian_half_exp. destruct ln2_bounds as [A B]. unfold ln2_lo, ln2_hi, Q2R in *. cbn [Qnum Qden] in *. apply Rabs_le_between. lra.
Qed.
Lemma gaussian_half : forall p, 0 < ga_sigma p -> Rabs (flux_within (ga_xValue p) (ga_half_light_radius p) - ga_flux p * (1 / 2)) <= 4 / 10 ^ 16 * Rabs (ga_flux p).
Proof.
  intros p S. unfold ga_half_light_radius. assert (H : 0 <= ga_hlr_factor) by (unfold ga_hlr_factor; lra). rewrite gaussian_within by nra.
  replace (ga_sigma p * ga_hlr_factor / ga_sigma p) with ga_hlr_factor by (field; lra). apply near_flux; [apply twopi_near| |lra].
  pose proof gau_hlr_near as N. apply Rabs_le_between in N. apply Rabs_le_between. lra.
Qed.
Lemma gaussian_peak : forall p, 0 < ga_sigma p -> ga_xValue p (0, 0) = ga_max_sb p /\ Rabs (ga_xValue p (ga_fwhm p / 2, 0) - ga_xValue p (0, 0) * (1 / 2)) <= 1 / 10 ^ 16 * Rabs (ga_xValue p (0, 0)).
Proof.
  intros p S. assert (P0 : ga_xValue p (0, 0) = ga_norm p). { unfold ga_xValue, norm2. cbn [fst snd]. replace (-0.5 * (0 * 0 + 0 * 0) * ga_inv_sigsq p) with 0 by ring. rewrite exp_0. ring. }
  split; [exact P0|]. rewrite P0. unfold ga_xValue, norm2, ga_inv_sigsq, ga_sigsq, ga_fwhm. cbn [fst snd]. rewrite mhalf.
  replace (-1 / 2 * (ga_sigma p * ga_fwhm_factor / 2 * (ga_sigma p * ga_fwhm_factor / 2) + 0 * 0) * (1 / ga_sigma p ^ 2)) with (- (ga_fwhm_factor / 2) ^ 2 / 2) by (field; lra).
  rewrite <- Rmult_minus_distr_l, Rabs_mult, Rmult_comm. apply Rmult_le_compat_r; [apply Rabs_pos|]. apply gau_fwhm_near.
Qed.
Lemma lim_exp_minus : forall (f : R -> R), is_lim f p_infty p_infty -> is_lim (fun x => exp (- f x)) p_infty 0.
Proof.
  intros f L. apply (is_lim_comp exp (fun x => - f x) p_infty 0 m_infty); [apply is_lim_exp_m|apply (is_lim_opp f p_infty p_infty L)|]. exists 0. intros. discriminate.
Qed.
Lemma gaussian_tot : forall p, 0 < ga_sigma p -> total_flux (ga_xValue p) (ga_flux p * (2 * PI * inv_twopi)).
Proof.
  intros p S.
    unfold total_flux. apply (is_lim_ext_loc (fun r => ga_flux p * (2 * PI * inv_twopi) * (1 - exp (- ((r / ga_sigma p) ^ 2 / 2))))).
    { exists 0. intros x X. rewrite gaussian_within by lra. do 3 f_equal. field. lra. }
    replace (Finite (ga_flux p * (2 * PI * inv_twopi))) with (Rbar_mult (ga_flux p * (2 * PI * inv_twopi)) (Finite (1 - 0))) by (cbn; f_equal; ring).
    apply is_lim_scal_l. apply (is_lim_minus' (fun _ => 1)); [apply is_lim_const|]. apply lim_exp_minus.
    apply is_lim_spec. intro M. exists (Rmax (ga_sigma p) (ga_sigma p * (2 * M))). intros x X. pose proof (Rmax_l (ga_sigma p) (ga_sigma p * (2 * M))). pose proof (Rmax_r (ga_sigma p) (ga_sigma p * (2 * M))).
    assert (Q1 : 1 < x / ga_sigma p) by (apply (Rmult_lt_reg_r (ga_sigma p)); [lra|]; replace (x / ga_sigma p * ga_sigma p) with x by (field; lra); lra).
    assert (Q2 : 2 * M < x / ga_sigma p) by (apply (Rmult_lt_reg_r (ga_sigma p)); [lra|]; replace (x / ga_sigma p * ga_sigma p) with x by (field; lra); lra).
    cbn [pow]. nra.
Qed.
Lemma gaussian_total : forall p, 0 < ga_sigma p -> exists f, total_flux (ga_xValue p) f /\ Rabs (f - ga_flux p) <= 1 / 10 ^ 16 * Rabs (ga_flux p).
Proof.
  intros p S. exists (ga_flux p * (2 * PI * inv_twopi)). split.
  - now apply gaussian_tot.
  - replace (ga_flux p * (2 * PI * inv_twopi) - ga_flux p) with ((2 * PI * inv_twopi - 1) * ga_flux p) by ring. rewrite Rabs_mult. apply Rmult_le_compat_r; [apply Rabs_pos|apply twopi_near].
Qed.

(** Exponential *)
Lemma exponential_circular : forall p, circular (ex_xValue p).
Proof.
  intros p x y. unfold ex_xValue, norm2. cbn [fst snd]. rewrite sqrt_sqrt by nra. do 5 f_equal. ring.
Qed.
Lemma sqrt_self : forall t, 0 <= t -> sqrt (t * t + 0 * 0) = t.
Proof. intros t T. replace (t * t + 0 * 0) with (t * t) by ring. now apply sqrt_square. Qed.
Lemma exponential_within : forall p r, 0 < ex_r0 p -> 0 <= r ->
  flux_within (ex_xValue p) r = ex_flux p * (2 * PI * inv_twopi) * (1 - (1 + r / ex_r0 p) * exp (- (r / ex_r0 p))).
Proof.
  intros p r S H. unfold flux_within. apply is_RInt_unique. set (s := ex_r0 p) in *.
  set (G := fun t => - (ex_flux p * (2 * PI * inv_twopi)) * ((1 + t / s) * exp (- (t / s)))).
  replace (ex_flux p * (2 * PI * inv_twopi) * (1 - (1 + r / s) * exp (- (r / s)))) with (G r - G 0).
  2:{ unfold G. replace (0 / s) with 0 by (field; lra). rewrite Ropp_0, exp_0. ring. }
  apply (is_RInt_ext (fun t => 2 * PI * t * (ex_norm p * exp (- t / s)))).
  { intros t T. rewrite Rmin_left, Rmax_right in T by lra. unfold ex_xValue, norm2. cbn [fst snd]. rewrite sqrt_self by lra. unfold ex_inv_r0. fold s. do 3 f_equal. field. lra. }
  apply radial_rint; [exact H| |].
  - intro x. unfold G. auto_derive; [exact I|]. unfold ex_norm, ex_inv_r0. fold s.
    replace (- x / s) with (- (x * / s)) by (field; lra). generalize (exp (- (x * / s))). intro z. field. lra.
  - intro x. apply (@ex_derive_continuous _ R_NormedModule). auto_derive. exact I.
Qed.
Lemma ex_hlr_near : Rabs ((1 + ex_hlr_factor) * exp (- ex_hlr_factor) - 1 / 2) <= 2 / 10 ^ 16.
Proof.
  set (x := (1356693980033321 # 9356693980033321)%Q).
  pose proof (log_q x 14 (2920526288967699772993 # 10000000000000000000000) (2920526288967699772996 # 10000000000000000000000) ltac:(vm_compute; reflexivity) ltac:(vm_compute; reflexivity) ltac:(vm_compute; reflexivity) ltac:(vm_compute; reflexivity)) as L.
  assert (E : (1 + Q2R x) / (1 - Q2R x) = (1 + ex_hlr_factor) / 2) by (unfold ex_hlr_factor, x, Q2R; cbn [Qnum Qden]; field). rewrite E in L.
  assert (P : 0 < 1 + ex_hlr_factor) by (unfold ex_hlr_factor; lra). rewrite ln_div in L by lra. destruct ln2_bounds as [A B].
  assert (D : Rabs (ln (1 + ex_hlr_factor) + ln 2 - ex_hlr_factor) <= 1 / 10 ^ 16).
  { revert A B L. generalize (ln (1 + ex_hlr_factor)) (ln 2). intros a b A B L. unfold ex_hlr_factor, ln2_lo, ln2_hi, Q2R in *. cbn [Qnum Qden] in *. apply Rabs_le_between. lra. }
  replace ((1 + ex_hlr_factor) * exp (- ex_hlr_factor)) with (1 / 2 * exp (ln (1 + ex_hlr_factor) + ln 2 - ex_hlr_factor)).
  2:{ unfold Rminus. rewrite !exp_plus, !exp_ln by lra. field. }
  pose proof (exp_near _ _ D ltac:(lra)) as N. apply Rabs_le_between in N. apply Rabs_le_between. lra.
Qed.
Lemma exponential_half : forall p, 0 < ex_r0 p -> Rabs (flux_within (ex_xValue p) (ex_half_light_radius p) - ex_flux p * (1 / 2)) <= 4 / 10 ^ 16 * Rabs (ex_flux p).
Proof.
  intros p S. unfold ex_half_light_radius. assert (H : 0 <= ex_hlr_factor) by (unfold ex_hlr_factor; lra). rewrite exponential_within by nra.
  replace (ex_r0 p * ex_hlr_factor / ex_r0 p) with ex_hlr_factor by (field; lra). apply near_flux; [apply twopi_near| |lra].
  pose proof ex_hlr_near as N. apply Rabs_le_between in N. apply Rabs_le_between. lra.
Qed.
Lemma tail_small : forall x, 0 <= x -> (1 + x) * exp (- x) <= 2 / (1 + x).
Proof.
  intros x X. assert (E : (1 + x) * (1 + x) / 2 <= exp x).
  { pose proof (grows (fun t => exp t - (1 + t) * (1 + t) / 2) (fun t => exp t - (1 + t)) x X) as G. cbv beta in G. rewrite exp_0 in G.
    assert (1 - (1 + 0) * (1 + 0) / 2 <= exp x - (1 + x) * (1 + x) / 2); [|lra]. apply G; [intros t T; auto_derive; [exact I|field]|]. intros t T. pose proof (exp_ineq1_le t). lra. }
  rewrite exp_Ropp. apply (Rmult_le_reg_r (exp x * (1 + x))); [pose proof (exp_pos x); nra|]. replace ((1 + x) * / exp x * (exp x * (1 + x))) with ((1 + x) * (1 + x)) by (field; pose proof (exp_pos x); lra).
  replace (2 / (1 + x) * (exp x * (1 + x))) with (2 * exp x) by (field; lra). lra.
Qed.
Lemma exponential_tot : forall p, 0 < ex_r0 p -> total_flux (ex_xValue p) (ex_flux p * (2 * PI * inv_twopi)).
Proof.
  intros p S.
    unfold total_flux. apply (is_lim_ext_loc (fun r => ex_flux p * (2 * PI * inv_twopi) * (1 - (1 + r / ex_r0 p) * exp (- (r / ex_r0 p))))).
    { exists 0. intros x X. rewrite exponential_within by lra. reflexivity. }
    replace (Finite (ex_flux p * (2 * PI * inv_twopi))) with (Rbar_mult (ex_flux p * (2 * PI * inv_twopi)) (Finite (1 - 0))) by (cbn; f_equal; ring).
    apply is_lim_scal_l. apply (is_lim_minus' (fun _ => 1)); [apply is_lim_const|]. apply is_lim_spec. intro e. pose proof (cond_pos e) as EP. exists (ex_r0 p * (2 / e)). intros x X. rewrite Rminus_0_r.
    assert (Q : 2 / e < x / ex_r0 p) by (apply (Rmult_lt_reg_r (ex_r0 p)); [lra|]; replace (x / ex_r0 p * ex_r0 p) with x by (field; lra); lra).
    assert (Z : 0 < 2 / e) by (apply Rmult_lt_0_compat; [lra|apply Rinv_0_lt_compat; lra]). rewrite Rabs_pos_eq by (apply Rmult_le_pos; [lra|apply Rlt_le, exp_pos]).
    eapply Rle_lt_trans; [apply tail_small; lra|]. apply (Rmult_lt_reg_r (1 + x / ex_r0 p)); [lra|]. unfold Rdiv at 1. rewrite Rmult_assoc, Rinv_l by lra.
    assert (2 = e * (2 / e)) by (field; lra). nra.
Qed.
Lemma exponential_total : forall p, 0 < ex_r0 p -> exists f, total_flux (ex_xValue p) f /\ Rabs (f - ex_flux p) <= 1 / 10 ^ 16 * Rabs (ex_flux p).
Proof.
  intros p S. exists (ex_flux p * (2 * PI * inv_twopi)). split.
  - now apply exponential_tot.
  - replace (ex_flux p * (2 * PI * inv_twopi) - ex_flux p) with ((2 * PI * inv_twopi - 1) * ex_flux p) by ring. rewrite Rabs_mult. apply Rmult_le_compat_r; [apply Rabs_pos|apply twopi_near].
Qed.
