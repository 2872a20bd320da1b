(** Property C140: an exponential profile drawn through Fourier space. *)
From Coq Require Import ZArith Reals Bool Lra Lia.
From Coquelicot Require Import Coquelicot.
From Verif Require Import Base Array_Model Bounds_Model Bounds_Spec Bounds_Proofs Wrap_Model Image_Model Image_Spec Image_Proofs FFT_Model FFT_Spec FFT_Proofs GSP_Model DrawF_Props Size_Model Size_Band Size_Props DrawF_Model DrawF_Spec DrawF_Sum DrawF_Poisson DrawF_Gauss DrawF_Main DrawF_Num DrawE_Spec DrawE_Model DrawE_Sum DrawE_Mix DrawE_Main DrawE_Draw DrawE_Own.
Open Scope R_scope.

(** * C140 *)
(** Without a pixel (method no_pixel): each pixel is the area times the surface brightness at its centre, up to the images (at
    twice the reach pi / stepk) and the waves beyond maxk, relative to the peak. The cusp at the centre makes the second error
    fall only like 1 / maxk. *)
Theorem C140_exponential_values : forall minfft maxfft maxk stepk scale im kb N dk, okb (ibnd im) -> centred (ibnd im) -> 0 < scale -> 0 < stepk -> 0 < maxk ->
  Z.even minfft = true -> minfft <> maxfft -> (maxfft < 131072)%Z -> idt im = false -> makeKImage minfft maxfft maxk stepk scale (ibnd im) = Ok (kb, N, dk) ->
  forall p, 0 < ex_r0 p -> exists r, drawFFT minfft maxfft (expo_kval p) maxk stepk scale im = Ok r /\ eqI (ibnd r) (ibnd im) = true /\
    forall x y, includesI (ibnd im) x y = true -> exists v, getValue r x y = Ok v /\
      Rabs (v - scale ^ 2 * expo_density (ex_flux p) (ex_r0 p) (IZR x * scale) (IZR y * scale)) <=
        scale ^ 2 * Rabs (expo_density (ex_flux p) (ex_r0 p) 0 0) * (expo_fold (PI / stepk * (1 - / 1000000000000) / ex_r0 p) + expo_cut (maxk * ex_r0 p)).
Proof. exact expo_points. Qed.
Print Assumptions C140_exponential_values.
(** Convolved with the pixel (method auto or fft): each pixel is the integral of the surface brightness over it. *)
Theorem C140_exponential_pixels : forall minfft maxfft maxk stepk scale im kb N dk, okb (ibnd im) -> centred (ibnd im) -> 0 < scale -> 0 < stepk -> 0 < maxk ->
  Z.even minfft = true -> minfft <> maxfft -> (maxfft < 131072)%Z -> idt im = false -> makeKImage minfft maxfft maxk stepk scale (ibnd im) = Ok (kb, N, dk) ->
  forall p g, 0 < ex_r0 p -> scale / 2 < PI / stepk * (1 - / 1000000000000) -> exists r, drawFFT minfft maxfft (conv_pixel (expo_kval p) scale g) maxk stepk scale im = Ok r /\ eqI (ibnd r) (ibnd im) = true /\
    forall x y, includesI (ibnd im) x y = true -> exists v, getValue r x y = Ok v /\
      Rabs (v - expo_pixel (ex_flux p) (ex_r0 p) scale (IZR x * scale) (IZR y * scale)) <=
        scale ^ 2 * Rabs (expo_density (ex_flux p) (ex_r0 p) 0 0) * (expo_fold ((PI / stepk * (1 - / 1000000000000) - scale / 2) / ex_r0 p) + expo_cut (maxk * ex_r0 p)).
Proof. exact expo_pixels. Qed.
Print Assumptions C140_exponential_pixels.
(** With the profile's own maxk and stepk, thresholds at least as strict as the defaults, the bound is three tenths of the peak;
    almost all of it is the waves left out. *)
Theorem C140_default_values : forall minfft maxfft p scale im kb N dk, okb (ibnd im) -> centred (ibnd im) -> 0 < scale ->
  0 < ex_r0 p -> 0 < g_maxk (ex_gs p) <= 1 / 1000 -> 0 < g_fold (ex_gs p) < 1 -> 5 <= g_hlr (ex_gs p) ->
  Z.even minfft = true -> minfft <> maxfft -> (maxfft < 131072)%Z -> idt im = false -> makeKImage minfft maxfft (ex_maxk p) (ex_stepk p) scale (ibnd im) = Ok (kb, N, dk) ->
  exists r, drawFFT minfft maxfft (expo_kval p) (ex_maxk p) (ex_stepk p) scale im = Ok r /\ eqI (ibnd r) (ibnd im) = true /\
    forall x y, includesI (ibnd im) x y = true -> exists v, getValue r x y = Ok v /\
      Rabs (v - scale ^ 2 * expo_density (ex_flux p) (ex_r0 p) (IZR x * scale) (IZR y * scale)) <= scale ^ 2 * Rabs (expo_density (ex_flux p) (ex_r0 p) 0 0) * (3 / 10).
Proof.
  intros minfft maxfft p scale im kb N dk HB HC SC SP T F HL EV NE LT FL OK. destruct (own_default p SP T F HL) as (A & B & C).
  destruct (expo_points minfft maxfft _ _ scale im kb N dk HB HC SC B A EV NE LT FL OK p SP) as (r & R1 & R2 & R3). exists r. split; [exact R1|]. split; [exact R2|]. intros x y I. destruct (R3 x y I) as (v & V & E). exists v. split; [exact V|].
  eapply Rle_trans; [exact E|]. apply Rmult_le_compat_l; [apply Rmult_le_pos; [apply pow_le; lra|apply Rabs_pos]|exact C].
Qed.
Print Assumptions C140_default_values.
(** As maxk_threshold goes to zero and stepk_minimum_hlr to infinity the drawn image converges to the profile, in every pixel and
    uniformly over profiles, scales and images, as long as the FFT is not refused for its size. *)
Theorem C140_converges : forall eps, 0 < eps -> exists delta, 0 < delta /\ forall minfft maxfft p scale im kb N dk, okb (ibnd im) -> centred (ibnd im) -> 0 < scale ->
  0 < ex_r0 p -> 0 < g_maxk (ex_gs p) <= delta -> 0 < g_fold (ex_gs p) < 1 -> / delta <= g_hlr (ex_gs p) ->
  Z.even minfft = true -> minfft <> maxfft -> (maxfft < 131072)%Z -> idt im = false -> makeKImage minfft maxfft (ex_maxk p) (ex_stepk p) scale (ibnd im) = Ok (kb, N, dk) ->
  exists r, drawFFT minfft maxfft (expo_kval p) (ex_maxk p) (ex_stepk p) scale im = Ok r /\ eqI (ibnd r) (ibnd im) = true /\
    forall x y, includesI (ibnd im) x y = true -> exists v, getValue r x y = Ok v /\
      Rabs (v - scale ^ 2 * expo_density (ex_flux p) (ex_r0 p) (IZR x * scale) (IZR y * scale)) <= scale ^ 2 * Rabs (expo_density (ex_flux p) (ex_r0 p) 0 0) * eps.
Proof.
  intros eps EP. destruct (own_limit eps EP) as (delta & DP & H). exists delta. split; [exact DP|].
  intros minfft maxfft p scale im kb N dk HB HC SC SP T F HL EV NE LT FL OK. destruct (H p SP T F HL) as (A & B & C).
  destruct (expo_points minfft maxfft _ _ scale im kb N dk HB HC SC B A EV NE LT FL OK p SP) as (r & R1 & R2 & R3). exists r. split; [exact R1|]. split; [exact R2|]. intros x y I. destruct (R3 x y I) as (v & V & E). exists v. split; [exact V|].
  eapply Rle_trans; [exact E|]. apply Rmult_le_compat_l; [apply Rmult_le_pos; [apply pow_le; lra|apply Rabs_pos]|exact C].
Qed.
Print Assumptions C140_converges.

(** * An exponential with r0 = 7/2 and flux -3 on an image of 33 x 20 pixels *)
Definition ex_e : exponential := Exn (7 / 2) (-3) gs_def.
Lemma ln_half : forall z, 0 < z -> ln z <= z / 2.
Proof.
  intros z Z. pose proof (exp_ineq1_le (z / 2 - 1)) as E. assert (E1 : 2 <= exp 1) by (pose proof (exp_ineq1_le 1); lra). assert (P : exp (z / 2) = exp (z / 2 - 1) * exp 1) by (rewrite <- exp_plus; f_equal; ring).
  rewrite <- (ln_exp (z / 2)). apply ln_le; [exact Z|]. rewrite P. pose proof (exp_pos (z / 2 - 1)). nra.
Qed.
Lemma ex_e_step : 0 < ex_stepk ex_e /\ 2 * PI / ex_stepk ex_e <= 126.
Proof.
  destruct (own_default ex_e ltac:(cbn; lra) ltac:(cbn; lra) ltac:(cbn; lra) ltac:(cbn; lra)) as (_ & B & _). split; [exact B|].
  destruct (ex_step_radius ex_e ltac:(cbn; lra) ltac:(cbn; lra)) as [M1 M2]. cbv zeta in M1, M2. replace (2 * PI / ex_stepk ex_e) with (2 * (PI / ex_stepk ex_e)) by (unfold Rdiv; ring). rewrite M2. set (m := Rmax _ _). assert (ML : m <= 18); [|cbn [ex_r0 ex_e]; lra].
  unfold m. apply Rmax_lub; [|cbn; unfold ex_hlr_factor; lra]. rewrite ex_radius_eq. cbv zeta. cbn [ex_gs ex_e g_fold gs_def gs_ex]. set (L := - ln (5 / 1000)).
  assert (L7 : L <= 7). { unfold L. rewrite <- ln_Rinv by lra. replace (/ (5 / 1000)) with 200 by field. rewrite <- (ln_exp 7). apply ln_le; [lra|]. pose proof (exp_ineq1_le (7 / 16)) as E. replace 7 with (INR 16 * (7 / 16)) by (rewrite INR_IZR_INZ; cbn [Z.of_nat Pos.of_succ_nat Pos.succ]; field). rewrite <- exp_pow. apply Rle_trans with ((1 + 7 / 16) ^ 16); [lra|]. apply pow_incr. lra. }
  assert (L0 : 0 <= L). { unfold L. assert (ln (5 / 1000) <= ln 1) by (apply ln_le; lra). rewrite ln_1 in *. lra. }
  assert (LP : forall y, 0 <= y -> 0 <= ln (1 + y)) by (intros y Y; rewrite <- ln_1; apply ln_le; lra). pose proof (ln_half (1 + L) ltac:(lra)). pose proof (LP L L0). set (a := L + ln (1 + L)) in *. pose proof (ln_half (1 + a) ltac:(unfold a; lra)). pose proof (LP a ltac:(unfold a; lra)). set (b := L + ln (1 + a)) in *. pose proof (ln_half (1 + b) ltac:(unfold b; lra)). assert (a <= 11) by (unfold a; lra). assert (b <= 13) by (unfold b; lra). lra.
Qed.
Lemma ex_e_maxk : ex_maxk ex_e < PI.
Proof.
  destruct (own ex_e ltac:(cbn; lra) ltac:(cbn; lra) ltac:(cbn; lra) ltac:(cbn; lra)) as (A & _ & C & _). cbn [ex_gs ex_e ex_r0 g_maxk gs_def gs_ex] in C. set (k := ex_maxk ex_e) in *. assert (K : k * (7 / 2) <= 10). { apply Rnot_lt_le. intro N. assert (10 ^ 3 < (k * (7 / 2)) ^ 3) by (cbn [pow]; assert (100 < k * (7 / 2) * (k * (7 / 2))) by nra; nra). nra. }
  pose proof PI2_3_2 as P. unfold PI2 in P. lra.
Qed.
Example C140_ex : exists r v, drawFFT 128 4096 (expo_kval ex_e) (ex_maxk ex_e) (ex_stepk ex_e) 1 ex_im = Ok r /\ getValue r 3 (-4) = Ok v /\
  Rabs (v - - (3 / (2 * PI * (7 / 2) ^ 2)) * exp (- (10 / 7))) <= 3 / (2 * PI * (7 / 2) ^ 2) * (3 / 10).
Proof.
  destruct ex_ok as (E1 & E2 & E3). pose proof PI_RGT_0 as PP. destruct ex_e_step as [B T]. destruct (make_128 _ _ (ibnd ex_im) E3 B T ex_e_maxk) as [dk D].
  destruct (C140_default_values 128 4096 ex_e 1 ex_im _ _ dk E1 E2 ltac:(lra) ltac:(cbn; lra) ltac:(cbn; lra) ltac:(cbn; lra) ltac:(cbn; lra) eq_refl ltac:(lia) ltac:(lia) eq_refl D) as (r & R1 & _ & R3).
  destruct (R3 3%Z (-4)%Z eq_refl) as (v & V & E). exists r, v. split; [exact R1|]. split; [exact V|]. revert E. unfold expo_density. cbn [ex_flux ex_r0 ex_e].
  replace (sqrt ((3 * 1) ^ 2 + (-4 * 1) ^ 2)) with 5 by (replace ((3 * 1) ^ 2 + (-4 * 1) ^ 2) with (5 * 5) by ring; symmetry; apply sqrt_square; lra). replace (sqrt (0 ^ 2 + 0 ^ 2)) with 0 by (replace (0 ^ 2 + 0 ^ 2) with 0 by ring; symmetry; apply sqrt_0).
  replace (5 / (7 / 2)) with (10 / 7) by field. replace (- (0 / (7 / 2))) with 0 by field. rewrite exp_0, Rmult_1_r. assert (Q : 0 < 3 / (2 * PI * (7 / 2) ^ 2)) by (apply Rdiv_lt_0_compat; lra). replace (-3 / (2 * PI * (7 / 2) ^ 2)) with (- (3 / (2 * PI * (7 / 2) ^ 2))) by (field; lra). rewrite Rabs_Ropp, (Rabs_pos_eq (3 / (2 * PI * (7 / 2) ^ 2))) by lra.
  rewrite pow1, !Rmult_1_l. intro E. exact E.
Qed.
