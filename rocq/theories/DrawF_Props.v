(** Properties C137 and C138: what drawFFT draws. *)
From Coq Require Import ZArith Reals Bool Lra Lia.
From Coquelicot Require Import Coquelicot.
From Verif Require Import Base Array_Model Bounds_Model Bounds_Spec Bounds_Proofs Wrap_Model Image_Model Image_Spec Image_Proofs FFT_Model FFT_Spec FFT_Proofs GSP_Model Size_Model Size_Props DrawF_Model DrawF_Spec DrawF_Sum DrawF_Poisson DrawF_Gauss DrawF_Main DrawF_Num.
Open Scope R_scope.

(** * C137 *)
(** For every profile whose kValue is the transform of something real, every pixel is the pixel area times the Fourier sum over the
    square of waves that reaches maxk, at the centre of the pixel (rounded half to even for an integer image). The spacing dk of
    the waves fits the period N scale exactly. Whatever was lost or added twice in the folding, in the half plane or in the
    cyclic shifts would show here. *)
Theorem C137_fourier_sum : forall minfft maxfft kval maxk stepk scale im kb N dk, hermitian kval ->
  okb (ibnd im) -> centred (ibnd im) -> 0 < scale -> 0 < stepk -> Z.even minfft = true -> minfft <> maxfft -> (maxfft < 131072)%Z ->
  makeKImage minfft maxfft maxk stepk scale (ibnd im) = Ok (kb, N, dk) ->
  exists M s, drawFFT minfft maxfft kval maxk stepk scale im = Ok s /\ eqI (ibnd s) (ibnd im) = true /\ idt s = idt im /\
    dk * (IZR N * scale) = 2 * PI /\ (getGoodImageSize scale stepk <= N)%Z /\ (image_N (ibnd im) <= N)%Z /\ (1 <= M)%Z /\ maxk <= IZR M * dk /\
    forall x y, includesI (ibnd im) x y = true -> getValue s x y = Ok (rcast Tr (idt im) (scale ^ 2 * inverse_sum kval dk M (IZR x * scale) (IZR y * scale))).
Proof. exact drawFFT_sum. Qed.
Print Assumptions C137_fourier_sum.
(** With all waves the sum is the profile and all its images at multiples of the period (Poisson summation), here along one
    axis for a Gaussian of any width. *)
Theorem C137_folding : forall s L x, 0 < s -> 0 < L -> Rabs x <= L ->
  is_series (fun m => match m with O => gd s x | S _ => gd s (x + INR m * L) + gd s (x - INR m * L) end)
    (Series (fun i => match i with O => gk s 0 / L | S _ => 2 * gk s (INR i * (2 * PI / L)) / L * cos (INR i * (2 * PI / L) * x) end)).
Proof. intros s L x SP LP X. destruct (gauss_poisson s L (2 * PI / L) SP LP ltac:(field; lra) x X) as (A & _ & E). cbv beta in E. unfold har in E. rewrite <- E. apply Series_correct. exact A. Qed.
Print Assumptions C137_folding.

(** * C138 *)
(** A Gaussian drawn without a pixel (method no_pixel): each pixel is the area times the surface brightness at the centre, up to
    the images (at twice the reach pi / stepk) and the waves beyond maxk, relative to the peak. *)
Theorem C138_gaussian_values : forall minfft maxfft maxk stepk scale im kb N dk, okb (ibnd im) -> centred (ibnd im) -> 0 < scale -> 0 < stepk -> 0 < maxk ->
  Z.even minfft = true -> minfft <> maxfft -> (maxfft < 131072)%Z -> idt im = false -> makeKImage minfft maxfft maxk stepk scale (ibnd im) = Ok (kb, N, dk) ->
  forall p, 0 < ga_sigma p -> exists r, drawFFT minfft maxfft (gauss_kval p) maxk stepk scale im = Ok r /\ eqI (ibnd r) (ibnd im) = true /\
    forall x y, includesI (ibnd im) x y = true -> exists v, getValue r x y = Ok v /\
      Rabs (v - scale ^ 2 * gauss_density (ga_flux p) (ga_sigma p) (IZR x * scale) (IZR y * scale)) <=
        scale ^ 2 * Rabs (gauss_density (ga_flux p) (ga_sigma p) 0 0) * both_err (fold_err (ga_sigma p) (PI / stepk * (1 - / 1000000000000)) 0 + cut_err (maxk * ga_sigma p)).
Proof. exact gauss_points. Qed.
Print Assumptions C138_gaussian_values.
(** Convolved with the pixel (method auto or fft): each pixel is the integral of the surface brightness over it. *)
Theorem C138_gaussian_pixels : forall minfft maxfft maxk stepk scale im kb N dk, okb (ibnd im) -> centred (ibnd im) -> 0 < scale -> 0 < stepk -> 0 < maxk ->
  Z.even minfft = true -> minfft <> maxfft -> (maxfft < 131072)%Z -> idt im = false -> makeKImage minfft maxfft maxk stepk scale (ibnd im) = Ok (kb, N, dk) ->
  forall p, 0 < ga_sigma p -> scale / 2 <= PI / stepk * (1 - / 1000000000000) -> exists r, drawFFT minfft maxfft (pixel_kval p scale) maxk stepk scale im = Ok r /\ eqI (ibnd r) (ibnd im) = true /\
    forall x y, includesI (ibnd im) x y = true -> exists v, getValue r x y = Ok v /\
      Rabs (v - gauss_pixel (ga_flux p) (ga_sigma p) scale (IZR x * scale) (IZR y * scale)) <=
        scale ^ 2 * Rabs (gauss_density (ga_flux p) (ga_sigma p) 0 0) * both_err (fold_err (ga_sigma p) (PI / stepk * (1 - / 1000000000000)) (scale / 2) + cut_err (maxk * ga_sigma p)).
Proof. exact gauss_pixels. Qed.
Print Assumptions C138_gaussian_pixels.
(** With the profile's own maxk and stepk, thresholds at least as strict as the defaults, the error is below 5e-4 of the peak. *)
Theorem C138_default_values : forall minfft maxfft p scale im kb N dk, okb (ibnd im) -> centred (ibnd im) -> 0 < scale ->
  0 < ga_sigma p -> 0 < g_maxk (ga_gs p) <= 1 / 1000 -> 5 <= g_hlr (ga_gs p) ->
  Z.even minfft = true -> minfft <> maxfft -> (maxfft < 131072)%Z -> idt im = false -> makeKImage minfft maxfft (ga_maxk p) (ga_stepk p) scale (ibnd im) = Ok (kb, N, dk) ->
  exists r, drawFFT minfft maxfft (gauss_kval p) (ga_maxk p) (ga_stepk p) scale im = Ok r /\ eqI (ibnd r) (ibnd im) = true /\
    forall x y, includesI (ibnd im) x y = true -> exists v, getValue r x y = Ok v /\
      Rabs (v - scale ^ 2 * gauss_density (ga_flux p) (ga_sigma p) (IZR x * scale) (IZR y * scale)) <= scale ^ 2 * Rabs (gauss_density (ga_flux p) (ga_sigma p) 0 0) * (5 / 10000).
Proof.
  intros minfft maxfft p scale im kb N dk HB HC SC SP T HL EV NE LT FL OK. destruct (own_err p SP T HL) as (A & B & C).
  destruct (gauss_points minfft maxfft _ _ scale im kb N dk HB HC SC B A EV NE LT FL OK p SP) as (r & R1 & R2 & R3). exists r. split; [exact R1|]. split; [exact R2|]. intros x y I. destruct (R3 x y I) as (v & V & E). exists v. split; [exact V|].
  eapply Rle_trans; [exact E|]. apply Rmult_le_compat_l; [apply Rmult_le_pos; [apply pow_le; lra|apply Rabs_pos]|exact C].
Qed.
Print Assumptions C138_default_values.
(** Likewise for the convolution with the pixel, with the maxk and stepk of the convolution, below 6e-4, as long as the pixel is not
    500 times wider than the Gaussian. *)
Theorem C138_default_pixels : forall minfft maxfft p scale im kb N dk, okb (ibnd im) -> centred (ibnd im) -> 0 < scale <= 500 * ga_sigma p ->
  0 < ga_sigma p -> 0 < g_maxk (ga_gs p) <= 1 / 1000 -> 5 <= g_hlr (ga_gs p) ->
  Z.even minfft = true -> minfft <> maxfft -> (maxfft < 131072)%Z -> idt im = false -> makeKImage minfft maxfft (pixel_maxk p scale) (pixel_stepk p scale) scale (ibnd im) = Ok (kb, N, dk) ->
  exists r, drawFFT minfft maxfft (pixel_kval p scale) (pixel_maxk p scale) (pixel_stepk p scale) scale im = Ok r /\ eqI (ibnd r) (ibnd im) = true /\
    forall x y, includesI (ibnd im) x y = true -> exists v, getValue r x y = Ok v /\
      Rabs (v - gauss_pixel (ga_flux p) (ga_sigma p) scale (IZR x * scale) (IZR y * scale)) <= scale ^ 2 * Rabs (gauss_density (ga_flux p) (ga_sigma p) 0 0) * (6 / 10000).
Proof.
  intros minfft maxfft p scale im kb N dk HB HC SC SP T HL EV NE LT FL OK. destruct (pixel_err p scale SP SC T HL) as (A & B & D & C).
  destruct (gauss_pixels minfft maxfft _ _ scale im kb N dk HB HC (proj1 SC) B A EV NE LT FL OK p SP D) as (r & R1 & R2 & R3). exists r. split; [exact R1|]. split; [exact R2|]. intros x y I. destruct (R3 x y I) as (v & V & E). exists v. split; [exact V|].
  eapply Rle_trans; [exact E|]. apply Rmult_le_compat_l; [apply Rmult_le_pos; [apply pow_le; lra|apply Rabs_pos]|exact C].
Qed.
Print Assumptions C138_default_pixels.

(** * A Gaussian with sigma 2 and flux 3 on an image of 33 x 20 pixels *)
Definition ex_im : image R bool unit := Img (Arr 20 33 (fun _ _ => 0)) (BoundsI (ArgsKwDelta (py (-16)) (py 33) (py (-10)) (py 20)))%Z false (Some false) None.
Definition ex_p : gaussian := Gau 2 3 gs_def.
Lemma ln_low : forall x n, / (5 / 4) ^ n <= x -> - (INR n / 4) <= ln x.
Proof. intros x n X. rewrite <- (ln_exp (- (INR n / 4))). apply ln_le; [apply exp_pos|]. eapply Rle_trans; [apply exp_small; apply Rle_refl|exact X]. Qed.
Lemma ex_rad : rad ex_p <= 6.
Proof.
  unfold rad, ex_p. cbn [ga_gs g_fold g_hlr gs_def gs_ex]. apply Rmax_lub; [|unfold ga_hlr_factor; lra]. rewrite <- (sqrt_square 6) by lra. apply sqrt_le_1_alt. pose proof (ln_low (5 / 1000) 72) as L. replace (INR 72) with 72 in L by (rewrite INR_IZR_INZ; reflexivity). assert (X : / (5 / 4) ^ 72 <= 5 / 1000) by (replace (5 / 1000) with (/ 200) by field; apply Rinv_le_contravar; lra). specialize (L X). lra.
Qed.
Lemma ex_maxk : ga_maxk ex_p < PI.
Proof.
  unfold ga_maxk, ex_p. cbn [ga_gs ga_sigma g_maxk gs_def gs_ex]. assert (S : sqrt (- 2 * ln (1 / 1000)) <= 6). { rewrite <- (sqrt_square 6) by lra. apply sqrt_le_1_alt. pose proof (ln_low (1 / 1000) 72) as L. replace (INR 72) with 72 in L by (rewrite INR_IZR_INZ; reflexivity). assert (X : / (5 / 4) ^ 72 <= 1 / 1000) by (replace (1 / 1000) with (/ 1000) by field; apply Rinv_le_contravar; lra). specialize (L X). lra. }
  pose proof PI2_3_2 as P. unfold PI2 in P. lra.
Qed.
Lemma ex_ok : okb (ibnd ex_im) /\ centred (ibnd ex_im) /\ (image_N (ibnd ex_im) <= 128)%Z.
Proof. split; [apply okb_delta; lia|]. split; [reflexivity|]. vm_compute. discriminate. Qed.
Example C138_ex_values : exists r v, drawFFT 128 4096 (gauss_kval ex_p) (ga_maxk ex_p) (ga_stepk ex_p) 1 ex_im = Ok r /\ getValue r 5 (-3) = Ok v /\
  Rabs (v - 3 / (8 * PI) * exp (- (34 / 8))) <= 3 / (8 * PI) * (5 / 10000).
Proof.
  destruct ex_ok as (E1 & E2 & E3). pose proof PI_RGT_0 as PP. pose proof ex_rad as RX. pose proof (rad_ge ex_p ltac:(cbn; lra)) as RL.
  destruct (own_err ex_p ltac:(cbn; lra) ltac:(cbn; lra) ltac:(cbn; lra)) as (A & B & _).
  destruct (make_128 (ga_maxk ex_p) (ga_stepk ex_p) (ibnd ex_im) E3 B) as [dk D].
  { rewrite stepk_rad. cbn [ga_sigma ex_p]. replace (2 * PI / (PI / (rad ex_p * 2))) with (4 * rad ex_p) by (field; lra). lra. }
  { exact ex_maxk. }
  destruct (C138_default_values 128 4096 ex_p 1 ex_im _ _ dk E1 E2 ltac:(lra) ltac:(cbn; lra) ltac:(cbn; lra) ltac:(cbn; lra) eq_refl ltac:(lia) ltac:(lia) eq_refl D) as (r & R1 & _ & R3).
  destruct (R3 5%Z (-3)%Z eq_refl) as (v & V & E). exists r, v. split; [exact R1|]. split; [exact V|]. revert E. unfold gauss_density. cbn [ga_flux ga_sigma ex_p].
  replace (1 ^ 2 * (3 / (2 * PI * 2 ^ 2) * exp (- (((5 * 1) ^ 2 + (-3 * 1) ^ 2) / (2 * 2 ^ 2))))) with (3 / (8 * PI) * exp (- (34 / 8))). 2:{ replace (((5 * 1) ^ 2 + (-3 * 1) ^ 2) / (2 * 2 ^ 2)) with (34 / 8) by field. field. lra. }
  replace ((0 ^ 2 + 0 ^ 2) / (2 * 2 ^ 2)) with 0 by field. rewrite Ropp_0, exp_0. rewrite (Rabs_pos_eq (3 / (2 * PI * 2 ^ 2) * 1)) by (rewrite Rmult_1_r; apply Rdiv_le_0_compat; lra). intro E. eapply Rle_trans; [exact E|]. right. field. lra.
Qed.
Example C138_ex_pixels : exists r, drawFFT 128 4096 (pixel_kval ex_p 1) (pixel_maxk ex_p 1) (pixel_stepk ex_p 1) 1 ex_im = Ok r /\ exists v, getValue r (-16) 9 = Ok v /\ Rabs (v - gauss_pixel 3 2 1 (-16) 9) <= 3 / (8 * PI) * (6 / 10000).
Proof.
  destruct ex_ok as (E1 & E2 & E3). pose proof PI_RGT_0 as PP. pose proof ex_rad as RX. pose proof (rad_ge ex_p ltac:(cbn; lra)) as RL.
  destruct (pixel_err ex_p 1 ltac:(cbn; lra) ltac:(cbn; lra) ltac:(cbn; lra) ltac:(cbn; lra)) as (A & B & _).
  assert (D : exists dk, makeKImage 128 4096 (pixel_maxk ex_p 1) (pixel_stepk ex_p 1) 1 (ibnd ex_im) = Ok (kbounds 128, 128%Z, dk)).
  { apply make_128; [exact E3|exact B| |eapply Rle_lt_trans; [apply Rmin_l|exact ex_maxk]].
    unfold pixel_stepk. set (q := sqrt _). assert (Q : q <= 20 / PI). { unfold q. rewrite stepk_rad. unfold bx_stepk, bx_maxL, pixel_box. cbn [bx_width bx_height ga_sigma ex_p]. rewrite Rmax_left by lra. replace (/ (PI / (rad ex_p * 2)) ^ 2 + / (PI / 1) ^ 2) with (((rad ex_p * 2) ^ 2 + 1) / (PI * PI)) by (field; repeat split; lra). rewrite <- (sqrt_square (20 / PI)) by (apply Rdiv_le_0_compat; lra). apply sqrt_le_1_alt. replace (20 / PI * (20 / PI)) with (400 / (PI * PI)) by (field; lra). apply Rmult_le_compat_r; [left; apply Rinv_0_lt_compat; nra|]. nra. }
    assert (Q0 : 0 < q). { unfold q. apply sqrt_lt_R0. apply Rplus_lt_0_compat; apply Rinv_0_lt_compat, pow_lt; [rewrite stepk_rad; apply Rdiv_lt_0_compat; [lra|cbn [ga_sigma ex_p]; lra]|]. unfold bx_stepk, bx_maxL, pixel_box. cbn [bx_width bx_height]. rewrite Rmax_left by lra. lra. }
    replace (2 * PI / (1 / q)) with (2 * PI * q) by (field; lra). apply Rle_trans with (2 * PI * (20 / PI)); [apply Rmult_le_compat_l; lra|]. replace (2 * PI * (20 / PI)) with 40 by (field; lra). lra. }
  destruct D as [dk D]. destruct (C138_default_pixels 128 4096 ex_p 1 ex_im _ _ dk E1 E2 ltac:(cbn; lra) ltac:(cbn; lra) ltac:(cbn; lra) ltac:(cbn; lra) eq_refl ltac:(lia) ltac:(lia) eq_refl D) as (r & R1 & _ & R3).
  exists r. split; [exact R1|]. destruct (R3 (-16)%Z 9%Z eq_refl) as (v & V & E). exists v. split; [exact V|]. revert E. rewrite !Rmult_1_r. cbn [ga_flux ga_sigma ex_p]. intro E. eapply Rle_trans; [exact E|]. unfold gauss_density. replace ((0 ^ 2 + 0 ^ 2) / (2 * 2 ^ 2)) with 0 by field. rewrite Ropp_0, exp_0. rewrite (Rabs_pos_eq (3 / (2 * PI * 2 ^ 2) * 1)) by (rewrite Rmult_1_r; apply Rdiv_le_0_compat; lra). right. field. lra.
Qed.
Example C137_ex : hermitian (gauss_kval ex_p) /\ hermitian (pixel_kval ex_p 1) /\ ~ hermitian (fun k => RtoC (fst k)).
Proof.
  split; [|split].
  - intros kx ky. unfold gauss_kval, ga_kValue, norm2, Cconj, RtoC. cbn [fst snd]. rewrite Ropp_0. f_equal. do 4 f_equal. ring.
  - intros kx ky. unfold pixel_kval, bx_kValue. rewrite !ga_k_sep. cbn [fst snd]. rewrite !gk_even, !Ropp_mult_distr_l_reverse, !sinc_even. unfold Cconj, RtoC. cbn [fst snd]. rewrite Ropp_0. reflexivity.
  - intro H. specialize (H 1 0). unfold Cconj, RtoC in H. cbn [fst snd] in H. injection H. intros. lra.
Qed.
