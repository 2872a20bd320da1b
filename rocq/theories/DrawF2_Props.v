(** Property C139: drawFFT is linear, moves with the profile, and keeps the flux. *)
From Coq Require Import ZArith Reals Bool Lra Lia.
From Coquelicot Require Import Coquelicot.
From Verif Require Import Base Array_Model Bounds_Model Bounds_Spec Bounds_Proofs Wrap_Model Image_Model Image_Spec Image_Proofs FFT_Model FFT_Spec FFT_Proofs GSP_Model Size_Model Size_Props DrawF_Model DrawF_Spec DrawF_Sum DrawF_Gauss DrawF_Main DrawF_Num DrawF_Flux DrawF_Props.
Open Scope R_scope.
(** A sum of two profiles with any weights is drawn as the sum of the two images (same grids, float image). *)
Theorem C139_linear : forall minfft maxfft maxk stepk scale im kb N dk, okb (ibnd im) -> centred (ibnd im) -> 0 < scale -> 0 < stepk ->
  Z.even minfft = true -> minfft <> maxfft -> (maxfft < 131072)%Z -> makeKImage minfft maxfft maxk stepk scale (ibnd im) = Ok (kb, N, dk) -> idt im = false ->
  forall a k1 b k2, hermitian k1 -> hermitian k2 -> exists r r1 r2, drawFFT minfft maxfft (blended a k1 b k2) maxk stepk scale im = Ok r /\
    drawFFT minfft maxfft k1 maxk stepk scale im = Ok r1 /\ drawFFT minfft maxfft k2 maxk stepk scale im = Ok r2 /\
    forall x y, includesI (ibnd im) x y = true -> exists v1 v2, getValue r1 x y = Ok v1 /\ getValue r2 x y = Ok v2 /\ getValue r x y = Ok (a * v1 + b * v2).
Proof. exact draw_blend. Qed.
Print Assumptions C139_linear.
(** A profile moved by whole pixels is drawn as the moved image, what leaves the period on one side entering on the other. *)
Theorem C139_moved : forall minfft maxfft maxk stepk scale im kb N dk, okb (ibnd im) -> centred (ibnd im) -> 0 < scale -> 0 < stepk ->
  Z.even minfft = true -> minfft <> maxfft -> (maxfft < 131072)%Z -> makeKImage minfft maxfft maxk stepk scale (ibnd im) = Ok (kb, N, dk) ->
  forall kval m n, hermitian kval -> exists r r', drawFFT minfft maxfft kval maxk stepk scale im = Ok r /\
    drawFFT minfft maxfft (moved kval (IZR m * scale) (IZR n * scale)) maxk stepk scale im = Ok r' /\
    forall x y x' y', includesI (ibnd im) x y = true -> includesI (ibnd im) x' y' = true -> ((x - m - x') mod N = 0)%Z -> ((y - n - y') mod N = 0)%Z -> getValue r' x y = getValue r x' y'.
Proof. exact draw_moved. Qed.
Print Assumptions C139_moved.
(** A profile with a real, even transform (one that a half turn leaves alone) is drawn as an image that a half turn leaves alone. *)
Theorem C139_half_turn : forall minfft maxfft maxk stepk scale im kb N dk, okb (ibnd im) -> centred (ibnd im) -> 0 < scale -> 0 < stepk ->
  Z.even minfft = true -> minfft <> maxfft -> (maxfft < 131072)%Z -> makeKImage minfft maxfft maxk stepk scale (ibnd im) = Ok (kb, N, dk) ->
  forall kval, (forall kx ky, kval (- kx, - ky) = kval (kx, ky) /\ Im (kval (kx, ky)) = 0) -> exists r, drawFFT minfft maxfft kval maxk stepk scale im = Ok r /\
    forall x y, includesI (ibnd im) x y = true -> includesI (ibnd im) (- x) (- y) = true -> getValue r (- x) (- y) = getValue r x y.
Proof. exact draw_symmetric. Qed.
Print Assumptions C139_half_turn.
(** An image that holds one whole period has the flux kValue(0, 0) as its total as long as maxk is below the sampling frequency
    (2 pi / scale less one step). *)
Theorem C139_total : forall minfft maxfft maxk stepk scale im kb N dk, okb (ibnd im) -> centred (ibnd im) -> 0 < scale -> 0 < stepk ->
  Z.even minfft = true -> minfft <> maxfft -> (maxfft < 131072)%Z -> makeKImage minfft maxfft maxk stepk scale (ibnd im) = Ok (kb, N, dk) -> idt im = false ->
  forall x0 y0, (forall x y, (x0 <= x < x0 + N)%Z -> (y0 <= y < y0 + N)%Z -> includesI (ibnd im) x y = true) -> maxk <= IZR (N - 1) * dk ->
  forall kval, hermitian kval -> exists r v, drawFFT minfft maxfft kval maxk stepk scale im = Ok r /\
    (forall x y, includesI (ibnd im) x y = true -> getValue r x y = Ok (v x y)) /\ square_sum N x0 y0 v = Re (kval (0, 0)).
Proof. exact draw_total. Qed.
Print Assumptions C139_total.
(** Without that bound the waves at multiples of the sampling frequency count as well. *)
Theorem C139_total_aliased : forall minfft maxfft maxk stepk scale im kb N dk, okb (ibnd im) -> centred (ibnd im) -> 0 < scale -> 0 < stepk ->
  Z.even minfft = true -> minfft <> maxfft -> (maxfft < 131072)%Z -> makeKImage minfft maxfft maxk stepk scale (ibnd im) = Ok (kb, N, dk) -> idt im = false ->
  forall x0 y0, (forall x y, (x0 <= x < x0 + N)%Z -> (y0 <= y < y0 + N)%Z -> includesI (ibnd im) x y = true) ->
  exists M, kb = kbounds (2 * M) /\ (1 <= M)%Z /\ dk * (IZR N * scale) = 2 * PI /\ forall kval, hermitian kval -> exists r v, drawFFT minfft maxfft kval maxk stepk scale im = Ok r /\
    (forall x y, includesI (ibnd im) x y = true -> getValue r x y = Ok (v x y)) /\ square_sum N x0 y0 v = lattice_sum kval dk M N.
Proof. exact draw_total_gen. Qed.
Print Assumptions C139_total_aliased.
(** Convolved with the pixel (methods auto and fft) any profile keeps its flux exactly, whatever maxk is: the transform of the pixel
    vanishes at the multiples of the sampling frequency. *)
Theorem C139_total_pixel : forall minfft maxfft maxk stepk scale im kb N dk, okb (ibnd im) -> centred (ibnd im) -> 0 < scale -> 0 < stepk ->
  Z.even minfft = true -> minfft <> maxfft -> (maxfft < 131072)%Z -> makeKImage minfft maxfft maxk stepk scale (ibnd im) = Ok (kb, N, dk) -> idt im = false ->
  forall x0 y0, (forall x y, (x0 <= x < x0 + N)%Z -> (y0 <= y < y0 + N)%Z -> includesI (ibnd im) x y = true) ->
  forall kval g, hermitian kval -> exists r v, drawFFT minfft maxfft (conv_pixel kval scale g) maxk stepk scale im = Ok r /\
    (forall x y, includesI (ibnd im) x y = true -> getValue r x y = Ok (v x y)) /\ square_sum N x0 y0 v = Re (kval (0, 0)).
Proof. exact draw_pixel_total. Qed.
Print Assumptions C139_total_pixel.

(** * C137, integer images *)
(** On an integer image each pixel is the integer nearest to the Fourier sum, the even one of two that are equally near. *)
Theorem C137_integer_images : forall minfft maxfft kval maxk stepk scale im kb N dk, hermitian kval ->
  okb (ibnd im) -> centred (ibnd im) -> 0 < scale -> 0 < stepk -> Z.even minfft = true -> minfft <> maxfft -> (maxfft < 131072)%Z ->
  makeKImage minfft maxfft maxk stepk scale (ibnd im) = Ok (kb, N, dk) -> idt im = true ->
  exists M s, drawFFT minfft maxfft kval maxk stepk scale im = Ok s /\ (1 <= M)%Z /\ maxk <= IZR M * dk /\
    forall x y, includesI (ibnd im) x y = true -> exists z, getValue s x y = Ok (IZR z) /\
      let t := scale ^ 2 * inverse_sum kval dk M (IZR x * scale) (IZR y * scale) in Rabs (IZR z - t) <= 1 / 2 /\ (Rabs (IZR z - t) = 1 / 2 -> Z.even z = true).
Proof. exact draw_integer. Qed.
Print Assumptions C137_integer_images.

(** * The Gaussian of C138 (sigma 2, flux 3), in the middle and moved by (5, -7) pixels, on an image of 128 x 128 pixels *)
Definition ex2_im : image R bool unit := Img (Arr 128 128 (fun _ _ => 0)) (BoundsI (ArgsKwDelta (py (-64)) (py 128) (py (-64)) (py 128)))%Z false (Some false) None.
Lemma ex2_ok : okb (ibnd ex2_im) /\ centred (ibnd ex2_im) /\ (image_N (ibnd ex2_im) <= 128)%Z.
Proof. split; [apply okb_delta; lia|]. split; [reflexivity|]. vm_compute. discriminate. Qed.
Lemma ex2_in : forall x y, (-64 <= x < -64 + 128)%Z -> (-64 <= y < -64 + 128)%Z -> includesI (ibnd ex2_im) x y = true.
Proof. intros x y X Y. apply includesI_iff. split; [reflexivity|]. unfold rectZ. vm_compute (nv _). cbn. lia. Qed.
Lemma ex2_make : exists dk, makeKImage 128 4096 (ga_maxk ex_p) (ga_stepk ex_p) 1 (ibnd ex2_im) = Ok (kbounds 128, 128%Z, dk).
Proof.
  destruct ex2_ok as (E1 & E2 & E3). pose proof PI_RGT_0 as PP. pose proof ex_rad as RX. pose proof (rad_ge ex_p ltac:(cbn; lra)) as RL.
  destruct (own_err ex_p ltac:(cbn; lra) ltac:(cbn; lra) ltac:(cbn; lra)) as (A & B & _).
  apply make_128; [exact E3|exact B| |exact ex_maxk]. rewrite stepk_rad. cbn [ga_sigma ex_p]. replace (2 * PI / (PI / (rad ex_p * 2))) with (4 * rad ex_p) by (field; lra). lra.
Qed.
Example C139_ex : exists r v, drawFFT 128 4096 (conv_pixel (moved (gauss_kval ex_p) 5 (-7)) 1 gs_def) (ga_maxk ex_p) (ga_stepk ex_p) 1 ex2_im = Ok r /\
  (forall x y, includesI (ibnd ex2_im) x y = true -> getValue r x y = Ok (v x y)) /\ square_sum 128 (-64) (-64) v = 3.
Proof.
  destruct ex2_ok as (E1 & E2 & E3). destruct ex2_make as [dk D]. destruct (own_err ex_p ltac:(cbn; lra) ltac:(cbn; lra) ltac:(cbn; lra)) as (A & B & _).
  destruct (C139_total_pixel 128 4096 _ _ 1 ex2_im _ _ dk E1 E2 ltac:(lra) B eq_refl ltac:(lia) ltac:(lia) D eq_refl (-64)%Z (-64)%Z ex2_in (moved (gauss_kval ex_p) 5 (-7)) gs_def) as (r & v & R1 & R2 & R3).
  { apply herm_moved. exact (proj1 C137_ex). }
  exists r, v. split; [exact R1|]. split; [exact R2|]. rewrite R3. unfold moved, gauss_kval, ga_kValue, norm2, wave, Cmult, RtoC, Re. cbn [fst snd ga_flux ga_sigma ex_p].
  replace (- (0 * 5 + 0 * -7)) with 0 by ring. rewrite cos_0, sin_0. match goal with |- context [exp ?t] => replace t with 0 by field end. rewrite exp_0. ring.
Qed.
