(** C67 - C69, C81, C100 - C107: interpolated images and transforms of images. *)
From Coq Require Import ZArith Reals Lra Lia ZifyBool Bool List.
From Coquelicot Require Import Coquelicot.
From Verif Require Import Base Array_Model Bounds_Model Bounds_Proofs FFT_Model FFT_Spec FFT_Proofs Geo_Model Geo_Proofs WCS_Model
  WCS_Spec WCS_Proofs WCS_Prof MSum Interp_Model Interp_Spec Interp_Kernels II_Model II_Spec II_Proofs II_Pad II_Size II_Prof II_Half II_DFT II_Inv II_K II_Eq II_Maxk II_Cex.
Import ListNotations.
Open Scope R_scope.
Ltac Zify.zify_post_hook ::= idtac.

(** * C67: values in real space *)
Definition compact (i : interpolant) : Prop := match i with Linear | Cubic | Quintic => True | Lanczos n _ => (1 <= n)%Z | _ => False end.
Lemma compact_range : forall kva i, compact i -> IZR (ixrange kva i / 2) = xrange kva i.
Proof. intros kva i H. destruct i; try contradiction; cbn [ixrange xrange]; try reflexivity. f_equal. rewrite Z.mul_comm, Z.div_mul; lia. Qed.
(** Every pixel counts with the kernel at its distance. *)
Theorem C67_interpolates : forall kva LK i im x y, compact i -> nonempty im ->
  draw_xval (xval kva LK i) (ixrange kva i) x y (rx im) (ry im) (ra im) = interpolate (xval kva LK i) im x y.
Proof. intros kva LK i im x y H N. rewrite draw_window. apply windowed_all; [exact N|]. now apply covered_kernels. Qed.
Print Assumptions C67_interpolates.
(** At integer positions the value is that of the pixel, or zero outside of the image. *)
Theorem C67_pixel_centers : forall kva LK i im m n, 0 < kva -> is_cardinal i ->
  draw_xval (xval kva LK i) (ixrange kva i) (IZR m) (IZR n) (rx im) (ry im) (ra im) = pixel im m n.
Proof. intros kva LK i im m n K0 H. rewrite draw_window. apply windowed_center; [now apply irange_pos|now apply cardinal_kernels]. Qed.
Print Assumptions C67_pixel_centers.
(** Through the whole profile: wcs, offset, flux. *)
Theorem C67_profile : forall kva LK p r c, 0 < kva -> usable p -> regular_l (i_wcs p) -> is_cardinal (i_x p) -> i_true p = true ->
  (0 <= r < nrow (ra (i_img p)))%Z -> (0 <= c < ncol (ra (i_img p)))%Z ->
  ii_xValue kva LK p (mapp (linear (i_wcs p)) (IZR c - (IZR (ncol (ra (i_img p))) - 1) / 2 - fst (i_off p),
                                                IZR r - (IZR (nrow (ra (i_img p))) - 1) / 2 - snd (i_off p))) =
  Ok (elt (ra (i_img p)) r c * (wanted_flux (i_flux p) (i_sb p) (l_area (i_wcs p)) (i_img p) / total_flux (i_img p)) / l_area (i_wcs p)).
Proof. exact at_pixel_true. Qed.
Print Assumptions C67_profile.
(** With use_true_center=False the pixel w div 2, h div 2 is the centre. *)
Theorem C67_profile_nominal : forall kva LK p r c, 0 < kva -> usable p -> regular_l (i_wcs p) -> is_cardinal (i_x p) -> i_true p = false ->
  (0 <= r < nrow (ra (i_img p)))%Z -> (0 <= c < ncol (ra (i_img p)))%Z ->
  ii_xValue kva LK p (mapp (linear (i_wcs p)) (IZR (c - ncol (ra (i_img p)) / 2) - fst (i_off p), IZR (r - nrow (ra (i_img p)) / 2) - snd (i_off p))) =
  Ok (elt (ra (i_img p)) r c * (wanted_flux (i_flux p) (i_sb p) (l_area (i_wcs p)) (i_img p) / total_flux (i_img p)) / l_area (i_wcs p)).
Proof.
  intros kva LK p r c K0 U W Ca T Hr Hc. pose proof (at_pixel kva LK p r c K0 U (proj1 (area_det _ W)) Ca Hr Hc) as H.
  unfold ii_offset in H. cbv zeta in H. rewrite T, ratio_is, linear_jac in H by assumption. rewrite H. f_equal. unfold Rdiv. ring.
Qed.
Print Assumptions C67_profile_nominal.
Theorem C67_linear : forall kva LK i u v w a b x y, (forall m n, pixel w m n = a * pixel u m n + b * pixel v m n) ->
  draw_xval (xval kva LK i) (ixrange kva i) x y (rx w) (ry w) (ra w) =
  a * draw_xval (xval kva LK i) (ixrange kva i) x y (rx u) (ry u) (ra u) + b * draw_xval (xval kva LK i) (ixrange kva i) x y (rx v) (ry v) (ra v).
Proof. intros. rewrite !draw_window. now apply windowed_lin. Qed.
Print Assumptions C67_linear.
Theorem C67_local : forall kva LK i u v x y, compact i ->
  (forall m n, Rabs (x - IZR m) <= xrange kva i -> Rabs (y - IZR n) <= xrange kva i -> pixel u m n = pixel v m n) ->
  draw_xval (xval kva LK i) (ixrange kva i) x y (rx u) (ry u) (ra u) = draw_xval (xval kva LK i) (ixrange kva i) x y (rx v) (ry v) (ra v).
Proof.
  intros kva LK i u v x y H E. rewrite !draw_window. apply windowed_ext. intros m n _ _. destruct (covered_kernels kva LK i H) as [_ Z].
  rewrite (compact_range kva i H) in Z. destruct (Rle_dec (Rabs (x - IZR m)) (xrange kva i)) as [l|l]; [|rewrite (Z (x - IZR m)) by lra; ring].
  destruct (Rle_dec (Rabs (y - IZR n)) (xrange kva i)) as [l'|l']; [|rewrite (Z (y - IZR n)) by lra; ring]. now rewrite E.
Qed.
Print Assumptions C67_local.
(** Nearest: only one pixel is looked at, the one at the integer part. *)
Theorem C67_nearest_partial : forall kva LK im x y, x - IZR (floorR x) <= 1 / 2 -> y - IZR (floorR y) <= 1 / 2 ->
  draw_xval (xval kva LK Nearest) (ixrange kva Nearest) x y (rx im) (ry im) (ra im) = pixel im (floorR x) (floorR y).
Proof.
  intros kva LK im x y Hx Hy. rewrite draw_window. change (ixrange kva Nearest / 2)%Z with 0%Z. unfold windowed. change (2 * 0 + 1)%Z with 1%Z. rewrite !rsum_1. cbv zeta.
  replace (floorR x - 0 + 0)%Z with (floorR x) by lia. replace (floorR y - 0 + 0)%Z with (floorR y) by lia. cbn [xval]. unfold nearest_xval.
  pose proof (floorR_bounds x). pose proof (floorR_bounds y). rewrite !Rabs_right by lra.
  destruct (Rltb_spec (1 / 2) (x - IZR (floorR x))) as [l|l]; [lra|]. destruct (Rltb_spec (1 / 2) (y - IZR (floorR y))) as [l'|l']; [lra|]. ring.
Qed.
Print Assumptions C67_nearest_partial.
(** Pixels 1, 2, 3 in a row, at -1, 0, 1: 3/4 is in the last pixel, and the value there is zero. *)
Theorem C67_nearest_refuted : forall kva LK, ii_xValue kva LK near3 (3 / 4, 0) = Ok 0 /\ ii_xValue kva LK near3 (1, 0) = Ok 3.
Proof. exact near3_zero. Qed.
Print Assumptions C67_nearest_refuted.
Example C67_row : forall kva LK, ii_xValue kva LK row3 (1 / 2, 0) = Ok (5 / 2).
Proof.
  intros kva LK. pose proof (row3_usable (i_wcs row3)) as U. change (with_wcs row3 (i_wcs row3)) with row3 in U.
  replace (1 / 2, 0) with (mapp (l_jac (i_wcs row3)) (1 / 2, 0)) by (unfold row3, l_jac, mapp; cbn; f_equal; lra).
  rewrite ii_x by (auto; unfold row3, l_jac, mdet; cbn; lra). f_equal.
  rewrite windowed_all by ((apply image_nonempty; apply U) || now apply covered_kernels).
  rewrite offset_true by reflexivity. cbn [fst snd]. change (IZR ((ncol (ra (i_img row3)) + 1) mod 2)) with 0. change (IZR ((nrow (ra (i_img row3)) + 1) mod 2)) with 0.
  change (fst (i_off row3)) with 0. change (snd (i_off row3)) with 0. replace (1 / 2 + (0 - 1 / 2 * 0)) with (1 / 2) by lra. replace (0 + (0 - 1 / 2 * 0)) with 0 by lra.
  replace (outer_flux_ratio row3) with 1.
  2: { unfold outer_flux_ratio, impl_flux_ratio. rewrite row3_flux. unfold l_area, row3, mdet. cbn [i_flux i_sb i_wcs m00 m01 m10 m11]. replace (1 * 1 - 0 * 0) with 1 by ring. rewrite Rabs_R1. lra. }
  unfold interpolate, over_pixels, zsum. simpl. unfold linear_xval. repeat match goal with |- context [Rltb ?a ?b] => destruct (Rltb_spec a b) as [?l|?l] end.
  all: repeat match goal with H : context [Rabs ?t] |- _ => unfold Rabs in H; destruct (Rcase_abs t) in H end.
  all: unfold Rabs; repeat match goal with |- context [Rcase_abs ?t] => destruct (Rcase_abs t) end; lra.
Qed.

(** * C68: the stored half of the k plane *)
Theorem C68_half_plane : forall K ix kx ky h F zp, (1 <= h)%Z -> hermitian_plane (2 * h) F -> holds_half zp h F ->
  draw_kval K ix kx ky (- h) (- h) zp =
  interpolate_plane K F (floorR kx - ix / 2) (2 * (ix / 2) + 1) (floorR ky - ix / 2) (2 * (ix / 2) + 1) kx ky.
Proof. exact draw_k_window. Qed.
Print Assumptions C68_half_plane.
(** With a compact kernel any window that reaches far enough gives the same. *)
Theorem C68_any_window : forall kva LK i kx ky h F zp lox nx loy ny, compact i -> (1 <= h)%Z -> hermitian_plane (2 * h) F -> holds_half zp h F ->
  (0 <= nx)%Z -> (0 <= ny)%Z -> IZR lox <= kx - xrange kva i -> kx + xrange kva i < IZR (lox + nx) -> IZR loy <= ky - xrange kva i -> ky + xrange kva i < IZR (loy + ny) ->
  draw_kval (xval kva LK i) (ixrange kva i) kx ky (- h) (- h) zp = interpolate_plane (xval kva LK i) F lox nx loy ny kx ky.
Proof.
  intros kva LK i kx ky h F zp lox nx loy ny H Hh HP HZ Nx Ny A B D E. rewrite (draw_k_window _ _ _ _ h F) by assumption. rewrite <- (compact_range kva i H) in *.
  apply plane_any; auto. now apply covered_kernels.
Qed.
Print Assumptions C68_any_window.
Theorem C68_grid : forall kva LK i h F zp m n, 0 < kva -> is_cardinal i -> (1 <= h)%Z -> hermitian_plane (2 * h) F -> holds_half zp h F ->
  draw_kval (xval kva LK i) (ixrange kva i) (IZR m) (IZR n) (- h) (- h) zp = F m n.
Proof.
  intros kva LK i h F zp m n K0 H Hh HP HZ. rewrite (draw_k_window _ _ _ _ h F) by assumption. rewrite !floorR_IZR. apply plane_center; [now apply irange_pos|now apply cardinal_kernels].
Qed.
Print Assumptions C68_grid.
Example C68_plane : forall im, nonempty im -> hermitian_plane (2 * fft_No2 im) (spectrum im 1 (fft_No2 im)).
Proof. intros im N. apply spectrum_plane; [exact N|lra]. Qed.

(** * C69: the radius for stepk *)
(** When some square that is looked at holds the flux, the smallest one is taken. *)
Theorem C69_smallest : forall fold p d0, usable p -> i_cs p = CYes -> let im := centered (i_img p) in let t := (1 - fold) * total_flux (i_img p) in
  (0 <= d0 < Z.min (nrow (ra (i_img p))) (ncol (ra (i_img p))))%Z -> encloses im t d0 ->
  exists d, stepk_radius fold p = Ok (IZR d + 1 / 2) /\ (0 <= d <= d0)%Z /\ encloses im t d /\ forall e, (0 <= e < d)%Z -> ~ encloses im t e.
Proof. exact radius_found. Qed.
Print Assumptions C69_smallest.
(** It is always found for images that are not elongated. *)
Theorem C69_square_partial : forall fold p, usable p -> i_cs p = CYes -> 0 <= fold < 1 -> let im := centered (i_img p) in let t := (1 - fold) * total_flux (i_img p) in
  (Z.max (nrow (ra (i_img p))) (ncol (ra (i_img p))) / 2 <= Z.min (nrow (ra (i_img p))) (ncol (ra (i_img p))) - 1)%Z ->
  exists d, stepk_radius fold p = Ok (IZR d + 1 / 2) /\ (0 <= d)%Z /\ encloses im t d /\ forall e, (0 <= e < d)%Z -> ~ encloses im t e.
Proof. exact radius_square. Qed.
Print Assumptions C69_square_partial.
(** pi/stepk is that radius with the range of the interpolant in quadrature; without the search every pixel centre is
    within the radius of the true centre. *)
Theorem C69_quadrature : forall kva fold p r, 0 < xrange kva (i_x p) -> 0 <= r -> stepk_radius fold p = Ok r ->
  exists s, impl_stepk kva fold p = Ok s /\ 0 < s /\ (PI / s) ^ 2 = r ^ 2 + xrange kva (i_x p) ^ 2.
Proof.
  intros kva fd p r X R0 E. unfold impl_stepk. rewrite E. cbn [bind]. eexists. split; [reflexivity|]. unfold simple_stepk. cbv zeta.
  pose proof PI_RGT_0. unfold hypot. replace (r * r + xrange kva (i_x p) * xrange kva (i_x p)) with (r ^ 2 + xrange kva (i_x p) ^ 2) by ring. assert (0 < r ^ 2 + xrange kva (i_x p) ^ 2) by nra. assert (Q : 0 < sqrt (r ^ 2 + xrange kva (i_x p) ^ 2)) by (apply sqrt_lt_R0; lra).
  split; [apply Rdiv_lt_0_compat; lra|].
  replace (PI / (PI / sqrt (r ^ 2 + xrange kva (i_x p) ^ 2))) with (sqrt (r ^ 2 + xrange kva (i_x p) ^ 2)) by (field; lra).
  apply pow2_sqrt. lra.
Qed.
Print Assumptions C69_quadrature.
Theorem C69_no_search : forall fold p, usable p -> i_cs p = CNo -> exists r, stepk_radius fold p = Ok r /\
  forall i j, has_pixel (i_img p) i j -> Rabs (IZR i - (IZR (rx (i_img p)) + (IZR (ncol (ra (i_img p))) - 1) / 2)) <= r /\ Rabs (IZR j - (IZR (ry (i_img p)) + (IZR (nrow (ra (i_img p))) - 1) / 2)) <= r.
Proof.
  intros fd p U E. unfold stepk_radius. destruct (usable_image p U) as (im & Ei & S). rewrite Ei. cbn [bind]. rewrite E. eexists. split; [reflexivity|].
  destruct U as (N & Rc & _). destruct S as [(_ & _ & S1 & S2) _]. unfold ii_image in S1, S2. rewrite Rc in S1, S2. cbn [centered ra] in S1, S2. rewrite S1, S2. clear S1 S2 E Ei Rc.
  unfold nonempty in N. unfold has_pixel. intros i j [Hi Hj]. destruct (i_img p) as [[h w e] x0 y0]. cbn [ra rx ry nrow ncol] in *.
  assert (B1 : IZR x0 <= IZR i <= IZR x0 + IZR w - 1) by (rewrite <- plus_IZR, <- minus_IZR; split; apply IZR_le; lia).
  assert (B2 : IZR y0 <= IZR j <= IZR y0 + IZR h - 1) by (rewrite <- plus_IZR, <- minus_IZR; split; apply IZR_le; lia).
  assert (W : IZR w <= IZR (Z.max h w)) by (apply IZR_le; lia). assert (H : IZR h <= IZR (Z.max h w)) by (apply IZR_le; lia).
  split; apply Rabs_le; lra.
Qed.
Print Assumptions C69_no_search.
(** Three equal pixels in a row: the radius is that of the central pixel, with a third of the flux. *)
Theorem C69_elongated_refuted : stepk_radius (5 / 1000) flat13 = Ok (1 / 2) /\
  encloses (centered (i_img flat13)) ((1 - 5 / 1000) * total_flux (i_img flat13)) 1 /\
  ~ encloses (centered (i_img flat13)) ((1 - 5 / 1000) * total_flux (i_img flat13)) 0.
Proof. exact flat13_radius. Qed.
Print Assumptions C69_elongated_refuted.
(** A number for calculate_stepk cuts the image out, but not the flux it is compared with. *)
Theorem C69_number_refuted : exists im, restrict (centered (i_img flat55)) 1 = Ok im /\ flux_within im 0 0 1 = 9 /\ flux_within im 0 0 0 = 1 /\
  stepk_radius (5 / 1000) flat55 = Ok (1 / 2).
Proof. exact flat55_radius. Qed.
Print Assumptions C69_number_refuted.
Example C69_flat22 : exists d, stepk_radius (5 / 1000) flat22 = Ok (IZR d + 1 / 2) /\ (0 <= d)%Z /\ encloses (centered (i_img flat22)) ((1 - 5 / 1000) * total_flux (i_img flat22)) d /\
  forall e, (0 <= e < d)%Z -> ~ encloses (centered (i_img flat22)) ((1 - 5 / 1000) * total_flux (i_img flat22)) e.
Proof. apply (C69_square_partial (5 / 1000) flat22); [exact flat22_usable|reflexivity|lra|cbn; cbv; discriminate]. Qed.

(** * C81: transforms of images *)
Theorem C81_transform : forall im dx, nonempty im -> dx <> 0 -> exists k, calculate_fft im dx = Ok k /\
  kscale k = PI / (IZR (fft_No2 im) * dx) /\ kx0 k = 0%Z /\ ky0 k = (- fft_No2 im)%Z /\ nrow (ka k) = (2 * fft_No2 im)%Z /\ ncol (ka k) = (fft_No2 im + 1)%Z /\
  forall r c, (0 <= r < 2 * fft_No2 im)%Z -> (0 <= c <= fft_No2 im)%Z ->
    elt (ka k) r c = Cmult (RtoC (dx * dx)) (fourier_sum im dx (IZR c * kscale k) (IZR (r - fft_No2 im) * kscale k)).
Proof. exact fft_is_sum. Qed.
Print Assumptions C81_transform.
Theorem C81_round_trip : forall im dx, nonempty im -> 0 < dx -> exists k o, calculate_fft im dx = Ok k /\ calculate_inverse_fft k = Some (o, dx) /\
  (rx o = - fft_No2 im /\ ry o = - fft_No2 im /\ nrow (ra o) = 2 * fft_No2 im /\ ncol (ra o) = 2 * fft_No2 im)%Z /\ forall x y, pixel o x y = pixel im x y.
Proof. exact inverse_back. Qed.
Print Assumptions C81_round_trip.
Example C81_witness : nonempty (RImg (Arr 2 3 (fun i j => IZR (i + j))) (-1) 5) /\ 0 < 1 / 5 /\ fft_No2 (RImg (Arr 2 3 (fun i j => IZR (i + j))) (-1) 5) = 7%Z.
Proof. split; [unfold nonempty; cbn; lia|]. split; [lra|reflexivity]. Qed.

(** * C100: flux *)
Theorem C100_flux : forall p, regular_l (i_wcs p) -> total_flux (i_img p) <> 0 ->
  ii_flux p = wanted_flux (i_flux p) (i_sb p) (l_area (i_wcs p)) (i_img p).
Proof. exact flux_is. Qed.
Print Assumptions C100_flux.
(** kValue at the origin is the flux. *)
Theorem C100_flux_in_k : forall kva LK kv ur p, 0 < kva -> usable p -> regular_l (i_wcs p) -> is_cardinal (i_k p) -> kv (i_x p) 0 = 1 -> 0 <= ur (i_x p) -> total_flux (i_img p) <> 0 ->
  ii_kValue kva LK kv ur p (0, 0) = Ok (RtoC (wanted_flux (i_flux p) (i_sb p) (l_area (i_wcs p)) (i_img p))).
Proof. exact ii_k_zero. Qed.
Print Assumptions C100_flux_in_k.
(** Positive less negative flux is the total flux for an interpolant of unit integral. *)
Theorem C100_positive_negative : forall pint nint a, pint - nint = 1 -> 0 <= nint ->
  fst (pos_neg_fluxes pint nint a) - snd (pos_neg_fluxes pint nint a) = asum a /\ 0 <= fst (pos_neg_fluxes pint nint a) /\ 0 <= snd (pos_neg_fluxes pint nint a).
Proof.
  intros pint nint a H N. unfold pos_neg_fluxes. cbv zeta. cbn [fst snd]. unfold asum, amap. cbn [nrow ncol elt].
  set (pf := rsum (nrow a) (fun i => rsum (ncol a) (fun j => if Rltb 0 (elt a i j) then elt a i j else 0))).
  set (nf := rsum (nrow a) (fun i => rsum (ncol a) (fun j => if Rltb (elt a i j) 0 then elt a i j else 0))).
  assert (Pp : 0 <= pf).
  { unfold pf. apply rsum_nonneg. intros i _. apply rsum_nonneg. intros j _. destruct (Rltb_spec 0 (elt a i j)); lra. }
  assert (Pn : 0 <= - nf).
  { unfold nf. rewrite <- (Rmult_1_l (rsum _ _)), Ropp_mult_distr_l, <- rsum_scale. apply rsum_nonneg. intros i _. rewrite <- rsum_scale. apply rsum_nonneg. intros j _. destruct (Rltb_spec (elt a i j) 0); lra. }
  assert (S : rsum (nrow a) (fun i => rsum (ncol a) (fun j => elt a i j)) = pf + nf).
  { unfold pf, nf. rewrite <- rsum_plus. apply rsum_ext. intros i _. rewrite <- rsum_plus. apply rsum_ext. intros j _. destruct (Rltb_spec 0 (elt a i j)), (Rltb_spec (elt a i j) 0); lra. }
  rewrite S. rewrite (Rabs_left1 nf) by lra. replace pint with (1 + nint) by lra. clearbody pf nf. split; [ring|].
  assert (0 <= nint * nint) by nra. assert (0 <= (1 + nint) * (1 + nint)) by nra. assert (0 <= 2 * (1 + nint) * nint) by nra.
  split; (apply Rplus_le_le_0_compat; apply Rmult_le_pos; lra).
Qed.
Print Assumptions C100_positive_negative.
Example C100_witness : regular_l (i_wcs row3) /\ total_flux (i_img row3) = 6 /\ ii_flux row3 = 6.
Proof.
  assert (W : regular_l (i_wcs row3)) by (unfold row3, regular_l, mdet; cbn; lra). assert (T : total_flux (i_img row3) = 6) by (rewrite <- image_total; exact row3_flux).
  split; [exact W|]. split; [exact T|]. rewrite flux_is by (auto; lra). exact T.
Qed.

(** * C101: padding *)
Theorem C101_padding : forall p, usable p -> exists xim, ii_xim p = Ok xim /\ (forall x y, pixel xim x y = pixel (centered (i_img p)) x y) /\
  total_flux xim = total_flux (i_img p) /\ (2 * fft_No2 xim)%Z = pad_size p.
Proof. exact padding_ok. Qed.
Print Assumptions C101_padding.
Theorem C101_size : forall p n, nonempty (i_img p) ->
  n = (if Rltb 1 (i_pad p) then ceilR (i_pad p * IZR (Z.max (nrow (ra (i_img p))) (ncol (ra (i_img p))))) else Z.max (nrow (ra (i_img p))) (ncol (ra (i_img p)))) ->
  (n <= 99999)%Z -> smallest_good (IZR n) (pad_size p).
Proof. exact pad_size_is. Qed.
Print Assumptions C101_size.
(** Without recentring the padded image keeps a second copy of the pixels, or the image is out of bounds. *)
Theorem C101_no_recenter_refuted : (exists xim, ii_xim one_pixel = Ok xim /\ total_flux xim = 2 /\ image_flux one_pixel = 1) /\
  forall kva LK pos, ii_xValue kva LK two_pixels pos = Err GalSimBoundsError.
Proof. exact (conj one_doubled two_fails). Qed.
Print Assumptions C101_no_recenter_refuted.
Example C101_witness : usable row3 /\ usable flat22 /\ pad_size flat22 = 2%Z.
Proof. split; [exact (row3_usable (i_wcs row3))|]. split; [exact flat22_usable|exact flat22_size]. Qed.

(** * C102: values in k space *)
Theorem C102_grid : forall kva LK kv ur p k (m n : Z), 0 < kva -> usable p -> regular_l (i_wcs p) -> is_cardinal (i_k p) -> let dk := 2 * PI / IZR (pad_size p) in
  mapp (mT (l_jac (i_wcs p))) k = (IZR m * dk, IZR n * dk) -> Rabs (IZR m * dk) <= 2 * PI * ur (i_x p) -> Rabs (IZR n * dk) <= 2 * PI * ur (i_x p) ->
  ii_kValue kva LK kv ur p k =
  Ok (Cmult (RtoC (wanted_flux (i_flux p) (i_sb p) (l_area (i_wcs p)) (i_img p) / total_flux (i_img p) * (kv (i_x p) (IZR m * dk) * kv (i_x p) (IZR n * dk))))
       (points_transform (ii_image p) (fun x y => mapp (l_jac (i_wcs p)) (IZR x - fst (ii_offset p), IZR y - snd (ii_offset p))) (fst k) (snd k))).
Proof. exact ii_k_grid. Qed.
Print Assumptions C102_grid.
(** Between the grid frequencies: the plane of Fourier sums is interpolated, then multiplied by the transform of the
    x interpolant and the phase of the offset. *)
Theorem C102_between : forall kva LK kv ur p kx ky, usable p -> let h := (pad_size p / 2)%Z in let dk := 2 * PI / IZR (pad_size p) in let ir := (ixrange kva (i_k p) / 2)%Z in
  Rabs kx <= 2 * PI * ur (i_x p) -> Rabs ky <= 2 * PI * ur (i_x p) ->
  impl_kValue kva LK kv ur p (kx, ky) = Ok (
    Cmult (Cmult (interpolate_plane (xval kva LK (i_k p)) (fun i j => fourier_sum (ii_image p) 1 (IZR i * dk) (IZR j * dk))
      (floorR (kx / dk) - ir) (2 * ir + 1) (floorR (ky / dk) - ir) (2 * ir + 1) (kx / dk) (ky / dk))
      (RtoC (kv (i_x p) kx * kv (i_x p) ky)))
      (cos (kx * fst (ii_offset p) + ky * snd (ii_offset p)), sin (kx * fst (ii_offset p) + ky * snd (ii_offset p)))).
Proof.
  intros kva LK kv ur p kx ky U h dk ir Hx Hy. rewrite k_any by exact U. cbv zeta. fold h dk ir.
  destruct (Rltb_spec (2 * PI * ur (i_x p)) (Rabs kx)) as [l|l]; [lra|]. destruct (Rltb_spec (2 * PI * ur (i_x p)) (Rabs ky)) as [l'|l']; [lra|]. cbn [negb andb]. do 3 f_equal.
  destruct (usable_kim p U) as (_ & _ & H1 & H2 & _). unfold interpolate_plane. apply zsum_ext. intros b _. apply zsum_ext. intros a _. cbv zeta. f_equal. unfold spectrum.
  rewrite Rmult_1_l, Cmult_1_l. replace (PI / (IZR h * 1)) with dk; [reflexivity|]. unfold dk. rewrite H2. fold h. rewrite mult_IZR. field. apply not_0_IZR. unfold h. lia.
Qed.
Print Assumptions C102_between.
Theorem C102_beyond : forall kva LK kv ur p kx ky, usable p -> 2 * PI * ur (i_x p) < Rabs kx \/ 2 * PI * ur (i_x p) < Rabs ky -> impl_kValue kva LK kv ur p (kx, ky) = Ok (RtoC 0).
Proof. exact k_beyond. Qed.
Print Assumptions C102_beyond.
Example C102_witness : usable flat22 /\ is_cardinal (i_k flat22) /\ 2 * PI / IZR (pad_size flat22) = PI /\ mapp (mT (l_jac (i_wcs flat22))) (PI, 0) = (IZR 1 * PI, IZR 0 * PI).
Proof.
  split; [exact flat22_usable|]. split; [exact I|]. split; [rewrite flat22_size; field|]. unfold flat22, l_jac, mT, mapp. cbn. f_equal; ring.
Qed.

(** * C103: maxk *)
(** The multiple of dk that is found, the rings being below or above maxk_threshold times the flux *)
Theorem C103_rings : forall mkth ur p m, usable p -> limit ur p m -> exists kim i, ii_kim p = Ok kim /\
  (0 <= i <= pad_size p / 2 + 1)%Z /\ impl_maxk mkth ur p = Ok (Rmin (IZR i * (2 * PI / IZR (pad_size p))) m) /\
  (let t := mkth * total_flux (i_img p) in let n := (pad_size p / 2 + 1)%Z in let above := ring_above (ka kim) (pad_size p / 2) t in
   ((i < n)%Z -> forall r, (i <= r <= i + 4)%Z -> (1 <= r < n)%Z -> ~ above r) /\
   (forall e, (0 <= e < i)%Z -> exists r, (e <= r <= e + 4)%Z /\ (1 <= r < n)%Z /\ above r) /\
   (i = 0%Z \/ (2 <= i)%Z /\ above (i - 1)%Z)).
Proof.
  intros mkth ur p m U L. destruct (maxk_is mkth ur p m U L) as (kim & i & E & Hi & Ev & G1 & G2). exists kim, i. split; [exact E|]. split; [exact Hi|]. split; [exact Ev|]. cbv zeta.
  split; [exact G1|]. split; [exact G2|]. exact (last_ring _ _ _ G1 G2 Hi).
Qed.
Print Assumptions C103_rings.
(** Without the search there is nothing beyond maxk. *)
Theorem C103_no_search : forall kva LK kv mkth ur p, usable p -> i_cm p = CNo -> exists m, impl_maxk mkth ur p = Ok m /\
  forall kx ky, m < Rabs kx \/ m < Rabs ky -> impl_kValue kva LK kv ur p (kx, ky) = Ok (RtoC 0).
Proof. intros kva LK kv mkth ur p U E. unfold impl_maxk. rewrite E. eexists. split; [reflexivity|]. intros. now apply k_beyond. Qed.
Print Assumptions C103_no_search.
(** A flat image: only the centre is above the threshold, and maxk is zero. *)
Theorem C103_positive_refuted : forall mkth ur, 0 < mkth -> 0 < ur Quintic -> usable flat22 /\ impl_maxk mkth ur flat22 = Ok 0 /\ ii_maxk mkth ur flat22 = Ok 0.
Proof. intros. split; [exact flat22_usable|]. now apply flat22_maxk. Qed.
Print Assumptions C103_positive_refuted.
Example C103_witness : limit (fun _ => 1) flat22 (2 * PI * 1).
Proof. left. split; reflexivity. Qed.

(** * C104: stepk and maxk through the wcs *)
Theorem C104_isotropic_partial : forall kva fold mkth ur p s m x k, positive_l (i_wcs p) -> l_min (i_wcs p) = l_max (i_wcs p) -> i_fs p <= 0 -> i_fm p <= 0 ->
  impl_stepk kva fold p = Ok s -> 0 < s -> impl_maxk mkth ur p = Ok m ->
  exists s' m', ii_stepk kva fold p = Ok s' /\ ii_maxk mkth ur p = Ok m' /\
    (norm x <= PI / s -> norm (mapp (l_jac (i_wcs p)) x) <= PI / s') /\ (norm (mapp (mT (l_jac (i_wcs p))) k) <= m -> norm k <= m').
Proof.
  intros kva fd mkth ur p s m x k P E F G S S0 M. destruct (stepk_isotropic kva fd p s x P E F S S0) as (s' & A & B). destruct (maxk_isotropic mkth ur p m k P E G M) as (m' & C & D).
  exists s', m'. auto.
Qed.
Print Assumptions C104_isotropic_partial.
(** Values given to the constructor are used as they are. *)
Theorem C104_forced : forall kva fold mkth ur p, (0 < i_fs p -> ii_stepk kva fold p = Ok (i_fs p)) /\ (0 < i_fm p -> ii_maxk mkth ur p = Ok (i_fm p)).
Proof. intros. unfold ii_stepk, ii_maxk. split; intro H; [destruct (Rltb_spec 0 (i_fs p))|destruct (Rltb_spec 0 (i_fm p))]; (reflexivity || lra). Qed.
Print Assumptions C104_forced.
(** With a stretched wcs there always are points of the profile beyond pi/stepk and frequencies beyond maxk. *)
Theorem C104_stretched_refuted : forall kva fold mkth ur p s m, positive_l (i_wcs p) -> l_min (i_wcs p) < l_max (i_wcs p) -> i_fs p <= 0 -> i_fm p <= 0 ->
  impl_stepk kva fold p = Ok s -> 0 < s -> impl_maxk mkth ur p = Ok m -> 0 < m ->
  (exists s' x, ii_stepk kva fold p = Ok s' /\ norm x = PI / s /\ PI / s' < norm (mapp (l_jac (i_wcs p)) x)) /\
  (exists m' k, ii_maxk mkth ur p = Ok m' /\ norm (mapp (mT (l_jac (i_wcs p))) k) = m /\ m' < norm k).
Proof.
  intros kva fd mkth ur p s m P E F G S S0 M M0. split; [now apply stepk_stretched|now apply maxk_stretched].
Qed.
Print Assumptions C104_stretched_refuted.
Example C104_witness : positive_l (LJac (Mat 2 0 0 1)) /\ l_min (LJac (Mat 2 0 0 1)) = 1 /\ l_max (LJac (Mat 2 0 0 1)) = 2.
Proof.
  unfold positive_l, l_min, l_max, mdet. cbn [m00 m01 m10 m11]. replace ((2 + 1) ^ 2 + (0 - 0) ^ 2) with (3 * 3) by ring. replace ((2 - 1) ^ 2 + (0 + 0) ^ 2) with (1 * 1) by ring.
  rewrite !sqrt_square by lra. rewrite Rabs_right by lra. lra.
Qed.

(** * C105: equality *)
Theorem C105_same_wcs_partial : forall kva fold mkth LK ur p q pos, usable p -> usable q -> i_wcs p = i_wcs q -> regular_l (i_wcs p) -> total_flux (i_img p) <> 0 ->
  ii_eq kva fold mkth ur p q = Ok true -> ii_xValue kva LK p pos = ii_xValue kva LK q pos /\ ii_flux p = ii_flux q.
Proof. exact eq_values. Qed.
Print Assumptions C105_same_wcs_partial.
(** Turning the wcs by a quarter turn gives a different profile that compares equal. *)
Theorem C105_wcs_refuted : forall kva fold mkth LK ur, 0 < kva ->
  ii_eq kva fold mkth ur row3 (with_wcs row3 quarter_turn) = Ok true /\
  ii_xValue kva LK row3 (1, 0) = Ok 3 /\ ii_xValue kva LK (with_wcs row3 quarter_turn) (1, 0) = Ok 0.
Proof. exact eq_wcs_refuted. Qed.
Print Assumptions C105_wcs_refuted.
Example C105_witness : usable row3 /\ usable (with_wcs row3 quarter_turn) /\ total_flux (i_img row3) <> 0.
Proof. split; [exact (row3_usable (i_wcs row3))|]. split; [apply row3_usable|]. rewrite <- image_total, row3_flux. lra. Qed.

(** * C106: centroid *)
(** The pixel (x, y) of the centred image is at J (x - off_x, y - off_y) (C67): so is the barycentre. *)
Theorem C106_no_offset_partial : forall p, usable p -> ii_offset p = (0, 0) ->
  ii_centroid p = Ok (mapp (l_jac (i_wcs p)) (vsub (barycentre (ii_image p)) (ii_offset p))).
Proof. intros p U E. rewrite centroid_is by exact U. rewrite E. unfold vsub. cbn [fst snd]. rewrite !Rminus_0_r. now destruct (barycentre (ii_image p)). Qed.
Print Assumptions C106_no_offset_partial.
Theorem C106_error : forall p, usable p -> exists c, ii_centroid p = Ok c /\
  vsub c (mapp (l_jac (i_wcs p)) (vsub (barycentre (ii_image p)) (ii_offset p))) = mapp (l_jac (i_wcs p)) (ii_offset p).
Proof. intros p U. eexists. split; [now apply centroid_is|]. unfold vsub, mapp. cbn [fst snd]. f_equal; ring. Qed.
Print Assumptions C106_error.
(** A flat image of two by two pixels, symmetric about the origin *)
Theorem C106_even_refuted : usable flat22 /\ ii_centroid flat22 = Ok (- (1 / 2), - (1 / 2)) /\
  forall kva LK r c, 0 < kva -> (0 <= r < 2)%Z -> (0 <= c < 2)%Z -> ii_xValue kva LK flat22 (IZR c - 1 / 2, IZR r - 1 / 2) = Ok 1.
Proof.
  split; [exact flat22_usable|]. split; [apply flat22_centroid|]. intros kva LK r c K0 Hr Hc.
  pose proof (C67_profile kva LK flat22 r c K0 flat22_usable) as H. cbn [flat22 i_wcs i_img ra nrow ncol elt i_x i_true i_off i_flux i_sb fst snd regular_l] in H. fold flat22 in H.
  specialize (H ltac:(lra) I eq_refl Hr Hc).
  replace (mapp (linear (LPix 1)) (IZR c - (2 - 1) / 2 - 0, IZR r - (2 - 1) / 2 - 0)) with (IZR c - 1 / 2, IZR r - 1 / 2) in H.
  2: { unfold linear, mscale, mI, mapp. cbn. f_equal; lra. }
  rewrite H. f_equal. unfold wanted_flux, l_area. assert (T : total_flux (RImg (Arr 2 2 (fun _ _ => 1)) 1 1) = 4) by (unfold total_flux, over_pixels, zsum; simpl; lra).
  rewrite T. lra.
Qed.
Print Assumptions C106_even_refuted.
Example C106_odd : usable row3 /\ ii_offset row3 = (0, 0).
Proof. split; [exact (row3_usable (i_wcs row3))|]. rewrite offset_true by reflexivity. cbn [row3 i_off i_img ra nrow ncol fst snd]. change ((3 + 1) mod 2)%Z with 0%Z. change ((1 + 1) mod 2)%Z with 0%Z. f_equal; lra. Qed.
