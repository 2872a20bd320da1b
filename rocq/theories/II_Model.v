(** Model of interpolatedimage.py: interpolation in real and k space, padding, offsets, flux, sizes; and of
    Image.calculate_fft, calculate_inverse_fft (image.py:834-957). Floats are reals, integers unbounded; the
    static argument checks of pixel types and the reading of image files are left out. *)
From Coq Require Import ZArith Reals Bool List.
From Coquelicot Require Import Complex.
From Verif Require Import Base Array_Model Bounds_Model FFT_Model Geo_Model WCS_Model Interp_Model MSum.
Import ListNotations.
Open Scope R_scope.

Definition rsum : Z -> (Z -> R) -> R := zsum Rplus 0.
Definition csum : Z -> (Z -> C) -> C := zsum Cplus (RtoC 0).
(** array.sum() *)
Definition asum (a : arr R) : R := rsum (nrow a) (fun i => rsum (ncol a) (fun j => elt a i j)).
(** indices past the ends of an array: negative ones count from the end, then gathering clamps *)
Definition gidx (n i : Z) : Z := Z.max 0 (Z.min (nidx n i) (n - 1)).
Definition gather {V} (a : arr V) (i j : Z) : V := elt a (gidx (nrow a) i) (gidx (ncol a) j).

(** * Interpolation in real space *)
(** _interp_weight_1d_xval, interpolatedimage.py:976-984 (one offset); [K] is interp._xval_noraise *)
Definition weight_x (K : R -> R) (ioff xi xp : Z) (x : R) (nx : Z) : R * Z :=
  let xind := (xi + ioff)%Z in
  let mskx := ((0 <=? xind) && (xind <? nx))%Z in
  let wx := K (x - IZR (xp + ioff)) in
  (if mskx then wx else 0, xind).
(** _draw_with_interpolant_xval, interpolatedimage.py:987-1047 (one point); [ix] is interp.ixrange *)
Definition draw_xval (K : R -> R) (ix : Z) (x y : R) (xmin ymin : Z) (zp : arr R) : R :=
  let xi := floorR (x - IZR xmin) in
  let xp := (xi + xmin)%Z in
  let nx := ncol zp in
  let yi := floorR (y - IZR ymin) in
  let yp := (yi + ymin)%Z in
  let ny := nrow zp in
  let irange := (ix / 2)%Z in
  let n := (2 * irange + 1)%Z in
  rsum n (fun b => rsum n (fun a =>
    let '(wx, xind) := weight_x K (a - irange) xi xp x nx in
    let '(wy, yind) := weight_x K (b - irange) yi yp y ny in
    wx * wy * gather zp yind xind)).

(** * Interpolation in k space *)
(** _interp_weight_1d_kval, interpolatedimage.py:1091-1097 (one offset) *)
Definition weight_k (K : R -> R) (ioff kxi kxp : Z) (kx : R) (nkx : Z) : R * Z :=
  (K (kx - IZR (kxp + ioff)), ((kxi + ioff) mod nkx)%Z).
(** The value looked up in the stored half plane, interpolatedimage.py:1161-1167 *)
Definition half_lookup (zp : arr C) (kyind kxind : Z) : C :=
  let nkx_2 := (ncol zp - 1)%Z in
  let nkx := (nkx_2 * 2)%Z in
  let nky := nrow zp in
  if (kxind <? nkx_2)%Z then Cconj (gather zp ((nky - kyind) mod nky) (nkx - kxind - nkx_2))
  else gather zp kyind (kxind - nkx_2).
(** _draw_with_interpolant_kval, interpolatedimage.py:1100-1174 (one point) *)
Definition draw_kval (K : R -> R) (ix : Z) (kx ky : R) (kxmin kymin : Z) (zp : arr C) : C :=
  let kxi := floorR (kx - IZR kxmin) in
  let kxp := (kxi + kxmin)%Z in
  let nkx_2 := (ncol zp - 1)%Z in
  let nkx := (nkx_2 * 2)%Z in
  let kyi := floorR (ky - IZR kymin) in
  let kyp := (kyi + kymin)%Z in
  let nky := nrow zp in
  let irange := (ix / 2)%Z in
  let n := (2 * irange + 1)%Z in
  csum n (fun b => csum n (fun a =>
    let '(wkx, kxind) := weight_k K (a - irange) kxi kxp kx nkx in
    let '(wky, kyind) := weight_k K (b - irange) kyi kyp ky nky in
    Cmult (Cmult (half_lookup zp kyind kxind) (RtoC wkx)) (RtoC wky))).
(** _kValue_arr, interpolatedimage.py:1050-1088 (one point); [Kh], [ur] are x_interpolant._kval_noraise and
    urange() *)
Definition kValue_arr (Kh : R -> R) (ur : R) (K : R -> R) (ix : Z) (kx ky : R) (off : vec) (kymin : Z)
    (zp : arr C) (scale : R) : C :=
  let t := kx * fst off + ky * snd off in
  let pfac : C := (cos t, sin t) in
  let kxi := kx / scale in
  let kyi := ky / scale in
  let uscale := 1 / (2 * PI) in
  let maxk_xint := ur / uscale / scale in
  let val := draw_kval K ix kxi kyi kymin kymin zp in
  let msk := negb (Rltb maxk_xint (Rabs kxi)) && negb (Rltb maxk_xint (Rabs kyi)) in
  let xint_val := Kh kx * Kh ky in
  if msk then Cmult (Cmult val (RtoC xint_val)) pfac else RtoC 0.

(** * Images with float pixels: the array and the origin of the bounds *)
Record rimg : Type := RImg { ra : arr R; rx : Z; ry : Z }.
(** setCenter(0, 0) through shift, image.py:1020-1034 and bounds.py:604-614 *)
Definition centered (im : rimg) : rimg :=
  let cx := (rx im + ncol (ra im) / 2)%Z in
  let cy := (ry im + nrow (ra im) / 2)%Z in
  RImg (ra im) (rx im + (0 - cx)) (ry im + (0 - cy)).
(** image[bounds] and image[bounds] = other for bounds of the shape of [u] at (x, y), image.py:579-668 *)
Definition inside (im : rimg) (x y h w : Z) : bool :=
  ((rx im <=? x) && (x + w <=? rx im + ncol (ra im)) && (ry im <=? y) && (y + h <=? ry im + nrow (ra im)))%Z.
Definition get_sub (im : rimg) (x y h w : Z) : res rimg :=
  if inside im x y h w then
    Ok (RImg (slice (ra im) (y - ry im) (y - ry im + h) (x - rx im) (x - rx im + w)) x y)
  else Err GalSimBoundsError.
Definition set_sub (im u : rimg) : res rimg :=
  if inside im (rx u) (ry u) (nrow (ra u)) (ncol (ra u)) then
    let i := (ry u - ry im)%Z in
    let j := (rx u - rx im)%Z in
    Ok (RImg (slice_set (ra im) i (i + nrow (ra u)) j (j + ncol (ra u)) (ra u)) (rx im) (ry im))
  else Err GalSimBoundsError.
(** _zeropad_image, interpolatedimage.py:370-372 *)
Definition zeropad (a : arr R) (p : Z) : arr R :=
  Arr (nrow a + 2 * p) (ncol a + 2 * p)
    (fun i j => if ((p <=? i) && (i <? p + nrow a) && (p <=? j) && (j <? p + ncol a))%Z
                then elt a (i - p) (j - p) else 0).

(** * _InterpolatedImageImpl *)
(** calculate_stepk and calculate_maxk: a bool or a number *)
Inductive calc : Type := CNo | CYes | CVal (v : R).
Record iip : Type := IIP {
  i_img : rimg;            (** image *)
  i_wcs : lwcs;            (** _wcs: the local wcs at the (true) centre of the image, interpolatedimage.py:637-654 *)
  i_flux : option R;       (** flux *)
  i_sb : bool;             (** normalization is "surface brightness" or "sb" *)
  i_off : vec;             (** offset *)
  i_true : bool;           (** use_true_center *)
  i_recenter : bool;       (** _recenter_image *)
  i_pad : R;               (** pad_factor *)
  i_x : interpolant;       (** _x_interpolant *)
  i_k : interpolant;       (** _k_interpolant *)
  i_cs : calc;             (** calculate_stepk *)
  i_cm : calc;             (** calculate_maxk *)
  i_fs : R;                (** _force_stepk *)
  i_fm : R }.              (** _force_maxk *)

Section II.
  (** gsparams: kvalue_accuracy, folding_threshold, maxk_threshold; tables of Lanczos; transform and urange of
      the interpolants that are not closed formulas *)
  Variable kva : R.
  Variable fold : R.
  Variable mkth : R.
  Variable LK : Z -> nat -> R.
  Variable kv : interpolant -> R -> R.
  Variable ur : interpolant -> R.

  (** _image, interpolatedimage.py:619-635 *)
  Definition ii_image (p : iip) : rimg := if i_recenter p then centered (i_img p) else i_img p.
  (** _image_flux, _flux, interpolatedimage.py:574-576, 606-608 *)
  Definition image_flux (p : iip) : R := asum (ra (ii_image p)).
  (** _flux_ratio, interpolatedimage.py:590-604 *)
  Definition impl_flux_ratio (p : iip) : R :=
    let flux :=
      match i_flux p with
      | None => let f := image_flux p in if i_sb p then f * l_area (i_wcs p) else f
      | Some f => f
      end in
    flux / image_flux p.
  (** _offset, interpolatedimage.py:610-617 with _adjust_offset, gsobject.py:507-531 (center is None) *)
  Definition ii_offset (p : iip) : vec :=
    let a := ra (ii_image p) in
    if i_true p then
      (fst (i_off p) - 1 / 2 * IZR ((ncol a + 1) mod 2), snd (i_off p) - 1 / 2 * IZR ((nrow a + 1) mod 2))
    else i_off p.
  (** pad_size and _xim, interpolatedimage.py:663-688; a new Image has its origin at (1, 1) *)
  Definition pad_size (p : iip) : Z :=
    let a := ra (ii_image p) in
    let n := Z.max (nrow a) (ncol a) in
    let n := if Rltb 1 (i_pad p) then ceilR (i_pad p * IZR n) else n in
    good_fft_size (IZR n).
  (** interpolatedimage.py:219-220, 664-688 *)
  Definition ii_xim (p : iip) : res rimg :=
    let im := ii_image p in
    let a := ra im in
    let xim := RImg (zeropad a ((pad_size p - Z.max (nrow a) (ncol a)) / 2)) 1 1 in
    let xim := centered xim in
    set_sub xim im.
  (** _pad_image and image, interpolatedimage.py:569-572, 690-696 *)
  Definition pad_image (p : iip) : res rimg :=
    let im := ii_image p in
    bind (ii_xim p) (fun xim => get_sub xim (rx im) (ry im) (nrow (ra im)) (ncol (ra im))).
  (** _xValue, interpolatedimage.py:754-766 with _xValue_arr, 964-973 *)
  Definition impl_xValue (p : iip) (pos : vec) : res R :=
    bind (pad_image p) (fun im =>
      let off := ii_offset p in
      Ok (draw_xval (xval kva LK (i_x p)) (ixrange kva (i_x p)) (fst pos + fst off) (snd pos + snd off)
            (rx im) (ry im) (ra im))).

  (** InterpolatedImage._flux_ratio, _jac, interpolatedimage.py:198-204; the wrapping Transformation has no offset,
      transform.py:147, 359-362 *)
  Definition outer_flux_ratio (p : iip) : R := impl_flux_ratio p / l_area (i_wcs p).
  Definition ii_xValue (p : iip) (pos : vec) : res R :=
    bind (impl_xValue p (mapp (minv (l_jac (i_wcs p))) pos)) (fun v => Ok (v * outer_flux_ratio p)).
  Definition ii_flux (p : iip) : R := Rabs (mdet (l_jac (i_wcs p))) * outer_flux_ratio p * image_flux p.

  (** _centroid, interpolatedimage.py:578-584, get_pixel_centers image.py:551-558; and of the wrapping
      Transformation, transform.py:333-339 *)
  Definition impl_centroid (p : iip) : res vec :=
    bind (pad_image p) (fun im =>
      let a := ra im in
      let tot := asum a in
      let xpos := asum (Arr (nrow a) (ncol a) (fun i j => IZR (j + rx im) * elt a i j)) / tot in
      let ypos := asum (Arr (nrow a) (ncol a) (fun i j => IZR (i + ry im) * elt a i j)) / tot in
      Ok (xpos, ypos)).
  Definition ii_centroid (p : iip) : res vec :=
    bind (impl_centroid p) (fun c => Ok (mapp (l_jac (i_wcs p)) c)).

  (** _pos_neg_fluxes, interpolatedimage.py:849-864; [pint], [nint] are the fluxes of the interpolant *)
  Definition pos_neg_fluxes (pint nint : R) (a : arr R) : R * R :=
    let pflux := asum (amap (fun v => if Rltb 0 v then v else 0) a) in
    let nflux := Rabs (asum (amap (fun v => if Rltb v 0 then v else 0) a)) in
    let pint2d := pint * pint + nint * nint in
    let nint2d := 2 * pint * nint in
    (pint2d * pflux + nint2d * nflux, pint2d * nflux + nint2d * pflux).

  (** * stepk *)
  (** _flux_frac, interpolatedimage.py:1177-1195, the entry for [d] *)
  Definition flux_frac (im : rimg) (cenx ceny d : Z) : R :=
    let a := ra im in
    asum (Arr (nrow a) (ncol a) (fun i j =>
      let dx := (j + rx im - cenx)%Z in
      let dy := (i + ry im - ceny)%Z in
      if ((Z.abs dx <=? d) && (Z.abs dy <=? d))%Z then elt a i j else 0)).
  (** jnp.sign *)
  Definition sgn (x : R) : R := if Rltb 0 x then 1 else if Rltb x 0 then -1 else 0.
  (** jnp.argmin(jnp.where(msk, d, inf)) for increasing d of [n] entries: the first index allowed, or 0 when there is
      none (all entries are infinite) *)
  Fixpoint first_index (msk : Z -> bool) (k : Z) (n : nat) : option Z :=
    match n with O => None | S n => if msk k then Some k else first_index msk (k + 1) n end.
  Definition argmin_where (msk : Z -> bool) (n : Z) : Z :=
    match first_index msk 0 (Z.to_nat n) with Some k => k | None => 0%Z end.
  (** _calculate_size_containing_flux, interpolatedimage.py:1198-1218; center bounds.py:604-614 *)
  Definition size_containing (im : rimg) (thresh : R) : R :=
    let a := ra im in
    let cenx := (rx im + ncol a / 2)%Z in
    let ceny := (ry im + nrow a / 2)%Z in
    let n := Z.min (nrow a) (ncol a) in
    let p := sgn thresh in
    let msk := fun d => negb (Rltb (p * flux_frac im cenx ceny d) (p * thresh)) in
    IZR (argmin_where msk n) + 1 / 2.
  (** The intersection of the bounds of the image with those of radius [Rd], interpolatedimage.py:717-722 *)
  Definition restrict (im : rimg) (Rd : Z) : res rimg :=
    let x0 := Z.max (rx im) (- Rd) in
    let x1 := Z.min (rx im + ncol (ra im) - 1) Rd in
    let y0 := Z.max (ry im) (- Rd) in
    let y1 := Z.min (ry im + nrow (ra im) - 1) Rd in
    if ((x1 <? x0) || (y1 <? y0))%Z then Err GalSimBoundsError
    else get_sub im x0 y0 (y1 - y0 + 1) (x1 - x0 + 1).
  (** _getStepK, _getSimpleStepK, interpolatedimage.py:710-734 *)
  Definition simple_stepk (p : iip) (Rd : R) : R :=
    let R2 := xrange kva (i_x p) in
    let Rd := hypot Rd R2 in
    PI / Rd.
  Definition stepk_radius (p : iip) : res R :=
    bind (pad_image p) (fun image =>
      match i_cs p with
      | CNo => Ok (IZR (Z.max (nrow (ra image)) (ncol (ra image))) / 2 - 1 / 2)
      | CYes =>
          let thresh := (1 - fold) * image_flux p in
          Ok (size_containing image thresh)
      | CVal v =>
          bind (restrict image (ceilR (PI / v))) (fun im =>
            let thresh := (1 - fold) * image_flux p in
            Ok (size_containing im thresh))
      end).
  (** interpolatedimage.py:232-239, 707-708 *)
  Definition impl_stepk (p : iip) : res R := bind (stepk_radius p) (fun Rd => Ok (simple_stepk p Rd)).
  (** InterpolatedImage._stepk, interpolatedimage.py:231-239 *)
  Definition ii_stepk (p : iip) : res R :=
    if Rltb 0 (i_fs p) then Ok (i_fs p) else bind (impl_stepk p) (fun s => Ok (s / l_min (i_wcs p))).

  (** * Transforms of images, image.py:834-957 *)
  (** jnp.fft.fftshift over both axes and over axis 0 *)
  Definition fftshift {V} (a : arr V) : arr V := aroll a (nrow a / 2) (ncol a / 2).
  Definition fftshift0 {V} (a : arr V) : arr V := aroll a (nrow a / 2) 0.
  Definition expi (t : R) : C := (cos t, sin t).
  (** jnp.fft.rfft2 of a real array *)
  Definition rfft2 (a : arr R) : arr C :=
    Arr (nrow a) (ncol a / 2 + 1) (fun k l =>
      csum (nrow a) (fun i => csum (ncol a) (fun j =>
        Cmult (RtoC (elt a i j)) (expi (- (2 * PI * (IZR (k * i) / IZR (nrow a) + IZR (l * j) / IZR (ncol a)))))))).
  (** jnp.fft.irfft2: the inverse complex transform along axis 0, then the inverse real transform along axis 1, which
      uses the real parts of the first and last columns *)
  Definition ifft0 (a : arr C) : arr C :=
    Arr (nrow a) (ncol a) (fun i l =>
      Cmult (RtoC (/ IZR (nrow a))) (csum (nrow a) (fun k => Cmult (elt a k l) (expi (2 * PI * (IZR (k * i) / IZR (nrow a))))))).
  Definition irfft1 (a : arr C) : arr R :=
    let h := (ncol a - 1)%Z in
    let n := (2 * h)%Z in
    Arr (nrow a) n (fun i j =>
      / IZR n * (Re (elt a i 0) + Re (elt a i h) * cos (PI * IZR j)
                 + 2 * rsum (h - 1) (fun l => Re (Cmult (elt a i (l + 1)) (expi (2 * PI * (IZR ((l + 1) * j) / IZR n))))))).
  Definition irfft2 (a : arr C) : arr R := irfft1 (ifft0 a).
  (** No2, image.py:852-861 *)
  Definition fft_No2 (im : rimg) : Z :=
    Z.max (Z.max (- rx im) (rx im + ncol (ra im) - 1 + 1)) (Z.max (- ry im) (ry im + nrow (ra im) - 1 + 1)).
  (** ximage, image.py:863-870 *)
  Definition fft_padded (im : rimg) : res rimg :=
    let No2 := fft_No2 im in
    if ((rx im =? - No2) && (ncol (ra im) =? 2 * No2) && (ry im =? - No2) && (nrow (ra im) =? 2 * No2))%Z then Ok im
    else set_sub (RImg (aconst (2 * No2) (2 * No2) 0) (- No2) (- No2)) im.
  (** A transform: the array, the origin of its bounds and its scale *)
  Record kimg : Type := KImg { ka : arr C; kx0 : Z; ky0 : Z; kscale : R }.
  (** calculate_fft of an image of scale [dx], image.py:834-889 *)
  Definition calculate_fft (im : rimg) (dx : R) : res kimg :=
    let No2 := fft_No2 im in
    bind (fft_padded im) (fun ximage =>
      let dk := PI / (IZR No2 * dx) in
      let a := fftshift0 (rfft2 (fftshift (ra ximage))) in
      Ok (KImg (amap (fun v => Cmult v (RtoC (dx * dx))) a) 0 (- No2) dk)).
  (** calculate_inverse_fft of a k image whose bounds already are target_bounds, image.py:892-957; the padding and
      wrapping of other bounds are left out ([None]) *)
  Definition calculate_inverse_fft (k : kimg) : option (rimg * R) :=
    let xmax := (kx0 k + ncol (ka k) - 1)%Z in
    let ymax := (ky0 k + nrow (ka k) - 1)%Z in
    let No2 := Z.max (Z.max xmax (- ky0 k)) ymax in
    if ((kx0 k =? 0) && (ncol (ka k) =? No2 + 1) && (ky0 k =? - No2) && (nrow (ka k) =? 2 * No2))%Z then
      let dk := kscale k in
      let dx := PI / (IZR No2 * dk) in
      let a := fftshift (irfft2 (fftshift0 (ka k))) in
      let out := RImg (amap (fun v => v * (dk * IZR No2 / PI) ^ 2) a) (- No2) (- No2) in
      Some (centered out, dx)
    else None.

  (** * kValue and maxk *)
  (** _kim, interpolatedimage.py:698-700 *)
  Definition ii_kim (p : iip) : res kimg := bind (ii_xim p) (fun xim => calculate_fft xim 1).
  (** _kValue, interpolatedimage.py:768-783 *)
  Definition impl_kValue (p : iip) (k : vec) : res C :=
    bind (ii_kim p) (fun kim =>
      Ok (kValue_arr (kv (i_x p)) (ur (i_x p)) (xval kva LK (i_k p)) (ixrange kva (i_k p)) (fst k) (snd k)
            (ii_offset p) (ky0 kim) (ka kim) (kscale kim))).
  (** through the wrapping Transformation, transform.py:281-285, 364-366 *)
  Definition ii_kValue (p : iip) (k : vec) : res C :=
    bind (impl_kValue p (mapp (mT (l_jac (i_wcs p))) k)) (fun v =>
      Ok (Cmult v (RtoC (Rabs (mdet (l_jac (i_wcs p))) * outer_flux_ratio p)))).

  (** _inner_comp_find_maxk_scan, interpolatedimage.py:1246-1308, for the pixel centres of a k image: the counts *)
  Definition count2 (h w : Z) (f : Z -> Z -> bool) : Z :=
    zsum Z.add 0%Z h (fun i => zsum Z.add 0%Z w (fun j => if f i j then 1%Z else 0%Z)).
  Definition maxk_counts (kim : kimg) (thresh : R) (n : Z) : Z :=
    let a := ka kim in
    let kx := fun j => IZR (j + kx0 kim) * kscale kim in
    let ky := fun i => IZR (i + ky0 kim) * kscale kim in
    let above := fun i j => Rltb (thresh * thresh) (Re (Cmult (elt a i j) (Cconj (elt a i j)))) in
    count2 (nrow a) (ncol a) (fun i j => above i j && negb (Rltb (kx n) (Rabs (kx j))) && negb (Rltb (kx n) (Rabs (ky i)))).
  (** delta_msk and the sums of five of its entries, missing ones being zero *)
  Definition delta_msk (msk : Z -> Z) (n i : Z) : Z :=
    if ((i <? 0) || (n <=? i))%Z then 0%Z else if (i =? 0)%Z then 0%Z else (msk i - msk (i - 1))%Z.
  Definition sums5 (msk : Z -> Z) (n i : Z) : Z := zsum Z.add 0%Z 5 (fun t => delta_msk msk n (i + t)).
  Definition find_maxk_scan (kim : kimg) (thresh : R) : R :=
    let n := ncol (ka kim) in
    let kx := fun j => IZR (j + kx0 kim) * kscale kim in
    let msk := maxk_counts kim thresh in
    match first_index (fun i => (sums5 msk n i =? 0)%Z) 0 (Z.to_nat n) with
    | Some sind => kx sind + 0
    | None => kx (n - 1)%Z + (kx (n - 1)%Z - kx (n - 2)%Z)
    end.
  (** _find_maxk, interpolatedimage.py:1311-1322 *)
  Definition find_maxk (kim : kimg) (max_maxk thresh : R) : R := Rmin (find_maxk_scan kim thresh) max_maxk.
  (** _getMaxK, interpolatedimage.py:736-752 *)
  Definition impl_maxk (p : iip) : res R :=
    let uscale := 1 / (2 * PI) in
    match i_cm p with
    | CNo => Ok (2 * PI * ur (i_x p))
    | CYes => bind (ii_kim p) (fun kim => Ok (find_maxk kim (ur (i_x p) / uscale) (mkth * image_flux p)))
    | CVal v => bind (ii_kim p) (fun kim => Ok (find_maxk kim v (mkth * image_flux p)))
    end.
  (** InterpolatedImage._maxk, interpolatedimage.py:222-229 *)
  Definition ii_maxk (p : iip) : res R :=
    if Rltb 0 (i_fm p) then Ok (i_fm p) else bind (impl_maxk p) (fun m => Ok (m / l_max (i_wcs p))).

  (** InterpolatedImage.__eq__, interpolatedimage.py:330-342, of objects with the same gsparams; Image.__eq__ compares
      bounds, wcs (here always PixelScale(1)) and arrays, image.py:1178-1193; interpolants are compared by class and
      parameters, interpolant.py:133-137 *)
  Definition image_eqb (u v : rimg) : bool :=
    ((rx u =? rx v) && (ry u =? ry v) && (nrow (ra u) =? nrow (ra v)) && (ncol (ra u) =? ncol (ra v)))%Z &&
    forallb (fun i => forallb (fun j => Reqb (elt (ra u) (Z.of_nat i) (Z.of_nat j)) (elt (ra v) (Z.of_nat i) (Z.of_nat j)))
                        (seq 0 (Z.to_nat (ncol (ra u))))) (seq 0 (Z.to_nat (nrow (ra u)))).
  Definition interp_eqb (a b : interpolant) : bool :=
    match a, b with
    | Delta, Delta | Nearest, Nearest | SincInt, SincInt | Linear, Linear | Cubic, Cubic | Quintic, Quintic => true
    | Lanczos n c, Lanczos m d => (n =? m)%Z && Bool.eqb c d
    | _, _ => false
    end.
  Definition ii_eq (p q : iip) : res bool :=
    bind (ii_xim p) (fun u => bind (ii_xim q) (fun v =>
      bind (ii_stepk p) (fun s => bind (ii_stepk q) (fun t => bind (ii_maxk p) (fun m => bind (ii_maxk q) (fun n =>
        Ok (image_eqb u v && interp_eqb (i_x p) (i_x q) && interp_eqb (i_k p) (i_k q) && Reqb (ii_flux p) (ii_flux q)
            && Reqb (fst (ii_offset p)) (fst (ii_offset q)) && Reqb (snd (ii_offset p)) (snd (ii_offset q))
            && Reqb s t && Reqb m n))))))).
End II.
