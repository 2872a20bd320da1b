(** Model of the FFT size computations: Image.good_fft_size (/repo/jax_galsim/image.py:957-974),
    GSObject.getGoodImageSize, drawFFT_makeKImage and drawFFT_finish
    (/repo/jax_galsim/gsobject.py:851-972).
    Simplifications: math.log, math.exp, math.ceil and float arithmetic are the exact real ones;
    the inverse real FFT itself is a parameter. *)
From Coq Require Import ZArith Reals Bool.
From Verif Require Import Base Array_Model Bounds_Model Wrap_Model Image_Model.

(** math.ceil / jnp.ceil and math.floor. *)
Definition ceilR (x : R) : Z := (- Int_part (- x))%Z.
Definition floorR (x : R) : Z := Int_part x.

(** 1 - 1e-5 and 1e-5. *)
Definition slop : R := (/ 100000)%R.

(** good_fft_size, image.py:957-974. *)
Definition good_fft_size (n : R) : Z :=
  let insize := ((1 - slop) * n)%R in
  let log2n := (ln 2 * IZR (ceilR (ln insize / ln 2)))%R in
  let log2n3 := (ln 3 + ln 2 * IZR (ceilR ((ln insize - ln 3) / ln 2)))%R in
  let log2n3 := Rmax log2n3 (ln 6) in
  Z.max (ceilR (exp (Rmin log2n log2n3) - slop)%R) 2.

(** getGoodImageSize, gsobject.py:851-863. *)
Definition getGoodImageSize (scale stepk : R) : Z :=
  let Nd := (2 * PI / (scale * stepk))%R in
  let N := ceilR (Nd * (1 - / 1000000000000))%R in
  (2 * ((N + 1) / 2))%Z.

(** image_N, gsobject.py:880-894. *)
Definition image_N (b : bnd Z) : Z :=
  Z.max (Z.max (Z.max (Z.abs (nv (bxmin b))) (Z.abs (nv (xmaxI b))))
               (Z.max (Z.abs (nv (bymin b))) (Z.abs (nv (ymaxI b)))) * 2)
        (Z.max (snd (numpyShapeI b)) (fst (numpyShapeI b))).

(** drawFFT_makeKImage, gsobject.py:865-925: bounds of the k image, wrap size N and dk. *)
Definition kbounds (Nk : Z) : bnd Z :=
  BoundsI (ArgsKwDelta (py 0) (py (Nk / 2 + 1)) (py (- Nk / 2)) (py (2 * (Nk / 2) + 1)))%Z.
Definition makeKImage (minfft maxfft : Z) (maxk stepk scale : R) (b : bnd Z) : res (bnd Z * Z * R) :=
  if Z.eqb maxfft minfft then
    Ok (kbounds maxfft, maxfft, (2 * PI / (IZR maxfft * scale))%R)
  else
    let N := getGoodImageSize scale stepk in
    let N := Z.max N (image_N b) in
    let N := good_fft_size (IZR N) in
    let N := Z.max N minfft in
    let dk := (2 * PI / (IZR N * scale))%R in
    let Nk := if Rltb maxk (IZR N * dk / 2) then N else (ceilR (maxk / dk) * 2)%Z in
    if Z.ltb maxfft Nk then Err GalSimFFTSizeError
    else Ok (kbounds Nk, N, dk).

(** bounds used in drawFFT_finish, gsobject.py:934-949. *)
Definition bwrap (N : Z) : bnd Z :=
  BoundsI (ArgsKwDelta (py 0) (py (N / 2 + 1)) (py (- N / 2)) (py (2 * (N / 2))))%Z.
Definition breal (N : Z) : bnd Z :=
  BoundsI (ArgsKwDelta (py (- N / 2)) (py (2 * (N / 2))) (py (- N / 2)) (py (2 * (N / 2))))%Z.

Section Finish.
  Context {V D W VC DC WC : Type}.
  Variable T : vops V D W.          (** real pixel values *)
  Variable TC : vops VC DC WC.      (** complex pixel values *)
  (** jnp.fft.fftshift(jnp.fft.irfft2(jnp.fft.ifftshift(a, axes=-2), s)), gsobject.py:951-954; a
      function of the wrapped k array, giving an array of the requested shape. *)
  Variable irfft2 : arr VC -> Z * Z -> Z -> Z -> V.

  (** drawFFT_finish up to the sub-image that is stored or added, gsobject.py:927-966 (even
      wrap_size, so that the hermitian_wrap_size passed to _wrap equals 2*bwrap.xmax). *)
  Definition drawFFT_finish (im : image V D W) (kim : image VC DC WC) (N : Z) : res (image V D W) :=
    bind (snd (wrap TC kim (bwrap N) HX)) (fun kw =>
      let '(h, w) := numpyShapeI (breal N) in
      let a := Arr h w (fun i j => rcast T (idt im) (irfft2 (iarr kw) (h, w) i j)) in
      bind (Image_array T a (breal N) (idt im) (iwcs im) false) (fun real_image =>
        subImage T real_image (ibnd im))).
End Finish.
