(** GSObject.drawFFT (gsobject.py:865-982) with the discrete transforms written out: the k image of a profile is
    filled from its kValue, folded, transformed back and cut to the image. The folding, the sizes and the cut are those of
    Wrap_Model and FFT_Model, the transforms those of II_Model. Floats are reals and complex numbers; the image has a
    PixelScale; what is done with the result (storing or adding) is in Call_Model. *)
From Coq Require Import ZArith Reals Bool.
From Coquelicot Require Import Complex.
From Verif Require Import Base Array_Model Bounds_Model Wrap_Model Image_Model FFT_Model II_Model Bes_Model GSP_Model Size_Model.
Open Scope R_scope.

(** pixel values of real images (the dtype says whether they are integers) and of complex images *)
Definition Tr : vops R bool unit :=
  {| vzero := 0; vone := 1; isint := fun d => d; deqb := Bool.eqb; prom := andb; tcast := fun _ v => v;
     rcast := fun d v => if d then IZR (round_even v) else v;
     bop := fun o _ _ a b => match o with Add => a + b | Sub => a - b | Mul => a * b | Div => a / b | _ => a end;
     vrecip := Rinv; viszero := fun v => Reqb v 0; visneg := fun v => Rltb v 0; vconj := fun v => v; wshift := fun w _ _ => w |}.
Definition Tc : vops C unit unit :=
  {| vzero := RtoC 0; vone := RtoC 1; isint := fun _ => false; deqb := fun _ _ => true; prom := fun _ _ => tt; tcast := fun _ v => v;
     rcast := fun _ v => v;
     bop := fun o _ _ a b => match o with Add => Cplus a b | Sub => Cminus a b | Mul => Cmult a b | Div => Cdiv a b | _ => a end;
     vrecip := Cinv; viszero := fun v => Reqb (Cmod v) 0; visneg := fun _ => false; vconj := Cconj; wshift := fun w _ _ => w |}.
(** jnp.fft.ifftshift(a, axes=(-2,)) *)
Definition ifftshift0 {V} (a : arr V) : arr V := aroll a (- (nrow a / 2)) 0.
(** gsobject.py:949-952. irfft2 is given the shape of breal, which is the one it takes by itself: the columns of the wrapped
    image are wrap_size / 2 + 1. *)
Definition draw_irfft2 (a : arr C) (s : Z * Z) (i j : Z) : R := elt (fftshift (irfft2 (ifftshift0 a))) i j.
(** _drawKImage by draw_by_kValue, core/draw.py:50-66, on an image of scale dk *)
Definition drawK (kval : R * R -> C) (b : bnd Z) (dk : R) : image C unit unit :=
  Img (Arr (nv (bdy b)) (nv (bdx b)) (fun i j => kval (IZR (nv (bxmin b) + j) * dk, IZR (nv (bymin b) + i) * dk))) b tt (Some false) None.
(** drawFFT, gsobject.py:973-982 *)
Definition drawFFT (minfft maxfft : Z) (kval : R * R -> C) (maxk stepk scale : R) (im : image R bool unit) : res (image R bool unit) :=
  bind (makeKImage minfft maxfft maxk stepk scale (ibnd im)) (fun r =>
    let '(kb, N, dk) := r in drawFFT_finish Tr Tc draw_irfft2 im (drawK kval kb dk) N).
(** * A Gaussian, and a Gaussian convolved with the pixel *)
(** Gaussian._kValue (gaussian.py:134-136) returns a real array; the k image is complex *)
Definition gauss_kval (p : gaussian) (k : R * R) : C := RtoC (ga_kValue p k).
(** Convolution of the profile with Pixel(scale) (gsobject.py:753-758): kValue, maxk and stepk of a Convolution of two
    (convolve.py:294-298, 204-206, 209-214), the Pixel being the Box with both sides scale and flux 1 (box.py). drawImage has
    moved the profile to image coordinates before, so that the pixel it uses has scale 1. *)
Definition pixel_box (scale : R) (g : gsp R) : box := Box scale scale 1 g.
Definition pixel_kval (p : gaussian) (scale : R) (k : R * R) : C := RtoC (ga_kValue p k * bx_kValue (pixel_box scale (ga_gs p)) k).
Definition pixel_maxk (p : gaussian) (scale : R) : R := Rmin (ga_maxk p) (bx_maxk (pixel_box scale (ga_gs p))).
Definition pixel_stepk (p : gaussian) (scale : R) : R :=
  1 / sqrt (/ (ga_stepk p ^ 2) + / (bx_stepk (pixel_box scale (ga_gs p)) ^ 2)).
(** The same for a profile of any kind, given by its kValue (convolve.py:294-298) *)
Definition conv_pixel (kval : R * R -> C) (scale : R) (g : gsp R) (k : R * R) : C := Cmult (kval k) (RtoC (bx_kValue (pixel_box scale g) k)).
