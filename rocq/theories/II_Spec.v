(** What is expected of interpolated images and of transforms of images, stated without the code. *)
From Coq Require Import ZArith Reals Bool List.
From Coquelicot Require Import Coquelicot.
From Verif Require Import Array_Model II_Model MSum Interp_Spec.
Open Scope R_scope.

(** Sums over the pixels of an image, with the position (x, y) and the value of every pixel *)
Definition over_pixels {V} (add : V -> V -> V) (zero : V) (im : rimg) (f : Z -> Z -> R -> V) : V :=
  zsum add zero (nrow (ra im)) (fun r => zsum add zero (ncol (ra im)) (fun c =>
    f (rx im + c)%Z (ry im + r)%Z (elt (ra im) r c))).
(** The value at an integer position, zero outside of the image *)
Definition has_pixel (im : rimg) (x y : Z) : Prop :=
  (rx im <= x < rx im + ncol (ra im))%Z /\ (ry im <= y < ry im + nrow (ra im))%Z.
Definition pixel (im : rimg) (x y : Z) : R :=
  if ((rx im <=? x) && (x <? rx im + ncol (ra im)) && (ry im <=? y) && (y <? ry im + nrow (ra im)))%Z
  then elt (ra im) (y - ry im) (x - rx im) else 0.
(** Interpolation of an image with a separable kernel: every pixel counts with the kernel at its distance. *)
Definition interpolate (K : R -> R) (im : rimg) (x y : R) : R :=
  over_pixels Rplus 0 im (fun i j v => v * K (x - IZR i) * K (y - IZR j)).
Definition total_flux (im : rimg) : R := over_pixels Rplus 0 im (fun _ _ v => v).
(** Flux within a square of half-size d (in pixels, about the pixel (cx, cy)) *)
Definition flux_within (im : rimg) (cx cy d : Z) : R :=
  over_pixels Rplus 0 im (fun x y v => if ((Z.abs (x - cx) <=? d) && (Z.abs (y - cy) <=? d))%Z then v else 0).
Definition nonempty (im : rimg) : Prop := (0 < nrow (ra im))%Z /\ (0 < ncol (ra im))%Z.
(** The discrete Fourier sum of an image with pixels of size dx *)
Definition fourier_sum (im : rimg) (dx kx ky : R) : C :=
  over_pixels Cplus (RtoC 0) im (fun x y v =>
    let t := kx * (IZR x * dx) + ky * (IZR y * dx) in Cmult (RtoC v) (cos t, - sin t)).
(** The plane of all frequencies: N-periodic in both directions and Hermitian *)
Definition hermitian_plane (N : Z) (F : Z -> Z -> C) : Prop :=
  (forall x y, F (x + N)%Z y = F x y) /\ (forall x y, F x (y + N)%Z = F x y) /\
  (forall x y, F (- x)%Z (- y)%Z = Cconj (F x y)).
(** An array keeps the half with columns x = 0..N/2 and rows y = -N/2..N/2-1 of the plane. *)
Definition holds_half (zp : arr C) (h : Z) (F : Z -> Z -> C) : Prop :=
  nrow zp = (2 * h)%Z /\ ncol zp = (h + 1)%Z /\
  forall r c, (0 <= r < 2 * h)%Z -> (0 <= c <= h)%Z -> elt zp r c = F c (r - h)%Z.
(** Interpolation of the plane with the integers lo..lo+n-1 in both directions *)
Definition interpolate_plane (K : R -> R) (F : Z -> Z -> C) (lox nx loy ny : Z) (x y : R) : C :=
  zsum Cplus (RtoC 0) ny (fun b => zsum Cplus (RtoC 0) nx (fun a =>
    let i := (lox + a)%Z in let j := (loy + b)%Z in
    Cmult (F i j) (RtoC (K (x - IZR i) * K (y - IZR j))))).

(** * Interpolated profiles *)
(** The flux asked for: the one given, or the sum of the pixels, times the area of a pixel for surface brightnesses *)
Definition wanted_flux (given : option R) (sb : bool) (area : R) (im : rimg) : R :=
  match given with Some f => f | None => if sb then total_flux im * area else total_flux im end.
(** The barycentre of an image in its own pixel coordinates *)
Definition barycentre (im : rimg) : R * R :=
  (over_pixels Rplus 0 im (fun x _ v => IZR x * v) / total_flux im, over_pixels Rplus 0 im (fun _ y v => IZR y * v) / total_flux im).
(** The transform at (kx, ky) of points with the values of the pixels, the pixel (x, y) being at [pos x y] *)
Definition points_transform (im : rimg) (pos : Z -> Z -> R * R) (kx ky : R) : C :=
  over_pixels Cplus (RtoC 0) im (fun x y v =>
    let t := kx * fst (pos x y) + ky * snd (pos x y) in Cmult (RtoC v) (cos t, - sin t)).

(** * Extent of a transform *)
(** Some entry of the array (origin at column 0 and row -h) in the square ring of radius [r] is larger than [t]. *)
Definition ring_above (a : arr C) (h : Z) (t : R) (r : Z) : Prop :=
  exists i j, (0 <= i < nrow a)%Z /\ (0 <= j < ncol a)%Z /\ Z.max (Z.abs (i - h)) (Z.abs j) = r /\ Rabs t < Cmod (elt a i j).
(** The square of half-size [d] about the central pixel holds at least the flux [t] (of either sign). *)
Definition encloses (im : rimg) (t : R) (d : Z) : Prop :=
  (0 < t -> t <= flux_within im 0 0 d) /\ (t < 0 -> flux_within im 0 0 d <= t).
