(** CelestialWCS, /repo/jax_galsim/wcs.py:653-830: the part common to all celestial coordinate systems, given what each class
    defines: origin, _radec, _xy and _newOrigin. Numbers are exact; [color] is left out, since no class uses it. *)
From Coq Require Import ZArith Reals Bool List String.
From Verif Require Import Base Bounds_Model Geo_Model Angle_Model Sky_Model FITS_Model Draw_Model Noise_Model.
Open Scope R_scope.

(** The units argument: none, a name, an AngleUnit, something else *)
Inductive uarg : Type := NoUnit | UName (s : text) | Unit (u : R) | NotUnit.
(** What a class defines: origin, _radec, _xy, _newOrigin *)
Record celops (W : Type) : Type := CelOps { c_origin : W -> vec; c_radec : W -> vec -> R * R; c_xy : W -> R -> R -> res vec; c_new : W -> vec -> W }.
Arguments c_origin {W}. Arguments c_radec {W}. Arguments c_xy {W}. Arguments c_new {W}.
(** GSFitsWCS, fitswcs.py:179-182, 622-651, 748-751 *)
Definition fits_ops : celops fwcs := CelOps fwcs (fun _ => (0, 0)) f_radec f_xy new_origin.

Section Cel.
  Context {W : Type}.
  Variable O : celops W.

  (** xyToradec, _xyToradec, wcs.py:673-688, 805-811 *)
  Definition xyToradec (w : W) (x y : R) (units : uarg) : res (R * R) :=
    bind (match units with
          | NoUnit => Err TypeError
          | UName s => from_name s
          | Unit u => Ok u
          | NotUnit => Err GalSimValueError
          end) (fun u =>
    let x := x - fst (c_origin O w) in
    let y := y - snd (c_origin O w) in
    let '(ra, dec) := c_radec O w (x, y) in
    Ok (ra * (radians / u), dec * (radians / u))).
  (** radecToxy, _radecToxy, wcs.py:690-703, 820-826: units has no default; None is not a unit *)
  Definition radecToxy (w : W) (ra dec : R) (units : uarg) : res (R * R) :=
    bind (match units with
          | UName s => from_name s
          | Unit u => Ok u
          | NoUnit | NotUnit => Err GalSimValueError
          end) (fun u =>
    let ra := ra * (u / radians) in
    let dec := dec * (u / radians) in
    bind (c_xy O w ra dec) (fun p => Ok (fst p + fst (c_origin O w), snd p + snd (c_origin O w)))).
  (** _posToWorld, wcs.py:794-803, and its two kinds of result *)
  Inductive wpos : Type := Sky (c : coord) | Plane (p : vec).
  Definition posToWorld (w : W) (p : vec) (center : option coord) (projection : option string) : res wpos :=
    let x := fst p - fst (c_origin O w) in
    let y := snd p - snd (c_origin O w) in
    let '(ra, dec) := c_radec O w (x, y) in
    bind (new_coord (ra * radians) (dec * radians)) (fun coord =>
    match center with
    | None => Ok (Sky coord)
    | Some c => bind (project c coord projection) (fun q => Ok (Plane (fst q / arcsec, snd q / arcsec)))
    end).
  (** _posToImage, wcs.py:814-818 *)
  Definition posToImage (w : W) (c : coord) : res vec :=
    bind (c_xy O w (cra c / radians) (cdec c / radians)) (fun p => Ok (vadd p (c_origin O w))).
  (** _shiftOrigin, wcs.py:705-719; [world] says whether world_origin is given *)
  Definition shiftOrigin (w : W) (o : vec) (world : bool) : res W :=
    if world then Err TypeError else Ok (c_new O w (vadd o (c_origin O w))).
  (** _local, wcs.py:725-751 *)
  Definition cel_local (w : W) (p : vec) : mat :=
    let x0 := fst p - fst (c_origin O w) in
    let y0 := snd p - snd (c_origin O w) in
    let dx := 1 in
    let dy := 1 in
    let at_ x y := c_radec O w (x, y) in
    let cosdec := cos (snd (at_ x0 y0)) in
    let dudx := - / 2 * (fst (at_ (x0 + dx) y0) - fst (at_ (x0 - dx) y0)) / dx * cosdec in
    let dudy := - / 2 * (fst (at_ x0 (y0 + dy)) - fst (at_ x0 (y0 - dy))) / dy * cosdec in
    let dvdx := / 2 * (snd (at_ (x0 + dx) y0) - snd (at_ (x0 - dx) y0)) / dx in
    let dvdy := / 2 * (snd (at_ x0 (y0 + dy)) - snd (at_ x0 (y0 - dy))) / dy in
    let factor := radians / arcsec in
    Mat (dudx * factor) (dudy * factor) (dvdx * factor) (dvdy * factor).
  (** the correction for jumps of ra, wcs.py:773-778 *)
  Definition unjump (d : R) : R :=
    let d := if Rltb 1 d then d - PI else d in
    if Rltb d (- 1) then d + PI else d.
  (** _makeSkyImage, wcs.py:755-791, at the pixel (i, j): the grid holds the neighbouring pixel centres *)
  Definition sky_area (w : W) (sky : R) (i j : Z) : R :=
    let at_ a b := c_radec O w (IZR a - fst (c_origin O w), IZR b - snd (c_origin O w)) in
    let cosdec := cos (snd (at_ i j)) in
    let dudx := - / 2 * (fst (at_ (i + 1)%Z j) - fst (at_ (i - 1)%Z j)) in
    let dudy := - / 2 * (fst (at_ i (j + 1)%Z) - fst (at_ i (j - 1)%Z)) in
    let dudx := unjump dudx * cosdec in
    let dudy := unjump dudy * cosdec in
    let dvdx := / 2 * (snd (at_ (i + 1)%Z j) - snd (at_ (i - 1)%Z j)) in
    let dvdy := / 2 * (snd (at_ i (j + 1)%Z) - snd (at_ i (j - 1)%Z)) in
    let area := Rabs (dudx * dvdy - dvdx * dudy) in
    let factor := radians / arcsec in
    area * sky * factor ^ 2.
  (** .astype(image.dtype) truncates for integer types *)
  Definition sky_pixel (w : W) (t : ndt) (sky : R) (i j : Z) : R := ncast t (sky_area w sky i j).
End Cel.
(** EuclideanWCS._makeSkyImage rounds instead, wcs.py:552-557 *)
Definition euclid_cast (t : ndt) (v : R) : R := match t with NF => v | NI _ => IZR (roundR v) end.
