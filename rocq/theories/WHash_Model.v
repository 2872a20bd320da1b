(** Equality, text and hash of the WCS classes and of CelestialCoord (wcs.py, celestial.py), with the numbers as Python holds them. *)
From Coq Require Import ZArith Reals Bool String List.
From Verif Require Import Base Bounds_Model.
Import ListNotations.
Open Scope R_scope.

(** A float that is not NaN: the sign bit and the magnitude (a real number, not negative; rounding is not modelled). A JAX scalar counts as
    the Python number its .item() gives (ensure_hashable, core/utils.py:147-162); NumPy scalars, whose text depends on the version of
    NumPy, are left out. *)
Record flt : Type := Flt { fneg : bool; fmag : R }.
Inductive num : Type := NInt (z : Z) | NFlt (f : flt).
Definition fval (f : flt) : R := if fneg f then - fmag f else fmag f.
Definition nval (n : num) : R := match n with NInt z => IZR z | NFlt f => fval f end.
(** == of Python numbers compares values *)
Definition feq (a b : flt) : bool := Reqb (fval a) (fval b).
Definition neq (a b : num) : bool := Reqb (nval a) (nval b).
(** PositionD casts its coordinates to float, PositionI to int (position.py:133-185) *)
Inductive pos : Type := PD (x y : flt) | PI (x y : Z).
(** Position.__eq__, position.py:116-121 *)
Definition peq (a b : pos) : bool :=
  match a, b with
  | PD x y, PD x' y' => feq x x' && feq y y'
  | PI x y, PI x' y' => Z.eqb x x' && Z.eqb y y'
  | _, _ => false
  end.
(** Shear holds one complex number; Shear.__eq__, shear.py:282-283 *)
Definition shr : Type := (flt * flt)%type.
Definition seq (a b : shr) : bool := feq (fst a) (fst b) && feq (snd a) (snd b).

(** The objects; scales and matrices are kept as given (wcs.py:873-876, 972-977, 1102-1104, 1334-1337, 1501-1512). The origins are kept as
    given (GalSim's _set_origin). A CelestialCoord holds two Angles, each a float in radians. *)
Inductive obj : Type :=
  | HPix (s : num) | HShear (s : num) (g : shr) | HJac (a b c d : num)
  | HOff (s : num) (o w : pos) | HOffShear (s : num) (g : shr) (o w : pos) | HAff (a b c d : num) (o w : pos)
  | HCel (ra dec : flt).
(** __eq__: PixelScale wcs.py:954-957, ShearWCS 1077-1082, JacobianWCS 1283-1290, UniformWCS 600-606 with the local WCS of each class,
    CelestialCoord celestial.py:841-846 *)
Definition oeq (u v : obj) : bool :=
  match u, v with
  | HPix s, HPix s' => neq s s'
  | HShear s g, HShear s' g' => neq s s' && seq g g'
  | HJac a b c d, HJac a' b' c' d' => neq a a' && neq b b' && neq c c' && neq d d'
  | HOff s o w, HOff s' o' w' => neq s s' && peq o o' && peq w w'
  | HOffShear s g o w, HOffShear s' g' o' w' => neq s s' && seq g g' && peq o o' && peq w w'
  | HAff a b c d o w, HAff a' b' c' d' o' w' => neq a a' && neq b b' && neq c c' && neq d d' && peq o o' && peq w w'
  | HCel r e, HCel r' e' => feq r r' && feq e e'
  | _, _ => false
  end.

(** The text, as pieces: a float is written with its sign and so that the value can be read back (1.0, -0.0), an int without a point. *)
Inductive piece : Type := Word (s : string) | TInt (z : Z) | TFlt (f : flt).
Definition tn (n : num) : piece := match n with NInt z => TInt z | NFlt f => TFlt f end.
(** Position.__repr__, position.py:102-107; Shear.__repr__, shear.py:302-303 *)
Definition tp (p : pos) : list piece :=
  match p with PD x y => [Word "galsim.PositionD"%string; TFlt x; TFlt y] | PI x y => [Word "galsim.PositionI"%string; TInt x; TInt y] end.
Definition ts (g : shr) : list piece := [Word "galsim.Shear"%string; TFlt (fst g); TFlt (snd g)].
(** __repr__: wcs.py:959-960, 1084-1085, 1292-1298, 1397-1402, 1478-1484, 1609-1619; celestial.py:826-830 *)
Definition text (u : obj) : list piece :=
  match u with
  | HPix s => [Word "galsim.PixelScale"%string; tn s]
  | HShear s g => [Word "galsim.ShearWCS"%string; tn s] ++ ts g
  | HJac a b c d => [Word "galsim.JacobianWCS"%string; tn a; tn b; tn c; tn d]
  | HOff s o w => [Word "galsim.OffsetWCS"%string; tn s] ++ tp o ++ tp w
  | HOffShear s g o w => [Word "galsim.OffsetShearWCS"%string; tn s] ++ ts g ++ tp o ++ tp w
  | HAff a b c d o w => [Word "galsim.AffineTransform"%string; tn a; tn b; tn c; tn d] ++ tp o ++ tp w
  | HCel r e => [Word "galsim.CelestialCoord"%string; Word "galsim.Angle"%string; TFlt r; Word "galsim.Angle"%string; TFlt e]
  end.
(** __hash__, wcs.py:963, 1088, 1301, 1404, 1486, 1621 and celestial.py:839: hash(repr(self)), for some hash of texts *)
Definition hash (h : list piece -> Z) (u : obj) : Z := h (text u).

(** JacobianWCS._inverse for floats, wcs.py:1251-1257: minus and division act on the sign bit; the determinant (line 1107) is not 0 *)
Definition fopp (a : flt) : flt := Flt (negb (fneg a)) (fmag a).
Definition fdiv (a b : flt) : flt := Flt (xorb (fneg a) (fneg b)) (fmag a / fmag b).
Definition fof (r : R) : flt := Flt (Rltb r 0) (Rabs r).
Definition fjac (a b c d : flt) : obj := HJac (NFlt a) (NFlt b) (NFlt c) (NFlt d).
Definition inverse (a b c d : flt) : obj :=
  let det := fof (fval a * fval d - fval b * fval c) in
  fjac (fdiv d det) (fdiv (fopp b) det) (fdiv (fopp c) det) (fdiv a det).
