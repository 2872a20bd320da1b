(** What a WCS means, independently of the classes' methods. *)
From Coq Require Import ZArith Reals Bool List.
From Coquelicot Require Import Complex.
From Verif Require Import Base Geo_Model Geo_Proofs Shear_Model Prof_Model Prof_Spec WCS_Model.
Import ListNotations.
Open Scope R_scope.

(** The linear part: a scale, a scale with a shear (image coordinates are sheared by the opposite
    shear), any matrix. *)
Definition linear (l : lwcs) : mat :=
  match l with
  | LPix s => mscale mI s
  | LShear s g => mscale (getMatrix (sh_neg g)) s
  | LJac m => m
  end.
Definition origins (w : wcs) : vec * vec :=
  match w with WLoc _ => ((0, 0), (0, 0)) | WOff _ a b | WOffShear _ _ a b | WAff _ a b => (a, b) end.
Definition linear_part (w : wcs) : mat :=
  linear (match w with WLoc l => l | WOff s _ _ => LPix s | WOffShear s g _ _ => LShear s g | WAff m _ _ => LJac m end).
(** The world position of the image position [p]. *)
Definition meaning (w : wcs) (p : vec) : vec :=
  vadd (mapp (linear_part w) (vsub p (fst (origins w)))) (snd (origins w)).
(** Parameters for which the map is invertible. *)
Definition regular_l (l : lwcs) : Prop :=
  match l with LPix s => s <> 0 | LShear s g => s <> 0 /\ Cmod g < 1 | LJac m => mdet m <> 0 end.
Definition regular (w : wcs) : Prop :=
  match w with WLoc l => regular_l l | WOff s _ _ => s <> 0 | WOffShear s g _ _ => s <> 0 /\ Cmod g < 1 | WAff m _ _ => mdet m <> 0 end.
(** Scales are positive. *)
Definition positive_l (l : lwcs) : Prop :=
  match l with LPix s => 0 < s | LShear s g => 0 < s /\ Cmod g < 1 | LJac m => mdet m <> 0 end.

(** Two WCS that cannot be told apart by the positions they give. *)
Definition same_map (w w' : wcs) : Prop := forall p, meaning w p = meaning w' p.

(** [s] is a singular value of [m]: the length of some vector is multiplied by [s], and that vector is
    an eigenvector of m^T m. *)
Definition singular_value (m : mat) (s : R) : Prop :=
  0 <= s /\ exists v, v <> (0, 0) /\ mapp (mdot (mT m) m) v = (s * s * fst v, s * s * snd v).

(** The exact transformation of a shape (e1, e2) under a linear map: second moments transform as
    J Q J^T. *)
Definition moments (e : vec) : mat := Mat (1 + fst e) (snd e) (snd e) (1 - fst e).
Definition shape_of (q : mat) : vec := ((m00 q - m11 q) / (m00 q + m11 q), 2 * m01 q / (m00 q + m11 q)).
Definition shape_map (J : mat) (e : vec) : vec := shape_of (mdot (mdot J (moments e)) (mT J)).
Definition shape (g : C) : vec := (2 * Re g / (1 + (Re g ^ 2 + Im g ^ 2)), 2 * Im g / (1 + (Re g ^ 2 + Im g ^ 2))).

(** A function of two variables that is a polynomial of degree at most two. *)
Definition quadratic (f : R -> R -> R) (a b c d e k : R) : Prop :=
  forall x y, f x y = a * x + b * y + c * (x * x) + d * (x * y) + e * (y * y) + k.

(** A rotation, the exchange of the two image axes, the total of some displacements. *)
Definition rotm (t : R) : mat := Mat (cos t) (- sin t) (sin t) (cos t).
Definition swap : mat := Mat 0 1 1 0.
Fixpoint vsum (l : list vec) : vec := match l with [] => (0, 0) | a :: t => vadd a (vsum t) end.
(** Shapes for which Shear(e1=, e2=) does not use its truncated series (Shear_Model.e2g), or nothing
    is truncated. *)
Definition exact_range (e : vec) : Prop := 1 / 10000 < fst e * fst e + snd e * snd e \/ e = (0, 0).
