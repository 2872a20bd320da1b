(** Specification of bounds as sets of points; independent of the code's helpers. *)
From Coq Require Import ZArith Reals List.
From Verif Require Import Base Bounds_Model.
Open Scope Z_scope.

(** The set of integer (real) points of the rectangle [x1..x2] x [y1..y2]. *)
Definition rectZ (x1 x2 y1 y2 : Z) (x y : Z) : Prop := x1 <= x <= x2 /\ y1 <= y <= y2.
Definition rectR (x1 x2 y1 y2 : R) (x y : R) : Prop :=
  (x1 <= x <= x2)%R /\ (y1 <= y <= y2)%R.

(** The point (x,y) belongs to the bounds according to the public [includes]. *)
Definition ptin (b : bnd Z) (x y : Z) : Prop := includesI b x y = true.
Definition ptinD (b : bnd R) (x y : R) : Prop := includesD b x y = true.

(** A defined bounds is not empty. *)
Definition wfI (b : bnd Z) : Prop := bdef b = true -> 1 <= nv (bdx b) /\ 1 <= nv (bdy b).
Definition wfD (b : bnd R) : Prop := bdef b = true -> (0 <= nv (bdx b) /\ 0 <= nv (bdy b))%R.

(** Obtainable from the public constructor. *)
Definition constructedI (b : bnd Z) : Prop := exists a, b = BoundsI a.
Definition constructedD (b : bnd R) : Prop := exists a, b = BoundsD a.

(** The user's loop "b = BoundsI(); for p in l: b = b + p". *)
Definition acc_pos (l : list (num Z * num Z)) : bnd Z :=
  List.fold_left (fun b p => addI_pos b (fst p) (snd p)) l (BoundsI ArgsNone).

(** Conversion of a bounds between classes keeps whether it is defined. *)
Definition conversion_keeps_definedness_D : Prop :=
  forall b, constructedD b -> bdef (BoundsD_of_D b) = bdef b.
Definition conversion_keeps_definedness_DI : Prop :=
  forall b c, constructedD b -> BoundsI_of_D b = Ok c -> bdef c = bdef b.
