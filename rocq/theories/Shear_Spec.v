(** What the shear properties talk about: keyword calls and "equal up to float resolution". *)
From Coq Require Import Reals String List.
From Verif Require Import Base Shear_Model.
Import ListNotations.
Open Scope R_scope.

(** A keyword call giving components [a] and [b] under the names [n1] and [n2]: both in either order,
    or only one, the other then being zero. *)
Inductive components (n1 n2 : string) (a b : R) : kwargs -> Prop :=
  | both12 : components n1 n2 a b [(n1, KNum a); (n2, KNum b)]
  | both21 : components n1 n2 a b [(n2, KNum b); (n1, KNum a)]
  | only1 : b = 0 -> components n1 n2 a b [(n1, KNum a)]
  | only2 : a = 0 -> components n1 n2 a b [(n2, KNum b)].
(** A keyword call giving a magnitude [x] under the name [n] and a position angle. *)
Inductive magnitude (n : string) (x beta : R) : kwargs -> Prop :=
  | mag12 : magnitude n x beta [(n, KNum x); ("beta"%string, KAng beta)]
  | mag21 : magnitude n x beta [("beta"%string, KAng beta); (n, KNum x)].

(** [x] agrees with [y] to one part in 10^16 (half the spacing of double precision numbers near 1). *)
Definition close (x y : R) : Prop := Rabs (x - y) <= / 10 ^ 16 * Rabs y.
