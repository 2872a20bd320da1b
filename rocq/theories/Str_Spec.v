(** What the text of a transformed profile should tell. The calls are read with [path] and [effect] of Prof_Spec. *)
From Coq Require Import Reals Bool List.
From Coquelicot Require Import Complex.
From Verif Require Import Base Geo_Model Geo_Proofs Prof_Model Prof_Spec.
Import ListNotations.
Open Scope R_scope.

(** The Frobenius norm of a matrix *)
Definition frob (m : mat) : R := sqrt (m00 m ^ 2 + m01 m ^ 2 + m10 m ^ 2 + m11 m ^ 2).
(** The calls move points as x -> J x + off, up to [eps] of the size of J x *)
Definition tells (eps : R) (ops : list op) (J : mat) (off : vec) : Prop :=
  forall x, norm (vsub (path ops x) (vadd (mapp J x) off)) <= eps * (frob J * norm x).
(** A call that names the four entries of the matrix *)
Definition in_full (o : op) : Prop := match o with TransformBy _ _ _ _ => True | _ => False end.
(** Calls that only stretch, turn or shear *)
Definition one_step (o : op) : Prop := match o with Rotate _ | ShearBy _ | Expand _ => True | _ => False end.
