(** Specification of image wrapping, independent of the block-summation code: the sum of all
    values of a function on a rectangle whose coordinates are congruent to a given point. *)
From Coq Require Import ZArith Bool.
From Verif Require Import MSum.
Open Scope Z_scope.

Section S.
  Variable V : Type.
  Variable add : V -> V -> V.
  Variable zero : V.

  (** Sum of F x' y' over x1 <= x' < x1+nx, y1 <= y' < y1+ny with x' = x (mod wx), y' = y (mod wy). *)
  Definition congruent_sum (F : Z -> Z -> V) (x1 nx y1 ny wx wy x y : Z) : V :=
    zsum add zero ny (fun i => zsum add zero nx (fun j =>
      if ((y1 + i - y) mod wy =? 0) && ((x1 + j - x) mod wx =? 0)
      then F (x1 + j) (y1 + i) else zero)).

  (** Sum over the whole rectangle. *)
  Definition rect_sum (F : Z -> Z -> V) (x1 nx y1 ny : Z) : V :=
    zsum add zero ny (fun i => zsum add zero nx (fun j => F (x1 + j) (y1 + i))).
  (** F(-x,-y) = conj F(x,y). *)
  Variable conj : V -> V.
  Definition hermitianF (F : Z -> Z -> V) : Prop := forall x y, F (- x) (- y) = conj (F x y).
End S.
