(** Sizes suitable for an FFT. *)
From Coq Require Import ZArith Reals.
From Verif Require Import Base Bounds_Model.
Open Scope Z_scope.

(** even numbers of the form 2^k or 3*2^k *)
Definition good_size (m : Z) : Prop := exists k, 1 <= k /\ (m = 2 ^ k \/ m = 3 * 2 ^ k).

(** m is the smallest good size that is at least x *)
Definition smallest_good (x : R) (m : Z) : Prop :=
  good_size m /\ (x <= IZR m)%R /\ forall m', good_size m' -> (x <= IZR m')%R -> m <= m'.

(** An image centred the way drawImage centres it: nominal centre at the origin. *)
Definition centred (b : bnd Z) : Prop := centerI b = Ok (0, 0).
