(** The contract of an order and a hash. *)
From Coq Require Import Reals Bool List.
From Verif Require Import Base PEq_Model PEq_Spec AOrd_Model.
Import ListNotations.
Open Scope R_scope.

(** The four comparisons and == of two angles fit together: exactly one of a < b, a == b, b < a holds, a <= b is "less or equal", and
    a > b, a >= b are the converses *)
Definition fits (a_lt_b a_eq_b a_gt_b a_le_b a_ge_b : bool) : Prop :=
  (if a_lt_b then 1 else 0) + (if a_eq_b then 1 else 0) + (if a_gt_b then 1 else 0) = 1 /\
  a_le_b = a_lt_b || a_eq_b /\ a_ge_b = a_gt_b || a_eq_b.
Definition number (a : ang) : num := match a with Ang x | Unit_ x => x end.
(** Both numbers are held exactly by JAX *)
Definition both_exact (rnd : R -> R) (a b : num) : Prop := exact_num rnd a /\ exact_num rnd b.
Definition one_jax (a b : num) : Prop := ~ (python_num a /\ python_num b).
