(** Meaning of quadrature: polynomials, integrals between finite or infinite limits. No model terms. *)
From Coq Require Import Reals List.
From Coquelicot Require Import Coquelicot.
Open Scope R_scope.
(** The polynomial with the given coefficients, lowest first. *)
Fixpoint peval (c : list R) (x : R) : R := match c with nil => 0 | a :: c => a + x * peval c x end.
(** The integral of f between two limits, finite or not, is v. *)
Definition approach (x : Rbar) : (R -> Prop) -> Prop := match x with Finite x => at_point x | x => Rbar_locally x end.
Definition integral (f : R -> R) (a b : Rbar) (v : R) : Prop := is_RInt_gen f (approach a) (approach b) v.
(** What an integrator promises: with status 0 the value is within the tolerances. *)
Definition tolerance (abs_err rel_err v : R) : R := Rmax abs_err (rel_err * Rabs v).
Definition integrates (quadgk : (R -> R) -> Rbar -> Rbar -> R * nat) (abs_err rel_err : R) : Prop :=
  forall f a b v, integral f a b v -> snd (quadgk f a b) = 0%nat -> Rabs (fst (quadgk f a b) - v) <= tolerance abs_err rel_err v.
