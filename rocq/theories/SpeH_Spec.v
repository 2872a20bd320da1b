(** Half-integer orders: the Bessel functions, the Gamma function, the reverse Bessel polynomials. No model terms. *)
From Coq Require Import Reals.
From Verif Require Import Bes_Spec.
Open Scope R_scope.

(** Gamma(n + 1/2) *)
Fixpoint gamma_half (n : nat) : R := match n with O => sqrt PI | S n => (INR n + 1 / 2) * gamma_half n end.
(** What is assumed of the two special functions at half-integer arguments *)
Definition half_integers (kv : R -> R -> R) (lgamma : R -> R) : Prop :=
  (forall n z, 0 < z -> kv (INR n + 1 / 2) z = K_half n z) /\ (forall n, exp (lgamma (INR n + 1 / 2)) = gamma_half n).
(** theta_0 = 1, theta_1 = 1 + z, theta_{n+2} = (2 n + 3) theta_{n+1} + z^2 theta_n; the pair of two successive ones *)
Fixpoint theta2 (n : nat) (z : R) : R * R :=
  match n with O => (1, 1 + z) | S n => (snd (theta2 n z), (2 * INR n + 3) * snd (theta2 n z) + z ^ 2 * fst (theta2 n z)) end.
Definition theta (n : nat) (z : R) : R := fst (theta2 n z).
(** 1 3 5 ... (2 n - 1) *)
Fixpoint odd_fact (n : nat) : R := match n with O => 1 | S n => (2 * INR n + 1) * odd_fact n end.
