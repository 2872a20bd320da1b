(** Miller's algorithm for K_v by Temme's recurrence, as specification of the continued fraction in bessel.py. No model terms. *)
From Coq Require Import Reals Arith.
Open Scope R_scope.
(** y(n-1) = 2 (z + n) y(n) + (v^2 - (n + 1/2)^2) y(n+1), the recurrence of z_n = U(v + 1/2 + n, 2 v + 1, 2 z) *)
Definition te_b (z : R) (n : nat) : R := 2 * (z + INR n).
Definition te_a (v : R) (n : nat) : R := v * v - (INR n - 1 / 2) * (INR n - 1 / 2).
(** the solution that starts at 1 and ends at 0 after N terms *)
Definition miller (v z : R) (N : nat) (y : nat -> R) : Prop :=
  y O = 1 /\ y (N + 1)%nat = 0 /\ forall n, (1 <= n <= N)%nat -> y (n - 1)%nat = te_b z n * y n + te_a v (n + 1) * y (n + 1)%nat.
(** weights of the normalising sum: the product of ((k - 1/2)^2 - v^2) / k *)
Fixpoint te_c (v : R) (n : nat) : R := match n with O => 1 | S k => te_c v k * (- te_a v n / INR n) end.
Definition miller_sum (v : R) (N : nat) (y : nat -> R) : R := sum_f_R0 (fun n => te_c v n * y n) N.
