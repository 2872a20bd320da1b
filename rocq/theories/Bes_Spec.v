(** Bessel functions that have a closed form. No model terms. *)
From Coq Require Import Reals Arith.
Open Scope R_scope.
(** (n + k)! / (k! (n - k)!), 0 for k > n *)
Definition bessel_coeff (n k : nat) : R := if (k <=? n)%nat then INR (fact (n + k)) / (INR (fact k) * INR (fact (n - k))) else 0.
(** K_{n + 1/2}(x) = sqrt (pi / 2 x) e^-x sum_k (n + k)! / (k! (n - k)!) (2 x)^-k *)
Definition K_half (n : nat) (x : R) : R := sqrt (PI / (2 * x)) * exp (- x) * sum_f_R0 (fun k => bessel_coeff n k / (2 * x) ^ k) n.
(** J0(x) = sum_k (-1)^k (x / 2)^(2 k) / (k!)^2 *)
Definition J0_term (x : R) (k : nat) : R := (-1) ^ k * (x / 2) ^ (2 * k) / (INR (fact k) * INR (fact k)).
Definition J0_of (J : R -> R) : Prop := forall x, infinite_sum (J0_term x) (J x).
