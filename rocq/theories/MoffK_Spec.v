(** The Fourier transform of the Moffat profile in closed form. No model terms. *)
From Coq Require Import Reals Arith.
From Verif Require Import Bes_Spec.
Open Scope R_scope.
(** The reverse Bessel polynomials: 1, 1 + x, 3 + 3 x + x^2, ... *)
Definition theta (n : nat) (x : R) : R := sum_f_R0 (fun k => bessel_coeff n k / 2 ^ k * x ^ (n - k)) n.
(** Transform of (1 + r^2)^-(n + 3/2), normalised to 1 at x = 0: 2 (x / 2)^nu K_nu(x) / Gamma(nu) with nu = n + 1/2 *)
Definition moffat_k (n : nat) (x : R) : R := exp (- x) * theta n x / theta n 0.
(** exp (lgamma t) is the gamma function at half integers: sqrt pi (2 n)! / (4^n n!) *)
Definition gamma_half (lgamma : R -> R) : Prop := forall n, exp (lgamma (INR n + 1 / 2)) = sqrt PI * INR (fact (2 * n)) / (4 ^ n * INR (fact n)).
