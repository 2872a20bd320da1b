(** An exponential profile drawn through Fourier space: what it should give. No model terms. *)
From Coq Require Import Reals.
From Coquelicot Require Import Coquelicot.
Open Scope R_scope.
(** the surface brightness of an exponential profile of scale radius r0 *)
Definition expo_density (flux r0 x y : R) : R := flux / (2 * PI * r0 ^ 2) * exp (- (sqrt (x ^ 2 + y ^ 2) / r0)).
(** its integral over the square of side c around (x, y) *)
Definition expo_pixel (flux r0 c x y : R) : R := RInt (fun v => RInt (fun u => expo_density flux r0 u v) (x - c / 2) (x + c / 2)) (y - c / 2) (y + c / 2).
(** errors relative to the peak: images of the profile at distances of at least h scale radii; waves beyond kappa / r0 left out *)
Definition expo_fold (h : R) : R := 16 * exp (- h) * (2 + 3 * (1 + h) / (2 * h ^ 2) + (3 + 3 * h + h ^ 2) / (4 * h ^ 4)).
Definition expo_cut (kappa : R) : R := 2 / sqrt (1 + kappa ^ 2) + 1 / sqrt (1 + 2 * kappa ^ 2).
