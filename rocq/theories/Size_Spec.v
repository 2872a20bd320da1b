(** What sizes, fluxes and bandwidths of a profile mean, stated without the model. *)
From Coq Require Import ZArith Reals List.
From Coquelicot Require Import Coquelicot.
Import ListNotations.
Open Scope R_scope.

(** The number of options that are given. *)
Fixpoint given_of {A} (l : list (option A)) : nat := match l with [] => 0%nat | Some _ :: t => S (given_of t) | None :: t => given_of t end.
(** A surface brightness that depends on the distance from the centre only, *)
Definition circular (I : R * R -> R) : Prop := forall x y, I (x, y) = I (sqrt (x * x + y * y), 0).
(** its flux within a distance, and the flux of all. *)
Definition flux_within (I : R * R -> R) (r : R) : R := RInt (fun t => 2 * PI * t * I (t, 0)) 0 r.
Definition total_flux (I : R * R -> R) (f : R) : Prop := is_lim (flux_within I) p_infty f.
(** [k] is as far from the centre as [m] or farther. *)
Definition beyond (m : R) (k : R * R) : Prop := m * m <= fst k * fst k + snd k * snd k.
(** What a search in a table of n entries may return, whatever the table: everything before the index is at most x and
    everything from it on is above x, as far as the two neighbours of the index are concerned. *)
Definition searches (search : nat -> (nat -> R) -> R -> nat) : Prop :=
  forall n xp x, let i := search n xp x in (i <= n)%nat /\ ((0 < i)%nat -> xp (i - 1)%nat <= x) /\ ((i < n)%nat -> x < xp i).
(** The flux of a circular profile between two distances and beyond one. *)
Definition flux_between (I : R * R -> R) (a b : R) : R := RInt (fun t => 2 * PI * t * I (t, 0)) a b.
Definition flux_beyond (I : R * R -> R) (r f : R) : Prop := is_lim (flux_between I r) p_infty f.
(** What is used of the modified Bessel functions K of orders nu and nu + 1 and of G = Gamma(nu + 1): positive and continuous,
    (z^(nu+1) K_(nu+1)(z))' = - z^(nu+1) K_nu(z), the limit 2^nu Gamma(nu + 1) at 0 and the limit 0 at infinity. *)
Definition bessel_pair (nu G : R) (K K1 : R -> R) : Prop :=
  (forall z, 0 < z -> 0 < K z /\ continuous K z /\ is_derive (fun z => Rpower z (nu + 1) * K1 z) z (- (Rpower z (nu + 1) * K z))) /\
  filterlim (fun z => Rpower z (nu + 1) * K1 z) (at_right 0) (locally (Rpower 2 nu * G)) /\
  is_lim (fun z => Rpower z (nu + 1) * K1 z) p_infty 0.
(** The Bessel functions of half-integer order, and the logarithm of |Gamma| at 1/2, 3/2, -3/2 and -5/2. *)
Definition half_orders (kv : R -> R -> R) (lgamma : R -> R) : Prop :=
  (forall z, 0 < z -> kv (- (1 / 2)) z = sqrt (PI / (2 * z)) * exp (- z) /\ kv (1 / 2) z = sqrt (PI / (2 * z)) * exp (- z) /\ kv (3 / 2) z = sqrt (PI / (2 * z)) * exp (- z) * (1 + 1 / z)) /\
  exp (lgamma (1 / 2)) = sqrt PI /\ exp (lgamma (3 / 2)) = sqrt PI / 2 /\ exp (lgamma (- (3 / 2))) = 4 / 3 * sqrt PI /\ exp (lgamma (- (5 / 2))) = 8 / 15 * sqrt PI.
(** The Fourier transform, as the limit of what waves of any phase see of the profile in growing squares: the phase 0 gives
    the real part, the phase -pi/2 the imaginary part, which is 0. *)
Definition wave_part (I : R * R -> R) (k : R * R) (c A : R) : R :=
  RInt (fun x => RInt (fun y => I (x, y) * cos (fst k * x + snd k * y + c)) (- A) A) (- A) A.
Definition transform (I : R * R -> R) (k : R * R) (v : R) : Prop := forall c, is_lim (wave_part I k c) p_infty (v * cos c).
(** The same for a circular profile, in polar coordinates and growing discs; k is the length of the wave vector. *)
Definition polar_part (I : R * R -> R) (k c A : R) : R :=
  RInt (fun th => RInt (fun t => t * I (t, 0) * cos (k * (t * cos th) + c)) 0 A) 0 (2 * PI).
Definition polar_transform (I : R * R -> R) (k v : R) : Prop := forall c, is_lim (polar_part I k c) p_infty (v * cos c).
