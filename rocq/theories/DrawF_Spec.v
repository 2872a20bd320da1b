(** What drawing through Fourier space should give. No model terms. *)
From Coq Require Import ZArith Reals.
From Coquelicot Require Import Coquelicot.
From Verif Require Import MSum.
Open Scope R_scope.
(** the waves with |j| <= M and |l| <= M of a Fourier series with spacing dk at the point (x, y), times (dk / 2 pi)^2:
    a sum in place of the inverse Fourier integral *)
Definition wave (t : R) : C := (cos t, sin t).
Definition inverse_sum (kval : R * R -> C) (dk : R) (M : Z) (x y : R) : R :=
  (dk / (2 * PI)) ^ 2 * Re (zsum Cplus (RtoC 0) (2 * M + 1) (fun i => zsum Cplus (RtoC 0) (2 * M + 1) (fun j =>
    Cmult (kval (IZR (j - M) * dk, IZR (i - M) * dk)) (wave (IZR (j - M) * dk * x + IZR (i - M) * dk * y))))).
(** the Fourier transform of a real profile *)
Definition hermitian (kval : R * R -> C) : Prop := forall kx ky, kval (- kx, - ky) = Cconj (kval (kx, ky)).
(** * The Gaussian *)
(** the surface brightness of a Gaussian, and its integral over the square of side c around (x, y) *)
Definition gauss_density (flux s x y : R) : R := flux / (2 * PI * s ^ 2) * exp (- ((x ^ 2 + y ^ 2) / (2 * s ^ 2))).
Definition gauss_pixel (flux s c x y : R) : R := RInt (fun v => RInt (fun u => gauss_density flux s u v) (x - c / 2) (x + c / 2)) (y - c / 2) (y + c / 2).
(** errors relative to the peak along one axis: images of the profile at distances of at least 2 H, seen from at most H + d
    away from the centre; and waves beyond K / s left out *)
Definition fold_err (s H d : R) : R := 2 * exp (- (((H - d) / s) ^ 2 / 2)) / (1 - exp (- ((2 * H / s) ^ 2 / 2))).
Definition cut_err (K : R) : R := sqrt (2 / PI) * exp (- (K ^ 2 / 2)) / K.
Definition both_err (e : R) : R := (1 + e) ^ 2 - 1.
(** * Sums over the image *)
Definition square_sum (n x0 y0 : Z) (v : Z -> Z -> R) : R := zsum Rplus 0 n (fun i => zsum Rplus 0 n (fun j => v (x0 + j)%Z (y0 + i)%Z)).
(** the waves that are constant on the pixels: both indices multiples of N *)
Definition lattice_sum (kval : R * R -> C) (dk : R) (M N : Z) : R :=
  Re (zsum Cplus (RtoC 0) (2 * M + 1) (fun i => zsum Cplus (RtoC 0) (2 * M + 1) (fun j =>
    if (((j - M) mod N =? 0) && ((i - M) mod N =? 0))%Z%bool then kval (IZR (j - M) * dk, IZR (i - M) * dk) else RtoC 0))).
(** the transform of a profile moved by (dx, dy) *)
Definition moved (kval : R * R -> C) (dx dy : R) (k : R * R) : C := Cmult (kval k) (wave (- (fst k * dx + snd k * dy))).
Definition blended (a : R) (k1 : R * R -> C) (b : R) (k2 : R * R -> C) (k : R * R) : C := Cplus (Cmult (RtoC a) (k1 k)) (Cmult (RtoC b) (k2 k)).
(** the transform of a profile averaged over squares of side c *)
Definition box1 (c k : R) : R := if Req_EM_T k 0 then 1 else sin (k * c / 2) / (k * c / 2).
Definition pixelated (kval : R * R -> C) (c : R) (k : R * R) : C := Cmult (kval k) (RtoC (box1 c (fst k) * box1 c (snd k))).
