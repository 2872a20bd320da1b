(** Polynomial surfaces and their slopes, headers that say the same thing: what FITS world coordinates should mean. *)
From Coq Require Import Reals List.
From Coquelicot Require Import Coquelicot.
From Verif Require Import Util_Spec.
Import ListNotations.
Open Scope R_scope.

(** * Surfaces *)
Definition coefs : Type := nat -> nat -> R.
(** The sum of c i j x^i y^j over i, j < n *)
Definition surface (n : nat) (c : coefs) (x y : R) : R := sumf n (fun i => sumf n (fun j => c i j * x ^ i * y ^ j)).
(** Only the terms of total degree below n *)
Definition low (n : nat) (c : coefs) : coefs := fun i j => if Nat.ltb (i + j) n then c i j else 0.
Definition coef (m : list (list R)) : coefs := fun i j => nth j (nth i m []) 0.
Definition square (n : nat) (m : list (list R)) : Prop := length m = n /\ List.Forall (fun r => length r = n) m.
(** square, with nothing of total degree n or more *)
Definition triangular (n : nat) (m : list (list R)) : Prop := square n m /\ forall i j, (n <= i + j)%nat -> coef m i j = 0.
(** What a pair of matrices does to a point *)
Definition warp (n : nat) (d : list (list R) * list (list R)) (p : R * R) : R * R :=
  (surface n (low n (coef (fst d))) (fst p) (snd p), surface n (low n (coef (snd d))) (fst p) (snd p)).
(** Its determinant *)
Definition slope_x (n : nat) (c : coefs) (x y : R) : R := Derive (fun t => surface n c t y) x.
Definition slope_y (n : nat) (c : coefs) (x y : R) : R := Derive (fun t => surface n c x t) y.
Definition warp_det (n : nat) (d : list (list R) * list (list R)) (p : R * R) : R :=
  let a := low n (coef (fst d)) in
  let b := low n (coef (snd d)) in
  slope_x n a (fst p) (snd p) * slope_y n b (fst p) (snd p) - slope_y n a (fst p) (snd p) * slope_x n b (fst p) (snd p).
(** A bound of the second derivatives in the square of half side B: the sum of |c i j| (i + j) (i + j - 1) B^(i + j - 2) *)
Definition bend (n : nat) (c : coefs) (B : R) : R :=
  sumf n (fun i => sumf n (fun j => Rabs (c i j) * (INR (i + j) * INR (i + j - 1)) * B ^ (i + j - 2))).
