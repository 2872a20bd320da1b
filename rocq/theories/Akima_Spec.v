(** What the interpolation properties talk about. *)
From Coq Require Import ZArith Reals List.
From Verif Require Import Base Akima_Model.
Import ListNotations.
Open Scope R_scope.

(** A table: at least three points, abscissae strictly increasing *)
Definition increasing (x : list R) : Prop := forall i, (S i < length x)%nat -> nth i x 0 < nth (S i) x 0.
Definition table (x y : list R) : Prop := length x = length y /\ (3 <= length x)%nat /\ increasing x.
Definition evenly (x : list R) : Prop := exists step, 0 < step /\ forall i, (i < length x)%nat -> nth i x 0 = nth 0 x 0 + INR i * step.
(** Slope of the chord from point i to point i+1 *)
Definition chord (x y : list R) (i : nat) : R := (nth (S i) y 0 - nth i y 0) / (nth (S i) x 0 - nth i x 0).
(** Akima's slope at an inner point from the four chords around it; the mean of the middle two when the
    weights vanish *)
Definition akima_slope (m : nat -> R) (i : nat) : R :=
  let w := Rabs (m (i + 1)%nat - m i) in let w' := Rabs (m (i - 1)%nat - m (i - 2)%nat) in
  if Rlt_dec (w + w') (/ 1000000000000) then (m (i - 1)%nat + m i) / 2 else (w * m (i - 1)%nat + w' * m i) / (w + w').
(** The interpolated value *)
Definition interp (x y : list R) (use_jax fixed_spacing : bool) (t : R) : R :=
  akima_interp t x (akima_interp_coeffs x y use_jax) fixed_spacing.
(** The table seen in a mirror *)
Definition mirror (x : list R) : list R := rev (map Ropp x).
(** The weight Akima's slope divides by *)
Definition weight (m : nat -> R) (i : nat) : R := Rabs (m (i + 1)%nat - m i) + Rabs (m (i - 1)%nat - m (i - 2)%nat).
(** k times the ordinates plus a straight line *)
Definition affine (k p q : R) (x y : list R) : list R := map2 (fun a b => k * b + (p + q * a)) x y.
