(** Plane vectors, 2x2 matrices and a few scalar functions of jax.numpy used by several modules. *)
From Coq Require Import Reals Bool.
From Verif Require Import Base Bounds_Model.
Open Scope R_scope.

Definition vec : Type := (R * R)%type.
(** Position arithmetic, position.py:67-108 *)
Definition vadd (a b : vec) : vec := (fst a + fst b, snd a + snd b).
Definition vsub (a b : vec) : vec := (fst a - fst b, snd a - snd b).
Definition vneg (a : vec) : vec := (- fst a, - snd a).
Definition vmul (a : vec) (c : R) : vec := (fst a * c, snd a * c).
Definition vdiv (a : vec) (c : R) : vec := (fst a / c, snd a / c).

(** 2x2 arrays and jnp.dot, .T, jnp.linalg.det, jnp.linalg.inv on them (inv of a singular array is
    not meaningful; here it is the total function with R's division). *)
Record mat : Type := Mat { m00 : R; m01 : R; m10 : R; m11 : R }.
Definition mI : mat := Mat 1 0 0 1.
Definition mdot (a b : mat) : mat :=
  Mat (m00 a * m00 b + m01 a * m10 b) (m00 a * m01 b + m01 a * m11 b)
      (m10 a * m00 b + m11 a * m10 b) (m10 a * m01 b + m11 a * m11 b).
Definition mapp (a : mat) (v : vec) : vec :=
  (m00 a * fst v + m01 a * snd v, m10 a * fst v + m11 a * snd v).
Definition mT (a : mat) : mat := Mat (m00 a) (m10 a) (m01 a) (m11 a).
Definition mdet (a : mat) : R := m00 a * m11 a - m01 a * m10 a.
Definition minv (a : mat) : mat :=
  Mat (m11 a / mdet a) (- m01 a / mdet a) (- m10 a / mdet a) (m00 a / mdet a).
Definition mscale (a : mat) (c : R) : mat := Mat (m00 a * c) (m01 a * c) (m10 a * c) (m11 a * c).

(** jnp.hypot *)
Definition hypot (x y : R) : R := sqrt (x * x + y * y).
(** jnp.arctan2 *)
Definition atan2 (y x : R) : R :=
  if Rltb 0 x then atan (y / x)
  else if Rltb x 0 then (if Rltb y 0 then atan (y / x) - PI else atan (y / x) + PI)
  else (if Rltb 0 y then PI / 2 else if Rltb y 0 then - (PI / 2) else 0).
(** jnp.arctanh *)
Definition arctanh (x : R) : R := / 2 * ln ((1 + x) / (1 - x)).

(** _compute_major_minor_from_jacobian, transform.py:15-21 *)
Definition major_minor (j : mat) : R * R :=
  let h1 := hypot (m00 j + m11 j) (m01 j - m10 j) in
  let h2 := hypot (m00 j - m11 j) (m01 j + m10 j) in
  (/ 2 * Rabs (h1 + h2), / 2 * Rabs (h1 - h2)).
