(** Shared definitions: exceptions as values, tagged numbers. *)
From Coq Require Import ZArith Bool List.

(** Python exceptions raised by the modelled code (only their class is kept). *)
Inductive exn : Type :=
| TypeError | ValueError | AttributeError | IndexError | RuntimeError | KeyError
| GalSimBoundsError | GalSimUndefinedBoundsError | GalSimImmutableError
| GalSimIncompatibleValuesError | GalSimValueError | GalSimRangeError
| GalSimFFTSizeError | GalSimError | NotImplementedErr | ZeroDivErr.

(** Result of a call: a value or a raised exception. *)
Inductive res (A : Type) : Type :=
| Ok (a : A)
| Err (e : exn).
Arguments Ok {A} a.
Arguments Err {A} e.

Definition bind {A B} (r : res A) (f : A -> res B) : res B :=
  match r with Ok a => f a | Err e => Err e end.

Definition is_ok {A} (r : res A) : bool :=
  match r with Ok _ => true | Err _ => false end.

(** A scalar as the code sees it: its value and whether it is a Python/NumPy
    scalar ([npy = true], the [isinstance(x, (int, float, np.integer, np.floating))]
    test used throughout, e.g. core/utils.py:16, bounds.py:137) or a JAX array. *)
Record num (A : Type) : Type := Num { nv : A; npy : bool }.
Arguments Num {A} nv npy.
Arguments nv {A} n.
Arguments npy {A} n.

(** Python scalar. *)
Definition py {A} (a : A) : num A := Num a true.
(** JAX 0-d array. *)
Definition jx {A} (a : A) : num A := Num a false.

(** Arithmetic of a Python scalar with a JAX scalar gives a JAX scalar. *)
Definition nlift2 {A B C} (f : A -> B -> C) (a : num A) (b : num B) : num C :=
  Num (f (nv a) (nv b)) (npy a && npy b).
