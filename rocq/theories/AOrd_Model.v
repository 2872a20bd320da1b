(** Comparisons and hashes of Angle and AngleUnit, angle.py:114-121 and 255-290. The numbers are those of PEq_Model: Python numbers keep
    their precision in an Angle (cast_to_float, core/utils.py:44-65, returns a Python float for them), JAX scalars have that of JAX. *)
From Coq Require Import Reals Bool List String.
From Verif Require Import Base Bounds_Model PEq_Model.
Import ListNotations.
Open Scope R_scope.

(** _rad of an Angle, _value of an AngleUnit *)
Inductive ang : Type := Ang (rad : num) | Unit_ (value : num).
Section AOrd.
  Variable rnd : R -> R.
  (** jnp.array_equal makes JAX arrays of both sides, of Python numbers too *)
  Definition array_equal (a b : num) : bool := Reqb (rnd (item a)) (rnd (item b)).
  (** __eq__, angle.py:114-115 and 255-256 *)
  Definition aeq (a b : ang) : bool :=
    match a, b with Ang x, Ang y => array_equal x y | Unit_ x, Unit_ y => array_equal x y | _, _ => false end.
  (** x < y of numbers: Python's for Python numbers, JAX's if one is a JAX scalar *)
  Definition num_lt (a b : num) : bool := match a, b with Py x, Py y => Rltb x y | _, _ => Rltb (rnd (item a)) (rnd (item b)) end.
  Definition num_le (a b : num) : bool := match a, b with Py x, Py y => negb (Rltb y x) | _, _ => negb (Rltb (rnd (item b)) (rnd (item a))) end.
  (** __lt__, __le__, __gt__, __ge__, angle.py:261-287; units have no order *)
  Definition alt (a b : ang) : res bool := match a, b with Ang x, Ang y => Ok (num_lt x y) | _, _ => Err TypeError end.
  Definition ale (a b : ang) : res bool := match a, b with Ang x, Ang y => Ok (num_le x y) | _, _ => Err TypeError end.
  Definition agt (a b : ang) : res bool := match a, b with Ang x, Ang y => Ok (num_lt y x) | _, _ => Err TypeError end.
  Definition age (a b : ang) : res bool := match a, b with Ang x, Ang y => Ok (num_le y x) | _, _ => Err TypeError end.
End AOrd.
(** __hash__, angle.py:120-121 and 289-290 *)
Definition akey (a : ang) : key :=
  match a with Ang x => HTup [HStr "galsim.Angle"; HNum (item x)] | Unit_ x => HTup [HStr "galsim.AngleUnit"; HNum (item x)] end.
Definition ahash (h : key -> BinNums.Z) (a : ang) : BinNums.Z := h (akey a).
