(** What the helper properties talk about. *)
From Coq Require Import ZArith Reals Bool String List.
From Verif Require Import Base Array_Model Util_Model.
Import ListNotations.
Open Scope R_scope.

(** The points reached by repeatedly halving [low, high], with their depth. *)
Definition dyadic (low high : R) (k : nat) (x : R) : Prop := exists j : Z, x = low + (high - low) * IZR j / 2 ^ k.

(** Two values are the same: same numbers (a scalar array is a number), same arrays, same contents of
    the same kind of container. nan is not the same as anything. *)
Definition number (v : pv) (x : R) : Prop := v = PNum (Some x) \/ v = PArr [] [Some x].
Inductive same : pv -> pv -> Prop :=
| same_num : forall v w x, number v x -> number w x -> same v w
| same_obj : forall s, same (PObj s) (PObj s)
| same_arr : forall n sh d, Forall (fun x => x <> None) d -> same (PArr (n :: sh) d) (PArr (n :: sh) d)
| same_list : forall l l', Forall2 same l l' -> same (PList l) (PList l')
| same_tuple : forall l l', Forall2 same l l' -> same (PTuple l) (PTuple l')
| same_set : forall l l', NoDup l -> NoDup l' -> (forall x, In x l <-> In x l') -> same (PSet l) (PSet l')
| same_dict : forall l l', NoDup (map fst l) -> NoDup (map fst l') ->
    (forall k, In k (map fst l) <-> In k (map fst l')) ->
    (forall k v v', In (k, v) l -> In (k, v') l' -> same v v') -> same (PDict l) (PDict l').

(** Values without nan (a set has no repeated element, a dict no repeated key, a scalar array one item) *)
Inductive nan_free : pv -> Prop :=
| nf_num : forall x, nan_free (PNum (Some x))
| nf_obj : forall s, nan_free (PObj s)
| nf_scalar : forall x, nan_free (PArr [] [Some x])
| nf_arr : forall n sh d, Forall (fun x => x <> None) d -> nan_free (PArr (n :: sh) d)
| nf_list : forall l, Forall nan_free l -> nan_free (PList l)
| nf_tuple : forall l, Forall nan_free l -> nan_free (PTuple l)
| nf_set : forall l, NoDup l -> nan_free (PSet l)
| nf_dict : forall l, NoDup (map fst l) -> Forall (fun p => nan_free (snd p)) l -> nan_free (PDict l).

(** Two values have the same layout: numbers (or scalar arrays) against numbers, arrays against arrays,
    containers against containers of the same kind, item by item (any sizes). *)
Inductive scalar : pv -> Prop :=
| scalar_num : forall x, scalar (PNum x)
| scalar_arr : forall x, scalar (PArr [] [x]).
Inductive alike : pv -> pv -> Prop :=
| alike_num : forall v w, scalar v -> scalar w -> alike v w
| alike_obj : forall s s', alike (PObj s) (PObj s')
| alike_arr : forall n sh d n' sh' d', alike (PArr (n :: sh) d) (PArr (n' :: sh') d')
| alike_list : forall l l', (length l = length l' -> Forall2 alike l l') -> alike (PList l) (PList l')
| alike_tuple : forall l l', (length l = length l' -> Forall2 alike l l') -> alike (PTuple l) (PTuple l')
| alike_set : forall l l', NoDup l -> NoDup l' -> alike (PSet l) (PSet l')
| alike_dict : forall l l', NoDup (map fst l) -> NoDup (map fst l') ->
    (forall k v v', In (k, v) l -> In (k, v') l' -> alike v v') -> alike (PDict l) (PDict l').

(** Polynomials *)
Definition sumf (n : nat) (f : nat -> R) : R := fold_right Rplus 0 (map f (seq 0 n)).
Definition poly (c : list R) (x : R) : R := sumf (length c) (fun i => nth i c 0 * x ^ i).
(** Two variables; with [tri] only the terms of total degree less than the number of rows *)
Definition poly2 (rows : list (list R)) (tri : bool) (x y : R) : R :=
  sumf (length rows) (fun i => sumf (length (nth i rows [])) (fun j =>
    if tri && Nat.leb (length rows) (i + j) then 0 else nth j (nth i rows []) 0 * x ^ i * y ^ j)).

(** Sum over all pixels of a weight times the pixel *)
Definition total (a : arr R) (wt : Z -> Z -> R) : R := asum (nrow a) (ncol a) (fun i j => wt i j * elt a i j).
(** The brightness scale, exchanging the axes, and mirroring. *)
Definition amap (f : R -> R) (a : arr R) : arr R := Arr (nrow a) (ncol a) (fun i j => f (elt a i j)).
Definition atrans (a : arr R) : arr R := Arr (ncol a) (nrow a) (fun i j => elt a j i).
Definition amirror (a : arr R) : arr R := Arr (nrow a) (ncol a) (fun i j => elt a i (ncol a - 1 - j)%Z).
