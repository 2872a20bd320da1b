(** Two-dimensional arrays and the JAX/NumPy array operations used by image.py,
    core/wrap_image.py and photon_array.py.

    An array is a shape and an element function; elements outside the shape are irrelevant
    (two arrays are the same when [aeq] holds). These definitions model JAX primitives, whose
    behaviour is taken from the JAX documentation, not from /repo. *)
From Coq Require Import ZArith Bool.
From Verif Require Import Base.
Open Scope Z_scope.

Record arr (V : Type) : Type := Arr { nrow : Z; ncol : Z; elt : Z -> Z -> V }.
Arguments Arr {V}. Arguments nrow {V}. Arguments ncol {V}. Arguments elt {V}.


Definition aeq {V} (a b : arr V) : Prop :=
  nrow a = nrow b /\ ncol a = ncol b /\
  forall i j, 0 <= i < nrow a -> 0 <= j < ncol a -> elt a i j = elt b i j.

(** a[i1:i2, j1:j2] for 0 <= i1 <= i2 <= nrow etc. (the only use in image.py:601, guarded by the
    includes test). *)
Definition slice {V} (a : arr V) (i1 i2 j1 j2 : Z) : arr V :=
  Arr (i2 - i1) (j2 - j1) (fun i j => elt a (i + i1) (j + j1)).

(** a.at[i1:i2, j1:j2].set(u) with u of that shape (image.py:649). *)
Definition slice_set {V} (a : arr V) (i1 i2 j1 j2 : Z) (u : arr V) : arr V :=
  Arr (nrow a) (ncol a)
    (fun i j => if (i1 <=? i) && (i <? i2) && (j1 <=? j) && (j <? j2)
                then elt u (i - i1) (j - j1) else elt a i j).

(** jax.lax dynamic slicing clamps the start index so that the window fits; a window larger than
    the array is a TypeError. *)
Definition clampi (start size n : Z) : Z := Z.max 0 (Z.min start (n - size)).
Definition dyn_slice {V} (a : arr V) (i j h w : Z) : res (arr V) :=
  if (h <=? nrow a) && (w <=? ncol a) then
    let i0 := clampi i h (nrow a) in let j0 := clampi j w (ncol a) in
    Ok (slice a i0 (i0 + h) j0 (j0 + w))
  else Err TypeError.
Definition dyn_update_slice {V} (a u : arr V) (i j : Z) : res (arr V) :=
  if (nrow u <=? nrow a) && (ncol u <=? ncol a) then
    let i0 := clampi i (nrow u) (nrow a) in let j0 := clampi j (ncol u) (ncol a) in
    Ok (slice_set a i0 (i0 + nrow u) j0 (j0 + ncol u) u)
  else Err TypeError.

(** a.at[i, j].set/add: negative indices count from the end, out-of-range updates are dropped. *)
Definition nidx (n i : Z) : Z := if i <? 0 then i + n else i.
Definition at_upd {V} (a : arr V) (i j : Z) (f : V -> V) : arr V :=
  let i := nidx (nrow a) i in let j := nidx (ncol a) j in
  Arr (nrow a) (ncol a) (fun i' j' => if (i' =? i) && (j' =? j) then f (elt a i' j') else elt a i' j').

Definition amap {V W} (f : V -> W) (a : arr V) : arr W :=
  Arr (nrow a) (ncol a) (fun i j => f (elt a i j)).
Definition amap2 {V W U} (f : V -> W -> U) (a : arr V) (b : arr W) : arr U :=
  Arr (nrow a) (ncol a) (fun i j => f (elt a i j) (elt b i j)).
Definition aconst {V} (h w : Z) (v : V) : arr V := Arr h w (fun _ _ => v).

(** jnp.pad(im, ((0, p), (0, q))) with zeros. *)
Definition apad {V} (zero : V) (a : arr V) (p q : Z) : arr V :=
  Arr (nrow a + p) (ncol a + q)
    (fun i j => if (i <? nrow a) && (j <? ncol a) then elt a i j else zero).

(** jnp.roll(a, (s, t), axis=(0, 1)): element i moves to (i + s) mod n. *)
Definition aroll {V} (a : arr V) (s t : Z) : arr V :=
  Arr (nrow a) (ncol a) (fun i j => elt a ((i - s) mod nrow a) ((j - t) mod ncol a)).

(** array.T, array[::-1, :], array[:, ::-1] *)
Definition atrans {V} (a : arr V) : arr V := Arr (ncol a) (nrow a) (fun i j => elt a j i).
Definition aflipud {V} (a : arr V) : arr V := Arr (nrow a) (ncol a) (fun i j => elt a (nrow a - 1 - i) j).
Definition afliplr {V} (a : arr V) : arr V := Arr (nrow a) (ncol a) (fun i j => elt a i (ncol a - 1 - j)).

(** jnp.concatenate along axis 1 / axis 0 (shapes of the other axis equal). *)
Definition aconcat1 {V} (a b : arr V) : arr V :=
  Arr (nrow a) (ncol a + ncol b) (fun i j => if j <? ncol a then elt a i j else elt b i (j - ncol a)).
Definition aconcat0 {V} (a b : arr V) : arr V :=
  Arr (nrow a + nrow b) (ncol a) (fun i j => if i <? nrow a then elt a i j else elt b (i - nrow a) j).
