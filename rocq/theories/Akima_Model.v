(** Model of core/interpolate.py. Arrays are lists of reals. *)
From Coq Require Import ZArith Reals Bool List.
From Verif Require Import Base Bounds_Model FFT_Model.
Import ListNotations.
Open Scope R_scope.

(** l[lo:hi] with Python's treatment of negative and missing bounds *)
Definition clampi (n : nat) (i : Z) : nat := Z.to_nat (Z.max 0 (Z.min (Z.of_nat n) (if (i <? 0)%Z then (i + Z.of_nat n)%Z else i))).
Definition slice {A} (lo hi : option Z) (l : list A) : list A :=
  let n := length l in
  let a := match lo with None => 0%nat | Some i => clampi n i end in
  let b := match hi with None => n | Some i => clampi n i end in
  firstn (b - a) (skipn a l).
(** Elementwise operations with broadcasting; shapes that do not fit raise, which is not followed (it
    does not happen for tables of three or more points). *)
Fixpoint map2 {A B D} (f : A -> B -> D) (a : list A) (b : list B) : list D :=
  match a, b with x :: a, y :: b => f x y :: map2 f a b | _, _ => [] end.
Definition bc (f : R -> R -> R) (a b : list R) : list R :=
  if Nat.eqb (length a) (length b) then map2 f a b
  else match a, b with
       | [x], _ => map (f x) b
       | _, [y] => map (fun x => f x y) a
       | _, _ => []
       end.
(** The common part of the two functions that compute the coefficients, core/interpolate.py:40-54 and 74-87:
    dx, mi, the end slopes, denom, numer and the two slopes averaged where denom vanishes *)
Definition tiny : R := / 1000000000000.
Definition diff (l : list R) : list R := bc Rminus (slice (Some 1%Z) None l) (slice None (Some (-1)%Z) l).
Definition secants (x y : list R) : list R := bc Rdiv (diff y) (diff x).
Definition half (a b : R) : R := (a + b) / 2.
(** core/interpolate.py:45, 79 *)
Definition s0 (mi : list R) := slice (Some 0%Z) (Some 1%Z) mi.
(** core/interpolate.py:46, 80 *)
Definition s1 (mi : list R) := bc half (slice (Some 0%Z) (Some 1%Z) mi) (slice (Some 1%Z) (Some 2%Z) mi).
(** core/interpolate.py:47, 81 *)
Definition snm2 (mi : list R) := bc half (slice (Some (-3)%Z) (Some (-2)%Z) mi) (slice (Some (-2)%Z) (Some (-1)%Z) mi).
(** core/interpolate.py:48, 82 *)
Definition snm1 (mi : list R) := slice (Some (-2)%Z) (Some (-1)%Z) mi.
Definition absdiff (a b : R) : R := Rabs (a - b).
(** core/interpolate.py:50, 84 *)
Definition wim1 (mi : list R) := bc absdiff (slice (Some 3%Z) None mi) (slice (Some 2%Z) (Some (-1)%Z) mi).
(** core/interpolate.py:51, 85 *)
Definition wi (mi : list R) := bc absdiff (slice (Some 1%Z) (Some (-2)%Z) mi) (slice (Some 0%Z) (Some (-3)%Z) mi).
(** core/interpolate.py:52, 86 *)
Definition denom (mi : list R) := bc Rplus (wim1 mi) (wi mi).
(** core/interpolate.py:53, 87 *)
Definition numer (mi : list R) :=
  bc Rplus (bc Rmult (wim1 mi) (slice (Some 1%Z) (Some (-2)%Z) mi)) (bc Rmult (wi mi) (slice (Some 2%Z) (Some (-1)%Z) mi)).
Definition midavg (mi : list R) := bc half (slice (Some 1%Z) (Some (-2)%Z) mi) (slice (Some 2%Z) (Some (-1)%Z) mi).
Definition big (d : R) : bool := negb (Rltb (Rabs d) tiny).
(** jnp.where, core/interpolate.py:89-93 *)
Definition smid_jax (mi : list R) : list R :=
  map2 (fun (d : R) nm => if big d then fst nm / d else snd nm) (denom mi) (combine (numer mi) (midavg mi)).
(** NumPy's a[mask] and a[mask] = values, core/interpolate.py:55-58 *)
Fixpoint select {A} (mask : list bool) (l : list A) : list A :=
  match mask, l with b :: mask, x :: l => if b then x :: select mask l else select mask l | _, _ => [] end.
Fixpoint put {A} (mask : list bool) (vals l : list A) : list A :=
  match mask, l with
  | true :: mask, x :: l => match vals with v :: vals => v :: put mask vals l | [] => x :: l end
  | false :: mask, x :: l => x :: put mask vals l
  | _, _ => l
  end.
Definition smid_np (mi : list R) : list R :=
  let msk := map big (denom mi) in
  let nmsk := map negb msk in
  let smid := map (fun _ => 0) (denom mi) in
  let smid := put msk (bc Rdiv (select msk (numer mi)) (select msk (denom mi))) smid in
  put nmsk (bc half (select nmsk (slice (Some 1%Z) (Some (-2)%Z) mi)) (select nmsk (slice (Some 2%Z) (Some (-1)%Z) mi))) smid.
(** The slopes at the points *)
Definition slopes (smid : list R) (mi : list R) : list R := s0 mi ++ s1 mi ++ smid ++ snm2 mi ++ snm1 mi.
(** The coefficients, core/interpolate.py:61-69 and 96-104 *)
Definition coeffs_of (x y mi s : list R) : list R * list R * list R * list R :=
  let dx := diff x in
  let sl := slice None (Some (-1)%Z) s in
  let sr := slice (Some 1%Z) None s in
  let a := slice None (Some (-1)%Z) y in
  let b := sl in
  let c := bc Rdiv (bc Rminus (bc Rminus (map (Rmult 3) mi) (map (Rmult 2) sl)) sr) dx in
  let d := bc Rdiv (bc Rdiv (bc Rminus (bc Rplus sl sr) (map (Rmult 2) mi)) dx) dx in
  (a, b, c, d).
(** akima_interp_coeffs, core/interpolate.py:8-104 *)
Definition akima_interp_coeffs (x y : list R) (use_jax : bool) : list R * list R * list R * list R :=
  let mi := secants x y in
  coeffs_of x y mi (slopes (if use_jax then smid_jax mi else smid_np mi) mi).

(** jnp.searchsorted(xp, x, side="right") of a sorted table: the number of entries not above x *)
Definition searchsorted (xp : list R) (x : R) : Z := Z.of_nat (length (filter (fun v => negb (Rltb x v)) xp)).
Definition clip (i lo hi : Z) : Z := Z.max lo (Z.min i hi).
Definition at0 (l : list R) (i : Z) : R := nth (Z.to_nat i) l 0.
(** The lookup, core/interpolate.py:127-134 *)
Definition lookup (xp : list R) (x : R) (fixed_spacing : bool) : Z :=
  let n := Z.of_nat (length xp) in
  if fixed_spacing
  then let dxp := at0 xp 1 - at0 xp 0 in clip (floorR ((x - at0 xp 0) / dxp)) 0 (n - 2)
  else (clip (searchsorted xp x) 1 (n - 1) - 1)%Z.
(** akima_interp at one point, core/interpolate.py:107-150 *)
Definition akima_interp (x : R) (xp : list R) (coeffs : list R * list R * list R * list R) (fixed_spacing : bool) : R :=
  let i := lookup xp x fixed_spacing in
  let '(a, b, c, d) := coeffs in
  let dx := x - at0 xp i in
  let dx2 := dx * dx in
  let dx3 := dx2 * dx in
  let xval := at0 a i + at0 b i * dx + at0 c i * dx2 + at0 d i * dx3 in
  let xval := if Rltb x (at0 xp 0) then 0 else xval in
  if Rltb (at0 xp (Z.of_nat (length xp) - 1)) x then 0 else xval.
