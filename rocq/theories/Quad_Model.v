(** core/integrate.py and integ.py. Arrays are functions of the index, cut to their length where they are used; one pair
    of limits at a time (the code takes arrays of limits and treats each pair alike). Floats are reals. *)
From Coq Require Import Arith Reals Bool List.
From Coquelicot Require Import Rbar.
From Verif Require Import Base Bounds_Model.
Open Scope R_scope.

(** a[0] + ... + a[n - 1] *)
Fixpoint asumn (n : nat) (a : nat -> R) : R := match n with O => 0 | S n => asumn n a + a n end.

(** abs_weights, integrate.py:8-37. [n] is the number of intervals, one less than the argument. *)
Definition cc_point (n k : nat) : R := - cos (PI * INR k / INR n).
(** len(jnp.arange(1, n, 2)) and its elements *)
Definition cc_length (n : nat) : nat := (n / 2)%nat.
Definition cc_N (j : nat) : R := 2 * INR j + 1.
Definition cc_v0 (n j : nat) : R :=
  let length := cc_length n in
  if (j <? length)%nat then 2 / cc_N j / (cc_N j - 2) else if (j =? length)%nat then 1 / cc_N (length - 1) else 0.
Definition cc_v2 (n j : nat) : R := - cc_v0 n j - cc_v0 n (n - j).
Definition cc_g (n j : nat) : R :=
  let length := cc_length n in
  let m := (n - length)%nat in
  let g0 := -1 + (if (j =? length)%nat then INR n else 0) + (if (j =? m)%nat then INR n else 0) in
  g0 / (INR n ^ 2 - 1 + INR (n mod 2)).
(** jnp.fft.ihfft(a).real for a of length n *)
Definition ihfft_re (n : nat) (a : nat -> R) (k : nat) : R := asumn n (fun j => a j * cos (2 * PI * INR j * INR k / INR n)) / INR n.
Definition cc_w (n k : nat) : R := ihfft_re n (fun j => cc_v2 n j + cc_g n j) k.
Definition cc_weight (n k : nat) : R :=
  if (n =? 1)%nat then 1
  else
    let len := (n / 2 + 1)%nat in
    if (k <? len)%nat then cc_w n k
    else if (n mod 2 =? 1)%nat then cc_w n (len - 1 - (k - len)) else cc_w n (len - 2 - (k - len)).

(** ClenshawCurtisQuad, integrate.py:38-71 *)
Record quad : Type := Quad { q_order : nat; q_absc : nat -> R; q_absw : nat -> R; q_errw : nat -> R }.
Definition rescale_points (x : R) : R := ((x - -1) * 1 - (x - 1) * 0) / (1 - -1).
Definition rescale_weight (w : R) : R := (1 - 0) / (1 - -1) * w.
(** compute_weights: wx.at[::2].add(-wsub); [order] is odd, nsub = (order + 1) // 2 *)
Definition cc_errw (order i : nat) : R :=
  let nsub := ((order + 1) / 2)%nat in
  cc_weight (order - 1) i + (if (i mod 2 =? 0)%nat then - cc_weight (nsub - 1) (i / 2) else 0).
(** None: the assertion of abs_weights fails *)
Definition quad_init (order : nat) : option quad :=
  let order := (2 * order + 1)%nat in
  if (1 <? order)%nat then
    Some (Quad order (fun i => rescale_points (cc_point (order - 1) i)) (fun i => rescale_weight (cc_weight (order - 1) i)) (cc_errw order))
  else None.
(** quad_integral, integrate.py:74-83 *)
Definition quad_integral (f : R -> R) (a b : R) (q : quad) : R :=
  let d := b - a in
  d * asumn (q_order q) (fun i => q_absw q i * f (a + q_absc q i * d)).

(** integ.py: int1d. [quadgk f a b] is quadax.quadgk(f, [a, b], epsabs, epsrel): value and status. *)
Section Int1d.
Variable quadgk : (R -> R) -> Rbar -> Rbar -> R * nat.
Definition inf_cutoff : R := 10000.
(** integ.py:46-55 *)
Definition limit (x : Rbar) : Rbar :=
  match x with
  | Finite x => if Rltb inf_cutoff (Rabs x) then (if Rltb 0 x then p_infty else m_infty) else Finite x
  | x => x
  end.
Definition isinf (x : Rbar) : bool := match x with Finite _ => false | _ => true end.
(** integ.py:57-80. equinox.error_if raises a RuntimeError. *)
Definition int1d (func : R -> R) (min max : Rbar) : res R :=
  let _min := limit min in
  let _max := limit max in
  let '(val, status) :=
    if isinf _min && isinf _max then
      let '(val1, s1) := quadgk func _min (Finite 0) in
      let '(val2, s2) := quadgk func (Finite 0) _max in
      (val1 + val2, Nat.lor s1 s2)
    else quadgk func _min _max in
  if (status =? 0)%nat then Ok val else Err RuntimeError.
End Int1d.
