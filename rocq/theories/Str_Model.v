(** The text of a transformed profile: Transformation.__str__ and _str_from_jac (transform.py:198-244). The text is a list of method
    calls, each with its numbers; how numbers are written out is not modelled, nor is the text of the original profile. *)
From Coq Require Import Reals Bool List.
From Coquelicot Require Import Complex.
From Verif Require Import Base Bounds_Model Geo_Model Shear_Model Prof_Model WCS_Model.
Import ListNotations.
Open Scope R_scope.

(** 1.0e-12, transform.py:211, 216, 221 *)
Definition tiny : R := / 1000000000000.
(** The variable [s] of _str_from_jac: None, 0, or the text of one call *)
Inductive sval : Type := SNone | SZero | SText (o : op).
(** "if s is None: s = text, else: s = 0", transform.py:212-215, 217-220, 222-225 *)
Definition note (s : sval) (o : op) : sval := match s with SNone => SText o | _ => SZero end.
(** _str_from_jac, transform.py:198-232; [] is the empty text. The entries of [J] are concrete numbers. A text is never equal to 0
    (line 226), and the two ways of writing the numbers of .transform (%s and %r, lines 228, 231) are one here. *)
Definition str_from_jac (J : mat) : res (list op) :=
  if negb (Reqb (m00 J) 1) || negb (Reqb (m01 J) 0) || negb (Reqb (m10 J) 0) || negb (Reqb (m11 J) 1) then
    bind (getDecomposition J) (fun d =>
      let '(scale, shear, theta, flip) := d in
      let s := if flip : bool then SZero else SNone in
      let s := if Rltb tiny (Rabs theta) then note s (Rotate theta) else s in
      let s := if Rltb tiny (sh_g shear) then note s (ShearBy shear) else s in
      let s := if Rltb tiny (Rabs (scale - 1)) then note s (Expand scale) else s in
      match s with
      | SText o => Ok [o]
      | SZero => Ok [TransformBy (m00 J) (m01 J) (m10 J) (m11 J)]
      | SNone => Ok [TransformBy (m00 J) (m01 J) (m10 J) (m11 J)]
      end)
  else Ok [].
(** __str__, transform.py:234-244, what follows the text of the original: "* flux_ratio" is the operator of gsobject.py:172-187, which
    is withScaledFlux. *)
Definition str_of (J : mat) (off : vec) (fr : R) : res (list op) :=
  bind (str_from_jac J) (fun s =>
    let s := if negb (Reqb (fst off) 0) || negb (Reqb (snd off) 0) then s ++ [Shift (fst off) (snd off)] else s in
    Ok (if negb (Reqb fr 1) then s ++ [ScaleFlux fr] else s)).
