(** Evaluating at an array of positions: what is expected is the array of the values at the single positions. *)
From Coq Require Import Reals Bool List.
From Coquelicot Require Import Complex.
From Verif Require Import Base Bounds_Model Geo_Model Prof_Model VecV_Model.
Import ListNotations.

(** The entries of the array are the values at the single positions. *)
Definition entrywise (p : prof) (ks : list vec) : Prop := kValues p ks = Ok (Ar (map (kValue p) ks)).

(** No Convolution anywhere in the tree, and sums have a component (sum.py:26-69 refuses an empty list). *)
Fixpoint no_conv (p : prof) : bool :=
  match p with
  | PLeaf _ _ _ _ => true
  | PTr o _ _ _ _ _ | PDec o _ _ => no_conv o
  | PSum l _ _ => negb (match l with [] => true | _ => false end) && forallb no_conv l
  | PConv _ _ _ => false
  end.

(** No leaf is a DeltaFunction; sums have a component. *)
Fixpoint no_delta (delta : prof -> bool) (p : prof) : bool :=
  match p with
  | PLeaf _ _ _ _ => negb (delta p)
  | PTr o _ _ _ _ _ | PDec o _ _ => no_delta delta o
  | PSum l _ _ | PConv l _ _ => negb (match l with [] => true | _ => false end) && forallb (no_delta delta) l
  end.
