(** Conditions on the numbers in a profile. *)
From Coq Require Import Reals Bool List.
From Verif Require Import Base Geo_Model GSP_Model Prof_Model PEq_Model.
Import ListNotations.
Open Scope R_scope.

(** [ok] holds of all parameters, at every depth (the matrices apart) *)
Fixpoint nums (ok : num -> Prop) (p : qprof) : Prop :=
  match p with
  | QLeaf _ ps _ => fold_right (fun a acc => ok a /\ acc) True ps
  | QTr o _ x y fr _ _ => nums ok o /\ ok x /\ ok y /\ ok fr
  | QSum l _ _ | QConv l _ _ => fold_right (fun o acc => nums ok o /\ acc) True l
  | QDec o _ _ => nums ok o
  end.
(** JAX scalars hold numbers of their precision *)
Definition real_num (rnd : R -> R) (a : num) : Prop := match a with Py _ => True | Jx x => rnd x = x end.
(** Numbers that the precision of JAX can hold *)
Definition exact_num (rnd : R -> R) (a : num) : Prop := rnd (item a) = item a.
Definition python_num (a : num) : Prop := match a with Py _ => True | Jx _ => False end.
(** What a profile says, whether its numbers are Python's or JAX's; matrices as they are stored *)
Fixpoint says (rnd : R -> R) (p : qprof) : qprof :=
  match p with
  | QLeaf k ps g => QLeaf k (map (fun a => Py (item a)) ps) g
  | QTr o (a, b, c, d) x y fr g pg => QTr (says rnd o) (rnd a, rnd b, rnd c, rnd d) (Py (item x)) (Py (item y)) (Py (item fr)) g pg
  | QSum l g pg => QSum (map (says rnd) l) g pg
  | QConv l g pg => QConv (map (says rnd) l) g pg
  | QDec o g pg => QDec (says rnd o) g pg
  end.
