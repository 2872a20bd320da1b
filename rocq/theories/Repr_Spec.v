(** The profiles a user can make, whatever gsparams and propagate_gsparams they pass. *)
From Coq Require Import Reals Bool List.
From Verif Require Import Base Geo_Model GSP_Model Prof_Model Repr_Model.
Import ListNotations.
Open Scope R_scope.

(** [ok o pg]: which profiles may be transformed, with which propagate_gsparams *)
Inductive made (ok : prof -> bool -> Prop) : prof -> Prop :=
  | made_leaf : forall own fam fl g, made ok (PLeaf own fam fl g)
  | made_tr : forall o J off fr gs pg, made ok o -> ok o pg -> made ok (mkTransform o J off fr gs pg)
  | made_sum : forall l gs pg s, (forall o, In o l -> made ok o) -> mkSum l gs pg = Ok s -> made ok s
  | made_conv : forall l rs gs pg s, (forall o, In o l -> made ok o) -> mkConv rs l gs pg = Ok s -> made ok s
  | made_dec : forall o gs pg, made ok o -> made ok (mkDec o gs pg)
  | made_gsp : forall p g, made ok p -> made ok (withGSP g p).
(** Transformations with propagate_gsparams=False are not transformed again with propagate_gsparams=True *)
Definition careful (o : prof) (pg : bool) : Prop := match o with PTr _ _ _ _ _ false => pg = false | _ => True end.
Definition any (o : prof) (pg : bool) : Prop := True.
(** All but the gsparams of a profile *)
Inductive bare : Type :=
  | BLeaf (own : bool) (fam : R -> gspR -> leafdata) (fl : R) | BTr (b : bare) (J : mat) (off : vec) (fr : R) (pg : bool)
  | BSum (l : list bare) (pg : bool) | BConv (l : list bare) (pg : bool) | BDec (b : bare) (pg : bool).
Fixpoint erase (p : prof) : bare :=
  match p with
  | PLeaf own fam fl _ => BLeaf own fam fl
  | PTr o J off fr _ pg => BTr (erase o) J off fr pg
  | PSum l _ pg => BSum (map erase l) pg
  | PConv l _ pg => BConv (map erase l) pg
  | PDec o _ pg => BDec (erase o) pg
  end.
