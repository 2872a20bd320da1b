(** What is asked of pytrees. *)
From Coq Require Import Reals List Bool Arith.
From Verif Require Import Base Bounds_Model Tree_Model.
Import ListNotations.
Open Scope R_scope.

(** What may be put in the place of a leaf: anything; the beta of a Moffat; the array of an InterpolatedImage *)
Inductive guard : Type := Free | Beta | Array.
Definition passes (g : guard) (l : leaf) : Prop :=
  match g, l with
  | Free, _ => True
  | Beta, PyNum r => 11 / 10 < r
  | Beta, JArr v => Forall (fun r => 11 / 10 < r) v
  | Array, JArr v => Rsum v <> 0
  | _, _ => False
  end.

Section Spec.
  Context {G : Type}.
  Variable geq : G -> G -> bool.
  (** A Transformation that propagates its gsparams has an original with these *)
  Definition tidy (o : obj G) : Prop := match o with Trans o _ g true => gs o = g | _ => True end.
  (** Everything constructors and withGSParams give *)
  Inductive built : obj G -> Prop :=
  | built_elem : forall k ps g o, elem_new k ps g = Ok o -> built o
  | built_interp : forall img ps ps' chk g im o, impl_new img ps' chk g = Ok im -> interp_new geq img ps im g = Ok o -> built o
  | built_trans : forall o ps g pg o', built o -> trans_new geq o ps g pg = Ok o' -> tidy o' -> built o'
  | built_sum : forall l g pg o, Forall built l -> sum_new geq l g pg = Ok o -> built o
  | built_conv : forall l g pg o, Forall built l -> conv_new geq l g pg = Ok o -> built o
  | built_deconv : forall o g pg o', built o -> deconv_new geq o g pg = Ok o' -> built o'
  | built_with : forall g o o', built o -> withGS geq g o = Ok o' -> built o'.

  (** An object as its properties and methods show it: obj_list, not params["obj_list"] *)
  Fixpoint seen (o : obj G) : obj G :=
    match o with
    | Elem k ps g => Elem k ps g
    | Trans o ps g pg => Trans (seen o) ps g pg
    | Sum l g pg => Sum (map seen l) g pg
    | Conv _ l g pg => Conv (map seen l) (map seen l) g pg
    | Deconv o g pg => Deconv (seen o) g pg
    | Interp img ps im g => Interp img ps im g
    end.
  (** params["obj_list"] is obj_list in every Convolution *)
  Fixpoint fresh (o : obj G) : Prop :=
    match o with
    | Elem _ _ _ | Interp _ _ _ _ => True
    | Trans o _ _ _ | Deconv o _ _ => fresh o
    | Sum l _ _ => fold_right (fun o P => fresh o /\ P) True l
    | Conv st l _ _ => st = l /\ fold_right (fun o P => fresh o /\ P) True st
    end.
  (** The places of a structure *)
  Fixpoint guards (t : tdef G) : list guard :=
    match t with
    | TElem KMoffat n _ => Beta :: repeat Free (n - 1)
    | TElem _ n _ => repeat Free n
    | TTrans t n _ _ => guards t ++ repeat Free n
    | TSum l _ _ | TConv l _ _ => flat_map guards l
    | TDeconv t _ _ => guards t
    | TInterp n m chk _ _ => Free :: repeat Free n ++ (if chk then Array else Free) :: repeat Free m
    end.
End Spec.
