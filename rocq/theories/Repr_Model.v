(** The representation (__repr__) of composite profiles and its evaluation: transform.py:184-197, sum.py:103-108, convolve.py:184-193 and
    423-428. A representation is the call it shows; how numbers and gsparams are written out is not modelled (they are read back as they are),
    and simple profiles are read back as they are. *)
From Coq Require Import Reals Bool List String.
From Verif Require Import Base Geo_Model GSP_Model Prof_Model.
Import ListNotations.
Open Scope R_scope.

Inductive call : Type :=
  | CLeaf (own : bool) (fam : R -> gspR -> leafdata) (fl : R) (g : gspR)
  | CTransformation (c : call) (J : mat) (off : vec) (fr : R) (g : gspR) (pg : bool)
  | CSum (l : list call) (g : gspR) (pg : bool)
  | CConvolution (l : list call) (real_space : bool) (g : gspR) (pg : bool)
  | CDeconvolution (c : call) (g : gspR) (pg : bool).
(** __repr__; real_space of a Convolution is False, since True is refused (convolve.py:117-121) *)
Fixpoint repr (p : prof) : call :=
  match p with
  | PLeaf own fam fl g => CLeaf own fam fl g
  | PTr o J off fr g pg => CTransformation (repr o) J off fr g pg
  | PSum l g pg => CSum (map repr l) g pg
  | PConv l g pg => CConvolution (map repr l) false g pg
  | PDec o g pg => CDeconvolution (repr o) g pg
  end.
Fixpoint all_ok {A} (l : list (res A)) : res (list A) :=
  match l with [] => Ok [] | a :: t => bind a (fun x => bind (all_ok t) (fun y => Ok (x :: y))) end.
(** Python's evaluation of the call: the constructors of Prof_Model with gsparams given, arguments first *)
Fixpoint eval (c : call) : res prof :=
  match c with
  | CLeaf own fam fl g => Ok (PLeaf own fam fl g)
  | CTransformation c J off fr g pg => bind (eval c) (fun o => Ok (mkTransform o J off fr (Some g) pg))
  | CSum l g pg => bind (all_ok (map eval l)) (fun l => mkSum l (Some g) pg)
  | CConvolution l rs g pg => bind (all_ok (map eval l)) (fun l => mkConv (RSBool rs) l (Some g) pg)
  | CDeconvolution c g pg => bind (eval c) (fun o => Ok (mkDec o (Some g) pg))
  end.
