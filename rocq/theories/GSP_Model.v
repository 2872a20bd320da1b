(** GSParams (gsparams.py): checking, changing and combining the accuracy parameters. *)
From Coq Require Import ZArith Reals String List Bool.
From Verif Require Import Base Bounds_Model.
Import ListNotations.
Open Scope list_scope.

(** The thirteen fields, gsparams.py:11-23. *)
Inductive field : Type :=
| minimum_fft_size | maximum_fft_size | folding_threshold | stepk_minimum_hlr | maxk_threshold
| kvalue_accuracy | xvalue_accuracy | table_spacing | realspace_relerr | realspace_abserr
| integration_relerr | integration_abserr | shoot_accuracy.

(** A GSParams object with numbers in [A]. *)
Record gsp (A : Type) : Type := GSP {
  g_min : A; g_max : A; g_fold : A; g_hlr : A; g_maxk : A; g_kacc : A; g_xacc : A; g_tab : A;
  g_rrel : A; g_rabs : A; g_irel : A; g_iabs : A; g_shoot : A }.
Arguments GSP {A}. Arguments g_min {A}. Arguments g_max {A}. Arguments g_fold {A}. Arguments g_hlr {A}.
Arguments g_maxk {A}. Arguments g_kacc {A}. Arguments g_xacc {A}. Arguments g_tab {A}. Arguments g_rrel {A}.
Arguments g_rabs {A}. Arguments g_irel {A}. Arguments g_iabs {A}. Arguments g_shoot {A}.

(** Attribute access and the dictionary update of withParams. *)
Definition gget {A} (f : field) (g : gsp A) : A :=
  match f with
  | minimum_fft_size => g_min g | maximum_fft_size => g_max g | folding_threshold => g_fold g
  | stepk_minimum_hlr => g_hlr g | maxk_threshold => g_maxk g | kvalue_accuracy => g_kacc g
  | xvalue_accuracy => g_xacc g | table_spacing => g_tab g | realspace_relerr => g_rrel g
  | realspace_abserr => g_rabs g | integration_relerr => g_irel g | integration_abserr => g_iabs g
  | shoot_accuracy => g_shoot g
  end.
Definition field_eqb (a b : field) : bool :=
  match a, b with
  | minimum_fft_size, minimum_fft_size | maximum_fft_size, maximum_fft_size
  | folding_threshold, folding_threshold | stepk_minimum_hlr, stepk_minimum_hlr
  | maxk_threshold, maxk_threshold | kvalue_accuracy, kvalue_accuracy
  | xvalue_accuracy, xvalue_accuracy | table_spacing, table_spacing
  | realspace_relerr, realspace_relerr | realspace_abserr, realspace_abserr
  | integration_relerr, integration_relerr | integration_abserr, integration_abserr
  | shoot_accuracy, shoot_accuracy => true
  | _, _ => false
  end.
Definition gbuild {A} (h : field -> A) : gsp A :=
  GSP (h minimum_fft_size) (h maximum_fft_size) (h folding_threshold) (h stepk_minimum_hlr)
      (h maxk_threshold) (h kvalue_accuracy) (h xvalue_accuracy) (h table_spacing) (h realspace_relerr)
      (h realspace_abserr) (h integration_relerr) (h integration_abserr) (h shoot_accuracy).
Definition gset {A} (f : field) (v : A) (g : gsp A) : gsp A :=
  gbuild (fun f' => if field_eqb f f' then v else gget f' g).

Definition all_fields : list (string * field) :=
  [("minimum_fft_size", minimum_fft_size); ("maximum_fft_size", maximum_fft_size);
   ("folding_threshold", folding_threshold); ("stepk_minimum_hlr", stepk_minimum_hlr);
   ("maxk_threshold", maxk_threshold); ("kvalue_accuracy", kvalue_accuracy);
   ("xvalue_accuracy", xvalue_accuracy); ("table_spacing", table_spacing);
   ("realspace_relerr", realspace_relerr); ("realspace_abserr", realspace_abserr);
   ("integration_relerr", integration_relerr); ("integration_abserr", integration_abserr);
   ("shoot_accuracy", shoot_accuracy)]%string.
Fixpoint lookup (k : string) (l : list (string * field)) : option field :=
  match l with
  | [] => None
  | (n, f) :: t => if String.eqb k n then Some f else lookup k t
  end.

Section GSP.
  Context {A : Type}.
  (** Python's < and == on the numbers. *)
  Variable lt : A -> A -> bool.
  Variable eqb : A -> A -> bool.

  (** The builtins min and max on a non-empty list: the first extremal item is returned. *)
  Definition pmin (x : A) (l : list A) : A := fold_left (fun a b => if lt b a then b else a) l x.
  Definition pmax (x : A) (l : list A) : A := fold_left (fun a b => if lt a b then b else a) l x.

  (** __eq__, gsparams.py:146-149 (tuples compared componentwise) *)
  Definition gsp_eqb (a b : gsp A) : bool :=
    forallb (fun nf => eqb (gget (snd nf) a) (gget (snd nf) b)) all_fields.

  (** withParams, gsparams.py:80-90; a dict has no duplicate names *)
  Fixpoint withParams (g : gsp A) (kw : list (string * A)) : res (gsp A) :=
    match kw with
    | [] => Ok g
    | (k, v) :: t => match lookup k all_fields with
                     | None => Err TypeError
                     | Some f => withParams (gset f v g) t
                     end
    end.

  (** check, gsparams.py:64-77: [None] is Python's None, a wrong type is ruled out by typing;
      [dflt] is GSParams.default. *)
  Definition check (dflt : gsp A) (g default : option (gsp A)) (kw : list (string * A)) : res (gsp A) :=
    let g := match g with
             | None => match default with Some d => d | None => dflt end
             | Some g => g
             end in
    withParams g kw.

  (** combine, gsparams.py:92-115. The callers (sum.py:57, convolve.py:129) never pass None items,
      so the filter is omitted. *)
  Definition combine (l : list (gsp A)) : res (gsp A) :=
    match l with
    | [] => Err IndexError
    | [g] => Ok g
    | g :: t =>
        if forallb (fun x => gsp_eqb x g) t then Ok g
        else
          let mx := fun h : gsp A -> A => pmax (h g) (map h t) in
          let mn := fun h : gsp A -> A => pmin (h g) (map h t) in
          Ok (GSP (mx g_min) (mx g_max) (mn g_fold) (mx g_hlr) (mn g_maxk) (mn g_kacc) (mn g_xacc) (mn g_tab)
                  (mn g_rrel) (mn g_rabs) (mn g_irel) (mn g_iabs) (mn g_shoot))
    end.
End GSP.

(** Python numbers: ints and floats that may be numerically equal. *)
Inductive pnum : Type := PInt (z : Z) | PFlt (r : R).
Definition pval (p : pnum) : R := match p with PInt z => IZR z | PFlt r => r end.
Definition plt (a b : pnum) : bool := Rltb (pval a) (pval b).
Definition peq (a b : pnum) : bool := Reqb (pval a) (pval b).

(** What %r shows of a number: the type is visible; %d shows the integer value. *)
Inductive shown : Type := ShInt (z : Z) | ShFlt (r : R).
Definition show_r (p : pnum) : shown := match p with PInt z => ShInt z | PFlt r => ShFlt r end.
Definition show_d (p : pnum) : shown := match p with PInt z => ShInt z | PFlt r => ShInt (Int_part r) end.
(** __repr__, gsparams.py:140-144; __hash__ (154-155) is a function of it *)
Definition gsp_repr (g : gsp pnum) : list shown :=
  [show_d (g_min g); show_d (g_max g); show_r (g_fold g); show_r (g_hlr g); show_r (g_maxk g); show_r (g_kacc g);
   show_r (g_xacc g); show_d (g_tab g); show_r (g_rrel g); show_r (g_rabs g); show_r (g_irel g); show_r (g_iabs g);
   show_r (g_shoot g)].

(** GSParams(), gsparams.py:11-23 *)
Definition gsp_default : gsp pnum :=
  GSP (PInt 128) (PInt 8192) (PFlt (5 / 1000)) (PFlt 5) (PFlt (1 / 1000)) (PFlt (1 / 100000)) (PFlt (1 / 100000))
      (PInt 1) (PFlt (1 / 10000)) (PFlt (1 / 1000000)) (PFlt (1 / 1000000)) (PFlt (1 / 100000000)) (PFlt (1 / 100000)).
