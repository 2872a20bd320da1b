(** The arithmetic operators of profiles (gsobject.py:152-196), and what they do to the objects they are
    given. The operators use [mkTransform] and [mkSum] of Prof_Model. *)
From Coq Require Import Reals Bool List Arith.
From Coquelicot Require Import Complex.
From Verif Require Import Base Bounds_Model Geo_Model GSP_Model Prof_Model.
Import ListNotations.
Open Scope R_scope.

(** What may stand on the other side of an operator: a profile, a number, anything else (such as a list, a
    string or None). *)
Inductive operand : Type := OProf (q : prof) | ONum (c : R) | OOther.
(** What an operator gives: a profile, or a Transformation whose flux ratio is not a number. *)
Inductive result : Type := RProf (p : prof) | ROdd (p : prof) (o : operand).

(** p.withScaledFlux(c), gsobject.py:242-246 *)
Definition scaled (p : prof) (c : R) : prof := mkTransform p mI (0, 0) c None true.
(** p + other, gsobject.py:152-159: Sum refuses what is not a GSObject, sum.py:54-56 *)
Definition op_add (p : prof) (o : operand) : res result :=
  match o with
  | OProf q => bind (mkSum [p; q] None true) (fun s => Ok (RProf s))
  | _ => Err TypeError
  end.
(** other + p for a number: neither side defines it (there is no __radd__). *)
Definition op_radd (p : prof) (o : operand) : res result := match o with OProf q => op_add q (OProf p) | _ => Err TypeError end.
(** p - other, gsobject.py:162-169; -1.0 * c is a number, which Add refuses *)
Definition op_sub (p : prof) (o : operand) : res result :=
  match o with
  | OProf q => bind (mkSum [p; scaled q (-1)] None true) (fun s => Ok (RProf s))
  | _ => Err TypeError
  end.
(** p * other and other * p, gsobject.py:172-187. A GSObject is not callable and is accepted as a flux ratio,
    transform.py:36-47; so is any object that is not callable, unless p is a Transformation, whose flux ratio the
    object is multiplied with (transform.py:86): a profile allows that. Callable objects are left out. *)
Definition op_mul (p : prof) (o : operand) : res result :=
  match o with
  | ONum c => Ok (RProf (scaled p c))
  | OProf q => Ok (ROdd p (match p with PTr _ _ _ fr _ _ => OProf (scaled q fr) | _ => OProf q end))
  | OOther => match p with PTr _ _ _ _ _ _ => Err TypeError | _ => Ok (ROdd p OOther) end
  end.
(** p / other, gsobject.py:190-194, for a Python number; 1.0 / q is not defined for a profile. *)
Definition op_div (p : prof) (o : operand) : res result :=
  match o with
  | ONum c => if Reqb c 0 then Err ZeroDivErr else op_mul p (ONum (1 / c))
  | _ => Err TypeError
  end.
(** -p, gsobject.py:195-196 *)
Definition op_neg (p : prof) : res result := op_mul p (ONum (-1)).

(** Expressions *)
Inductive expr : Type :=
  | EProf (p : prof) | EAdd (a b : expr) | ESub (a b : expr) | EMul (a : expr) (c : R) | EDiv (a : expr) (c : R) | ENeg (a : expr).
Definition as_prof (r : res result) : res prof :=
  match r with Ok (RProf p) => Ok p | Ok (ROdd _ _) => Err TypeError | Err e => Err e end.
(** Python's evaluation of an expression, operands first *)
Fixpoint eval (e : expr) : res prof :=
  match e with
  | EProf p => Ok p
  | EAdd a b => bind (eval a) (fun p => bind (eval b) (fun q => as_prof (op_add p (OProf q))))
  | ESub a b => bind (eval a) (fun p => bind (eval b) (fun q => as_prof (op_sub p (OProf q))))
  | EMul a c => bind (eval a) (fun p => as_prof (op_mul p (ONum c)))
  | EDiv a c => bind (eval a) (fun p => as_prof (op_div p (ONum c)))
  | ENeg a => bind (eval a) (fun p => as_prof (op_neg p))
  end.

(** * Scaling with arguments that can be changed
    The flux ratio of a Transformation is the object it was given (transform.py:70-74), a number or a NumPy array
    of one element, here the address of its value. When the scaled object is a Transformation itself,
    [self._params["flux_ratio"] *= obj._flux_ratio] (transform.py:86) multiplies a NumPy array in place.
    Profiles here are leaves with a flux, scaled any number of times. *)
Inductive slot : Type := Val (r : R) | Ref (a : nat).
Definition heap : Type := nat -> R.
Definition read (h : heap) (s : slot) : R := match s with Val r => r | Ref a => h a end.
Definition write (h : heap) (a : nat) (v : R) : heap := fun b => if Nat.eqb a b then v else h b.
(** A leaf with its flux, or a Transformation of one with its flux ratio *)
Inductive hprof : Type := HLeaf (fl : R) | HTr (fl : R) (s : slot).
(** transform.py:137-138 with the unit Jacobian *)
Definition hflux (h : heap) (p : hprof) : R := match p with HLeaf fl => fl | HTr fl s => read h s * fl end.
(** p * s: transform.py:53-88 *)
Definition hscale (h : heap) (p : hprof) (s : slot) : heap * hprof :=
  match p with
  | HLeaf fl => (h, HTr fl s)
  | HTr fl s' =>
      match s with
      | Val v => (h, HTr fl (Val (v * read h s')))
      | Ref a => (write h a (h a * read h s'), HTr fl (Ref a))
      end
  end.
(** A program: each step scales the object with the given number (0 for the first one made) and appends the
    result; a step naming no object does nothing. *)
Definition hstep (st : heap * list hprof) (i : nat * slot) : heap * list hprof :=
  match nth_error (snd st) (fst i) with
  | None => st
  | Some p => let '(h, q) := hscale (fst st) p (snd i) in (h, snd st ++ [q])
  end.
Definition hrun (st : heap * list hprof) (l : list (nat * slot)) : heap * list hprof := fold_left hstep l st.
