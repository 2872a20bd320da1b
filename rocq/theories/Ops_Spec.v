(** What an arithmetic expression of profiles stands for. *)
From Coq Require Import Reals Bool List.
From Coquelicot Require Import Complex.
From Verif Require Import Base Geo_Model Prof_Model Prof_Spec Ops_Model.
Import ListNotations.
Open Scope R_scope.

(** The flux, the amplitude at [k] and the surface brightness at [x] of an expression, from those of its profiles *)
Fixpoint flux_of (e : expr) : R :=
  match e with
  | EProf p => flux p | EAdd a b => flux_of a + flux_of b | ESub a b => flux_of a - flux_of b
  | EMul a c => flux_of a * c | EDiv a c => flux_of a / c | ENeg a => - flux_of a
  end.
Fixpoint amp_of (e : expr) (k : vec) : C :=
  match e with
  | EProf p => kValue p k | EAdd a b => Cplus (amp_of a k) (amp_of b k) | ESub a b => Cminus (amp_of a k) (amp_of b k)
  | EMul a c => Cmult (amp_of a k) (RtoC c) | EDiv a c => Cdiv (amp_of a k) (RtoC c) | ENeg a => Copp (amp_of a k)
  end.
Definition lift2 (f : R -> R -> R) (a b : res R) : res R := bind a (fun x => bind b (fun y => Ok (f x y))).
Fixpoint sb_of (e : expr) (x : vec) : res R :=
  match e with
  | EProf p => xValue p x | EAdd a b => lift2 Rplus (sb_of a x) (sb_of b x) | ESub a b => lift2 Rminus (sb_of a x) (sb_of b x)
  | EMul a c => bind (sb_of a x) (fun v => Ok (v * c)) | EDiv a c => bind (sb_of a x) (fun v => Ok (v / c))
  | ENeg a => bind (sb_of a x) (fun v => Ok (- v))
  end.
(** Not the sum of no profiles, which the constructor refuses *)
Definition full (p : prof) : Prop := match p with PSum l _ _ => l <> [] | _ => True end.
(** Profiles whose values do not depend on gsparams, and no division by zero *)
Fixpoint sound (e : expr) : Prop :=
  match e with
  | EProf p => plain p /\ full p
  | EAdd a b | ESub a b => sound a /\ sound b
  | EMul a _ | ENeg a => sound a
  | EDiv a c => sound a /\ c <> 0
  end.

(** A step that passes a number, or scales a profile that is not a Transformation *)
Definition harmless (os : list hprof) (i : nat * slot) : Prop :=
  (exists v, snd i = Val v) \/ exists fl, nth_error os (fst i) = Some (HLeaf fl).
Fixpoint harmless_run (st : heap * list hprof) (l : list (nat * slot)) : Prop :=
  match l with [] => True | i :: t => harmless (snd st) i /\ harmless_run (hstep st i) t end.
