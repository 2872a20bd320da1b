(** Shear (shear.py). Complex numbers are Coquelicot's pairs of reals. *)
From Coq Require Import Reals Bool String List.
From Coquelicot Require Import Complex.
From Verif Require Import Base Bounds_Model Geo_Model.
Import ListNotations.
Open Scope R_scope.

(** Helpers, shear.py:229-256; each returns the factor to multiply with. *)
Definition g2e (absgsq : R) : R := 2 / (1 + absgsq).
(** shear.py:244-250 *)
Definition e2g (absesq : R) : R :=
  if Rltb (1 / 10000) absesq then 1 / (1 + sqrt (1 - absesq))
  else 1 / 2 + absesq * (125 / 1000 + absesq * (625 / 10000 + absesq * (390625 / 10000000))).
(** shear.py:252-260 *)
Definition g2eta (absg : R) : R :=
  let absgsq := absg * absg in
  if Rltb (1 / 10000) absg then 2 * arctanh absg / absg
  else 2 + absgsq * (2 / 3 + absgsq * (4 / 10)).
(** shear.py:262-268 *)
Definition eta2g (abseta : R) : R :=
  let absetasq := abseta * abseta in
  if Rltb (1 / 10000) abseta then tanh (1 / 2 * abseta) / abseta
  else 1 / 2 + absetasq * (-1 / 24 + absetasq * (1 / 240)).

(** e^(2i beta) *)
Definition expi2 (beta : R) : C := (cos (2 * beta), sin (2 * beta)).

(** Keyword values: a number or an Angle (in radians). *)
Inductive kwv : Type := KNum (x : R) | KAng (rad : R).
Definition kwargs : Type := list (string * kwv).
Fixpoint kw_get (n : string) (kw : kwargs) : option kwv :=
  match kw with
  | [] => None
  | (k, v) :: t => if String.eqb n k then Some v else kw_get n t
  end.
Definition kw_has (n : string) (kw : kwargs) : bool := match kw_get n kw with Some _ => true | None => false end.
Definition kw_del (n : string) (kw : kwargs) : kwargs := filter (fun p => negb (String.eqb n (fst p))) kw.
(** kwargs.pop(n, 0.0) as a number; an Angle is not a valid array. *)
Definition kw_num (n : string) (kw : kwargs) : res R :=
  match kw_get n kw with None => Ok 0 | Some (KNum x) => Ok x | Some (KAng _) => Err TypeError end.

Section Shear.
  Open Scope string_scope.
  (** The two-component constructors: pop both, compute, then complain about leftovers. *)
  Definition two (n1 n2 : string) (kw : kwargs) (f : R -> R -> res C) : res C :=
    bind (kw_num n1 kw) (fun a => bind (kw_num n2 kw) (fun b =>
    bind (f a b) (fun g => match kw_del n2 (kw_del n1 kw) with [] => Ok g | _ => Err TypeError end))).
  (** The magnitude and position angle constructors. *)
  Definition polar (n : string) (kw : kwargs) (f : R -> R -> res C) : res C :=
    match kw_get "beta" kw with
    | None => Err GalSimIncompatibleValuesError
    | Some (KNum _) => Err TypeError
    | Some (KAng beta) =>
        bind (kw_num n kw) (fun a => bind (f a beta) (fun g =>
          match kw_del n (kw_del "beta" kw) with [] => Ok g | _ => Err TypeError end))
    end.

  (** Shear.__init__, shear.py:20-166. [arg] is the unnamed argument with the result of the check
      "is complex" (an array with non-zero imaginary part or a Python complex). equinox.error_if
      raises a RuntimeError. *)
  Definition mk_shear (args : list (C * bool)) (kw : kwargs) : res C :=
    if Nat.ltb 2 (List.length kw) then Err TypeError else
    match args with
    | _ :: _ :: _ => Err TypeError
    | [(g, is_complex)] =>
        if is_complex then match kw with [] => Ok g | _ => Err TypeError end else Err TypeError
    | [] =>
        if Nat.eqb (List.length kw) 0 then Ok (RtoC 0)
        else if kw_has "g1" kw || kw_has "g2" kw then
          two "g1" "g2" kw (fun g1 g2 => if Rltb 1 (Cmod (g1, g2)) then Err RuntimeError else Ok (g1, g2))
        else if kw_has "e1" kw || kw_has "e2" kw then
          two "e1" "e2" kw (fun e1 e2 =>
            let absesq := e1 ^ 2 + e2 ^ 2 in
            if Rltb 1 absesq then Err RuntimeError else Ok (Cmult (e1, e2) (RtoC (e2g absesq))))
        else if kw_has "eta1" kw || kw_has "eta2" kw then
          two "eta1" "eta2" kw (fun eta1 eta2 => Ok (Cmult (eta1, eta2) (RtoC (eta2g (Cmod (eta1, eta2))))))
        else if kw_has "g" kw then
          polar "g" kw (fun g beta => if Rltb 1 g || Rltb g 0 then Err RuntimeError else Ok (Cmult (RtoC g) (expi2 beta)))
        else if kw_has "e" kw then
          polar "e" kw (fun e beta => if Rltb 1 e || Rltb e 0 then Err RuntimeError
                                      else Ok (Cmult (RtoC (e2g (e ^ 2) * e)) (expi2 beta)))
        else if kw_has "eta" kw then
          polar "eta" kw (fun eta beta => if Rltb eta 0 then Err RuntimeError
                                          else Ok (Cmult (RtoC (eta2g eta * eta)) (expi2 beta)))
        else if kw_has "q" kw then
          polar "q" kw (fun q beta => if negb (Rltb 0 q) || Rltb 1 q then Err RuntimeError
                                      else let eta := - ln q in Ok (Cmult (RtoC (eta2g eta * eta)) (expi2 beta)))
        else if kw_has "beta" kw then Err GalSimIncompatibleValuesError
        else Err TypeError
    end.
End Shear.

(** Attributes, shear.py:168-226. *)
Definition sh_g (s : C) : R := Cmod s.
(** shear.py:191-192 *)
Definition sh_beta (s : C) : R := / 2 * atan2 (Im s) (Re s).
(** shear.py:201-202 *)
Definition sh_e1 (s : C) : R := Re s * g2e (sh_g s ^ 2).
(** shear.py:206-207 *)
Definition sh_e2 (s : C) : R := Im s * g2e (sh_g s ^ 2).
Definition sh_e (s : C) : R := sh_g s * g2e (sh_g s ^ 2).
(** shear.py:221-222 *)
Definition sh_eta1 (s : C) : R := Re s * g2eta (sh_g s).
(** shear.py:226-227 *)
Definition sh_eta2 (s : C) : R := Im s * g2eta (sh_g s).
(** shear.py:231-232 *)
Definition sh_eta (s : C) : R := sh_g s * g2eta (sh_g s).
Definition sh_q (s : C) : R := (1 - sh_g s) / (1 + sh_g s).

(** Operators, shear.py:259-269. *)
Definition sh_neg (s : C) : C := Copp s.
Definition sh_add (s o : C) : C := Cdiv (Cplus s o) (Cplus (RtoC 1) (Cmult (Cconj s) o)).
Definition sh_sub (s o : C) : C := sh_add s (sh_neg o).

(** getMatrix, shear.py:277-281 *)
Definition getMatrix (s : C) : mat :=
  let n := sqrt (1 - sh_g s ^ 2) in
  Mat ((1 + Re s) / n) (Im s / n) (Im s / n) ((1 - Re s) / n).

(** rotationWith, shear.py:283-289: only the first column is computed. *)
Definition rotationWith (s o : C) : R :=
  let s3 := mapp (getMatrix s) (m00 (getMatrix o), m10 (getMatrix o)) in
  let r := mapp (getMatrix (sh_neg (sh_add s o))) s3 in
  atan2 (snd r) (fst r).
