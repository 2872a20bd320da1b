(** Model of position.py and of parse_pos_args (utilities.py:14-75).

    Coordinates are reals tagged as Python scalars or JAX scalars. Arguments that are neither a scalar, a
    position nor a sequence are [VOther]; arrays with one or more dimensions count as sequences. inf and nan
    are not represented, hence dividing a JAX coordinate by zero is not followed. Adding a Bounds
    (position.py:86-87) is Bounds addition, modelled in Bounds_Model. *)
From Coq Require Import ZArith Reals Bool String List.
From Coquelicot Require Import Complex.
From Verif Require Import Base Bounds_Model FFT_Model Geo_Model Draw_Model Noise_Model Shear_Model.
Import ListNotations.
Open Scope R_scope.

Inductive pcls : Type := PosD | PosI.
(** The attributes of a PositionD or PositionI. *)
Record pos : Type := Pos { pc : pcls; px : num R; py_ : num R }.
Definition pcls_eqb (a b : pcls) : bool := match a, b with PosD, PosD | PosI, PosI => true | _, _ => false end.

(** Arguments *)
Inductive pval : Type := VNum (n : num R) | VPos (p : pos) | VSeq (l : list pval) | VOther.

(** cast_to_float, core/utils.py:45-66: anything that is not a scalar is refused by jnp.astype. *)
Definition cast_to_float (v : pval) : res (num R) := match v with VNum n => Ok n | _ => Err TypeError end.
(** x == int(x) *)
Definition is_int (x : R) : bool := Reqb x (IZR (truncR x)).
(** check_is_int_then_cast, core/utils.py:12-31; equinox.error_if raises a RuntimeError *)
Definition check_is_int_then_cast (v : pval) : res (num R) :=
  bind (cast_to_float v) (fun n =>
    if is_int (nv n) then Ok (Num (IZR (truncR (nv n))) (npy n))
    else Err (if npy n then TypeError else RuntimeError)).

(** kwargs.pop(name) *)
Fixpoint kw_get (k : string) (kw : list (string * pval)) : option pval :=
  match kw with [] => None | (k', v) :: t => if String.eqb k k' then Some v else kw_get k t end.
Fixpoint kw_del (k : string) (kw : list (string * pval)) : list (string * pval) :=
  match kw with [] => [] | (k', v) :: t => if String.eqb k k' then t else (k', v) :: kw_del k t end.
Definition kw_pop (k : string) (kw : list (string * pval)) : option (pval * list (string * pval)) :=
  match kw_get k kw with None => None | Some v => Some (v, kw_del k kw) end.

(** Position._parse_args, position.py:21-58 *)
Definition parse_args (args : list pval) (kw : list (string * pval)) : res (pval * pval) :=
  match kw with
  | [] =>
      match args with
      | [x; y] => Ok (x, y)
      | [] => Ok (VNum (py 0), VNum (py 0))
      | [VPos p] => Ok (VNum (px p), VNum (py_ p))
      | [VSeq [x; y]] => Ok (x, y)
      | _ => Err TypeError
      end
  | _ =>
      match args with
      | _ :: _ => Err TypeError
      | [] =>
          match kw_pop "x" kw with
          | None => Err TypeError
          | Some (x, kw) =>
              match kw_pop "y" kw with
              | None => Err TypeError
              | Some (y, kw) => match kw with [] => Ok (x, y) | _ => Err TypeError end
              end
          end
      end
  end.
(** PositionD.__init__, PositionI.__init__, position.py:184-189, 218-227 *)
Definition mkPos (c : pcls) (args : list pval) (kw : list (string * pval)) : res pos :=
  bind (parse_args args kw) (fun xy =>
    let conv := match c with PosD => cast_to_float | PosI => check_is_int_then_cast end in
    bind (conv (fst xy)) (fun x => bind (conv (snd xy)) (fun y => Ok (Pos c x y)))).
(** Position(x, y) with two scalars *)
Definition pos2 (c : pcls) (x y : num R) : res pos := mkPos c [VNum x; VNum y] [].

(** _check_scalar, position.py:191-202, 229-240. A JAX float is always accepted by PositionD, a JAX int by
    PositionI; other scalars are compared with their own conversion. *)
Definition check_scalar (c : pcls) (v : pval) : res (num R) :=
  match v with
  | VNum n => match c with PosD => Ok n | PosI => if is_int (nv n) then Ok n else Err TypeError end
  | _ => Err TypeError
  end.
(** __mul__ and __rmul__, position.py:64-69 *)
Definition p_mul (p : pos) (v : pval) : res pos :=
  bind (check_scalar (pc p) v) (fun n => pos2 (pc p) (nlift2 Rmult (px p) n) (nlift2 Rmult (py_ p) n)).
Definition p_rmul (v : pval) (p : pos) : res pos := p_mul p v.
(** x / other: Python scalars raise ZeroDivisionError *)
Definition ndiv (a b : num R) : res (num R) :=
  if npy a && npy b && Reqb (nv b) 0 then Err ZeroDivErr else Ok (nlift2 Rdiv a b).
(** __div__, position.py:71-75 *)
Definition p_div (p : pos) (v : pval) : res pos :=
  bind (check_scalar (pc p) v) (fun n => bind (ndiv (px p) n) (fun x => bind (ndiv (py_ p) n) (fun y => pos2 (pc p) x y))).
(** __neg__, position.py:77-78 *)
Definition nneg (a : num R) : num R := Num (- nv a) (npy a).
Definition p_neg (p : pos) : res pos := pos2 (pc p) (nneg (px p)) (nneg (py_ p)).
(** __add__, __sub__ with a position, position.py:80-101 *)
Definition p_add (p : pos) (v : pval) : res pos :=
  match v with
  | VPos q => pos2 (if pcls_eqb (pc q) (pc p) then pc p else PosD) (nlift2 Rplus (px p) (px q)) (nlift2 Rplus (py_ p) (py_ q))
  | _ => Err TypeError
  end.
Definition p_sub (p : pos) (v : pval) : res pos :=
  match v with
  | VPos q => pos2 (if pcls_eqb (pc q) (pc p) then pc p else PosD) (nlift2 Rminus (px p) (px q)) (nlift2 Rminus (py_ p) (py_ q))
  | _ => Err TypeError
  end.
(** __eq__, position.py:117-122 *)
Definition p_eq (p : pos) (v : pval) : bool :=
  match v with
  | VPos q => pcls_eqb (pc q) (pc p) && Reqb (nv (px p)) (nv (px q)) && Reqb (nv (py_ p)) (nv (py_ q))
  | _ => false
  end.
(** The tuple that is hashed, position.py:127-130 *)
Definition p_key (p : pos) : pcls * R * R := (pc p, nv (px p), nv (py_ p)).
(** shear, position.py:132-136 *)
Definition p_shear (p : pos) (s : C) : res pos :=
  let v := mapp (getMatrix s) (nv (px p), nv (py_ p)) in pos2 PosD (jx (fst v)) (jx (snd v)).
(** round, position.py:138-140; jnp.round gives JAX scalars *)
Definition p_round (p : pos) : res pos := pos2 PosI (jx (IZR (roundR (nv (px p))))) (jx (IZR (roundR (nv (py_ p))))).

(** * parse_pos_args, utilities.py:14-75 *)
(** canindex, utilities.py:16-22: positions and scalars cannot be indexed *)
Definition canindex (v : pval) : option (pval * pval) := match v with VSeq (x :: y :: _) => Some (x, y) | _ => None end.
(** The remaining keywords of [others], utilities.py:59-63 *)
Fixpoint pop_others (others : list string) (kw : list (string * pval)) : res (list pval * list (string * pval)) :=
  match others with
  | [] => Ok ([], kw)
  | n :: t =>
      match kw_pop n kw with
      | None => Err KeyError
      | Some (v, kw) => bind (pop_others t kw) (fun r => Ok (v :: fst r, snd r))
      end
  end.
Definition is_pos_arg (integer : bool) (v : pval) : option pos :=
  match v with VPos p => match pc p with PosI => Some p | PosD => if integer then None else Some p end | _ => None end.
(** (x, y, values given for [others], rest of others, kwargs), utilities.py:24-57 *)
Definition pos_args_xy (args : list pval) (kw : list (string * pval)) (name1 name2 : string) (integer : bool) (others : list string) :
  res (pval * pval * list pval * list string * list (string * pval)) :=
  match args with
  | [] =>
      match kw_pop name1 kw with
      | None => Err TypeError
      | Some (x, kw) => match kw_pop name2 kw with None => Err TypeError | Some (y, kw) => Ok (x, y, [], others, kw) end
      end
  | a :: rest =>
      let short := Nat.leb (length args) (1 + length others) in
      match is_pos_arg integer a, short with
      | Some p, true => Ok (VNum (px p), VNum (py_ p), rest, skipn (length rest) others, kw)
      | _, _ =>
          match canindex a, short with
          | Some (x, y), true => Ok (x, y, rest, skipn (length rest) others, kw)
          | _, _ =>
              match rest with
              | [] => Err TypeError
              | y :: rest' =>
                  if Nat.leb (length args) (2 + length others)
                  then Ok (a, y, rest', skipn (length rest') others, kw)
                  else Err TypeError
              end
          end
      end
  end.
(** The position and the other values; the tuple (pos,) + values is returned when there are any. *)
Definition parse_pos_args (args : list pval) (kw : list (string * pval)) (name1 name2 : string) (integer : bool) (others : list string) :
  res (pos * list pval) :=
  bind (pos_args_xy args kw name1 name2 integer others) (fun '(x, y, vals, others, kw) =>
  bind (pop_others others kw) (fun r =>
  match snd r with
  | _ :: _ => Err TypeError
  | [] => bind (mkPos (if integer then PosI else PosD) [x; y] []) (fun p => Ok (p, vals ++ fst r))
  end)).
