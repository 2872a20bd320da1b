(** Model of /repo/jax_galsim/bounds.py.

    The code of the base class [Bounds] is modelled once, generically in the number
    type; [BoundsI] instantiates it with [Z] and [BoundsD] with [R].
    Simplifications: values have no overflow or rounding; arguments of the wrong Python
    type (strings, ...) are not represented; tracers (abstract values under jit) are not
    represented, so every comparison can be evaluated. *)
From Coq Require Import ZArith Reals Bool List Lia.
From Verif Require Import Base.
Import ListNotations.

(** The attributes of a Bounds instance: _isdefined, xmin, deltax, ymin, deltay
    (bounds.py:51-57) and [_isstatic] (bounds.py:411, 498). *)
Record bnd (A : Type) : Type := Bnd {
  bdef : bool; bstatic : bool;
  bxmin : num A; bdx : num A; bymin : num A; bdy : num A }.
Arguments Bnd {A}.
Arguments bdef {A}. Arguments bstatic {A}.
Arguments bxmin {A}. Arguments bdx {A}. Arguments bymin {A}. Arguments bdy {A}.

Section Generic.
  Variable A : Type.
  Variable add sub : A -> A -> A.
  Variable ltb : A -> A -> bool.
  Variable zero : A.
  (** [u] is 1 for BoundsI and 0 for BoundsD: xmax = xmin + deltax - u
      (bounds.py:434, 569) and also the smallest delta allowed (bounds.py:132-135). *)
  Variable u : A.

  Let nadd := nlift2 add.
  Let nsub := nlift2 sub.
  Let nu : num A := py u.
  Definition leb (a b : A) : bool := negb (ltb b a).

  (** xmax / ymax properties, bounds.py:432-434, 440-442, 567-569, 589-591. *)
  Definition b_xmax (b : bnd A) : num A := nsub (nadd (bxmin b) (bdx b)) nu.
  Definition b_ymax (b : bnd A) : num A := nsub (nadd (bymin b) (bdy b)) nu.

  (** Setting xmax after xmin: deltax = xmax - xmin + u, bounds.py:436-438, 571-573. *)
  Definition delta_of (lo hi : num A) : num A := nadd (nsub hi lo) nu.

  (** min / max builtins on two positions' coordinates, bounds.py:85-88; the value chosen
      keeps its own kind. Python's min(a,b) returns b only if b < a; max returns b only if b > a. *)
  Definition nmin (a b : num A) : num A := if ltb (nv b) (nv a) then b else a.
  Definition nmax (a b : num A) : num A := if ltb (nv a) (nv b) then b else a.

  (** The argument forms accepted by _parse_args, bounds.py:48-129, other than a Bounds. *)
  Inductive bargs : Type :=
  | ArgsNone
  | Args4 (xmin xmax ymin ymax : num A)
  | ArgsPos (x y : num A)
  | ArgsPos2 (x1 y1 x2 y2 : num A)
  | ArgsKwMax (xmin xmax ymin ymax : num A)
  | ArgsKwDelta (xmin deltax ymin deltay : num A)
  | ArgsCopy (b : bnd A).

  (** (defined, xmin, deltax, ymin, deltay) before the final check, bounds.py:48-129.
      Note bounds.py:81: the single-argument form always ends with _isdefined = True. *)
  Definition parse_raw (a : bargs) : bool * (num A * num A * (num A * num A)) :=
    match a with
    | ArgsNone => (false, (py zero, py zero, (py zero, py zero)))
    | Args4 xmin xmax ymin ymax =>
        (true, (xmin, delta_of xmin xmax, (ymin, delta_of ymin ymax)))
    | ArgsPos x y => (true, (x, delta_of x x, (y, delta_of y y)))
    | ArgsPos2 x1 y1 x2 y2 =>
        let xmin := nmin x1 x2 in let ymin := nmin y1 y2 in
        (true, (xmin, delta_of xmin (nmax x1 x2), (ymin, delta_of ymin (nmax y1 y2))))
    | ArgsKwMax xmin xmax ymin ymax =>
        (true, (xmin, delta_of xmin xmax, (ymin, delta_of ymin ymax)))
    | ArgsKwDelta xmin dx ymin dy => (true, (xmin, dx, (ymin, dy)))
    | ArgsCopy b => (true, (bxmin b, bdx b, (bymin b, bdy b)))
    end.

  (** The "simple inputs" validity check, bounds.py:131-141. *)
  Definition py_check (d : bool) (dx dy : num A) : bool :=
    if npy dx && npy dy && (ltb (nv dx) u || ltb (nv dy) u) then false else d.

  (** _parse_args, bounds.py:48-141. *)
  Definition parse (a : bargs) : bnd A :=
    let '(d, (xmin, dx, (ymin, dy))) := parse_raw a in
    Bnd (py_check d dx dy) false xmin dx ymin dy.

  Variable ctor : bargs -> bnd A.   (** [self.__class__] *)

  (** withBorder, bounds.py:147-159. *)
  Definition b_withBorder (b : bnd A) (dx dy : num A) : bnd A :=
    ctor (ArgsKwDelta (nsub (bxmin b) dx) (nadd (bdx b) (nadd dx dx))
                      (nsub (bymin b) dy) (nadd (bdy b) (nadd dy dy))).

  (** shift, bounds.py:253-262. *)
  Definition b_shift (b : bnd A) (px py_ : num A) : bnd A :=
    ctor (ArgsKwDelta (nadd (bxmin b) px) (bdx b) (nadd (bymin b) py_) (bdy b)).

  (** includes(Position) and includes(x, y), bounds.py:197-216. *)
  Definition b_includes (b : bnd A) (x y : A) : bool :=
    bdef b && leb (nv (bxmin b)) x && leb (nv (bymin b)) y
    && leb x (nv (b_xmax b)) && leb y (nv (b_ymax b)).

  (** includes(Bounds), bounds.py:187-196. *)
  Definition b_includes_b (b c : bnd A) : bool :=
    bdef b && bdef c
    && leb (nv (bxmin b)) (nv (bxmin c)) && leb (nv (b_xmax c)) (nv (b_xmax b))
    && leb (nv (bymin b)) (nv (bymin c)) && leb (nv (b_ymax c)) (nv (b_ymax b)).

  (** jnp.maximum / jnp.minimum always return a JAX scalar. *)
  Definition jmax (a b : num A) : num A := jx (if ltb (nv a) (nv b) then nv b else nv a).
  Definition jmin (a b : num A) : num A := jx (if ltb (nv b) (nv a) then nv b else nv a).

  (** __and__, bounds.py:264-277. *)
  Definition b_and (b c : bnd A) : bnd A :=
    if negb (bdef b) || negb (bdef c) then ctor ArgsNone
    else
      let xmin := jmax (bxmin b) (bxmin c) in
      let xmax := jmin (b_xmax b) (b_xmax c) in
      let ymin := jmax (bymin b) (bymin c) in
      let ymax := jmin (b_ymax b) (b_ymax c) in
      if ltb (nv xmax) (nv xmin) || ltb (nv ymax) (nv ymin) then ctor ArgsNone
      else ctor (Args4 xmin xmax ymin ymax).

  (** __add__ with a Bounds, bounds.py:279-290. *)
  Definition b_add (b c : bnd A) : bnd A :=
    if negb (bdef c) then b
    else if bdef b then
      ctor (Args4 (jmin (bxmin b) (bxmin c)) (jmax (b_xmax b) (b_xmax c))
                  (jmin (bymin b) (bymin c)) (jmax (b_ymax b) (b_ymax c)))
    else c.

  (** __add__ with a Position, bounds.py:291-299. *)
  Definition b_add_pos (b : bnd A) (x y : num A) : bnd A :=
    if bdef b then
      ctor (Args4 (jmin (bxmin b) x) (jmax (b_xmax b) x)
                  (jmin (bymin b) y) (jmax (b_ymax b) y))
    else ctor (ArgsPos x y).

  Variable eqb : A -> A -> bool.

  (** __eq__ between two bounds of the same class: equality of _getinitargs(),
      bounds.py:306-316 (BoundsD: xmin, xmax, ymin, ymax) and 690-699
      (BoundsI: xmin, deltax, ymin, deltay); an undefined bounds has initargs (). *)
  Definition b_eq_D (b c : bnd A) : bool :=
    match bdef b, bdef c with
    | true, true => eqb (nv (bxmin b)) (nv (bxmin c)) && eqb (nv (b_xmax b)) (nv (b_xmax c))
                    && eqb (nv (bymin b)) (nv (bymin c)) && eqb (nv (b_ymax b)) (nv (b_ymax c))
    | false, false => true
    | _, _ => false
    end.
  Definition b_eq_I (b c : bnd A) : bool :=
    match bdef b, bdef c with
    | true, true => eqb (nv (bxmin b)) (nv (bxmin c)) && eqb (nv (bdx b)) (nv (bdx c))
                    && eqb (nv (bymin b)) (nv (bymin c)) && eqb (nv (bdy b)) (nv (bdy c))
    | false, false => true
    | _, _ => false
    end.

  (** The tuple that is hashed, bounds.py:321-330, 479-488, 701-710
      (the class name, constant per class, is left out). *)
  Definition b_hash_key (b : bnd A) : A * A * A * A :=
    (nv (bxmin b), nv (bdx b), nv (bymin b), nv (bdy b)).
End Generic.

Arguments ArgsNone {A}. Arguments Args4 {A}. Arguments ArgsPos {A}.
Arguments ArgsPos2 {A}. Arguments ArgsKwMax {A}. Arguments ArgsKwDelta {A}.
Arguments ArgsCopy {A}. Arguments b_hash_key {A}.

(** * BoundsI *)

(** BoundsI.__init__ after _parse_args, bounds.py:496-530 (integer inputs; non-integer inputs
    raise TypeError there and are not representable here). *)
Definition boundsI_finish (b : bnd Z) : bnd Z :=
  let static := npy (bxmin b) && npy (bymin b) in
  let d := if (nv (bdx b) <? 1)%Z && (nv (bdy b) <? 1)%Z then false else bdef b in
  Bnd d static (bxmin b) (bdx b) (bymin b) (bdy b).

(** bounds.py:493-710 *)
Definition BoundsI (a : bargs Z) : bnd Z :=
  boundsI_finish (parse Z Z.add Z.sub Z.ltb 0%Z 1%Z a).

Definition xmaxI := b_xmax Z Z.add Z.sub 1%Z.
Definition ymaxI := b_ymax Z Z.add Z.sub 1%Z.
Definition includesI := b_includes Z Z.add Z.sub Z.ltb 1%Z.
Definition includesI_b := b_includes_b Z Z.add Z.sub Z.ltb 1%Z.
Definition andI := b_and Z Z.add Z.sub Z.ltb 1%Z BoundsI.
Definition addI := b_add Z Z.add Z.sub Z.ltb 1%Z BoundsI.
Definition addI_pos := b_add_pos Z Z.add Z.sub Z.ltb 1%Z BoundsI.
Definition shiftI := b_shift Z Z.add BoundsI.
Definition withBorderI := b_withBorder Z Z.add Z.sub BoundsI.
Definition eqI := b_eq_I Z Z.eqb.

(** numpyShape, bounds.py:546-551. *)
Definition numpyShapeI (b : bnd Z) : Z * Z :=
  if bdef b then (nv (bdy b), nv (bdx b)) else (0, 0)%Z.

(** _area, bounds.py:597-602. *)
Definition areaI (b : bnd Z) : Z :=
  if bdef b then (nv (bdx b) * nv (bdy b))%Z else 0%Z.

(** center and _center, bounds.py:166-173, 604-614. *)
Definition centerI (b : bnd Z) : res (Z * Z) :=
  if bdef b then Ok (nv (bxmin b) + nv (bdx b) / 2, nv (bymin b) + nv (bdy b) / 2)%Z
  else Err GalSimUndefinedBoundsError.

(** true_center doubled (so that it is an integer), bounds.py:175-182. *)
Definition true_centerI_x2 (b : bnd Z) : res (Z * Z) :=
  if bdef b then Ok (nv (xmaxI b) + nv (bxmin b), nv (ymaxI b) + nv (bymin b))%Z
  else Err GalSimUndefinedBoundsError.

(** origin, bounds.py:161-164. *)
Definition originI (b : bnd Z) : Z * Z := (nv (bxmin b), nv (bymin b)).

(** tree_flatten of BoundsI, bounds.py:616-640: (children, aux). *)
Inductive auxI : Type :=
| AuxNone
| AuxStatic (xmin ymin deltax deltay : num Z)
| AuxDelta (deltax deltay : num Z).

Definition flattenI (b : bnd Z) : list (num Z) * auxI :=
  if bdef b then
    if bstatic b then ([], AuxStatic (bxmin b) (bymin b) (bdx b) (bdy b))
    else ([bxmin b; bymin b], AuxDelta (bdx b) (bdy b))
  else ([], AuxNone).

(** tree_unflatten of BoundsI, bounds.py:642-664. *)
Definition unflattenI (children : list (num Z)) (aux : auxI) : res (bnd Z) :=
  let d dx dy := if (nv dx <? 1)%Z && (nv dy <? 1)%Z then false else true in
  match aux with
  | AuxNone => Ok (BoundsI ArgsNone)
  | AuxStatic xmin ymin dx dy => Ok (Bnd (d dx dy) true xmin dx ymin dy)
  | AuxDelta dx dy =>
      match children with
      | x :: y :: _ => Ok (Bnd (d dx dy) false x dx y dy)
      | _ => Err IndexError
      end
  end.

(** * BoundsD *)

Definition Rltb (a b : R) : bool := if Rlt_dec a b then true else false.
Definition Reqb (a b : R) : bool := if Req_EM_T a b then true else false.

(** BoundsD.__init__, bounds.py:410-416. *)
Definition BoundsD (a : bargs R) : bnd R := parse R Rplus Rminus Rltb 0%R 0%R a.

Definition xmaxD := b_xmax R Rplus Rminus 0%R.
Definition ymaxD := b_ymax R Rplus Rminus 0%R.
Definition includesD := b_includes R Rplus Rminus Rltb 0%R.
Definition includesD_b := b_includes_b R Rplus Rminus Rltb 0%R.
Definition andD := b_and R Rplus Rminus Rltb 0%R BoundsD.
Definition addD := b_add R Rplus Rminus Rltb 0%R BoundsD.
Definition addD_pos := b_add_pos R Rplus Rminus Rltb 0%R BoundsD.
Definition shiftD := b_shift R Rplus BoundsD.
Definition withBorderD := b_withBorder R Rplus Rminus BoundsD.
Definition eqD := b_eq_D R Rplus Rminus 0%R Reqb.

(** _area, bounds.py:448-449. *)
Definition areaD (b : bnd R) : R := (nv (bdx b) * nv (bdy b))%R.

(** center = true_center, bounds.py:166-182, 451-453. *)
Definition centerD (b : bnd R) : res (R * R) :=
  if bdef b then Ok ((nv (xmaxD b) + nv (bxmin b)) / 2, (nv (ymaxD b) + nv (bymin b)) / 2)%R
  else Err GalSimUndefinedBoundsError.

(** tree_flatten / tree_unflatten of the base class, bounds.py:332-355. *)
Definition flattenD (b : bnd R) : list (num R) :=
  if bdef b then [bxmin b; bdx b; bymin b; bdy b] else [].
Definition unflattenD (children : list (num R)) : res (bnd R) :=
  match children with
  | [] => Ok (BoundsD ArgsNone)
  | xmin :: dx :: ymin :: dy :: _ => Ok (BoundsD (ArgsKwDelta xmin dx ymin dy))
  | _ => Err IndexError
  end.

(** * Conversions between the two classes (the one-argument constructor), bounds.py:60-71, 81 *)

Definition nZ_R (n : num Z) : num R := Num (IZR (nv n)) (npy n).

(** BoundsD(b) for a BoundsI b: offset = -1. *)
Definition BoundsD_of_I (b : bnd Z) : bnd R :=
  let dx := Num (IZR (nv (bdx b)) - 1)%R (npy (bdx b)) in
  let dy := Num (IZR (nv (bdy b)) - 1)%R (npy (bdy b)) in
  Bnd (py_check R Rltb 0%R true dx dy) false (nZ_R (bxmin b)) dx (nZ_R (bymin b)) dy.

Definition R_is_int (r : R) : bool := Reqb r (IZR (Int_part r)).

(** BoundsI(b) for a BoundsD b: offset = +1, then the integer checks of bounds.py:502-527. *)
Definition BoundsI_of_D (b : bnd R) : res (bnd Z) :=
  let dx := (nv (bdx b) + 1)%R in
  let dy := (nv (bdy b) + 1)%R in
  if R_is_int dx && R_is_int dy && R_is_int (nv (bxmin b)) && R_is_int (nv (bymin b)) then
    let ndx := Num (Int_part dx) (npy (bdx b)) in
    let ndy := Num (Int_part dy) (npy (bdy b)) in
    let d := py_check Z Z.ltb 1%Z true ndx ndy in
    Ok (boundsI_finish
          (Bnd d false (Num (Int_part (nv (bxmin b))) (npy (bxmin b))) ndx
                       (Num (Int_part (nv (bymin b))) (npy (bymin b))) ndy))
  else Err TypeError.

(** BoundsI(b), BoundsD(b) for b of the same class. *)
Definition BoundsI_of_I (b : bnd Z) : bnd Z := BoundsI (ArgsCopy b).
Definition BoundsD_of_D (b : bnd R) : bnd R := BoundsD (ArgsCopy b).
