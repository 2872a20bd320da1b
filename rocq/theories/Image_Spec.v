(** Specifications for images: a pixel map (rectangle of positions -> values) with no arrays,
    indices or bounds objects. *)
From Coq Require Import ZArith Bool List.
From Verif Require Import Base Array_Model Bounds_Model Image_Model Bounds_Spec.
Import ListNotations.
Open Scope Z_scope.

(** an argument bounds as the user makes it from Python integers *)
Definition okb (b : bnd Z) : Prop := constructedI b /\ wfI b /\ bdef b = true /\ bstatic b = true.

Section S.
  Context {V D W : Type}.
  Variable T : vops V D W.
  Notation image := (image V D W).

  (** What a user sees at position (x, y). *)
  Definition pix (im : image) (x y : Z) : option V :=
    match getValue im x y with Ok v => Some v | Err _ => None end.

  (** [moved im im' fx fy]: pixel (x,y) of im' is pixel (fx x y, fy x y) of im. *)
  Definition moved (im im' : image) (fx fy : Z -> Z -> Z) : Prop :=
    forall x y, pix im' x y = pix im (fx x y) (fy x y).

  (** An image as made by the constructor: bounds made of Python integers, array shape equal to
      the bounds' shape, const flag present. *)
  Definition wfimg (im : image) : Prop :=
    constructedI (ibnd im) /\ bdef (ibnd im) = true /\ bstatic (ibnd im) = true /\
    1 <= nrow (iarr im) /\ 1 <= ncol (iarr im) /\
    nv (bdx (ibnd im)) = ncol (iarr im) /\ nv (bdy (ibnd im)) = nrow (iarr im).

  (** Facts about JAX arithmetic and casts that the statements rely on: an operation between two
      values of the same dtype gives a value of that dtype (except true division of integers), and
      on the results of integer bit operations rounding and truncation agree. *)
  Definition lawful : Prop :=
    (forall d d2, deqb T d d2 = true -> d = d2) /\
    (forall o d a b, (o = Div -> isint T d = false) ->
       rcast T d (bop T o d d a b) = bop T o d d a b) /\
    (forall o d d2 a b, o = And \/ o = Or \/ o = Xor -> isint T d = true ->
       tcast T d (bop T o d d2 a b) = rcast T d (bop T o d d2 a b)).

  (** Idealised addition of pixel values: commutative, associative, with neutral element zero
      (exact for integer dtypes, up to rounding for floating point ones). *)
  Definition add_monoid (d : D) : Prop :=
    (forall a c, bop T Add d d a c = bop T Add d d c a) /\
    (forall a c e, bop T Add d d a (bop T Add d d c e) = bop T Add d d (bop T Add d d a c) e) /\
    (forall a, bop T Add d d (vzero T) a = a).

  (** ** Pixel maps *)
  Record pmap : Type := PM { px : Z; pw : Z; py_ : Z; ph : Z; pdt : D; pf : Z -> Z -> V }.
  Definition inside (m : pmap) (x y : Z) : bool :=
    (px m <=? x) && (x <? px m + pw m) && (py_ m <=? y) && (y <? py_ m + ph m).
  Definition pget (m : pmap) (x y : Z) : option V := if inside m x y then Some (pf m x y) else None.
  Definition upd (m : pmap) (f : Z -> Z -> V) : pmap := PM (px m) (pw m) (py_ m) (ph m) (pdt m) f.
  (** value of r at the place corresponding to (x,y) when r's corner is put at (x0,y0) *)
  Definition aligned (r : pmap) (x0 y0 x y : Z) : V := pf r (x - x0 + px r) (y - y0 + py_ r).
  Definition same_shape (m r : pmap) : bool := (pw m =? pw r) && (ph m =? ph r).

  Definition pm_of (im : image) : pmap :=
    PM (nv (bxmin (ibnd im))) (ncol (iarr im)) (nv (bymin (ibnd im))) (nrow (iarr im)) (idt im)
       (fun x y => elt (iarr im) (y - nv (bymin (ibnd im))) (x - nv (bxmin (ibnd im)))).

  Inductive sval : Type := SImg (r : pmap) | SScalar (d : D) (v : V).
  Inductive sop : Type :=
  | SSet (x y : Z) (v : V) | SAdd (x y : Z) (v : V) | SFill (v : V) | SZero | SInvert | SReplNeg (v : V)
  | SSetSub (x0 w y0 h : Z) (rhs : pmap) | SCopyFrom (rhs : pmap) | SIn (o : aop) (r : sval) | SShift (dx dy : Z).

  Definition sval_dt (r : sval) : D := match r with SImg m => pdt m | SScalar d _ => d end.
  Definition serr (m : pmap) (o : aop) (r : sval) : option exn :=
    if int_only o && negb (isint T (pdt m)) then Some GalSimValueError
    else match r with
         | SScalar _ _ => None
         | SImg r => if negb (same_shape m r) then Some GalSimIncompatibleValuesError
                     else if int_only o && negb (isint T (pdt r)) then Some GalSimValueError else None
         end.

  (** Effect on a (non-const) image. *)
  Definition sstep (m : pmap) (o : sop) : pmap * option exn :=
    match o with
    | SSet x y v =>
        if inside m x y then (upd m (fun x' y' => if (x' =? x) && (y' =? y) then tcast T (pdt m) v else pf m x' y'), None)
        else (m, Some GalSimBoundsError)
    | SAdd x y v =>
        if inside m x y then
          (upd m (fun x' y' => if (x' =? x) && (y' =? y)
                               then bop T Add (pdt m) (pdt m) (pf m x' y') (tcast T (pdt m) v) else pf m x' y'), None)
        else (m, Some GalSimBoundsError)
    | SFill v => (upd m (fun _ _ => tcast T (pdt m) v), None)
    | SZero => (upd m (fun _ _ => tcast T (pdt m) (vzero T)), None)
    | SInvert => (upd m (fun x y => rcast T (pdt m) (if viszero T (pf m x y) then vzero T else vrecip T (pf m x y))), None)
    | SReplNeg v => (upd m (fun x y => if visneg T (pf m x y) then tcast T (pdt m) v else pf m x y), None)
    | SSetSub x0 w y0 h r =>
        if inside m x0 y0 && inside m (x0 + w - 1) (y0 + h - 1) && (1 <=? w) && (1 <=? h) then
          if (pw r =? w) && (ph r =? h) then
            (upd m (fun x y => if (x0 <=? x) && (x <? x0 + w) && (y0 <=? y) && (y <? y0 + h)
                               then rcast T (pdt m) (aligned r x0 y0 x y) else pf m x y), None)
          else (m, Some GalSimIncompatibleValuesError)
        else (m, Some GalSimBoundsError)
    | SCopyFrom r =>
        if same_shape m r then (upd m (fun x y => rcast T (pdt m) (aligned r (px m) (py_ m) x y)), None)
        else (m, Some GalSimIncompatibleValuesError)
    | SIn o r =>
        match serr m o r with
        | Some e => (m, Some e)
        | None => (upd m (fun x y =>
            rcast T (pdt m) (bop T o (pdt m) (sval_dt r) (pf m x y)
              (match r with SImg r => aligned r (px m) (py_ m) x y | SScalar _ v => v end))), None)
        end
    | SShift dx dy => (PM (px m + dx) (pw m) (py_ m + dy) (ph m) (pdt m) (fun x y => pf m (x - dx) (y - dy)), None)
    end.
  Definition srun (m : pmap) (l : list sop) : pmap := fold_left (fun m o => fst (sstep m o)) l m.
  Fixpoint serrors (m : pmap) (l : list sop) : list (option exn) :=
    match l with [] => [] | o :: l => snd (sstep m o) :: serrors (fst (sstep m o)) l end.

  (** The supported operations and their specification counterpart. *)
  Inductive mirrors : op (V:=V) (D:=D) (W:=W) -> sop -> Prop :=
  | MSet x y v : mirrors (OpSet x y v) (SSet x y v)
  | MAdd x y v : mirrors (OpAdd x y v) (SAdd x y v)
  | MFill v : mirrors (OpFill v) (SFill v)
  | MZero : mirrors OpZero SZero
  | MInvert : mirrors OpInvert SInvert
  | MReplNeg v : mirrors (OpReplNeg v) (SReplNeg v)
  | MSetSub b r : constructedI b -> wfI b -> bdef b = true -> bstatic b = true -> wfimg r ->
      mirrors (OpSetSub b r) (SSetSub (nv (bxmin b)) (nv (bdx b)) (nv (bymin b)) (nv (bdy b)) (pm_of r))
  | MCopyFrom r : wfimg r -> mirrors (OpCopyFrom r) (SCopyFrom (pm_of r))
  | MInImg o r : wfimg r -> mirrors (OpIn o (OImg r)) (SIn o (SImg (pm_of r)))
  | MInScalar o d v : mirrors (OpIn o (OScalar d v)) (SIn o (SScalar d v))
  | MShift dx dy : mirrors (OpShift (py dx) (py dy)) (SShift dx dy).

  (** Mutators that document the const check. *)
  Definition checked_op (o : op (V:=V) (D:=D) (W:=W)) : bool :=
    match o with OpIn _ _ | OpSetArray _ | OpWrap _ _ => false | _ => true end.
  (** Operations that change where the pixels are, not their values. *)
  Definition is_shift (o : op (V:=V) (D:=D) (W:=W)) : bool :=
    match o with OpShift _ _ => true | _ => false end.

  (** ** Pytree round trip: what a faithful rebuild must give. *)
  Section Py.
  Context {AF PH HD : Type}.
  Definition imgx_as_rebuilt (x : imgx (V:=V) (D:=D) (W:=W) AF PH HD) : res (imgx' AF PH HD) :=
    match isconst (base _ _ _ x) with
    | Err e => Err e
    | Ok c => let im := base _ _ _ x in
        Ok (ImgX' AF PH HD (Some (ChArr _ _ (iarr im))) (Some (ChWcs _ _ (iwcs im)))
             (if bstatic (ibnd im) then inr (ibnd im) else inl (Some (ChBounds _ _ (ibnd im))))
             (idt im) c (option_map (ChFlux _ _) (added_flux _ _ _ x))
             (option_map (ChPhot _ _) (photons _ _ _ x)) (header _ _ _ x))
    end.
  End Py.
End S.
