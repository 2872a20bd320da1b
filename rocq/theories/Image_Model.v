(** Model of /repo/jax_galsim/image.py (pixel access, mutation, wrapping, re-origining,
    arithmetic, transposes, pytree).

    Generic in the pixel values [V] and dtypes [D]: [tcast d] is the conversion done by
    [.at[].set] (astype), [rcast d] is [_safe_cast] (rounds first for integer dtypes),
    [bop o d1 d2] is the JAX binary operation [o] on values of dtypes d1, d2 (evaluated in the
    promoted dtype [prom d1 d2]). Simplifications: endianness, dtype aliases, broadcasting of
    arrays of different shapes and pow are left out; the wcs is an abstract type [W] with its
    shiftOrigin. *)
From Coq Require Import ZArith Bool List.
From Verif Require Import Base Array_Model Bounds_Model Wrap_Model.
Import ListNotations.
Open Scope Z_scope.

Inductive aop : Type := Add | Sub | Mul | Div | FloorDiv | Mod | And | Or | Xor.

(** Operators defined for integer images only: check_image_consistency(..., integer=True),
    image.py:1589-1741. *)
Definition int_only (o : aop) : bool :=
  match o with Add | Sub | Mul | Div => false | _ => true end.

Record vops (V D W : Type) : Type := {
  vzero : V; vone : V;
  isint : D -> bool; deqb : D -> D -> bool; prom : D -> D -> D;
  tcast : D -> V -> V; rcast : D -> V -> V;
  bop : aop -> D -> D -> V -> V -> V;
  vrecip : V -> V; viszero : V -> bool; visneg : V -> bool; vconj : V -> V;
  wshift : W -> Z -> Z -> W }.
Arguments vzero {V D W}. Arguments vone {V D W}. Arguments isint {V D W}. Arguments deqb {V D W}.
Arguments prom {V D W}. Arguments tcast {V D W}. Arguments rcast {V D W}. Arguments bop {V D W}.
Arguments vrecip {V D W}. Arguments viszero {V D W}. Arguments visneg {V D W}. Arguments vconj {V D W}.
Arguments wshift {V D W}.

(** Attributes of an Image: _array, _bounds, _dtype, wcs, _is_const ([None] when the attribute
    was never set, see [_Image], image.py:1343-1356). *)
Record image (V D W : Type) : Type := Img {
  iarr : arr V; ibnd : bnd Z; idt : D; iconst : option bool; iwcs : option W }.
Arguments Img {V D W}. Arguments iarr {V D W}. Arguments ibnd {V D W}. Arguments idt {V D W}.
Arguments iconst {V D W}. Arguments iwcs {V D W}.

Section Image.
  Context {V D W : Type}.
  Variable T : vops V D W.
  Notation image := (image V D W).

  Definition xmin_ (im : image) : Z := nv (bxmin (ibnd im)).
  Definition ymin_ (im : image) : Z := nv (bymin (ibnd im)).
  Definition xmax_ (im : image) : Z := nv (xmaxI (ibnd im)).
  Definition ymax_ (im : image) : Z := nv (ymaxI (ibnd im)).

  (** _make_empty, image.py:560-566. *)
  Definition make_empty (h w : Z) : arr V :=
    if h * w =? 0 then aconst 1 1 (vzero T) else aconst h w (vzero T).

  (** Image() with nothing given, image.py:240-251. *)
  Definition empty_image (d : D) (w : option W) (c : bool) : image :=
    Img (aconst 1 1 (vzero T)) (BoundsI ArgsNone) d (Some c) w.

  (** Image(bounds, dtype=d, init_value=v), image.py:203-209; a zero init_value adds nothing. *)
  Definition Image_bounds (b : bnd Z) (d : D) (w : option W) (init : option V) : image :=
    let '(h, wd) := numpyShapeI b in
    let a := make_empty h wd in
    let a := match init with
             | Some v => amap (fun z => bop T Add d d z (tcast T d v)) a
             | None => a end in
    Img a b d (Some false) w.

  (** Image(array, bounds=b, wcs=w, make_const=c), image.py:78-109, 211-221, 272-313. *)
  Definition Image_array (a : arr V) (b : bnd Z) (d : D) (w : option W) (c : bool) : res image :=
    if bdef b then
      if negb (nv (bdx b) =? ncol a) then Err GalSimIncompatibleValuesError
      else if negb (nv (bdy b) =? nrow a) then Err GalSimIncompatibleValuesError
      else Ok (Img a (BoundsI (ArgsKwDelta (bxmin b) (py (ncol a)) (bymin b) (py (nrow a)))) d (Some c) w)
    else Ok (empty_image d w c).

  (** _Image(array, bounds, wcs), image.py:1343-1356: _is_const is not set. *)
  Definition _Image (a : arr V) (b : bnd Z) (d : D) (w : option W) : image := Img a b d None w.

  (** isconst property, image.py:385-388: AttributeError when _is_const was never set. *)
  Definition isconst (im : image) : res bool :=
    match iconst im with Some c => Ok c | None => Err AttributeError end.

  (** Outcome of a mutating call: the object afterwards and the exception raised, if any. *)
  Definition outcome : Type := image * option exn.
  Definition raise (im : image) (e : exn) : outcome := (im, Some e).
  Definition done (im : image) : outcome := (im, None).
  (** "if self.isconst: raise GalSimImmutableError", e.g. image.py:570-571. *)
  Definition if_mutable (im : image) (k : outcome) : outcome :=
    match isconst im with
    | Err e => raise im e
    | Ok true => raise im GalSimImmutableError
    | Ok false => k
    end.
  Definition with_arr (im : image) (a : arr V) : image := Img a (ibnd im) (idt im) (iconst im) (iwcs im).

  (** getValue, image.py:1064-1080. *)
  Definition getValue (im : image) (x y : Z) : res V :=
    if negb (bdef (ibnd im)) then Err GalSimUndefinedBoundsError
    else if negb (includesI (ibnd im) x y) then Err GalSimBoundsError
    else Ok (elt (iarr im) (y - ymin_ im) (x - xmin_ im)).

  (** setValue, image.py:1082-1101. *)
  Definition setValue (im : image) (x y : Z) (v : V) : outcome :=
    if_mutable im
      (if negb (bdef (ibnd im)) then raise im GalSimUndefinedBoundsError
       else if negb (includesI (ibnd im) x y) then raise im GalSimBoundsError
       else done (with_arr im (at_upd (iarr im) (y - ymin_ im) (x - xmin_ im) (fun _ => tcast T (idt im) v)))).

  (** addValue, image.py:1103-1122. *)
  Definition addValue (im : image) (x y : Z) (v : V) : outcome :=
    if_mutable im
      (if negb (bdef (ibnd im)) then raise im GalSimUndefinedBoundsError
       else if negb (includesI (ibnd im) x y) then raise im GalSimBoundsError
       else done (with_arr im (at_upd (iarr im) (y - ymin_ im) (x - xmin_ im)
                    (fun z => bop T Add (idt im) (idt im) z (tcast T (idt im) v))))).

  (** fill, image.py:1124-1136; _fill sets every array element. *)
  Definition fill (im : image) (v : V) : outcome :=
    if_mutable im
      (if negb (bdef (ibnd im)) then raise im GalSimUndefinedBoundsError
       else done (with_arr im (amap (fun _ => tcast T (idt im) v) (iarr im)))).

  (** setZero, image.py:1138-1142. *)
  Definition setZero (im : image) : outcome :=
    if_mutable im (done (with_arr im (amap (fun _ => tcast T (idt im) (vzero T)) (iarr im)))).

  (** invertSelf, image.py:1144-1170. *)
  Definition invert_value (d : D) (v : V) : V :=
    let safe := if viszero T v then vone T else v in
    rcast T d (if viszero T v then vzero T else vrecip T safe).
  (** image.py:1145-1152, 1155-1170 *)
  Definition invertSelf (im : image) : outcome :=
    if_mutable im
      (if negb (bdef (ibnd im)) then raise im GalSimUndefinedBoundsError
       else done (with_arr im (amap (invert_value (idt im)) (iarr im)))).

  (** replaceNegative, image.py:1172-1176. *)
  Definition replaceNegative (im : image) (v : V) : outcome :=
    if_mutable im
      (done (with_arr im (amap (fun z => if visneg T z then tcast T (idt im) v else z) (iarr im)))).

  (** resize, image.py:568-577. *)
  Definition resize (im : image) (b : bnd Z) (w : option W) : outcome :=
    if_mutable im
      (let '(h, wd) := numpyShapeI b in
       done (Img (make_empty h wd) b (idt im) (iconst im)
                 (match w with Some _ => w | None => iwcs im end))).

  (** subImage / __getitem__ with bounds, image.py:579-614. *)
  Definition subImage (im : image) (b : bnd Z) : res image :=
    if negb (bdef (ibnd im)) then Err GalSimUndefinedBoundsError
    else if bstatic (ibnd im) && bstatic b && negb (includesI_b (ibnd im) b) then Err GalSimBoundsError
    else
      let r :=
        if bstatic (ibnd im) && bstatic b then
          Ok (slice (iarr im) (nv (bymin b) - ymin_ im) (nv (ymaxI b) - ymin_ im + 1)
                              (nv (bxmin b) - xmin_ im) (nv (xmaxI b) - xmin_ im + 1))
        else
          let '(h, w) := numpyShapeI b in
          dyn_slice (iarr im) (nv (bymin b) - ymin_ im) (nv (bxmin b) - xmin_ im) h w in
      bind r (fun a => Image_array a b (idt im) (iwcs im) false).

  Definition shape_eqb (s t : Z * Z) : bool := (fst s =? fst t) && (snd s =? snd t).

  (** setSubImage / __setitem__ with bounds, image.py:616-668. *)
  Definition setSubImage (im : image) (b : bnd Z) (rhs : image) : outcome :=
    if_mutable im
      (if negb (bdef (ibnd im)) then raise im GalSimUndefinedBoundsError
       else if bstatic (ibnd im) && bstatic b && negb (includesI_b (ibnd im) b) then raise im GalSimBoundsError
       else if negb (shape_eqb (numpyShapeI b) (numpyShapeI (ibnd rhs))) then raise im GalSimIncompatibleValuesError
       else
         let u := amap (rcast T (idt im)) (iarr rhs) in
         if bstatic (ibnd im) && bstatic b then
           done (with_arr im (slice_set (iarr im)
                   (nv (bymin b) - ymin_ im) (nv (ymaxI b) - ymin_ im + 1)
                   (nv (bxmin b) - xmin_ im) (nv (xmaxI b) - xmin_ im + 1) u))
         else
           match dyn_update_slice (iarr im) u (nv (bymin b) - ymin_ im) (nv (bxmin b) - xmin_ im) with
           | Ok a => done (with_arr im a)
           | Err e => raise im e
           end).

  (** copyFrom, image.py:976-997. *)
  Definition copyFrom (im rhs : image) : outcome :=
    if_mutable im
      (if negb (shape_eqb (numpyShapeI (ibnd im)) (numpyShapeI (ibnd rhs))) then raise im GalSimIncompatibleValuesError
       else done (with_arr im (Arr (nrow (iarr im)) (ncol (iarr im))
                                   (fun i j => rcast T (idt im) (elt (iarr rhs) i j))))).

  (** array setter, image.py:368-374 (an array of another shape is a ValueError). *)
  Definition set_array (im : image) (a : arr V) : outcome :=
    if (nrow a =? nrow (iarr im)) && (ncol a =? ncol (iarr im))
    then done (with_arr im (Arr (nrow (iarr im)) (ncol (iarr im)) (fun i j => rcast T (idt im) (elt a i j))))
    else raise im ValueError.

  (** Right operand of an arithmetic operator. *)
  Inductive operand : Type := OImg (im : image) | OScalar (d : D) (v : V).
  Definition operand_dt (r : operand) : D := match r with OImg im => idt im | OScalar d _ => d end.
  Definition operand_at (r : operand) (i j : Z) : V :=
    match r with OImg im => elt (iarr im) i j | OScalar _ v => v end.

  (** check_image_consistency, image.py:1458-1467. *)
  Definition consistent (im : image) (r : operand) (integer : bool) : option exn :=
    if integer && negb (isint T (idt im)) then Some GalSimValueError
    else match r with
         | OScalar _ _ => None
         | OImg im2 =>
             if negb ((nrow (iarr im) =? nrow (iarr im2)) && (ncol (iarr im) =? ncol (iarr im2)))
             then Some GalSimIncompatibleValuesError
             else if integer && negb (isint T (idt im2)) then Some GalSimValueError
             else None
         end.

  (** Image_add, Image_sub, ..., Image_or, image.py:1470-1477 etc. (no const flag, self's bounds and wcs). *)
  Definition binop (o : aop) (im : image) (r : operand) : res image :=
    match consistent im r (int_only o) with
    | Some e => Err e
    | None =>
        Image_array (Arr (nrow (iarr im)) (ncol (iarr im))
                         (fun i j => bop T o (idt im) (operand_dt r) (elt (iarr im) i j) (operand_at r i j)))
                    (ibnd im) (prom T (idt im) (operand_dt r)) (iwcs im) false
    end.

  (** Image_iadd, Image_isub, ..., Image_ior, image.py:1479-1741. The direct form is used when the
      dtypes agree (for Div only on non-integer images; And/Or/Xor always, with a plain .set). *)
  Definition inplace_value (o : aop) (d d2 : D) (a b : V) : V :=
    match o with
    | Add | Sub | Mul | FloorDiv | Mod =>
        if deqb T d2 d then bop T o d d2 a b else rcast T d (bop T o d d2 a b)
    | Div =>
        if deqb T d2 d && negb (isint T d) then bop T o d d2 a b else rcast T d (bop T o d d2 a b)
    | And | Or | Xor => tcast T d (bop T o d d2 a b)
    end.
  Definition inplace (o : aop) (im : image) (r : operand) : outcome :=
    match consistent im r (int_only o) with
    | Some e => raise im e
    | None =>
        done (with_arr im (Arr (nrow (iarr im)) (ncol (iarr im))
               (fun i j => inplace_value o (idt im) (operand_dt r) (elt (iarr im) i j) (operand_at r i j))))
    end.

  (** shift / _shift, image.py:1019-1028. *)
  Definition shift (im : image) (dx dy : num Z) : image :=
    Img (iarr im) (shiftI (ibnd im) dx dy) (idt im) (iconst im)
        (option_map (fun w => wshift T w (nv dx) (nv dy)) (iwcs im)).
  (** setOrigin, image.py:1035-1038. *)
  Definition setOrigin (im : image) (x0 y0 : num Z) : image :=
    shift im (nlift2 Z.sub x0 (bxmin (ibnd im))) (nlift2 Z.sub y0 (bymin (ibnd im))).
  (** setCenter, image.py:1030-1033 (center: bounds.py:166-173, 604-614). *)
  Definition setCenter (im : image) (xc yc : num Z) : outcome :=
    match centerI (ibnd im) with
    | Err e => raise im e
    | Ok (cx, cy) =>
        done (shift im (Num (nv xc - cx) (npy xc && (npy (bxmin (ibnd im)) && npy (bdx (ibnd im)))))
                       (Num (nv yc - cy) (npy yc && (npy (bymin (ibnd im)) && npy (bdy (ibnd im))))))
    end.

  (** copy(), image.py:485-549 with default arguments and optional make_const. *)
  Definition copy (im : image) (c : bool) : res image :=
    if negb (bdef (ibnd im)) then Ok (empty_image (idt im) (iwcs im) c)
    else Image_array (iarr im) (ibnd im) (idt im) (iwcs im) c.

  (** wrap and _wrap, image.py:720-828. *)
  Inductive herm : Type := HNone | HX | HY.
  Definition hcheck (b : bnd Z) (z : Z) : option exn :=
    if z =? 0 then None
    else Some (if bstatic b then GalSimIncompatibleValuesError else RuntimeError).
  Definition wrap_array (im : image) (b : bnd Z) (h : herm) : res (arr V) :=
    let add := bop T Add (idt im) (idt im) in
    match h with
    | HNone => wrap_nonhermitian V add (vzero T) (iarr im)
                 (nv (bxmin b) - xmin_ im) (nv (bymin b) - ymin_ im) (nv (bdx b)) (nv (bdy b))
    | HX => wrap_hermitian_x V add (vzero T) (vconj T) (iarr im)
              (- xmax_ im) (ymin_ im) (- nv (xmaxI b) + 1) (nv (bymin b)) (2 * nv (xmaxI b)) (nv (bdy b))
    | HY => wrap_hermitian_y V add (vzero T) (vconj T) (iarr im)
              (xmin_ im) (- ymax_ im) (nv (bxmin b)) (- nv (ymaxI b) + 1) (nv (bdx b)) (2 * nv (ymaxI b))
    end.
  (** Object afterwards, and the returned sub-image or the exception. *)
  Definition wrap (im : image) (b : bnd Z) (h : herm) : image * res image :=
    let chk := match h with
               | HNone => None
               | HX => match hcheck (ibnd im) (xmin_ im) with Some e => Some e | None => hcheck b (nv (bxmin b)) end
               | HY => match hcheck (ibnd im) (ymin_ im) with Some e => Some e | None => hcheck b (nv (bymin b)) end
               end in
    match chk with
    | Some e => (im, Err e)
    | None =>
        match wrap_array im b h with
        | Err e => (im, Err e)
        | Ok a => let im' := with_arr im a in (im', subImage im' b)
        end
    end.

  (** transpose, flips, rotations, image.py:1200-1240. *)
  Definition boundsT (b : bnd Z) : bnd Z := BoundsI (ArgsKwDelta (bymin b) (bdy b) (bxmin b) (bdx b)).
  (** image.py:1201-1208 *)
  Definition transpose (im : image) : image := _Image (atrans (iarr im)) (boundsT (ibnd im)) (idt im) None.
  (** image.py:1211-1212 *)
  Definition flip_lr (im : image) : image := _Image (afliplr (iarr im)) (ibnd im) (idt im) None.
  (** image.py:1215-1216 *)
  Definition flip_ud (im : image) : image := _Image (aflipud (iarr im)) (ibnd im) (idt im) None.
  (** image.py:1219-1226 *)
  Definition rot_cw (im : image) : image := _Image (aflipud (atrans (iarr im))) (boundsT (ibnd im)) (idt im) None.
  (** image.py:1229-1236 *)
  Definition rot_ccw (im : image) : image := _Image (afliplr (atrans (iarr im))) (boundsT (ibnd im)) (idt im) None.
  (** image.py:1239-1240 *)
  Definition rot_180 (im : image) : image := _Image (aflipud (afliplr (iarr im))) (ibnd im) (idt im) None.

  (** A program that mutates one image. *)
  Inductive op : Type :=
  | OpSet (x y : Z) (v : V) | OpAdd (x y : Z) (v : V) | OpFill (v : V) | OpZero | OpInvert | OpReplNeg (v : V)
  | OpSetSub (b : bnd Z) (rhs : image) | OpCopyFrom (rhs : image)
  | OpIn (o : aop) (r : operand) | OpSetArray (a : arr V)
  | OpShift (dx dy : num Z) | OpResize (b : bnd Z) (w : option W) | OpWrap (b : bnd Z) (h : herm).

  Definition step (im : image) (o : op) : outcome :=
    match o with
    | OpSet x y v => setValue im x y v
    | OpAdd x y v => addValue im x y v
    | OpFill v => fill im v
    | OpZero => setZero im
    | OpInvert => invertSelf im
    | OpReplNeg v => replaceNegative im v
    | OpSetSub b rhs => setSubImage im b rhs
    | OpCopyFrom rhs => copyFrom im rhs
    | OpIn o r => inplace o im r
    | OpSetArray a => set_array im a
    | OpShift dx dy => done (shift im dx dy)
    | OpResize b w => resize im b w
    | OpWrap b h => let '(im', r) := wrap im b h in
                    (im', match r with Ok _ => None | Err e => Some e end)
    end.
  (** The user catches every exception and carries on. *)
  Definition run (im : image) (l : list op) : image := fold_left (fun im o => fst (step im o)) l im.
  Fixpoint errors (im : image) (l : list op) : list (option exn) :=
    match l with [] => [] | o :: l => snd (step im o) :: errors (fst (step im o)) l end.

  (** * Pytree: tree_flatten / tree_unflatten, image.py:1242-1292. *)
  Variables AF PH HD : Type.   (** types of the added_flux, photons and header attributes *)
  Record imgx : Type := ImgX { base : image; added_flux : option AF; photons : option PH; header : option HD }.
  Inductive child : Type :=
  | ChArr (a : arr V) | ChWcs (w : option W) | ChBounds (b : bnd Z) | ChFlux (f : AF) | ChPhot (p : PH).
  Record auxd : Type := Aux { ax_dt : D; ax_bounds : option (bnd Z); ax_const : bool; ax_header : option HD }.

  Definition opt_list {A} (o : option A) : list A := match o with Some a => [a] | None => [] end.
  Definition img_flatten (x : imgx) : res (list child * auxd) :=
    let im := base x in
    match isconst im with
    | Err e => Err e
    | Ok c =>
        let ch0 := [ChArr (iarr im); ChWcs (iwcs im)] in
        let ch1 := if bstatic (ibnd im) then ch0 else ch0 ++ [ChBounds (ibnd im)] in
        let ch2 := ch1 ++ map ChFlux (opt_list (added_flux x)) in
        let ch3 := ch2 ++ map ChPhot (opt_list (photons x)) in
        Ok (ch3, Aux (idt im) (if bstatic (ibnd im) then Some (ibnd im) else None) c (header x))
    end.
  (** The rebuilt attributes hold whatever child is found at their index; [inl] keeps the case
      "an attribute received a child of the wrong kind" visible. *)
  Record imgx' : Type := ImgX' {
    r_array : option child; r_wcs : option child; r_bounds : (option child + bnd Z)%type;
    r_dt : D; r_const : bool; r_added : option child; r_photons : option child; r_header : option HD }.
  Definition img_unflatten (ch : list child) (a : auxd) : imgx' :=
    match ax_bounds a with
    | Some b => ImgX' (nth_error ch 0) (nth_error ch 1) (inr b) (ax_dt a) (ax_const a)
                      (nth_error ch 2) (nth_error ch 3) (ax_header a)
    | None => ImgX' (nth_error ch 0) (nth_error ch 1) (inl (nth_error ch 2)) (ax_dt a) (ax_const a)
                      (nth_error ch 3) (nth_error ch 4) (ax_header a)
    end.
End Image.
