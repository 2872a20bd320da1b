(** Model of tree_flatten, tree_unflatten and withGSParams of profiles and of coordinate systems.
    gsobject.py:228-236, 1376-1388; box.py:159-167; moffat.py:47-130; transform.py:53-88, 141-158, 402-421; sum.py:26-91,
    242-257; convolve.py:40-162, 322-338, 362-404, 514-529; interpolatedimage.py:96-200, 343-367, 394-551; wcs.py:214-226,
    869-876, 971-976, 1090-1104, 1334-1343, 1413-1419, 1488-1512.
    Simplifications: a node's numbers are a list in the order in which JAX lists them, except that an image's array comes
    first; the operator == of GSParams is equality [geq]; numbers given in another form (half_light_radius) have
    already been converted; images have static bounds; the maxk_threshold of every gsparams given to a Moffat is at most
    0.1 (moffat.py:124-127), so that only beta can be refused. *)
From Coq Require Import Reals List Bool Arith.
From Verif Require Import Base Bounds_Model.
Import ListNotations.
Open Scope R_scope.

(** What may stand in the place of a number: a Python number, a JAX array (its entries), any other object *)
Inductive leaf : Type := PyNum (r : R) | JArr (l : list R) | Other.

(** Classes of profiles without components; the parameters in the order of the sorted names *)
Inductive kind : Type :=
| KGaussian (* flux, sigma *) | KExponential (* flux, scale_radius *) | KDelta (* flux *) | KBox (* flux, height, width *)
| KPixel (* scale, flux *) | KMoffat (* beta, flux, scale_radius *) | KSpergel (* flux, nu, scale_radius *).
Definition arity (k : kind) : nat :=
  match k with KDelta => 1 | KGaussian | KExponential | KPixel => 2 | KBox | KMoffat | KSpergel => 3 end%nat.

(** The check of beta in Moffat.__init__, moffat.py:67-78 *)
Definition check_beta (b : leaf) : res unit :=
  match b with
  | PyNum r => if Rltb (11 / 10) r then Ok tt else Err ValueError
  | JArr l => if forallb (fun r => Rltb (11 / 10) r) l then Ok tt else Err RuntimeError
  | Other => Err TypeError
  end.
Definition Rsum (l : list R) : R := fold_right Rplus 0 l.
(** The check of the image in _InterpolatedImageImpl.__init__, interpolatedimage.py:515-522, image.py:368-374 *)
Definition check_image (chk : bool) (a : leaf) : res unit :=
  if chk then
    match a with
    | PyNum _ => Err AttributeError
    | JArr l => if Reqb (Rsum l) 0 then Err RuntimeError else Ok tt
    | Other => Err TypeError
    end
  else Ok tt.

Section Tree.
  Context {G : Type}.
  Variable geq : G -> G -> bool.

  (** _InterpolatedImageImpl: array, other numbers, whether the constructor looks at the array (calculate_stepk or
      calculate_maxk or flux is not None), gsparams *)
  Record impl : Type := Impl { pi_img : leaf; pi_ps : list leaf; pi_chk : bool; pi_gs : G }.
  (** Objects. [Trans]: _original, the numbers of _params, _gsparams, _propagate_gsparams; [Conv]: _params["obj_list"]
      and _obj_list; [Interp]: an InterpolatedImage with the numbers of _jax_children and _obj *)
  Inductive obj : Type :=
  | Elem (k : kind) (ps : list leaf) (g : G)
  | Trans (o : obj) (ps : list leaf) (g : G) (pg : bool)
  | Sum (l : list obj) (g : G) (pg : bool)
  | Conv (stored l : list obj) (g : G) (pg : bool)
  | Deconv (o : obj) (g : G) (pg : bool)
  | Interp (img : leaf) (ps : list leaf) (im : impl) (g : G).
  Definition gs (o : obj) : G :=
    match o with Elem _ _ g | Trans _ _ g _ | Sum _ g _ | Conv _ _ g _ | Deconv _ g _ | Interp _ _ _ g => g end.

  (** Constructors of the classes without components, with every parameter given *)
  Definition elem_new (k : kind) (ps : list leaf) (g : G) : res obj :=
    if Nat.eqb (length ps) (arity k) then
      match k, ps with
      | KMoffat, beta :: _ => bind (check_beta beta) (fun _ => Ok (Elem k ps g))
      | _, _ => Ok (Elem k ps g)
      end
    else Err TypeError.
  (** _InterpolatedImageImpl.__init__, interpolatedimage.py:394-522 *)
  Definition impl_new (img : leaf) (ps : list leaf) (chk : bool) (g : G) : res impl :=
    bind (check_image chk img) (fun _ => Ok (Impl img ps chk g)).
  (** _InterpolatedImageImpl.withGSParams, interpolatedimage.py:524-537 *)
  Definition impl_with (g : G) (im : impl) : res impl :=
    if geq g (pi_gs im) then Ok im else impl_new (pi_img im) (pi_ps im) (pi_chk im) g.
  (** InterpolatedImage.__init__ with _obj, interpolatedimage.py:159-200 *)
  Definition interp_new (img : leaf) (ps : list leaf) (im : impl) (g : G) : res obj :=
    bind (impl_with g im) (fun im => Ok (Interp img ps im g)).

  Definition mapM {A B} (f : A -> res B) : list A -> res (list B) :=
    fix go l := match l with [] => Ok [] | a :: l => bind (f a) (fun b => bind (go l) (fun t => Ok (b :: t))) end.
  Definition flatM {A B} (f : A -> res (list B)) : list A -> res (list B) :=
    fix go l := match l with [] => Ok [] | a :: l => bind (f a) (fun b => bind (go l) (fun t => Ok (b ++ t))) end.
  (** withGSParams(g): gsobject.py:228-236, transform.py:141-158, sum.py:83-91, convolve.py:152-162, 394-404,
      interpolatedimage.py:356-367 *)
  Fixpoint withGS (g : G) (o : obj) : res obj :=
    if geq g (gs o) then Ok o else
    match o with
    | Elem k ps _ => elem_new k ps g
    | Trans o ps _ pg => bind (if pg then withGS g o else Ok o) (fun o => Ok (Trans o ps g pg))
    | Sum l _ pg =>
        bind (flatM (fun o => match o with
                              | Sum l' _ _ => mapM (fun o' => if pg then withGS g o' else Ok o') l'
                              | _ => bind (if pg then withGS g o else Ok o) (fun x => Ok [x])
                              end) l) (fun l => Ok (Sum l g pg))
    | Conv stored l _ pg => bind (if pg then mapM (withGS g) l else Ok l) (fun l => Ok (Conv stored l g pg))
    | Deconv o _ pg => bind (if pg then withGS g o else Ok o) (fun o => Ok (Deconv o g pg))
    | Interp img ps im _ => interp_new img ps im g
    end.

  (** Sum.__init__, sum.py:26-69, with the gsparams found *)
  Definition sum_new (l : list obj) (g : G) (pg : bool) : res obj :=
    let l := flat_map (fun o => match o with Sum l' _ _ => l' | _ => [o] end) l in
    bind (if pg then mapM (withGS g) l else Ok l) (fun l => Ok (Sum l g pg)).
  (** Convolution.__init__, convolve.py:124-140 *)
  Definition conv_new (l : list obj) (g : G) (pg : bool) : res obj :=
    bind (if pg then mapM (withGS g) l else Ok l) (fun l => Ok (Conv l l g pg)).
  (** Deconvolution.__init__, convolve.py:362-372 *)
  Definition deconv_new (o : obj) (g : G) (pg : bool) : res obj :=
    bind (if pg then withGS g o else Ok o) (fun o => Ok (Deconv o g pg)).
  (** Transformation.__init__, transform.py:53-88; [ps] the numbers after the combination of transformations *)
  Definition trans_new (o : obj) (ps : list leaf) (g : G) (pg : bool) : res obj :=
    bind (if pg then withGS g o else Ok o) (fun o =>
    Ok (match o with Trans o' _ _ _ => Trans o' ps g pg | _ => Trans o ps g pg end)).

  (** The structure (treedef) and the leaves found by jax.tree_util.tree_flatten *)
  Inductive tdef : Type :=
  | TElem (k : kind) (n : nat) (g : G)
  | TTrans (t : tdef) (n : nat) (g : G) (pg : bool)
  | TSum (l : list tdef) (g : G) (pg : bool)
  | TConv (l : list tdef) (g : G) (pg : bool)
  | TDeconv (t : tdef) (g : G) (pg : bool)
  | TInterp (n m : nat) (chk : bool) (gi g : G).
  Fixpoint structure (o : obj) : tdef :=
    match o with
    | Elem k ps g => TElem k (length ps) g
    | Trans o ps g pg => TTrans (structure o) (length ps) g pg
    | Sum l g pg => TSum (map structure l) g pg
    | Conv stored _ g pg => TConv (map structure stored) g pg
    | Deconv o g pg => TDeconv (structure o) g pg
    | Interp _ ps im g => TInterp (length ps) (length (pi_ps im)) (pi_chk im) (pi_gs im) g
    end.
  Fixpoint leaves (o : obj) : list leaf :=
    match o with
    | Elem _ ps _ => ps
    | Trans o ps _ _ => leaves o ++ ps
    | Sum l _ _ => flat_map leaves l
    | Conv stored _ _ _ => flat_map leaves stored
    | Deconv o _ _ => leaves o
    | Interp img ps im _ => img :: ps ++ pi_img im :: pi_ps im
    end.

  (** jax.tree_util.tree_unflatten: what is built and the leaves left over *)
  Definition take (n : nat) (ls : list leaf) : res (list leaf * list leaf) :=
    if (length ls <? n)%nat then Err ValueError else Ok (firstn n ls, skipn n ls).
  Definition unflattens (f : tdef -> list leaf -> res (obj * list leaf)) : list tdef -> list leaf -> res (list obj * list leaf) :=
    fix go ts ls :=
      match ts with
      | [] => Ok ([], ls)
      | t :: ts => bind (f t ls) (fun r => bind (go ts (snd r)) (fun s => Ok (fst r :: fst s, snd s)))
      end.
  Fixpoint unflatten (t : tdef) (ls : list leaf) : res (obj * list leaf) :=
    match t with
    | TElem k n g => bind (take n ls) (fun r => bind (elem_new k (fst r) g) (fun o => Ok (o, snd r)))
    | TTrans t n g pg => bind (unflatten t ls) (fun r => bind (take n (snd r)) (fun s => Ok (Trans (fst r) (fst s) g pg, snd s)))
    | TSum ts g pg => bind (unflattens unflatten ts ls) (fun r => bind (sum_new (fst r) g pg) (fun o => Ok (o, snd r)))
    | TConv ts g pg => bind (unflattens unflatten ts ls) (fun r => bind (conv_new (fst r) g pg) (fun o => Ok (o, snd r)))
    | TDeconv t g pg => bind (unflatten t ls) (fun r => bind (deconv_new (fst r) g pg) (fun o => Ok (o, snd r)))
    | TInterp n m chk gi g =>
        bind (take 1 ls) (fun a => bind (take n (snd a)) (fun b =>
        bind (take 1 (snd b)) (fun c => bind (take m (snd c)) (fun d =>
        bind (impl_new (hd Other (fst c)) (fst d) chk gi) (fun im =>
        bind (interp_new (hd Other (fst a)) (fst b) im g) (fun o => Ok (o, snd d)))))))
    end.
  (** jax.tree_util.tree_unflatten(structure, leaves) *)
  Definition tree_unflatten (t : tdef) (ls : list leaf) : res obj :=
    bind (unflatten t ls) (fun r => match snd r with [] => Ok (fst r) | _ => Err ValueError end).
  (** jax.tree_util.tree_map(f, o) *)
  Definition tree_map (f : leaf -> leaf) (o : obj) : res obj := tree_unflatten (structure o) (map f (leaves o)).
End Tree.
Arguments obj : clear implicits.
Arguments impl : clear implicits.
Arguments tdef : clear implicits.

(** * Coordinate systems: the constructors, which tree_unflatten calls *)
Inductive wkind : Type := WPixel | WShear | WJacobian | WOffset | WOffsetShear | WAffine.
Definition warity (k : wkind) : nat :=
  match k with WPixel => 1 | WShear => 2 | WJacobian => 4 | WOffset => 5 | WOffsetShear => 6 | WAffine => 8 end%nat.
Record wcs : Type := Wcs { w_kind : wkind; w_ps : list leaf }.
(** shear.g1, shear.g2 are _g.real and _g.imag: wcs.py:975-976 *)
Definition has_real (l : leaf) : res unit := match l with Other => Err AttributeError | _ => Ok tt end.
Definition wcs_new (k : wkind) (ps : list leaf) : res wcs :=
  if Nat.eqb (length ps) (warity k) then
    match k, ps with
    | (WShear | WOffsetShear), _ :: shear :: _ => bind (has_real shear) (fun _ => Ok (Wcs k ps))
    | _, _ => Ok (Wcs k ps)
    end
  else Err TypeError.
(** tree_flatten and tree_unflatten: wcs.py:214-226, 1090-1096, 1488-1494 *)
Definition wcs_flatten (w : wcs) : list leaf * wkind := (w_ps w, w_kind w).
Definition wcs_unflatten (k : wkind) (ls : list leaf) : res wcs := wcs_new k ls.
