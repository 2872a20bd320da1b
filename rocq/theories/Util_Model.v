(** Numerical helpers: core/utils.py and utilities.py. Floats are reals; nan is modelled where equality
    is concerned. *)
From Coq Require Import ZArith Reals Bool String List.
From Verif Require Import Base Bounds_Model Array_Model MSum.
Import ListNotations.
Open Scope R_scope.

(** * bisect_for_root, core/utils.py:166-203 *)
(** The loop state is (low, flow, high, fhigh). *)
Definition bisect_step (func : R -> R) (args : R * R * R * R) : R * R * R * R :=
  let '(low, flow, high, fhigh) := args in
  let mid := (low + high) / 2 in
  let fmid := func mid in
  if Rltb (fmid * fhigh) 0 then (mid, fmid, high, fhigh) else (low, flow, mid, fmid).
(** jax.lax.fori_loop *)
Fixpoint fori {A} (n : nat) (body : A -> A) (a : A) : A :=
  match n with O => a | S n => fori n body (body a) end.
(** core/utils.py:166-199 *)
Definition bisect_for_root (func : R -> R) (low high : R) (niter : nat) : R :=
  let '(_, _, high, _) := fori niter (bisect_step func) (low, func low, high, func high) in high.

(** * is_equal_with_arrays, core/utils.py:80-125 *)
(** Python values. A number is a real or nan ([None]). [PObj] is any other object whose == is an
    equivalence and never an array; a set is a set of numbers; dict keys are strings. *)
Inductive pv : Type :=
| PNum (x : option R)
| PObj (s : string)
| PArr (shape : list nat) (data : list (option R))
| PList (l : list pv)
| PTuple (l : list pv)
| PSet (l : list R)
| PDict (l : list (string * pv)).
(** What == may give: a truth value or an array of them, whose own truth value is an error unless it
    has exactly one element. *)
Inductive eqr : Type := EBool (b : bool) | EArr (l : list bool).
Definition truth (r : eqr) : res bool :=
  match r with EBool b => Ok b | EArr [b] => Ok b | EArr _ => Err ValueError end.
Definition num_eq (a b : option R) : bool := match a, b with Some x, Some y => Reqb x y | _, _ => false end.
Fixpoint list_eqb {A} (f : A -> A -> bool) (l l' : list A) : bool :=
  match l, l' with [], [] => true | a :: t, b :: t' => f a b && list_eqb f t t' | _, _ => false end.
(** sorted() of numbers *)
Fixpoint insert (x : R) (l : list R) : list R :=
  match l with [] => [x] | y :: t => if Rltb y x then y :: insert x t else x :: l end.
Definition sorted (l : list R) : list R := fold_right insert [] l.
Fixpoint assoc {A} (k : string) (l : list (string * A)) : option A :=
  match l with [] => None | (k', v) :: t => if String.eqb k k' then Some v else assoc k t end.

Section Equality.
  (** jnp.array_equal on something that is not a number or an array (depends on the version of JAX) *)
  Variable foreign : pv -> pv -> res bool.
  (** jnp.array_equal when one side is a scalar array *)
  Definition array_equal (x y : pv) : res eqr :=
    match x, y with
    | PArr sh d, PArr sh' d' => Ok (EBool (list_eqb Nat.eqb sh sh' && list_eqb num_eq d d'))
    | PArr sh d, PNum b => Ok (EBool (list_eqb Nat.eqb sh [] && list_eqb num_eq d [b]))
    | PNum a, PArr sh d => Ok (EBool (list_eqb Nat.eqb [] sh && list_eqb num_eq [a] d))
    | _, _ => bind (foreign x y) (fun b => Ok (EBool b))
    end.
  (** x == y for a number or another object on the left *)
  Definition py_eq (x y : pv) : eqr :=
    match x, y with
    | PNum a, PNum b => EBool (num_eq a b)
    | PNum a, PArr _ d => EArr (map (num_eq a) d)
    | PObj s, PObj s' => EBool (String.eqb s s')
    | _, _ => EBool false
    end.
  Fixpoint is_equal (x y : pv) {struct x} : res eqr :=
    let all := fix all (l l' : list pv) {struct l} : res eqr :=
      match l, l' with
      | v :: t, v' :: t' =>
          bind (is_equal v v') (fun r => bind (truth r) (fun b => if b then all t t' else Ok (EBool false)))
      | _, _ => Ok (EBool true)
      end in
    match x with
    | PList l => match y with
                 | PList l' => if Nat.eqb (length l) (length l') then all l l' else Ok (EBool false)
                 | _ => Ok (EBool false)
                 end
    | PTuple l => match y with
                  | PTuple l' => if Nat.eqb (length l) (length l') then all l l' else Ok (EBool false)
                  | _ => Ok (EBool false)
                  end
    | PSet l => match y with
                | PSet l' => if Nat.eqb (length l) (length l') then Ok (EBool (list_eqb Reqb (sorted l) (sorted l')))
                             else Ok (EBool false)
                | _ => Ok (EBool false)
                end
    | PDict l =>
        match y with
        | PDict l' =>
            if Nat.eqb (length l) (length l') then
              (fix items (l : list (string * pv)) : res eqr :=
                 match l with
                 | [] => Ok (EBool true)
                 | (k, v) :: t =>
                     match assoc k l' with
                     | None => Ok (EBool false)
                     | Some v' => bind (is_equal v v') (fun r => bind (truth r) (fun b => if b then items t else Ok (EBool false)))
                     end
                 end) l
            else Ok (EBool false)
        | _ => Ok (EBool false)
        end
    | PArr sh d =>
        match sh with
        | _ :: _ => match y with
                    | PArr sh' d' => Ok (EBool (list_eqb Nat.eqb sh' sh && list_eqb num_eq d d'))
                    | _ => Ok (EBool false)
                    end
        | [] => array_equal x y
        end
    | _ => match y with PArr [] _ => array_equal x y | _ => Ok (py_eq x y) end
    end.
End Equality.

(** ensure_hashable, core/utils.py:128-163, on numbers and arrays: nan is always the same object, so
    that it is equal to itself as a key *)
Inductive hv : Type := HNum (x : option R) | HTup (l : list hv).
Fixpoint chunks {A} (k n : nat) (l : list A) : list (list A) :=
  match k with O => [] | S k => firstn n l :: chunks k n (skipn n l) end.
Fixpoint tolist (shape : list nat) (d : list (option R)) : hv :=
  match shape with
  | [] => HNum (hd None d)
  | n :: rest => HTup (map (tolist rest) (chunks n (fold_right Nat.mul 1%nat rest) d))
  end.
(** core/utils.py:147-162 *)
Definition ensure_hashable (v : pv) : option hv :=
  match v with PNum x => Some (HNum x) | PArr sh d => Some (tolist sh d) | _ => None end.

(** * horner, horner2d, utilities.py:145-213 *)
(** The coefficient argument by number of dimensions (rows with the number of columns); arguments with
    more dimensions have none of these forms. *)
Inductive coefs : Type := C0 (c : R) | C1 (l : list R) | C2 (ncol : nat) (rows : list (list R)) | CMore.
(** jnp.polyval: highest power first *)
Definition polyval (p : list R) (x : R) : R := fold_left (fun y p => y * x + p) p 0.
(** x is an array (shape and data) *)
Definition horner (x : list nat * list R) (coef : coefs) : res (list nat * list R) :=
  match coef with
  | C0 c => Ok (fst x, map (polyval (rev [c])) (snd x))
  | C1 l => Ok (fst x, map (polyval (rev l)) (snd x))
  | _ => Err GalSimValueError
  end.
(** jnp.tril of a matrix given by rows: row i keeps columns 0..i *)
Fixpoint tril_from (i : nat) (rows : list (list R)) : list (list R) :=
  match rows with [] => [] | r :: t => (firstn (S i) r ++ repeat 0 (length r - S i)) :: tril_from (S i) t end.
Definition horner2d_at (x y : R) (rows : list (list R)) (triangle : bool) : R :=
  let c := rev rows in
  let c := if triangle then tril_from 0 c else c in
  fold_left (fun res p => res * x + polyval (rev p) y) c 0.
(** utilities.py:172-213 *)
Definition horner2d (x y : list nat * list R) (c : coefs) (triangle : bool) : res (list nat * list R) :=
  if negb (list_eqb Nat.eqb (fst x) (fst y)) then Err GalSimIncompatibleValuesError
  else match c with
       | C2 ncol rows =>
           if triangle && negb (Nat.eqb (length rows) ncol) then Err GalSimIncompatibleValuesError
           else Ok (fst x, map (fun p => horner2d_at (fst p) (snd p) rows triangle) (combine (snd x) (snd y)))
       | _ => Err GalSimValueError
       end.

(** * unweighted_moments, unweighted_shape, utilities.py:110-142 *)
(** The image is its array and the position of its first pixel (image.origin). A quotient by a zero
    total flux is not followed. *)
Record moments : Type := mkMoments { mo0 : R; mox : R; moy : R; moxx : R; moyy : R; moxy : R }.
(** jnp.sum of a two-dimensional array *)
Definition asum (h w : Z) (f : Z -> Z -> R) : R := zsum Rplus 0 h (fun i => zsum Rplus 0 w (fun j => f i j)).
(** utilities.py:111-128 *)
Definition unweighted_moments (a : arr R) (imx imy : R) (origin : option (R * R)) : moments :=
  let '(ox, oy) := match origin with None => (0, 0) | Some o => o end in
  let xg := fun j => IZR j + (imx - ox) in
  let yg := fun i => IZR i + (imy - oy) in
  let sum := asum (nrow a) (ncol a) in
  let M0 := sum (fun i j => elt a i j) in
  let Mx := sum (fun i j => xg j * elt a i j) / M0 in
  let My := sum (fun i j => yg i * elt a i j) / M0 in
  let Mxx := sum (fun i j => (xg j - Mx) ^ 2 * elt a i j) / M0 in
  let Myy := sum (fun i j => (yg i - My) ^ 2 * elt a i j) / M0 in
  let Mxy := sum (fun i j => (xg j - Mx) * (yg i - My) * elt a i j) / M0 in
  mkMoments M0 Mx My Mxx Myy Mxy.
(** (rsqr, e1, e2) *)
Definition unweighted_shape (m : moments) : R * R * R :=
  let rsqr := moxx m + moyy m in (rsqr, (moxx m - moyy m) / rsqr, 2 * moxy m / rsqr).

(** g1g2_to_e1e2, utilities.py:78-94 *)
Definition g1g2_to_e1e2 (g1 g2 : R) : R * R :=
  let gsq := g1 * g1 + g2 * g2 in
  if Reqb gsq 0 then (0, 0)
  else
    let g := sqrt gsq in
    let boa := (1 - g) / (1 + g) in
    let e := (1 - boa * boa) / (1 + boa * boa) in
    (g1 * (e / g), g2 * (e / g)).

(** safe_sqrt, core/math.py:5-10 *)
Definition safe_sqrt (x : R) : R := if Rltb 0 x then sqrt x else 0.
