(** GSObject.kValue and xValue at an array of positions (gsobject.py:205-225 with parse_pos_args, utilities.py:14-76: two
    arrays kx, ky of one length go into one PositionD). Arrays are one-dimensional, kx and ky of the same length. The leaf
    classes with formulas in kpos.x and kpos.y (gaussian.py:134-136, exponential.py:134-136, box.py:89-92, spergel.py:420-422,
    moffat.py:366-392, deltafunction.py:63-66) compute entry by entry, and so does InterpolatedImage, which flattens the
    arrays and gives the result their shape (interpolatedimage.py:754-781, 1014-1047). *)
From Coq Require Import Reals Bool List Arith.
From Coquelicot Require Import Complex.
From Verif Require Import Base Bounds_Model Geo_Model GSP_Model Prof_Model.
Import ListNotations.

(** A JAX value without an axis or with one. *)
Inductive nd (A : Type) : Type := Sc (a : A) | Ar (l : list A).
Arguments Sc {A} a.
Arguments Ar {A} l.

(** A function applied to every entry, e.g. jnp.where and jnp.abs in convolve.py:481-485 *)
Definition nd_map {A B} (f : A -> B) (x : nd A) : nd B :=
  match x with Sc a => Sc (f a) | Ar l => Ar (map f l) end.

(** NumPy's broadcasting of a binary operation over at most one axis, as in the product of transform.py:355 *)
Definition nd_map2 {A B C} (f : A -> B -> C) (x : nd A) (y : nd B) : res (nd C) :=
  match x, y with
  | Sc a, Sc b => Ok (Sc (f a b))
  | Sc a, Ar m => Ok (Ar (map (f a) m))
  | Ar l, Sc b => Ok (Ar (map (fun a => f a b) l))
  | Ar l, Ar m =>
      if Nat.eqb (length l) (length m) then Ok (Ar (map (fun ab => f (fst ab) (snd ab)) (List.combine l m)))
      else match l, m with
           | [a], _ => Ok (Ar (map (f a) m))
           | _, [b] => Ok (Ar (map (fun a => f a b) l))
           | _, _ => Err TypeError
           end
  end.

(** jnp.array of a list of values: scalars make one axis, arrays of one length make two, other lists raise (sum.py:156 and
    160, convolve.py:298) *)
Inductive stack (A : Type) : Type := Flat (l : list A) | Rows (l : list (list A)).
Arguments Flat {A} l.
Arguments Rows {A} l.
Fixpoint scalars {A} (l : list (nd A)) : option (list A) :=
  match l with
  | [] => Some []
  | Sc a :: t => match scalars t with Some m => Some (a :: m) | None => None end
  | Ar _ :: _ => None
  end.
Fixpoint rows {A} (n : nat) (l : list (nd A)) : option (list (list A)) :=
  match l with
  | [] => Some []
  | Ar a :: t => if Nat.eqb (length a) n then match rows n t with Some m => Some (a :: m) | None => None end else None
  | Sc _ :: _ => None
  end.
(** sum.py:156 and 160, convolve.py:298 *)
Definition jnp_array {A} (l : list (nd A)) : res (stack A) :=
  match l with
  | Ar a :: _ => match rows (length a) l with Some m => Ok (Rows m) | None => Err ValueError end
  | _ => match scalars l with Some m => Ok (Flat m) | None => Err ValueError end
  end.

(** jnp.sum(axis=0) with the addition [add] and its neutral element, sum.py:157 and 161 *)
Fixpoint add_rows {A} (add : A -> A -> A) (r : list (list A)) : list A :=
  match r with
  | [] => []
  | [a] => a
  | a :: t => map (fun ab => add (fst ab) (snd ab)) (List.combine a (add_rows add t))
  end.
(** sum.py:157 and 161 *)
Definition sum_axis0 {A} (add : A -> A -> A) (zero : A) (s : stack A) : nd A :=
  match s with
  | Flat l => Sc (fold_right add zero l)
  | Rows r => Ar (add_rows add r)
  end.
(** jnp.prod without an axis: the product of all entries, convolve.py:298 *)
Definition prod_all (s : stack C) : nd C :=
  match s with
  | Flat l => Sc (prodC l)
  | Rows r => Sc (prodC (map prodC r))
  end.

(** The list of the results, or the first exception: the list comprehensions of sum.py:156 and 160, convolve.py:295-297 *)
Fixpoint seqres {A} (l : list (res A)) : res (list A) :=
  match l with
  | [] => Ok []
  | a :: t => bind a (fun x => bind (seqres t) (fun y => Ok (x :: y)))
  end.

(** gsobject.py:217-219, transform.py:353-355 (_fwdT and _kfactor work on the arrays), sum.py:159-161, convolve.py:294-298
    and 476-485 *)
Fixpoint kValues (p : prof) (ks : list vec) : res (nd C) :=
  match p with
  | PLeaf _ fam fl g => Ok (Ar (map (lf_k (fam fl g)) ks))
  | PTr o J off fr _ _ =>
      bind (kValues o (map (mapp (mT J)) ks)) (fun v => nd_map2 Cmult v (Ar (map (kfactor J off fr) ks)))
  | PSum l _ _ =>
      bind (seqres (map (fun o => kValues o ks) l)) (fun vs => bind (jnp_array vs) (fun s => Ok (sum_axis0 Cplus (RtoC 0) s)))
  | PConv l _ _ =>
      bind (seqres (map (fun o => kValues o ks) l)) (fun vs => bind (jnp_array vs) (fun s => Ok (prod_all s)))
  | PDec o g _ =>
      let min_acc := (flux o * g_kacc g)%R in
      bind (kValues o ks) (fun v =>
        Ok (nd_map (fun kval => if Rltb (Cmod kval) min_acc then RtoC (1 / min_acc) else Cdiv (RtoC 1) kval) v))
  end.

(** gsobject.py:206-208, transform.py:348-351, sum.py:155-157, convolve.py:291-292. [delta p] says that the object p is a
    DeltaFunction, whose jax.lax.cond refuses a condition with an axis (deltafunction.py:56-61). *)
Fixpoint xValues (delta : prof -> bool) (p : prof) (xs : list vec) : res (nd R) :=
  match p with
  | PLeaf _ fam fl g => if delta p then Err TypeError else bind (seqres (map (lf_x (fam fl g)) xs)) (fun v => Ok (Ar v))
  | PTr o J off fr _ _ =>
      bind (xValues delta o (map (fun x => mapp (minv J) (vsub x off)) xs)) (fun v => Ok (nd_map (fun a => a * fr)%R v))
  | PSum l _ _ =>
      bind (seqres (map (fun o => xValues delta o xs) l)) (fun vs => bind (jnp_array vs) (fun s => Ok (sum_axis0 Rplus 0%R s)))
  | PConv _ _ _ | PDec _ _ _ => Err NotImplementedErr
  end.
