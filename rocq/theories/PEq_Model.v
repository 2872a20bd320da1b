(** == and hash of profiles: gsobject.py:199-203 with is_equal_with_arrays (core/utils.py:80-125), box.py:40-49, deltafunction.py:28-29,
    exponential.py:77-85, gaussian.py:92-100, moffat.py:215-225, spergel.py:365-374, sum.py:93-101, transform.py:160-182,
    convolve.py:164-182 and 405-421, position.py:116-121. Numbers are Python numbers or JAX scalars without nan. [rnd] rounds to
    the precision of the JAX scalars. Identity (self is other) is not modelled: it only saves work. InterpolatedImage: II_* (C105). *)
From Coq Require Import Reals Bool List String.
From Verif Require Import Base Bounds_Model Geo_Model GSP_Model Prof_Model.
Import ListNotations.
Open Scope R_scope.

(** A Python number or a JAX scalar *)
Inductive num : Type := Py (x : R) | Jx (x : R).
Inductive cls : Type := KGaussian | KExponential | KBox | KPixel | KDelta | KMoffat | KSpergel.
(** [ps]: the parameters of the class in the order of its params dict (Pixel: scale, flux) *)
Inductive qprof : Type :=
  | QLeaf (k : cls) (ps : list num) (g : gspR)
  | QTr (o : qprof) (J : R * R * R * R) (x y : num) (fr : num) (g : gspR) (pg : bool)
  | QSum (l : list qprof) (g : gspR) (pg : bool)
  | QConv (l : list qprof) (g : gspR) (pg : bool)
  | QDec (o : qprof) (g : gspR) (pg : bool).
Definition cls_eqb (a b : cls) : bool :=
  match a, b with
  | KGaussian, KGaussian | KExponential, KExponential | KBox, KBox | KPixel, KPixel | KDelta, KDelta | KMoffat, KMoffat
  | KSpergel, KSpergel => true
  | _, _ => false
  end.
Definition same_list {A} (f : A -> A -> bool) : list A -> list A -> bool :=
  fix go l l' := match l, l' with [], [] => true | a :: t, b :: t' => f a b && go t t' | _, _ => false end.
(** ensure_hashable: .item() of a JAX scalar *)
Definition item (a : num) : R := match a with Py x | Jx x => x end.
(** What is hashed. Python hashes numbers by value and a tuple by the hashes of its entries; GSParams by their repr (C83) *)
Inductive key : Type := HStr (s : string) | HNum (x : R) | HGsp (g : gspR) | HBool (b : bool) | HTup (l : list key).

Section PEq.
  Variable rnd : R -> R.
  (** == of two numbers and jnp.array_equal: a Python number next to a JAX scalar is rounded to its precision *)
  Definition num_eq (a b : num) : bool :=
    match a, b with Py x, Py y => Reqb x y | _, _ => Reqb (rnd (item a)) (rnd (item b)) end.
  (** _jac is an array of JAX numbers whatever was passed, transform.py:108-114 *)
  Definition jac_ (J : R * R * R * R) : list R := let '(a, b, c, d) := J in [rnd a; rnd b; rnd c; rnd d].
  Fixpoint peq (p q : qprof) {struct p} : bool :=
    match p, q with
    | QLeaf k ps g, QLeaf k' ps' g' => cls_eqb k k' && (same_list num_eq ps ps' && gspR_eqb g g')
    | QTr o J x y fr g pg, QTr o' J' x' y' fr' g' pg' =>
        peq o o' && same_list Reqb (jac_ J) (jac_ J') && (num_eq x x' && num_eq y y') && num_eq fr fr' && gspR_eqb g g' && Bool.eqb pg pg'
    | QSum l g pg, QSum l' g' pg' => same_list peq l l' && (gspR_eqb g g' && Bool.eqb pg pg')
    | QConv l g pg, QConv l' g' pg' => same_list peq l l' && gspR_eqb g g' && Bool.eqb pg pg'
    | QDec o g pg, QDec o' g' pg' => peq o o' && gspR_eqb g g' && Bool.eqb pg pg'
    | _, _ => false
    end.
  Definition leaf_name (k : cls) : string :=
    match k with
    | KGaussian => "galsim.Gaussian" | KExponential => "galsim.Exponential" | KBox | KPixel => "galsim.Box"
    | KDelta => "galsim.DeltaFunction" | KMoffat => "galsim.Moffat" | KSpergel => "galsim.Spergel"
    end%string.
  (** the parameters as hashed: a Pixel as the Box it is, a Moffat with its trunc, which is 0 *)
  Definition leaf_nums (k : cls) (ps : list R) : list R :=
    match k, ps with KPixel, [s; f] => [s; s; f] | KMoffat, [b; r; f] => [b; r; 0; f] | _, _ => ps end.
  Fixpoint hkey (p : qprof) : key :=
    match p with
    | QLeaf k ps g => HTup (HStr (leaf_name k) :: map HNum (leaf_nums k (map item ps)) ++ [HGsp g])
    | QTr o J x y fr g pg =>
        HTup [HStr "galsim.Transformation"; hkey o; HTup (map HNum (jac_ J)); HNum (item x); HNum (item y); HNum (item fr); HGsp g; HBool pg]
    | QSum l g pg => HTup [HStr "galsim.Sum"; HTup (map hkey l); HGsp g; HBool pg]
    | QConv l g pg => HTup [HStr "galsim.Convolution"; HTup (map hkey l); HBool false; HGsp g; HBool pg]
    | QDec o g pg => HTup [HStr "galsim.Deconvolution"; hkey o; HGsp g; HBool pg]
    end.
  (** hash(p), for any hash function [h] *)
  Definition hash_of (h : key -> BinNums.Z) (p : qprof) : BinNums.Z := h (hkey p).
  (** The profile as a jitted function returns it: all traced parameters are JAX arrays *)
  Definition jx (a : num) : num := Jx (rnd (item a)).
  Fixpoint traced (p : qprof) : qprof :=
    match p with
    | QLeaf k ps g => QLeaf k (map jx ps) g
    | QTr o (a, b, c, d) x y fr g pg => QTr (traced o) (rnd a, rnd b, rnd c, rnd d) (jx x) (jx y) (jx fr) g pg
    | QSum l g pg => QSum (map traced l) g pg
    | QConv l g pg => QConv (map traced l) g pg
    | QDec o g pg => QDec (traced o) g pg
    end.
End PEq.
