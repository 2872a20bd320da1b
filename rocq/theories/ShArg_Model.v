(** The unnamed argument of Shear, shear.py:38-43, and what .shear and repr hand out, shear.py:195-197 and 302-303. *)
From Coq Require Import Reals Bool List String.
From Coquelicot Require Import Complex.
From Verif Require Import Base Bounds_Model Shear_Model.
Import ListNotations.
Open Scope R_scope.

(** A Python complex, a complex JAX scalar, or a real number of either kind; arrays of shears are not modelled *)
Inductive cval : Type := PyC (z : C) | JxC (z : C) | Real (x : R).
Definition value (v : cval) : C := match v with PyC z | JxC z => z | Real x => RtoC x end.
(** jnp.all(jnp.iscomplex(g)) or isinstance(g, complex): jnp.iscomplex asks for a non-zero imaginary part *)
Definition is_complex (v : cval) : bool := negb (Reqb (Im (value v)) 0) || match v with PyC _ => true | _ => false end.
(** Shear(v) *)
Definition shear_of (v : cval) : res C := mk_shear [(value v, is_complex v)] [].
(** .shear: 0j for Shear(), a JAX scalar for Shear(kw), whose branches all go through jnp, shear.py:45-155 *)
Definition shear_attr (kw : kwargs) (s : C) : cval := match kw with [] => PyC s | _ => JxC s end.
(** Shear(Shear(kw).shear) *)
Definition rebuild (kw : kwargs) : res C := bind (mk_shear [] kw) (fun s => shear_of (shear_attr kw s)).
(** eval(repr(Shear(kw))): the text shows the Python complex that ensure_hashable gives *)
Definition reread (kw : kwargs) : res C := bind (mk_shear [] kw) (fun s => shear_of (PyC s)).
