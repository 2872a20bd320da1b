(** Specification of generator streams, independent of the generation functions.
    A generator with key k has the subkeys [sub k 0], [sub k 1], ...; the i-th value drawn is a
    function of the i-th subkey alone, and drawing n values moves the key to [adv k n]. *)
From Coq Require Import ZArith Reals Bool List String.
From Verif Require Import Base Bounds_Model RNG_Model.
Import ListNotations.
Open Scope list_scope.

Section Stream.
  Context {key : Type}.
  Variable J : jrandom key.

  Definition adv (k : key) (n : nat) : key := Nat.iter n (fun k => fst (jsplit J k)) k.
  Definition sub (k : key) (i : nat) : key := snd (jsplit J (adv k i)).

  (** The value a deviate of class c makes out of one subkey. *)
  Definition value_of (c : dclass) (u : key) : R :=
    match c with
    | KBase => 0%R
    | KUniform => juniform J u
    | KGaussian mean sigma => (mean + sigma * jnormal J u)%R
    | KBinomial N p => IZR (Z.of_nat (count_occ Bool.bool_dec (jbernoulli J u (repeat p N)) true))
    | KPoisson mean => if Rlt_dec mean 131072 then IZR (jpoisson J u mean)
                       else (mean + sqrt mean * jnormal J u)%R
    | KWeibull a b => jweibull J u b a
    | KGamma kk theta => (theta * jgamma J u kk)%R
    | KChi2 n => jchisquare J u n
    end.

  (** The first n values of the stream seen through class c. *)
  Definition stream (c : dclass) (k : key) (n : nat) : list R :=
    map (fun i => value_of c (sub k i)) (seq 0 n).

  (** n successive calls on one generator. *)
  Fixpoint calls (f : key -> res (key * R)) (k : key) (n : nat) : res (key * list R) :=
    match n with
    | O => Ok (k, [])
    | S n => bind (f k) (fun r => bind (calls f (fst r) n) (fun q => Ok (fst q, snd r :: snd q)))
    end.
End Stream.

(** What a drawing operation consumes, and what it returns when the generator has key k. *)
Section Draws.
  Context {key : Type}.
  Variable J : jrandom key.

  Definition target (o : op (key := key)) : option nat :=
    match o with
    | ONew _ _ => None
    | OReset d _ | OSeed d _ | ODup d | OTree d | OCall d | OGenerate d _ | OAddGenerate d _
    | OGenVariance d _ | OGenExpectation d _ | ODiscard d _ | ORaw d | OClear d | OSerialize d => Some d
    end.
  (** Operations that only draw from the generator. *)
  Definition is_draw (o : op (key := key)) : bool :=
    match o with
    | OCall _ | OGenerate _ _ | OAddGenerate _ _ | OGenVariance _ _ | OGenExpectation _ _
    | ODiscard _ _ | ORaw _ | OClear _ | OSerialize _ => true
    | _ => false
    end.
  Definition is_base (c : dclass) : bool := match c with KBase => true | _ => false end.

  Definition cost (c : dclass) (o : op (key := key)) : nat :=
    match o with
    | OCall _ => if is_base c then 0 else 1
    | OGenerate _ n => if is_base c then 0 else n
    | OAddGenerate _ a => if is_base c then 0 else List.length a
    | OGenVariance _ a => match c with KGaussian _ _ => List.length a | _ => 0 end
    | OGenExpectation _ a =>
        match c with
        | KPoisson _ => if existsb (fun m => Rltb m 0) a then 0 else List.length a
        | _ => 0
        end
    | ODiscard _ n => Z.to_nat n
    | ORaw _ => 1
    | _ => 0
    end.

  Definition outcome (c : dclass) (k : key) (o : op (key := key)) : res value :=
    match o with
    | OCall _ => if is_base c then Err AttributeError else Ok (VReal (value_of J c (sub J k 0)))
    | OGenerate _ n => if is_base c then Err AttributeError else Ok (VReals (stream J c k n))
    | OAddGenerate _ a =>
        if is_base c then Err AttributeError
        else Ok (VReals (map (fun t : R * R => fst t + snd t)%R
                             (combine (stream J c k (List.length a)) a)))
    | OGenVariance _ a =>
        match c with
        | KGaussian _ _ =>
            Ok (VReals (map (fun t : R * nat => sqrt (fst t) * jnormal J (sub J k (snd t)))%R
                            (combine a (seq 0 (List.length a)))))
        | _ => Err AttributeError
        end
    | OGenExpectation _ a =>
        match c with
        | KPoisson _ =>
            if existsb (fun m => Rltb m 0) a then Err RuntimeError
            else Ok (VReals (map (fun t : R * nat => value_of J (KPoisson (fst t)) (sub J k (snd t)))
                                 (combine a (seq 0 (List.length a)))))
        | _ => Err AttributeError
        end
    | ODiscard _ _ | OClear _ => Ok VUnit
    | ORaw _ => Ok (VBits (jbits J (sub J k 0)))
    | OSerialize _ => Ok (VStr (repr_tuple (jkey_data J k)))
    | _ => Ok VUnit
    end.

  (** The same drawing operation made through deviate d. *)
  Definition retarget (d : nat) (o : op (key := key)) : op (key := key) :=
    match o with
    | OCall _ => OCall d | OGenerate _ n => OGenerate d n | OAddGenerate _ a => OAddGenerate d a
    | OGenVariance _ a => OGenVariance d a | OGenExpectation _ a => OGenExpectation d a
    | ODiscard _ n => ODiscard d n | ORaw _ => ORaw d | OClear _ => OClear d
    | OSerialize _ => OSerialize d | o => o
    end.

  (** Which deviates share a stream, read off the operations of a program and their results only:
      building or resetting a deviate from another one links the two; every other way of building
      or resetting one gives it a stream of its own. *)
  Definition follow (R : nat -> nat -> Prop) (d c : nat) : nat -> nat -> Prop :=
    fun x y => R (if Nat.eqb x d then c else x) (if Nat.eqb y d then c else y).
  Definition alone (R : nat -> nat -> Prop) (d : nat) : nat -> nat -> Prop :=
    fun x y => if Nat.eqb x d || Nat.eqb y d then x = d /\ y = d else R x y.
  Definition relink (R : nat -> nat -> Prop) (d : nat) (sd : seedarg (key := key)) : nat -> nat -> Prop :=
    match sd with SDev c => follow R d c | _ => alone R d end.
  Definition link_step (R : nat -> nat -> Prop) (e : op (key := key) * res value) : nat -> nat -> Prop :=
    match e with
    | (ONew _ sd, Ok (VDev d)) => relink R d sd
    | (OReset d sd, Ok _) => relink R d sd
    | (ODup _, Ok (VDev d)) | (OTree _, Ok (VDev d)) => alone R d
    | _ => R
    end.
  Definition linked (tr : list (op * res value)) : nat -> nat -> Prop :=
    fold_left link_step tr (fun _ _ => False).

  (** Programs a user can write: operations mention deviates that exist. *)
  Definition seed_ok (n : nat) (sd : seedarg (key := key)) : Prop :=
    match sd with SDev d => d < n | SState _ => False | _ => True end.
  Definition op_ok (n : nat) (o : op (key := key)) : Prop :=
    match o with
    | ONew _ sd => seed_ok n sd
    | OReset d sd | OSeed d sd => d < n /\ seed_ok n sd
    | _ => match target o with Some d => d < n | None => True end
    end.
End Draws.

Section Programs.
  Context {key : Type}.
  Variable J : jrandom key.
  Variable ent : nat -> Z.
  Definition empty : store (key := key) := St [] [] 0.
  Fixpoint prog_ok (s : store) (p : list (op (key := key))) : Prop :=
    match p with
    | [] => True
    | o :: t => op_ok (List.length (devs s)) o /\ prog_ok (fst (step J ent o s)) t
    end.
  (** Deviate d exists. *)
  Definition exists_dev (s : store (key := key)) (d : nat) : Prop := d < List.length (devs s).
  Definition wf (s : store (key := key)) : Prop :=
    Forall (fun e : nat * dclass => fst e < List.length (keys s)) (devs s).
End Programs.
