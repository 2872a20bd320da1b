(** Model of /repo/jax_galsim/random.py: the shared generator states ([_DeviateState]), the
    deviate classes and [permute].
    jax.random is a parameter ([jrandom]): its split, key construction and samplers are functions
    of the key and of the distribution parameters. Generator states are mutable Python objects, so
    they live in a store and a deviate holds a reference to one. The operating system entropy used
    for missing seeds is a parameter [ent], read in order.
    Simplifications: floats are exact reals; array arguments are flattened lists (the code ravels
    and reshapes); outside of jit, so equinox.error_if raises; Python literal evaluation of a
    serialized state is modelled for tuples of non-negative integers only (any other string is an
    error here, and leading zeros are accepted). *)
From Coq Require Import ZArith Reals Bool List Ascii String.
From Verif Require Import Base Bounds_Model.
Import ListNotations.
Open Scope list_scope.

(** The jax.random functions the code calls, for keys of type [key]. *)
Record jrandom (key : Type) : Type := JR {
  jsplit : key -> key * key;                 (** jrandom.split(key): (key, subkey) *)
  jkey : Z -> key;                           (** jrandom.key(seed) *)
  jkey_data : key -> list Z;                 (** jrandom.key_data *)
  jwrap : list Z -> key;                     (** wrap_key_data of a uint32 array *)
  jbits : key -> Z;                          (** jrandom.bits(dtype=uint32) *)
  juniform : key -> R;
  jnormal : key -> R;
  jbernoulli : key -> list R -> list bool;
  jpoisson : key -> R -> Z;
  jweibull : key -> R -> R -> R;             (** weibull_min(key, scale, concentration) *)
  jgamma : key -> R -> R;
  jchisquare : key -> R -> R;
  jperm : key -> nat -> list nat }.          (** index order used by jrandom.permutation *)
Arguments jsplit {key}. Arguments jkey {key}. Arguments jkey_data {key}. Arguments jwrap {key}.
Arguments jbits {key}. Arguments juniform {key}. Arguments jnormal {key}.
Arguments jbernoulli {key}. Arguments jpoisson {key}. Arguments jweibull {key}.
Arguments jgamma {key}. Arguments jchisquare {key}. Arguments jperm {key}.

(** jax.lax.scan(f, carry, xs) *)
Fixpoint scan {C X Y : Type} (f : C -> X -> C * Y) (c : C) (xs : list X) : C * list Y :=
  match xs with
  | [] => (c, [])
  | x :: t => let r := f c x in let q := scan f (fst r) t in (fst q, snd r :: snd q)
  end.

(** jax.lax.fori_loop(0, n, f, x) *)
Definition fori {A : Type} (n : Z) (f : A -> A) (x : A) : A := Nat.iter (Z.to_nat n) f x.

(** Deviate classes with their _params. *)
Inductive dclass : Type :=
| KBase
| KUniform
| KGaussian (mean sigma : R)
| KBinomial (N : nat) (p : R)
| KPoisson (mean : R)
| KWeibull (a b : R)
| KGamma (k theta : R)
| KChi2 (n : R).

(** Argument checks of the constructors, random.py:317-334, 471-487 (the other classes have none). *)
Definition class_ok (c : dclass) : bool :=
  match c with
  | KGaussian _ sigma => negb (Rltb sigma 0)
  | KPoisson mean => negb (Rltb mean 0)
  | _ => true
  end.

(** repr of a tuple of integers and its evaluation (random.py:158-160 and 128-131). *)
Definition digit (d : Z) : ascii := ascii_of_N (Z.to_N (48 + d)).
Fixpoint digits (fuel : nat) (n : Z) : string :=
  match fuel with
  | O => EmptyString
  | S f => if (n <? 10)%Z then String (digit n) EmptyString
           else (digits f (n / 10) ++ String (digit (n mod 10)) EmptyString)%string
  end.
Definition repr_int (n : Z) : string := digits (S (Z.to_nat (Z.log2 n))) n.
Fixpoint repr_items (l : list Z) : string :=
  match l with
  | [] => EmptyString
  | [n] => repr_int n
  | n :: t => (repr_int n ++ ", " ++ repr_items t)%string
  end.
Definition repr_tuple (l : list Z) : string :=
  match l with
  | [n] => ("(" ++ repr_int n ++ ",)")%string
  | _ => ("(" ++ repr_items l ++ ")")%string
  end.

Definition digit_val (c : ascii) : option Z :=
  let n := Z.of_N (N_of_ascii c) in
  if (48 <=? n)%Z && (n <=? 57)%Z then Some (n - 48)%Z else None.
(** [cur]: value of the integer being read, [acc]: items read so far, reversed. *)
Fixpoint eval_items (s : string) (cur : option Z) (acc : list Z) : option (list Z) :=
  match s with
  | EmptyString => None
  | String c t =>
      if Ascii.eqb c ")" then
        match t with
        | EmptyString => Some (rev (match cur with Some n => n :: acc | None => acc end))
        | _ => None
        end
      else if Ascii.eqb c "," then
        match cur with Some n => eval_items t None (n :: acc) | None => None end
      else if Ascii.eqb c " " then
        match cur with None => eval_items t None acc | Some _ => None end
      else match digit_val c with
           | Some d => eval_items t (Some (match cur with Some n => 10 * n + d | None => d end)%Z) acc
           | None => None
           end
  end.
Definition eval_tuple (s : string) : option (list Z) :=
  match s with
  | String c t => if Ascii.eqb c "(" then eval_items t None [] else None
  | EmptyString => None
  end.

Section RNG.
  Context {key : Type}.
  Variable J : jrandom key.
  Variable ent : nat -> Z.

  (** * The generation functions, each a function of the key *)

  (** _DeviateState.split_one, random.py:59-61 *)
  Definition split_one (k : key) : key * key := jsplit J k.

  (** The _generate_one of each class: UniformDeviate 297-300, GaussianDeviate 369-372,
      BinomialDeviate 444-449, PoissonDeviate 520-532, WeibullDeviate 614-619, GammaDeviate 682-685,
      Chi2Deviate 742-745. The carry contains the parameters for Binomial and Weibull. *)
  Definition uniform_one (k : key) (x : unit) : key * R :=
    let ks := jsplit J k in (fst ks, juniform J (snd ks)).
  Definition gaussian_one (k : key) (x : unit) : key * R :=
    let ks := jsplit J k in (fst ks, jnormal J (snd ks)).
  Definition bsum (l : list bool) : R := IZR (Z.of_nat (List.length (filter (fun b => b) l))).
  Definition binomial_one (c : key * list R) (x : unit) : (key * list R) * R :=
    let ks := jsplit J (fst c) in ((fst ks, snd c), bsum (jbernoulli J (snd ks) (snd c))).
  Definition poisson_one (k : key) (mean : R) : key * R :=
    let ks := jsplit J k in
    (fst ks, if Rltb mean (IZR (2 ^ 17)) then IZR (jpoisson J (snd ks) mean)
             else (jnormal J (snd ks) * sqrt mean + mean)%R).
  Definition weibull_one (c : key * R * R) (x : unit) : (key * R * R) * R :=
    let '(k, a, b) := c in
    let ks := jsplit J k in ((fst ks, a, b), jweibull J (snd ks) b a).
  Definition gamma_one (k : key) (kk : R) : key * R :=
    let ks := jsplit J k in (fst ks, jgamma J (snd ks) kk).
  Definition chi2_one (k : key) (n : R) : key * R :=
    let ks := jsplit J k in (fst ks, jchisquare J (snd ks) n).

  (** __call__: BaseDeviate 232-234 (a pure BaseDeviate has no _generate_one), GaussianDeviate
      365-367, BinomialDeviate 437-442, PoissonDeviate 516-518, WeibullDeviate 609-612, GammaDeviate
      678-680, Chi2Deviate 738-740. *)
  Definition call_key (c : dclass) (k : key) : res (key * R) :=
    match c with
    | KBase => Err AttributeError
    | KUniform => Ok (uniform_one k tt)
    | KGaussian mean sigma => let r := gaussian_one k tt in Ok (fst r, snd r * sigma + mean)%R
    | KBinomial N p => let r := binomial_one (k, repeat p N) tt in Ok (fst (fst r), snd r)
    | KPoisson mean => Ok (poisson_one k mean)
    | KWeibull a b => let r := weibull_one (k, a, b) tt in Ok (fst (fst (fst r)), snd r)
    | KGamma kk theta => let r := gamma_one k kk in Ok (fst r, snd r * theta)%R
    | KChi2 n => Ok (chi2_one k n)
    end.

  (** generate(array): BaseDeviate 218-220, UniformDeviate._generate 289-295, GaussianDeviate
      353-363, BinomialDeviate 421-435, PoissonDeviate 501-514, WeibullDeviate 593-607, GammaDeviate
      663-676, Chi2Deviate 723-736. Only the number of array elements matters. *)
  Definition generate_key (c : dclass) (k : key) (n : nat) : res (key * list R) :=
    match c with
    | KBase => Err AttributeError
    | KUniform => Ok (scan uniform_one k (repeat tt n))
    | KGaussian mean sigma =>
        let r := scan gaussian_one k (repeat tt n) in
        Ok (fst r, map (fun v => v * sigma + mean)%R (snd r))
    | KBinomial N p =>
        let r := scan binomial_one (k, repeat p N) (repeat tt n) in Ok (fst (fst r), snd r)
    | KPoisson mean => Ok (scan poisson_one k (repeat mean n))
    | KWeibull a b =>
        let r := scan weibull_one (k, a, b) (repeat tt n) in Ok (fst (fst (fst r)), snd r)
    | KGamma kk theta =>
        let r := scan gamma_one k (repeat kk n) in Ok (fst r, map (fun v => v * theta)%R (snd r))
    | KChi2 nn => Ok (scan chi2_one k (repeat nn n))
    end.

  (** add_generate, random.py:229-230 *)
  Definition add_generate_key (c : dclass) (k : key) (a : list R) : res (key * list R) :=
    bind (generate_key c k (List.length a))
         (fun r => Ok (fst r, map (fun t : R * R => fst t + snd t)%R (combine (snd r) a))).

  (** GaussianDeviate.generate_from_variance, random.py:374-377; other classes have none. *)
  Definition gen_variance_key (c : dclass) (k : key) (a : list R) : res (key * list R) :=
    match c with
    | KGaussian _ _ =>
        let r := scan gaussian_one k (repeat tt (List.length a)) in
        Ok (fst r, map (fun t : R * R => fst t * sqrt (snd t))%R (combine (snd r) a))
    | _ => Err AttributeError
    end.

  (** PoissonDeviate.generate_from_expectation, random.py:534-553 *)
  Definition gen_expectation_key (c : dclass) (k : key) (a : list R) : res (key * list R) :=
    match c with
    | KPoisson _ =>
        if existsb (fun m => Rltb m 0) a then Err RuntimeError else Ok (scan poisson_one k a)
    | _ => Err AttributeError
    end.

  (** discard, random.py:189-198 *)
  Definition discard_key (k : key) (n : Z) : key := fori n (fun k => fst (jsplit J k)) k.
  (** raw, random.py:207-209 *)
  Definition raw_key (k : key) : key * Z := let ks := jsplit J k in (fst ks, jbits J (snd ks)).

  (** jrandom.permutation(key, arr) for an array or list of length n *)
  Definition permutation {A : Type} (d : A) (k : key) (l : list A) : list A :=
    map (fun i => nth i l d) (jperm J k (List.length l)).

  (** * The store of generator states and deviates *)

  (** [keys]: the key attribute of every _DeviateState; [devs]: for every deviate the reference to
      its _state and its class; [nent]: entropy values consumed. *)
  Record store : Type := St { keys : list key; devs : list (nat * dclass); nent : nat }.

  Definition dref (s : store) (d : nat) : nat := fst (nth d (devs s) (O, KBase)).
  Definition dcls (s : store) (d : nat) : dclass := snd (nth d (devs s) (O, KBase)).
  Definition kget (s : store) (r : nat) : key := nth r (keys s) (jkey J 0).
  (** BaseDeviate._key, random.py:150-156 *)
  Definition dkey (s : store) (d : nat) : key := kget s (dref s d).
  Fixpoint lset {A : Type} (l : list A) (i : nat) (v : A) : list A :=
    match l, i with
    | [], _ => []
    | _ :: t, O => v :: t
    | h :: t, S i => h :: lset t i v
    end.
  Definition set_dkey (s : store) (d : nat) (k : key) : store :=
    St (lset (keys s) (dref s d) k) (devs s) (nent s).

  (** Computations on the store that may raise. *)
  Definition M (A : Type) : Type := store -> store * res A.
  Definition ret {A} (a : A) : M A := fun s => (s, Ok a).
  Definition raise {A} (e : exn) : M A := fun s => (s, Err e).
  Definition bindM {A B} (m : M A) (f : A -> M B) : M B :=
    fun s => let r := m s in match snd r with Ok a => f a (fst r) | Err e => (fst r, Err e) end.

  (** Allocation of a _DeviateState(key). *)
  Definition new_state (k : key) : M nat :=
    fun s => (St (keys s ++ [k]) (devs s) (nent s), Ok (List.length (keys s))).
  Definition new_dev (r : nat) (c : dclass) : M nat :=
    fun s => (St (keys s) (devs s ++ [(r, c)]) (nent s), Ok (List.length (devs s))).
  (** secrets.randbelow(2**31) *)
  Definition entropy : M Z := fun s => (St (keys s) (devs s) (S (nent s)), Ok (ent (nent s))).
  (** seed or secrets.randbelow(2**31) *)
  Definition seed_or_random (z : option Z) : M Z :=
    match z with
    | Some z => if (z =? 0)%Z then entropy else ret z
    | None => entropy
    end.

  (** Seed arguments as the code discriminates them. *)
  Inductive seedarg : Type :=
  | SNone
  | SInt (z : Z)                 (** int, integer array *)
  | SFloat (x : R)               (** Python float *)
  | SState (r : nat)             (** a _DeviateState *)
  | SDev (d : nat)               (** a BaseDeviate *)
  | SKey (k : key)               (** a JAX PRNG key *)
  | SStr (t : string)
  | STuple (l : list Z)
  | SOther.

  Definition wrap32 (l : list Z) : list Z := map (fun z => z mod 2 ^ 32)%Z l.

  (** The state chosen by reset(seed), random.py:116-148. *)
  Definition reset_state (sd : seedarg) : M nat :=
    match sd with
    | SState r => ret r
    | SDev d => fun s => (s, Ok (dref s d))
    | SKey k => new_state k
    | SStr t => match eval_tuple t with
                | Some l => new_state (jwrap J (wrap32 l))
                | None => raise ValueError
                end
    | STuple l => new_state (jwrap J (wrap32 l))
    | SInt z => bindM (seed_or_random (Some z)) (fun z => new_state (jkey J z))
    | SNone => bindM (seed_or_random None) (fun z => new_state (jkey J z))
    | SFloat _ | SOther => raise TypeError
    end.
  Definition set_dref (d r : nat) : M unit :=
    fun s => (St (keys s) (lset (devs s) d (r, dcls s d)) (nent s), Ok tt).
  (** reset(seed) *)
  Definition reset (d : nat) (sd : seedarg) : M unit :=
    bindM (reset_state sd) (fun r => set_dref d r).

  (** Constructor of a deviate: BaseDeviate.__init__ (random.py:80-82) resets first, then the
      subclass checks its parameters. *)
  Definition new (c : dclass) (sd : seedarg) : M nat :=
    bindM (reset_state sd) (fun r => if class_ok c then new_dev r c else raise ValueError).

  (** seed(), random.py:94-114; float seeds must be integral. *)
  Definition seed_ (d : nat) (z : option Z) : M unit :=
    bindM (seed_or_random z) (fun z s => (set_dkey s d (jkey J z), Ok tt)).
  (** random.py:95-109, 112-114 *)
  Definition seed (d : nat) (sd : seedarg) : M unit :=
    match sd with
    | SNone => seed_ d None
    | SInt z => seed_ d (Some z)
    | SFloat x => if Reqb x (IZR (Int_part x)) then seed_ d (Some (Int_part x)) else raise TypeError
    | _ => raise TypeError
    end.

  (** duplicate(), random.py:236-241 *)
  Definition duplicate (d : nat) : M nat :=
    fun s => bindM (new_state (dkey s d)) (fun r => new_dev r (dcls s d)) s.

  (** tree_unflatten after a full flatten, random.py:63-70, 260-272: the state object is rebuilt,
      so the copy is not linked; the constructor is called with the parameters. *)
  Definition tree_copy (d : nat) : M nat :=
    fun s => bindM (new_state (dkey s d)) (fun r => new (dcls s d) (SState r)) s.

  (** Running a key function on a deviate and storing the new key. *)
  Definition run_key {A} (f : dclass -> key -> res (key * A)) (d : nat) : M A :=
    fun s => match f (dcls s d) (dkey s d) with
             | Ok (k, a) => (set_dkey s d k, Ok a)
             | Err e => (s, Err e)
             end.
  Definition call (d : nat) : M R := run_key call_key d.
  Definition generate (d n : nat) : M (list R) := run_key (fun c k => generate_key c k n) d.
  (** random.py:229-230 *)
  Definition add_generate (d : nat) (a : list R) : M (list R) := run_key (fun c k => add_generate_key c k a) d.
  Definition gen_variance (d : nat) (a : list R) : M (list R) := run_key (fun c k => gen_variance_key c k a) d.
  Definition gen_expectation (d : nat) (a : list R) : M (list R) :=
    run_key (fun c k => gen_expectation_key c k a) d.
  (** random.py:189-190, 193-198, 194-196 *)
  Definition discard (d : nat) (n : Z) : M unit := run_key (fun _ k => Ok (discard_key k n, tt)) d.
  Definition raw (d : nat) : M Z := run_key (fun _ k => Ok (raw_key k)) d.
  (** clearCache, random.py:175-180 *)
  Definition clear_cache (d : nat) : M unit := ret tt.
  (** serialize, random.py:158-160 *)
  Definition serialize (d : nat) : M string := fun s => (s, Ok (repr_tuple (jkey_data J (dkey s d)))).

  (** permute(rng, *args), random.py:755-770 *)
  Definition permute {A : Type} (dflt : A) (rng : seedarg) (args : list (list A)) : M (list (list A)) :=
    bindM (new KBase rng) (fun d =>
      match args with
      | [] => raise TypeError
      | _ => fun s =>
          let arrs := map (permutation dflt (dkey s d)) args in
          bindM (discard d 1) (fun _ => ret arrs) s
      end).

  (** __eq__, random.py:246-253, given decidable equality tests on keys and classes. *)
  Variable key_eqb : key -> key -> bool.
  Variable cls_eqb : dclass -> dclass -> bool.
  Definition dev_eq (s : store) (d e : nat) : bool :=
    Nat.eqb d e || (key_eqb (dkey s d) (dkey s e) && cls_eqb (dcls s d) (dcls s e)).

  (** * Programs *)
  Inductive op : Type :=
  | ONew (c : dclass) (sd : seedarg)
  | OReset (d : nat) (sd : seedarg)
  | OSeed (d : nat) (sd : seedarg)
  | ODup (d : nat)
  | OTree (d : nat)
  | OCall (d : nat)
  | OGenerate (d n : nat)
  | OAddGenerate (d : nat) (a : list R)
  | OGenVariance (d : nat) (a : list R)
  | OGenExpectation (d : nat) (a : list R)
  | ODiscard (d : nat) (n : Z)
  | ORaw (d : nat)
  | OClear (d : nat)
  | OSerialize (d : nat).

  Inductive value : Type :=
  | VUnit | VDev (d : nat) | VReal (x : R) | VReals (l : list R) | VBits (z : Z) | VStr (t : string).

  Definition mapM {A B} (f : A -> B) (m : M A) : M B := bindM m (fun a => ret (f a)).

  Definition step (o : op) : M value :=
    match o with
    | ONew c sd => mapM VDev (new c sd)
    | OReset d sd => mapM (fun _ => VUnit) (reset d sd)
    | OSeed d sd => mapM (fun _ => VUnit) (seed d sd)
    | ODup d => mapM VDev (duplicate d)
    | OTree d => mapM VDev (tree_copy d)
    | OCall d => mapM VReal (call d)
    | OGenerate d n => mapM VReals (generate d n)
    | OAddGenerate d a => mapM VReals (add_generate d a)
    | OGenVariance d a => mapM VReals (gen_variance d a)
    | OGenExpectation d a => mapM VReals (gen_expectation d a)
    | ODiscard d n => mapM (fun _ => VUnit) (discard d n)
    | ORaw d => mapM VBits (raw d)
    | OClear d => mapM (fun _ => VUnit) (clear_cache d)
    | OSerialize d => mapM VStr (serialize d)
    end.

  (** Running a program; exceptions are caught by the caller, who goes on. *)
  Fixpoint run (p : list op) (s : store) : store * list (res value) :=
    match p with
    | [] => (s, [])
    | o :: t => let r := step o s in let q := run t (fst r) in (fst q, snd r :: snd q)
    end.
End RNG.
