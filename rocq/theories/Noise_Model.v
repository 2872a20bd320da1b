(** Model of /repo/jax_galsim/noise.py over the generator store of RNG_Model.
    Simplifications: floats are exact reals; an image is its shape, its pixels in row-major order
    and whether its dtype is floating or a signed integer of a given width; float-to-integer
    conversion is truncation of an in-range value; outside of jit (equinox.error_if raises). A
    jax.lax.cond traces its branches on pytree copies of its operands, and what it returns is a
    pytree copy too: deviates going through one are [tree_copy]s, so key updates made inside are
    dropped. *)
From Coq Require Import ZArith Reals Bool List.
From Verif Require Import Base Bounds_Model FFT_Model Draw_Model RNG_Model.
Import ListNotations.
Open Scope list_scope.

Inductive ndt : Type := NF | NI (width : Z).
Definition truncR (x : R) : Z := if Rltb x 0 then ceilR x else floorR x.
(** x.astype(dtype) *)
Definition ncast (t : ndt) (v : R) : R := match t with NF => v | NI _ => IZR (truncR v) end.
Record nimg : Type := NImg { nshape : nat * nat; npix : list R; ntype : ndt }.
Definition nimg_ok (im : nimg) : Prop := length (npix im) = fst (nshape im) * snd (nshape im).
Definition rmap2 (f : R -> R -> R) (a b : list R) : list R := map (fun t => f (fst t) (snd t)) (combine a b).
(** jnp.clip(x, 0.0) *)
Definition clip0 (x : R) : R := Rmax x 0.

(** Noise objects; [d] is the deviate held as _rng. *)
Inductive noise : Type :=
| NBase (d : nat)
| NGauss (d : nat) (sigma : R)
| NPois (d : nat) (sky : R)
| NCCD (d : nat) (sky gain rn : R)
| NDev (d : nat)
| NVarG (d : nat) (var : nimg).
Definition nrng (n : noise) : nat :=
  match n with NBase d | NGauss d _ | NPois d _ | NCCD d _ _ _ | NDev d | NVarG d _ => d end.

Section Noise.
  Context {key : Type}.
  Variable J : jrandom key.
  Variable ent : nat -> Z.
  Notation store := (store (key := key)).
  Notation M := (M (key := key)).
  Notation seedarg := (seedarg (key := key)).

  (** BaseNoise.__init__, noise.py:43-50 *)
  Definition base_rng (sd : seedarg) : M nat :=
    match sd with
    | SNone => new J ent KBase SNone
    | SDev d => ret d
    | _ => raise TypeError
    end.
  (** Constructors: noise.py:135-137, 194-196, 286-290, 455-456, 510-514. *)
  Definition mk_base (sd : seedarg) : M noise := bindM (base_rng sd) (fun d => ret (NBase d)).
  Definition mk_gauss (sd : seedarg) (sigma : R) : M noise :=
    bindM (new J ent (KGaussian 0 sigma) sd) (fun d => bindM (base_rng (SDev d)) (fun d => ret (NGauss d sigma))).
  Definition mk_pois (sd : seedarg) (sky : R) : M noise :=
    bindM (new J ent (KPoisson 1) sd) (fun d => bindM (base_rng (SDev d)) (fun d => ret (NPois d sky))).
  Definition mk_ccd (sd : seedarg) (sky gain rn : R) : M noise :=
    bindM (base_rng sd) (fun d => ret (NCCD d sky gain rn)).
  Definition mk_dev (sd : seedarg) : M noise := bindM (base_rng sd) (fun d => ret (NDev d)).
  Definition mk_varg (sd : seedarg) (var : nimg) : M noise :=
    bindM (new J ent (KGaussian 0 1) sd) (fun d => bindM (base_rng (SDev d)) (fun d =>
      ret (NVarG d (NImg (nshape var) (npix var) NF)))).

  (** getVariance: noise.py:57-62, 149-150, 244-245, 376-386, 463-464, 549-550 *)
  Definition getVariance (n : noise) : res R :=
    match n with
    | NBase _ => Err NotImplementedErr
    | NGauss _ sigma => Ok (sigma ^ 2)%R
    | NPois _ sky => Ok sky
    | NCCD _ sky gain rn => Ok (if Rltb 0 gain then sky / gain + (rn / gain) ^ 2 else rn ^ 2)%R
    | NDev _ | NVarG _ _ => Err GalSimError
    end.

  (** withScaledVariance: noise.py:71-78, 155-156, 250-251, 400-406, 469-470, 557-562 *)
  Definition withScaledVariance (n : noise) (r : R) : M noise :=
    match n with
    | NBase _ => raise NotImplementedErr
    | NGauss d sigma => mk_gauss (SDev d) (sigma * sqrt r)%R
    | NPois d sky => mk_pois (SDev d) (sky * r)%R
    | NCCD d sky gain rn => mk_ccd (SDev d) (sky * r)%R gain (rn * sqrt r)%R
    | NDev _ | NVarG _ _ => raise GalSimError
    end.
  (** __mul__, __div__: noise.py:80-97 *)
  Definition noise_mul (n : noise) (r : R) : M noise := withScaledVariance n r.
  Definition noise_div (n : noise) (r : R) : M noise := withScaledVariance n (1 / r)%R.

  (** tree_flatten and tree_unflatten: noise.py:117-129, 176-188, 268-280, 432-449, 492-504, 573-585;
      DeviateNoise inherits a keyword its constructor does not have. *)
  Definition tree_noise (n : noise) : M noise :=
    match n with
    | NBase d => bindM (tree_copy J ent d) (fun d => mk_base (SDev d))
    | NGauss d sigma => bindM (tree_copy J ent d) (fun d => mk_gauss (SDev d) sigma)
    | NPois d sky => bindM (tree_copy J ent d) (fun d => mk_pois (SDev d) sky)
    | NCCD d sky gain rn => bindM (tree_copy J ent d) (fun d => mk_ccd (SDev d) sky gain rn)
    | NDev d => bindM (tree_copy J ent d) (fun _ => raise TypeError)
    | NVarG d var => bindM (tree_copy J ent d) (fun d => mk_varg (SDev d) var)
    end.

  (** withVariance: noise.py:64-69, 152-153, 247-248, 388-398 (through a lax.cond), 466-467, 552-555 *)
  Definition withVariance (n : noise) (v : R) : M noise :=
    match n with
    | NBase _ => raise NotImplementedErr
    | NGauss d sigma => mk_gauss (SDev d) (sqrt v)
    | NPois d sky => mk_pois (SDev d) v
    | NCCD d sky gain rn =>
        let current_var := if Rltb 0 gain then (sky / gain + (rn / gain) ^ 2)%R else (rn ^ 2)%R in
        if Rltb 0 current_var
        then bindM (withScaledVariance n (v / current_var)%R) tree_noise
        else bindM (mk_ccd (SDev d) v 1 0) tree_noise
    | NDev _ | NVarG _ _ => raise GalSimError
    end.

  (** copy(rng): noise.py:158-165, 253-260, 408-415, 472-484, 540-547 *)
  Definition noise_copy (n : noise) (rng : option nat) : M noise :=
    let d' := match rng with Some u => u | None => nrng n end in
    match n with
    | NBase _ => raise AttributeError
    | NGauss d sigma => mk_gauss (SDev d') sigma
    | NPois d sky => mk_pois (SDev d') sky
    | NCCD d sky gain rn => mk_ccd (SDev d') sky gain rn
    | NDev d =>
        match rng with
        | None => mk_dev (SDev d)
        | Some u => bindM (duplicate J d) (fun e => bindM (reset J ent e (SDev u)) (fun _ => mk_dev (SDev e)))
        end
    | NVarG d var => mk_varg (SDev d') var
    end.

  (** The sky handling of PoissonNoise and CCDNoise: noise.py:211-220, 226-242 = 326-335, 358-374. *)
  Definition frac_sky (t : ndt) (sky : R) : R := (sky - ncast t sky)%R.
  Definition add_sky (sky : R) (na : list R) : list R :=
    if Reqb sky 0 then na else map (fun v => v + sky)%R na.
  Definition sub_sky (t : ndt) (sky : R) (na : list R) : list R :=
    let frac := frac_sky t sky in
    let ints := (sky - frac)%R in
    let na : list R := if Reqb frac 0 then na else map (fun v => v - frac)%R na in
    let na : list R := map (ncast t) na in
    let na : list R := if Reqb ints 0 then na else map (fun v => v - ints)%R na in
    map (ncast t) na.

  (** PoissonNoise._applyTo, noise.py:203-242 *)
  Definition apply_pois (d : nat) (sky : R) (im : nimg) : M nimg :=
    let na := map clip0 (add_sky sky (npix im)) in
    bindM (gen_expectation J d na) (fun na => ret (NImg (nshape im) (sub_sky (ntype im) sky na) (ntype im))).

  (** CCDNoise._pd and _gd, noise.py:292-305 *)
  Definition ccd_pd (d : nat) : M nat := new J ent (KPoisson 1) (SDev d).
  Definition ccd_gd (d : nat) (gain rn : R) : M nat :=
    bindM (tree_copy J ent d) (fun d' =>
    bindM (if Rltb 0 gain then new J ent (KGaussian 0 (rn / gain)) (SDev d')
           else new J ent (KGaussian 0 rn) (SDev d')) (fun g => tree_copy J ent g)).
  (** CCDNoise._applyTo, noise.py:322-374 *)
  Definition apply_ccd (d : nat) (sky gain rn : R) (im : nimg) : M nimg :=
    let na := add_sky sky (npix im) in
    bindM (ccd_pd d) (fun pd =>
    bindM (bindM (tree_copy J ent pd) (fun pd' =>
             if Rltb 0 gain
             then bindM (gen_expectation J pd' (map (fun v => clip0 (v * gain)) na))
                        (fun l => ret (map (fun v => v / gain)%R l))
             else ret na)) (fun na =>
    bindM (ccd_gd d gain rn) (fun gd =>
    bindM (bindM (tree_copy J ent gd) (fun gd' =>
             if Rltb 0 rn
             then bindM (generate J gd' (length na)) (fun l => ret (rmap2 Rplus na l))
             else ret na)) (fun na =>
    ret (NImg (nshape im) (sub_sky (ntype im) sky na) (ntype im)))))).

  (** applyTo: noise.py:99-106, 144-147, 203-242, 322-374, 458-461, 523-538 *)
  Definition applyTo (n : noise) (im : nimg) : M nimg :=
    match n with
    | NBase _ => raise NotImplementedErr
    | NGauss d _ | NDev d =>
        bindM (generate J d (length (npix im))) (fun l =>
          ret (NImg (nshape im) (rmap2 Rplus (npix im) (map (ncast (ntype im)) l)) (ntype im)))
    | NPois d sky => apply_pois d sky im
    | NCCD d sky gain rn => apply_ccd d sky gain rn im
    | NVarG d var =>
        if Nat.eqb (fst (nshape im)) (fst (nshape var)) && Nat.eqb (snd (nshape im)) (snd (nshape var))
        then bindM (gen_variance J d (npix var)) (fun l =>
          ret (NImg (nshape im) (rmap2 Rplus (npix im) (map (ncast (ntype im)) l)) (ntype im)))
        else raise GalSimIncompatibleValuesError
    end.

  (** jnp.sum(self.array**2, dtype=float): the square is taken in the image dtype, noise.py:22 *)
  Definition swrap (w z : Z) : Z := ((z + 2 ^ (w - 1)) mod 2 ^ w - 2 ^ (w - 1))%Z.
  Definition nsq (t : ndt) (x : R) : R :=
    match t with NF => (x * x)%R | NI w => IZR (swrap w (truncR x * truncR x)) end.
  Definition sumsq (im : nimg) : R := fold_right Rplus 0%R (map (nsq (ntype im)) (npix im)).
  (** image *= float, image.py:1539-1555 (rounds for integer dtypes) *)
  Definition scale_img (im : nimg) (f : R) : nimg :=
    NImg (nshape im)
         (map (fun v => match ntype im with NF => v * f | NI _ => IZR (roundR (v * f)) end)%R (npix im))
         (ntype im).

  (** addNoiseSNR, noise.py:19-33: the new image and the returned variance. *)
  Definition addNoiseSNR (im : nimg) (n : noise) (snr : R) (preserve_flux : bool) : M (nimg * R) :=
    match getVariance n with
    | Err e => raise e
    | Ok noise_var =>
        if preserve_flux then
          let v := (sumsq im / snr / snr)%R in
          bindM (withVariance n v) (fun n => bindM (applyTo n im) (fun im => ret (im, v)))
        else
          let sn_meas := sqrt (sumsq im / noise_var) in
          let flux := (snr / sn_meas)%R in
          bindM (applyTo n (scale_img im flux)) (fun im => ret (im, noise_var))
    end.

  (** What repr shows: the class, the generator's class, parameters and key, and the noise
      parameters (noise.py:167-171, 262-263, 417-423, 486-487, 564-568). BaseNoise has no __repr__,
      so its repr is the object's address. *)
  Inductive nrep : Type :=
  | RGauss (rng : key * dclass) (sigma : R)
  | RPois (rng : key * dclass) (sky : R)
  | RCCD (rng : key * dclass) (sky gain rn : R)
  | RDev (rng : key * dclass)
  | RVarG (rng : key * dclass) (var : nimg).
  Definition rng_rep (s : store) (d : nat) : key * dclass := (dkey J s d, dcls s d).
  Definition nrepr (s : store) (n : noise) : option nrep :=
    match n with
    | NBase _ => None
    | NGauss d sigma => Some (RGauss (rng_rep s d) sigma)
    | NPois d sky => Some (RPois (rng_rep s d) sky)
    | NCCD d sky gain rn => Some (RCCD (rng_rep s d) sky gain rn)
    | NDev d => Some (RDev (rng_rep s d))
    | NVarG d var => Some (RVarG (rng_rep s d) var)
    end.
  (** __eq__ of two distinct objects, noise.py:108-110 *)
  Definition noise_eq (s : store) (a b : noise) : Prop :=
    exists r, nrepr s a = Some r /\ nrepr s b = Some r.
End Noise.
