(** Specification of noise application: the value of every pixel as a function of the generator's
    subkeys, and the observable variance. *)
From Coq Require Import ZArith Reals Bool List.
From Verif Require Import Base Bounds_Model FFT_Model Draw_Model RNG_Model RNG_Spec Noise_Model.
Import ListNotations.
Open Scope list_scope.

(** Pixel v with index i goes to f i v. *)
Definition imap (f : nat -> R -> R) (l : list R) : list R :=
  map (fun t : R * nat => f (snd t) (fst t)) (combine l (seq 0 (length l))).

(** Removing the sky again: exactly for float images; for integer images the integer part of the sky
    after truncating the value without the fractional part. *)
Definition unsky (t : ndt) (sky x : R) : R :=
  match t with
  | NF => (x - sky)%R
  | NI _ => (IZR (truncR (x - (sky - IZR (truncR sky)))) - IZR (truncR sky))%R
  end.

Section Spec.
  Context {key : Type}.
  Variable J : jrandom key.
  Notation store := (store (key := key)).

  (** Noise objects as their constructors leave them. *)
  Definition noise_ok (s : store) (n : noise) : Prop :=
    exists_dev s (nrng n) /\
    match n with
    | NGauss d sigma => (0 <= sigma)%R /\ dcls s d = KGaussian 0 sigma
    | NPois d sky => dcls s d = KPoisson 1
    | NCCD d _ _ rn => (0 <= rn)%R /\ class_ok (dcls s d) = true
    | NVarG d var => dcls s d = KGaussian 0 1 /\ nimg_ok var /\ ntype var = NF
    | NBase d | NDev d => class_ok (dcls s d) = true
    end.

  (** The noise models whose generator is used in place. *)
  Definition in_place (s : store) (n : noise) : Prop :=
    match n with NGauss _ _ | NPois _ _ | NVarG _ _ => True | NDev d => dcls s d <> KBase | _ => False end.

  (** New value of pixel i, old value v, when the generator starts at key k. *)
  Definition pixel (s : store) (n : noise) (t : ndt) (k : key) (i : nat) (v : R) : R :=
    match n with
    | NGauss _ sigma => (v + ncast t (sigma * jnormal J (sub J k i)))%R
    | NDev d => (v + ncast t (value_of J (dcls s d) (sub J k i)))%R
    | NVarG _ var => (v + ncast t (sqrt (nth i (npix var) 0) * jnormal J (sub J k i)))%R
    | NPois _ sky => unsky t sky (value_of J (KPoisson (Rmax (v + sky) 0)) (sub J k i))
    | _ => v
    end.

  (** CCDNoise: the same subkey i feeds the photon noise and the read noise. *)
  Definition ccd_pixel (sky gain rn : R) (t : ndt) (k : key) (i : nat) (v : R) : R :=
    let photons := if Rlt_dec 0 gain
                   then (value_of J (KPoisson (Rmax ((v + sky) * gain) 0)) (sub J k i) / gain)%R
                   else (v + sky)%R in
    let read := if Rlt_dec 0 rn
                then ((if Rlt_dec 0 gain then rn / gain else rn) * jnormal J (sub J k i))%R
                else 0%R in
    unsky t sky (photons + read)%R.

  (** Everything that existed in s is unchanged in s'. *)
  Definition ext (s s' : store) : Prop :=
    wf s' /\ forall x, exists_dev s x ->
      exists_dev s' x /\ dref s' x = dref s x /\ dcls s' x = dcls s x /\ dkey J s' x = dkey J s x.

  (** The signal-to-noise of an image under noise of variance v. *)
  Definition snr_of (pix : list R) (v : R) : R := sqrt (fold_right Rplus 0%R (map (fun x => x ^ 2)%R pix) / v).
End Spec.
