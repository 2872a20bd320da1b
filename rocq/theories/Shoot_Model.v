(** Model of the shooting of photons by interpolants and by interpolated images: interpolant.py:228-264 and the _shoot
    methods of its classes, interpolatedimage.py:872-935, gsobject.py:128-140, 1328-1337, transform.py:394-400.
    Simplifications: floats are exact reals; the random deviates are arguments: [us k] is what the k-th call of
    ud.generate returns, [inds] what jax.random.choice returns and [rs] the permutation of PhotonArray.convolve;
    the fluxes of Lanczos, computed from tables, are parameters. *)
From Coq Require Import ZArith Reals Bool List Arith.
From Verif Require Import Base Array_Model Bounds_Model FFT_Model Geo_Model Size_Model Interp_Model II_Model WCS_Model Photon_Model.
Import ListNotations.
Open Scope R_scope.

Section Shoot.
  (** gsparams.kvalue_accuracy, the tables _K of Lanczos, positive_flux and negative_flux of the interpolants,
      and jnp.searchsorted *)
  Variable kva : R.
  Variable LK : Z -> nat -> R.
  Variable pf nf : interpolant -> R.
  Variable search : nat -> (nat -> R) -> R -> nat.

  (** Interpolant._shoot_cdf, interpolant.py:228-239, with [n] points (10000 in the code) *)
  Definition tab_x (i : interpolant) (n k : nat) : R := linspace (- xrange kva i) (xrange kva i) n k.
  Definition tab_px (i : interpolant) (n k : nat) : R := Rabs (xval kva LK i (Rabs (tab_x i n k))).
  Definition tab_dx (i : interpolant) (n : nat) : R := tab_x i n 1 - tab_x i n 0.
  (** jnp.concatenate([[0], jnp.cumsum(f)]) at [k] *)
  Fixpoint cumsum (f : nat -> R) (k : nat) : R := match k with O => 0 | S k => cumsum f k + f k end.
  Definition tab_cum (i : interpolant) (n : nat) : nat -> R :=
    cumsum (fun k => (tab_px i n (S k) + tab_px i n k) * (1 / 2) * tab_dx i n).
  Definition tab_cdf (i : interpolant) (n k : nat) : R := tab_cum i n k / tab_cum i n (n - 1).
  (** jnp.interp(u, cdfx, x), interpolant.py:248-249 *)
  Definition shoot_pos (i : interpolant) (n : nat) (u : R) : R := interp search n u (tab_cdf i n) (tab_x i n).

  (** Interpolant._shoot, interpolant.py:241-264; Delta, Nearest, SincInterpolant, Linear: 314-319, 359-363, 438-442,
      490-494 *)
  Definition ip_shoot (i : interpolant) (n : nat) (us : nat -> list R) (p : parr) : res parr :=
    let N := INR (pN p) in
    match i with
    | Delta =>
        bind (set_x p (Scalar 0)) (fun p => bind (set_y p (Scalar 0)) (fun p => set_flux p (Scalar (1 / N))))
    | Nearest =>
        bind (set_x p (Array (map (fun u => u - 1 / 2) (us 0%nat)))) (fun p =>
        bind (set_y p (Array (map (fun u => u - 1 / 2) (us 1%nat)))) (fun p =>
        set_flux p (Scalar (1 / N))))
    | SincInt => Err GalSimError
    | Linear =>
        let two a b := map (fun t => fst t + snd t - 1) (combine a b) in
        bind (set_x p (Array (two (us 0%nat) (us 1%nat)))) (fun p =>
        bind (set_y p (Array (two (us 2%nat) (us 3%nat)))) (fun p =>
        set_flux p (Scalar (1 / N))))
    | _ =>
        bind (set_x p (Array (map (shoot_pos i n) (us 0%nat)))) (fun p =>
        bind (set_y p (Array (map (shoot_pos i n) (us 1%nat)))) (fun p =>
        let flux_per_photon := if (0 <? pN p)%nat then (pf i + nf i) ^ 2 / N else 0 in
        set_flux p (Array (map (fun t => flux_per_photon * sgn (xval kva LK i (fst t)) * sgn (xval kva LK i (snd t)))
                               (combine (px p) (py_ p))))))
    end.

  (** Entry [k] of array.ravel() and its row and column, jnp.unravel_index *)
  Definition flat_row (a : arr R) (k : nat) : Z := (Z.of_nat k / ncol a)%Z.
  Definition flat_col (a : arr R) (k : nat) : Z := (Z.of_nat k mod ncol a)%Z.
  Definition flat (a : arr R) (k : nat) : R := elt a (flat_row a k) (flat_col a k).
  Definition flat_size (a : arr R) : nat := Z.to_nat (nrow a * ncol a).
  (** The probabilities given to jax.random.choice, interpolatedimage.py:880-889 *)
  Definition ii_probs (a : arr R) : list (nat * R) :=
    map (fun k => (k, Rabs (flat a k) / asum (amap Rabs a))) (seq 0 (flat_size a)).
  (** _calculate_flux_per_photon, gsobject.py:133-139 *)
  Definition flux_per_photon (pos neg : R) : R := 1 - 2 * (neg / (pos + neg)).

  (** _InterpolatedImageImpl._shoot, interpolatedimage.py:876-935; [fs] is the fixed size of photon arrays *)
  Definition impl_shoot (fs : option nat) (n : nat) (q : iip) (inds : list nat) (us : nat -> list R) (rs : list nat)
      (p : parr) : res parr :=
    bind (pad_image q) (fun im =>
      let a := ra im in
      let '(pos, neg) := pos_neg_fluxes (pf (i_x q)) (nf (i_x q)) a in
      bind (set_x p (Array (map (fun k => IZR (flat_col a k + rx im)) inds))) (fun p =>
      bind (set_y p (Array (map (fun k => IZR (flat_row a k + ry im)) inds))) (fun p =>
      bind (set_flux p (Array (map (fun k => sgn (flat a k) * flux_per_photon pos neg * (pos + neg) / INR (pN p)) inds))) (fun p =>
      let off := ii_offset q in
      let p := set_pxy p (map (fun x => x - fst off) (px p)) (map (fun y => y - snd off) (py_ p)) in
      bind (pa_new fs (pN p)) (fun xp =>
      bind (ip_shoot (i_x q) n us xp) (fun xp =>
      bind (convolve p xp rs) (fun r => Ok (fst r)))))))).

  (** InterpolatedImage.shoot: GSObject.shoot and Transformation._shoot with _jac, no offset and _flux_scaling =
      |det| _flux_ratio, transform.py:143-149, 394-400 *)
  Definition ii_shoot (fs : option nat) (n : nat) (q : iip) (inds : list nat) (us : nat -> list R) (rs : list nat)
      (N : nat) : res parr :=
    shoot_with (fun p =>
      bind (impl_shoot fs n q inds us rs p) (fun p =>
        let J := l_jac (i_wcs q) in
        let xy := map (mapp J) (combine (px p) (py_ p)) in
        Ok (scaleFlux (set_pxy p (map fst xy) (map snd xy)) (Rabs (mdet J) * outer_flux_ratio q)))) fs N.
End Shoot.
