(** Model of /repo/jax_galsim/core/wrap_image.py.  Pixel values form a type with an addition
    (floating point addition is idealised as associative and commutative in the theorems). *)
From Coq Require Import ZArith Bool.
From Verif Require Import Base Array_Model MSum.
Open Scope Z_scope.

Section Wrap.
  Variable V : Type.
  Variable add : V -> V -> V.
  Variable zero : V.
  Variable conj : V -> V.

  (** inner function rolling_window_i, wrap_image.py:10-15: the number of windows is the length of
      jnp.arange(n - wind + 1)[::wind]. *)
  Definition nwin (n wind : Z) : Z := (Z.max 0 (n - wind + 1) + wind - 1) / wind.

  (** _block_reduce_index, wrap_image.py:7-32, axis by axis. *)
  Definition block_reduce_index (sim : arr V) (nxwrap nywrap : Z) : arr V :=
    let ny := nwin (nrow sim) nywrap in
    let nx := nwin (ncol sim) nxwrap in
    (* y = rolling_window_i(sim, nywrap): shape (ny, nywrap, Nx) *)
    let y1 := fun k r j => elt sim (k * nywrap + r) j in
    (* moveaxis(-1, -2): shape (ny, Nx, nywrap) *)
    let y2 := fun k j r => y1 k r j in
    (* vmap(rolling_window_i, wind=nxwrap): shape (ny, nx, nxwrap, nywrap) *)
    let y3 := fun k l b r => y2 k (l * nxwrap + b) r in
    (* reshape(-1, nxwrap, nywrap) *)
    let y4 := fun m b r => y3 (m / nx) (m mod nx) b r in
    (* moveaxis(-1, -2), sum(axis=0) *)
    let y5 := fun m r b => y4 m b r in
    Arr nywrap nxwrap (fun r b => zsum add zero (ny * nx) (fun m => y5 m r b)).

  (** inner loop of _block_reduce_loop, wrap_image.py:47-51: state (xl, fim). *)
  Fixpoint loop_x (n : nat) (sim : arr V) (yl nxwrap : Z) (st : Z * (Z -> Z -> V)) : Z * (Z -> Z -> V) :=
    match n with
    | O => st
    | S n => let '(xl, fim) := st in
             loop_x n sim yl nxwrap (xl + nxwrap, fun r b => add (fim r b) (elt sim (yl + r) (xl + b)))
    end.
  (** outer loop, wrap_image.py:43-53: state (yl, fim). *)
  Fixpoint loop_y (n : nat) (sim : arr V) (nx : nat) (nxwrap nywrap : Z) (st : Z * (Z -> Z -> V)) : Z * (Z -> Z -> V) :=
    match n with
    | O => st
    | S n => let '(yl, fim) := st in
             loop_y n sim nx nxwrap nywrap (yl + nywrap, snd (loop_x nx sim yl nxwrap (0, fim)))
    end.
  (** _block_reduce_loop, wrap_image.py:35-55. *)
  Definition block_reduce_loop (sim : arr V) (nx ny nxwrap nywrap : Z) : arr V :=
    Arr nywrap nxwrap
      (snd (loop_y (Z.to_nat ny) sim (Z.to_nat nx) nxwrap nywrap (0, fun _ _ => zero))).

  (** number of blocks, wrap_image.py:61-67. *)
  Definition nblocks (n w : Z) : Z := if n mod w =? 0 then n / w else n / w + 1.

  (** wrap_nonhermitian, wrap_image.py:58-89 (integer division by zero raises). *)
  Definition wrap_nonhermitian (im : arr V) (xmin ymin nxwrap nywrap : Z) : res (arr V) :=
    if (nxwrap =? 0) || (nywrap =? 0) then Err ZeroDivErr else
    let nx := nblocks (ncol im) nxwrap in
    let ny := nblocks (nrow im) nywrap in
    let sim := apad zero im (ny * nywrap - nrow im) (nx * nxwrap - ncol im) in
    let sim := aroll sim (- ymin) (- xmin) in
    let fim := if 50 <? nx * ny then block_reduce_index sim nxwrap nywrap
               else block_reduce_loop sim nx ny nxwrap nywrap in
    dyn_update_slice im fim ymin xmin.

  (** expand_hermitian_x, wrap_image.py:92-94. *)
  Definition expand_hermitian_x (im : arr V) : arr V :=
    let part := slice im 0 (nrow im) 1 (ncol im) in
    aconcat1 (amap conj (afliplr (aflipud part))) im.
  (** contract_hermitian_x, wrap_image.py:97-99. *)
  Definition contract_hermitian_x (im : arr V) : arr V :=
    slice im 0 (nrow im) (ncol im / 2) (ncol im).
  (** wrap_hermitian_x, wrap_image.py:109-114. *)
  Definition wrap_hermitian_x (im : arr V) (im_xmin im_ymin wrap_xmin wrap_ymin wrap_nx wrap_ny : Z) : res (arr V) :=
    match wrap_nonhermitian (expand_hermitian_x im) (wrap_xmin - im_xmin) (wrap_ymin - im_ymin) wrap_nx wrap_ny with
    | Ok a => Ok (contract_hermitian_x a)
    | Err e => Err e
    end.

  (** expand_hermitian_y, wrap_image.py:117-119. *)
  Definition expand_hermitian_y (im : arr V) : arr V :=
    let part := slice im 1 (nrow im) 0 (ncol im) in
    aconcat0 (amap conj (afliplr (aflipud part))) im.
  (** contract_hermitian_y, wrap_image.py:122-124. *)
  Definition contract_hermitian_y (im : arr V) : arr V :=
    slice im (nrow im / 2) (nrow im) 0 (ncol im).
  (** wrap_hermitian_y, wrap_image.py:134-139. *)
  Definition wrap_hermitian_y (im : arr V) (im_xmin im_ymin wrap_xmin wrap_ymin wrap_nx wrap_ny : Z) : res (arr V) :=
    match wrap_nonhermitian (expand_hermitian_y im) (wrap_xmin - im_xmin) (wrap_ymin - im_ymin) wrap_nx wrap_ny with
    | Ok a => Ok (contract_hermitian_y a)
    | Err e => Err e
    end.
End Wrap.
