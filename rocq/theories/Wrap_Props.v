(** Property theorem about the two block summations (C16). *)
From Coq Require Import ZArith Bool Lia.
From Verif Require Import Base Array_Model MSum Wrap_Model Wrap_Spec Wrap_Proofs.
Open Scope Z_scope.

Theorem C16_block_reductions_agree : forall (V : Type) (add : V -> V -> V) (zero : V),
  (forall a b, add a b = add b a) -> (forall a b c, add a (add b c) = add (add a b) c) ->
  (forall a, add zero a = a) ->
  forall (sim : arr V) nx ny nxw nyw,
  0 < nxw -> 0 < nyw -> 0 <= nx -> 0 <= ny -> nrow sim = ny * nyw -> ncol sim = nx * nxw ->
  aeq (block_reduce_loop V add zero sim nx ny nxw nyw) (block_reduce_index V add zero sim nxw nyw).
Proof. intros V add zero H1 H2 H3. exact (reductions_agree V add zero (fun v => v) H1 H2 H3). Qed.
Print Assumptions C16_block_reductions_agree.

(** ... and both are the plain sum over the blocks. *)
Theorem C16_block_reduction_is_block_sum : forall (V : Type) (add : V -> V -> V) (zero : V),
  (forall a b, add a b = add b a) -> (forall a b c, add a (add b c) = add (add a b) c) ->
  (forall a, add zero a = a) ->
  forall (sim : arr V) nx ny nxw nyw r b,
  elt (block_reduce_loop V add zero sim nx ny nxw nyw) r b =
  zsum add zero ny (fun k => zsum add zero nx (fun l => elt sim (k * nyw + r) (l * nxw + b))).
Proof. intros V add zero H1 H2 H3. exact (loop_val V add zero (fun v => v) H1 H2 H3). Qed.
Print Assumptions C16_block_reduction_is_block_sum.

Example C16_example :
  let a := Arr 6 9 (fun i j => 100 * i + j) in
  elt (block_reduce_loop Z Z.add 0 a 3 2 3 3) 1 2 = elt (block_reduce_index Z Z.add 0 a 3 3) 1 2 /\
  elt (block_reduce_loop Z Z.add 0 a 3 2 3 3) 1 2 = 1530 /\
  nrow a = 2 * 3 /\ ncol a = 3 * 3.
Proof. repeat split. Qed.
