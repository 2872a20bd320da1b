(** Property C149: comparisons and hashes of angles. *)
From Coq Require Import Reals Bool List String ZArith Lra Lia.
From Verif Require Import Base Bounds_Model Bounds_Proofs FFT_Model FFT_Proofs PEq_Model PEq_Spec PEq_Proofs PEq_Props AOrd_Model AOrd_Spec AOrd_Proofs.
Import ListNotations.
Open Scope R_scope.

(** [rnd]: the rounding to the precision of JAX, as in C148. *)

(** == of angles and units is an equivalence; equal ones hash alike if JAX holds their numbers exactly. *)
Theorem C149_equality_partial : forall rnd a b c,
  aeq rnd a a = true /\ aeq rnd a b = aeq rnd b a /\ (aeq rnd a b = true -> aeq rnd b c = true -> aeq rnd a c = true) /\
  (both_exact rnd (number a) (number b) -> aeq rnd a b = true -> forall h, ahash h a = ahash h b).
Proof. intros rnd a b c. split; [apply aeq_refl|]. split; [apply aeq_sym|]. split; [apply aeq_trans|apply exact_hash]. Qed.
Print Assumptions C149_equality_partial.

(** Exactly one of <, ==, > holds and <=, >= agree with them, if JAX holds both numbers exactly, if one is a JAX scalar, or if the
    angles are not equal. *)
Theorem C149_order_partial : forall rnd x y, (forall x y, x <= y -> rnd x <= rnd y) ->
  both_exact rnd x y \/ one_jax x y \/ aeq rnd (Ang x) (Ang y) = false ->
  exists lt gt le ge, alt rnd (Ang x) (Ang y) = Ok lt /\ agt rnd (Ang x) (Ang y) = Ok gt /\ ale rnd (Ang x) (Ang y) = Ok le /\ age rnd (Ang x) (Ang y) = Ok ge /\
  fits lt (aeq rnd (Ang x) (Ang y)) gt le ge.
Proof.
  intros rnd x y M H. do 4 eexists. do 4 (split; [reflexivity|]). destruct H as [H|[H|H]]; [apply order_fits; auto|apply order_fits; auto|].
  rewrite H. exact (unequal_ordered rnd M x y H).
Qed.
Print Assumptions C149_order_partial.

(** < is a strict order among all angles, so sorting is well defined. *)
Theorem C149_strict : forall rnd a b c, (forall x y, x <= y -> rnd x <= rnd y) ->
  alt rnd a a <> Ok true /\ (alt rnd a b = Ok true -> alt rnd b c = Ok true -> alt rnd a c = Ok true).
Proof.
  intros rnd [x|x] [y|y] [z|z] M; cbn [alt]; (split; [try rewrite (lt_irrefl' rnd); discriminate|]); try discriminate.
  intros H K. injection H as H. injection K as K. rewrite (lt_trans' rnd M x y z H K). reflexivity.
Qed.
Print Assumptions C149_strict.

(** F102: == makes 32-bit arrays of Python numbers, the other comparisons and the hash do not. Two angles in Python numbers that round to the
    same number are equal and yet one is less than the other; >= is false the other way round although they are equal; <= is not
    transitive (with a JAX angle in between), and their hashes differ. *)
Theorem C149_close_refuted : forall rnd x y, (forall x, rnd (rnd x) = rnd x) -> x < y -> rnd x = rnd y ->
  aeq rnd (Ang (Py x)) (Ang (Py y)) = true /\ alt rnd (Ang (Py x)) (Ang (Py y)) = Ok true /\ ale rnd (Ang (Py y)) (Ang (Py x)) = Ok false /\
  (ale rnd (Ang (Py y)) (Ang (Jx (rnd x))) = Ok true /\ ale rnd (Ang (Jx (rnd x))) (Ang (Py x)) = Ok true) /\
  exists h, ahash h (Ang (Py x)) <> ahash h (Ang (Py y)).
Proof. exact close_angles. Qed.
Print Assumptions C149_close_refuted.

(** Two angles near 0.1 radians, a millionth of an arcsecond apart *)
Example C149_close : (forall x, rnd32 (rnd32 x) = rnd32 x) /\ / 10 < / 10 + 48 / 10000000000000 /\ rnd32 (/ 10) = rnd32 (/ 10 + 48 / 10000000000000).
Proof. split; [exact rnd32_idem|]. split; [lra|]. rewrite rnd32_tenth. unfold rnd32. do 2 f_equal. symmetry. apply floorR_unique. lra. Qed.
Example C149_monotone : (forall x y, x <= y -> rnd32 x <= rnd32 y) /\ one_jax (Py 1) (Jx 2) /\ both_exact rnd32 (Py (13421773 / 134217728)) (Py (1 / 134217728)).
Proof.
  split; [|split].
  - intros x y L. unfold rnd32. apply Rmult_le_compat_r; [lra|]. apply IZR_le. 
    destruct (Z_lt_le_dec (floorR (y * 134217728 + / 2)) (floorR (x * 134217728 + / 2))) as [K|K]; [|exact K].
    pose proof (floorR_bounds (y * 134217728 + / 2)) as B. pose proof (floorR_bounds (x * 134217728 + / 2)) as B'.
    assert (K' : (floorR (y * 134217728 + / 2) + 1 <= floorR (x * 134217728 + / 2))%Z) by lia. apply IZR_le in K'. rewrite plus_IZR in K'. lra.
  - intros [_ []].
  - split; unfold exact_num, rnd32; cbn [item]; do 2 f_equal; apply floorR_unique; lra.
Qed.
