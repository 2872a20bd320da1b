(** Proofs about the comparisons of angles. *)
From Coq Require Import Reals Bool List String Lra ZArith.
From Verif Require Import Base Bounds_Model Bounds_Proofs PEq_Model PEq_Spec PEq_Proofs AOrd_Model AOrd_Spec.
Import ListNotations.
Open Scope R_scope.

Section AOrd.
  Variable rnd : R -> R.
  Lemma aeq_refl : forall a, aeq rnd a a = true.
  Proof. intros [x|x]; apply Reqb_refl'. Qed.
  Lemma aeq_sym : forall a b, aeq rnd a b = aeq rnd b a.
  Proof. intros [x|x] [y|y]; try reflexivity; apply Reqb_sym'. Qed.
  Lemma aeq_trans : forall a b c, aeq rnd a b = true -> aeq rnd b c = true -> aeq rnd a c = true.
  Proof. intros [x|x] [y|y] [z|z] E F; try discriminate; unfold aeq, array_equal in *; rewrite Reqb_iff in *; congruence. Qed.
  Lemma exact_hash : forall a b, both_exact rnd (number a) (number b) -> aeq rnd a b = true -> forall h, ahash h a = ahash h b.
  Proof.
    intros [x|x] [y|y] [A B] E h; try discriminate; unfold aeq, array_equal in E; rewrite Reqb_iff in E; unfold exact_num in *; cbn [number] in *;
      unfold ahash, akey; replace (item x) with (item y) by congruence; reflexivity.
  Qed.
  Lemma fits_rounded : forall x y, fits (Rltb x y) (Reqb x y) (Rltb y x) (negb (Rltb y x)) (negb (Rltb x y)).
  Proof.
    intros x y. unfold fits. destruct (Rltb_spec x y), (Reqb_spec x y), (Rltb_spec y x); cbn [negb orb]; repeat split; try reflexivity; try lra.
  Qed.
  Lemma order_fits : forall x y, both_exact rnd x y \/ one_jax x y ->
    fits (num_lt rnd x y) (array_equal rnd x y) (num_lt rnd y x) (num_le rnd x y) (num_le rnd y x).
  Proof.
    intros x y H. destruct x as [x|x], y as [y|y]; unfold num_lt, num_le, array_equal; cbn [item]; try apply fits_rounded.
    destruct H as [[A B]|H]; [|exfalso; apply H; split; exact Logic.I]. unfold exact_num in A, B. cbn [item] in A, B. rewrite A, B. apply fits_rounded.
  Qed.
  Lemma lt_rounds : (forall x y, x <= y -> rnd x <= rnd y) -> forall a b, num_lt rnd a b = true -> rnd (item a) <= rnd (item b).
  Proof.
    intros M a b H. destruct a as [x|x], b as [y|y]; unfold num_lt in H; cbn [item] in *;
      match type of H with Rltb ?u ?v = true => destruct (Rltb_spec u v); [|discriminate] end; try lra. apply M. lra.
  Qed.
  Lemma lt_below : (forall x y, x <= y -> rnd x <= rnd y) -> forall a b, rnd (item a) < rnd (item b) -> num_lt rnd a b = true.
  Proof.
    intros M a b H. destruct a as [x|x], b as [y|y]; unfold num_lt; cbn [item] in *;
      match goal with |- Rltb ?u ?v = true => destruct (Rltb_spec u v) as [|N]; [reflexivity|] end; try lra.
    apply Rnot_lt_le, M in N. lra.
  Qed.
  Lemma lt_trans' : (forall x y, x <= y -> rnd x <= rnd y) -> forall a b c, num_lt rnd a b = true -> num_lt rnd b c = true -> num_lt rnd a c = true.
  Proof.
    intros M a b c H K. pose proof (lt_rounds M a b H) as L. pose proof (lt_rounds M b c K) as L'.
    destruct (Rlt_dec (rnd (item a)) (rnd (item c))) as [Q|Q]; [apply lt_below; assumption|].
    assert (E1 : rnd (item a) = rnd (item b)) by lra. assert (E2 : rnd (item b) = rnd (item c)) by lra.
    destruct a as [x|x], b as [y|y], c as [z|z]; unfold num_lt in H, K; cbn [item] in *;
      repeat match goal with X : Rltb ?u ?v = true |- _ => destruct (Rltb_spec u v); [clear X|discriminate X] end; try lra.
    unfold num_lt. destruct (Rltb_spec x z); [reflexivity|lra].
  Qed.
  Lemma lt_irrefl' : forall a, num_lt rnd a a = false.
  Proof. intros [x|x]; unfold num_lt; cbn [item]; match goal with |- Rltb ?u ?v = _ => destruct (Rltb_spec u v); [lra|reflexivity] end. Qed.
  Lemma unequal_ordered : (forall x y, x <= y -> rnd x <= rnd y) -> forall a b, array_equal rnd a b = false ->
    fits (num_lt rnd a b) false (num_lt rnd b a) (num_le rnd a b) (num_le rnd b a).
  Proof.
    intros M a b N. assert (D : rnd (item a) <> rnd (item b)) by (intro E; unfold array_equal in N; rewrite E, Reqb_refl' in N; discriminate).
    assert (LE : forall x y, num_le rnd x y = negb (num_lt rnd y x)) by (intros [x|x] [y|y]; reflexivity). rewrite !LE.
    destruct (Rlt_dec (rnd (item a)) (rnd (item b))) as [Q|Q].
    - rewrite (lt_below M a b Q). destruct (num_lt rnd b a) eqn:K; [|unfold fits; cbn [negb orb]; repeat split; lra].
      pose proof (lt_rounds M b a K). lra.
    - rewrite (lt_below M b a) by lra. destruct (num_lt rnd a b) eqn:K; [|unfold fits; cbn [negb orb]; repeat split; lra].
      pose proof (lt_rounds M a b K). lra.
  Qed.
  Lemma close_angles : forall x y, (forall x, rnd (rnd x) = rnd x) -> x < y -> rnd x = rnd y ->
    aeq rnd (Ang (Py x)) (Ang (Py y)) = true /\ alt rnd (Ang (Py x)) (Ang (Py y)) = Ok true /\ ale rnd (Ang (Py y)) (Ang (Py x)) = Ok false /\
    (ale rnd (Ang (Py y)) (Ang (Jx (rnd x))) = Ok true /\ ale rnd (Ang (Jx (rnd x))) (Ang (Py x)) = Ok true) /\
    exists h, ahash h (Ang (Py x)) <> ahash h (Ang (Py y)).
  Proof.
    intros x y I L E. unfold aeq, alt, ale, array_equal, num_lt, num_le. cbn [item]. rewrite E, I, Reqb_refl'. destruct (Rltb_spec x y); [|lra]. destruct (Rltb_spec (rnd y) (rnd y)); [lra|]. repeat split.
    exists (fun k => match k with HTup [_; HNum s] => if Reqb s x then 0%Z else 1%Z | _ => 0%Z end). unfold ahash, akey. cbn [item].
    rewrite Reqb_refl'. destruct (Reqb_spec y x); [lra|discriminate].
  Qed.
End AOrd.
