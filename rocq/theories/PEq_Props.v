(** Property C148: == and hash of profiles. *)
From Coq Require Import Reals Bool List String ZArith Lra Lia.
From Verif Require Import Base Bounds_Model Bounds_Proofs FFT_Model FFT_Proofs Geo_Model GSP_Model Prof_Model Prof_Props PEq_Model PEq_Spec PEq_Proofs.
Import ListNotations.
Open Scope R_scope.

(** [rnd] is the rounding to the precision of JAX scalars: 32 bits unless jax_enable_x64 is set. All that is used of it is that rounding
    twice is rounding once. *)

(** == never depends on the order, and a profile equals itself and what a jitted function returns for it. *)
Theorem C148_equality : forall rnd p q, (forall x, rnd (rnd x) = rnd x) ->
  peq rnd p p = true /\ peq rnd p q = peq rnd q p /\ peq rnd p (traced rnd p) = true.
Proof. intros rnd p q I. split; [apply peq_refl|]. split; [apply peq_sym|apply peq_traced; exact I]. Qed.
Print Assumptions C148_equality.

(** Profiles of Python numbers only, or of numbers that JAX holds exactly: they are equal exactly if they say the same, so == is an
    equivalence among them, and equal ones hash alike. *)
Theorem C148_hash_partial : forall rnd ok p q, (forall x, rnd (rnd x) = rnd x) -> ok = python_num \/ ok = exact_num rnd -> nums ok p -> nums ok q ->
  (peq rnd p q = true <-> says rnd p = says rnd q) /\
  (peq rnd p q = true -> forall h, hash_of rnd h p = hash_of rnd h q).
Proof.
  intros rnd ok p q I O Np Nq. assert (E : peq rnd p q = true <-> says rnd p = says rnd q).
  { destruct O as [->| ->]; [exact (peq_says rnd python_num (python_ok rnd) p q Np Nq)|exact (peq_says rnd (exact_num rnd) (exact_ok rnd) p q Np Nq)]. }
  split; [exact E|]. intros K h. apply says_hash; [exact I|]. apply E. exact K.
Qed.
Print Assumptions C148_hash_partial.

(** So profiles that come out of jitted functions can be kept in sets and dicts, apart from others. *)
Theorem C148_traced : forall rnd p q, (forall x, rnd (rnd x) = rnd x) -> peq rnd (traced rnd p) (traced rnd q) = true ->
  says rnd (traced rnd p) = says rnd (traced rnd q) /\ forall h, hash_of rnd h (traced rnd p) = hash_of rnd h (traced rnd q).
Proof.
  intros rnd p q I E. destruct (C148_hash_partial rnd _ _ _ I (or_intror eq_refl) (traced_exact rnd I p) (traced_exact rnd I q)) as [S H].
  split; [apply S; exact E|exact (H E)].
Qed.
Print Assumptions C148_traced.

(** F101: a Python number next to a JAX scalar is compared in the precision of JAX but hashed as it is. With any number that JAX does
    not hold exactly, == is not transitive and equal Gaussians have different hashes. *)
Theorem C148_mixed_refuted : forall rnd x f g, (forall x, rnd (rnd x) = rnd x) -> rnd x <> x -> let G s := QLeaf KGaussian [s; Py f] g in
  peq rnd (G (Py x)) (G (Jx (rnd x))) = true /\ peq rnd (G (Jx (rnd x))) (G (Py (rnd x))) = true /\ peq rnd (G (Py x)) (G (Py (rnd x))) = false /\
  exists h, hash_of rnd h (G (Py x)) <> hash_of rnd h (G (Jx (rnd x))).
Proof. intros rnd x f g I N. exact (mixed rnd I x f g N). Qed.
Print Assumptions C148_mixed_refuted.

(** The rounding of 32-bit floats between 1/16 and 1/8: the multiples of 2^-27 *)
Definition rnd32 (x : R) : R := IZR (floorR (x * 134217728 + / 2)) / 134217728.
Lemma rnd32_idem : forall x, rnd32 (rnd32 x) = rnd32 x.
Proof.
  intro x. unfold rnd32 at 1 3. set (n := floorR (x * 134217728 + / 2)). do 2 f_equal. unfold rnd32. fold n.
  replace (IZR n / 134217728 * 134217728 + / 2) with (IZR n + / 2) by field. apply floorR_unique. lra.
Qed.
Lemma rnd32_tenth : rnd32 (/ 10) = 13421773 / 134217728.
Proof. unfold rnd32. do 2 f_equal. apply floorR_unique. lra. Qed.
Example C148_tenth : (forall x, rnd32 (rnd32 x) = rnd32 x) /\ rnd32 (/ 10) <> / 10.
Proof. split; [exact rnd32_idem|rewrite rnd32_tenth; lra]. Qed.
(** A sum of a sheared Moffat and a Pixel, in Python numbers or in JAX scalars, that JAX holds exactly *)
Definition two (n : R -> num) : qprof :=
  QSum [QTr (QLeaf KMoffat [n (13421773 / 134217728); n (13421774 / 134217728); n (13421775 / 134217728)] g0) (2, 1, 1, 1)
            (n (13421773 / 134217728)) (n (13421774 / 134217728)) (n (13421773 / 134217728)) g0 true;
        QLeaf KPixel [n (13421773 / 134217728); n (13421774 / 134217728)] g0] g0 false.
Example C148_witness : nums (exact_num rnd32) (two Py) /\ nums (exact_num rnd32) (two Jx) /\ nums python_num (two Py) /\
  peq rnd32 (two Py) (two Jx) = true /\ two Py <> two Jx.
Proof.
  assert (N : forall k, exact_num rnd32 (Py (IZR k / 134217728)) /\ exact_num rnd32 (Jx (IZR k / 134217728))).
  { intro k. unfold exact_num. cbn [item]. assert (E : rnd32 (IZR k / 134217728) = IZR k / 134217728).
    { unfold rnd32. do 2 f_equal. apply floorR_unique. lra. } split; exact E. }
  assert (A : nums (exact_num rnd32) (two Py)) by (repeat split; apply N).
  assert (B : nums (exact_num rnd32) (two Jx)) by (repeat split; apply N).
  split; [exact A|]. split; [exact B|]. split; [repeat split|]. split; [|discriminate].
  apply (C148_hash_partial rnd32 _ _ _ rnd32_idem (or_intror eq_refl) A B). reflexivity.
Qed.
