(** Finite sums over 0 <= i < n in a commutative monoid (proof library, no code modelled here). *)
From Coq Require Import ZArith Lia ZifyBool Bool.
Open Scope Z_scope.
Ltac Zify.zify_post_hook ::= Z.div_mod_to_equations.

Section S.
  Variable V : Type.
  Variable add : V -> V -> V.
  Variable zero : V.

  Fixpoint nsum (n : nat) (f : Z -> V) : V :=
    match n with O => zero | S n => add (nsum n f) (f (Z.of_nat n)) end.
  (** sum of f i for 0 <= i < n *)
  Definition zsum (n : Z) (f : Z -> V) : V := nsum (Z.to_nat n) f.

  Hypothesis add_comm : forall a b, add a b = add b a.
  Hypothesis add_assoc : forall a b c, add a (add b c) = add (add a b) c.
  Hypothesis add_zero : forall a, add zero a = a.

  Lemma add_zero_r a : add a zero = a.
  Proof. rewrite add_comm. apply add_zero. Qed.

  Lemma nsum_ext n f g : (forall i, 0 <= i < Z.of_nat n -> f i = g i) -> nsum n f = nsum n g.
  Proof using Type. clear add_comm add_assoc add_zero.
    induction n as [|n IH]; intros H; cbn [nsum]; [reflexivity|].
    rewrite IH, (H (Z.of_nat n)) by (intros; try apply H; lia). reflexivity.
  Qed.
  Lemma zsum_ext n f g : (forall i, 0 <= i < n -> f i = g i) -> zsum n f = zsum n g.
  Proof using Type. clear add_comm add_assoc add_zero. intros H. apply nsum_ext. intros i Hi. apply H. lia. Qed.

  Lemma nsum_zero n : nsum n (fun _ => zero) = zero.
  Proof. induction n as [|n IH]; cbn [nsum]; [reflexivity|]. rewrite IH. apply add_zero. Qed.
  Lemma zsum_zero n f : (forall i, 0 <= i < n -> f i = zero) -> zsum n f = zero.
  Proof. intros H. rewrite (zsum_ext _ _ (fun _ => zero)) by assumption. apply nsum_zero. Qed.

  Lemma nsum_plus n f g : nsum n (fun i => add (f i) (g i)) = add (nsum n f) (nsum n g).
  Proof.
    induction n as [|n IH]; cbn [nsum]; [symmetry; apply add_zero|].
    rewrite IH. rewrite <- !add_assoc. f_equal. rewrite !add_assoc. f_equal. apply add_comm.
  Qed.
  Lemma zsum_plus n f g : zsum n (fun i => add (f i) (g i)) = add (zsum n f) (zsum n g).
  Proof. apply nsum_plus. Qed.

  Lemma nsum_swap n m f :
    nsum n (fun i => nsum m (fun j => f i j)) = nsum m (fun j => nsum n (fun i => f i j)).
  Proof.
    induction n as [|n IH]; cbn [nsum].
    - symmetry. apply nsum_zero.
    - rewrite IH. symmetry. apply nsum_plus.
  Qed.
  Lemma zsum_swap n m f :
    zsum n (fun i => zsum m (fun j => f i j)) = zsum m (fun j => zsum n (fun i => f i j)).
  Proof. apply nsum_swap. Qed.

  Lemma nsum_app n m f : nsum (n + m) f = add (nsum n f) (nsum m (fun i => f (Z.of_nat n + i))).
  Proof.
    induction m as [|m IH]; cbn [nsum].
    - rewrite Nat.add_0_r. symmetry. apply add_zero_r.
    - rewrite Nat.add_succ_r. cbn [nsum]. rewrite IH, <- add_assoc. do 3 f_equal. lia.
  Qed.
  Lemma zsum_app n m f : 0 <= n -> 0 <= m ->
    zsum (n + m) f = add (zsum n f) (zsum m (fun i => f (n + i))).
  Proof.
    intros Hn Hm. unfold zsum. rewrite Z2Nat.inj_add by assumption. rewrite nsum_app. f_equal.
    apply nsum_ext. intros. f_equal. lia.
  Qed.

  Lemma zsum_S n f : 0 <= n -> zsum (n + 1) f = add (zsum n f) (f n).
  Proof.
    intros Hn. unfold zsum. replace (Z.to_nat (n + 1)) with (S (Z.to_nat n)) by lia. cbn [nsum].
    rewrite Z2Nat.id by lia. reflexivity.
  Qed.

  Lemma zsum_neg n f : n <= 0 -> zsum n f = zero.
  Proof. intros H. unfold zsum. replace (Z.to_nat n) with 0%nat by lia. reflexivity. Qed.

  Lemma zsum_ind (P : Z -> V -> Prop) f :
    P 0 zero -> (forall n v, 0 <= n -> zsum n f = v -> P n v -> P (n + 1) (add v (f n))) ->
    forall n, 0 <= n -> P n (zsum n f).
  Proof.
    intros H0 HS n Hn. revert n Hn. refine (natlike_ind _ _ _).
    - exact H0.
    - intros n Hn IH. unfold Z.succ. rewrite zsum_S by assumption. apply HS; auto.
  Qed.

  Lemma zsum_1 f : zsum 1 f = f 0.
  Proof. unfold zsum. cbn. apply add_zero. Qed.

  (** only one non-zero term *)
  Lemma zsum_single n r f : 0 <= r < n ->
    zsum n (fun i => if i =? r then f i else zero) = f r.
  Proof.
    intros H. replace n with (r + (1 + (n - r - 1))) by lia.
    rewrite zsum_app, zsum_app by lia. rewrite (zsum_zero r).
    2:{ intros i Hi. destruct (Z.eqb_spec i r); [lia|reflexivity]. }
    rewrite (zsum_zero (n - r - 1)).
    2:{ intros i Hi. destruct (Z.eqb_spec (r + (1 + i)) r); [lia|reflexivity]. }
    rewrite zsum_1, add_zero_r, add_zero.
    destruct (Z.eqb_spec (r + 0) r); [|lia]. f_equal. lia.
  Qed.

  (** n blocks of width w *)
  Lemma zsum_blocks n w f : 0 <= n -> 0 <= w ->
    zsum (n * w) f = zsum n (fun k => zsum w (fun r => f (k * w + r))).
  Proof.
    intros Hn Hw. revert n Hn. refine (natlike_ind _ _ _).
    - reflexivity.
    - intros n Hn IH. unfold Z.succ. rewrite zsum_S by assumption. rewrite <- IH.
      rewrite Z.mul_add_distr_r, Z.mul_1_l. apply zsum_app; nia.
  Qed.

  (** cyclic shift of the index *)
  Lemma zsum_cyclic n q f : 0 < n -> zsum n (fun k => f ((q + k) mod n)) = zsum n f.
  Proof.
    intros Hn. pose (s := q mod n). assert (Hs : 0 <= s < n) by (apply Z.mod_pos_bound; lia).
    transitivity (zsum ((n - s) + s) (fun k => f ((q + k) mod n))); [f_equal; lia|].
    transitivity (zsum (s + (n - s)) f); [|f_equal; lia].
    rewrite !zsum_app by lia. rewrite add_comm. f_equal; apply zsum_ext; intros i Hi; f_equal.
    - rewrite <- Z.add_mod_idemp_l by lia. fold s. replace (s + (n - s + i)) with (i + 1 * n) by lia.
      rewrite Z.mod_add by lia. apply Z.mod_small. lia.
    - rewrite <- Z.add_mod_idemp_l by lia. fold s. apply Z.mod_small. lia.
  Qed.

  (** picking every w-th element starting from c (cyclically) = summing the residue class of c *)
  Lemma zsum_residue n w c f : 0 < n -> 0 < w ->
    zsum n (fun k => f ((k * w + c) mod (n * w))) =
    zsum (n * w) (fun i => if (i mod w) =? (c mod w) then f i else zero).
  Proof.
    intros Hn Hw. rewrite zsum_blocks by lia.
    pose (r := c mod w). pose (q := c / w).
    assert (Hc : c = q * w + r) by (unfold q, r; pose proof (Z.div_mod c w); lia).
    assert (Hr : 0 <= r < w) by (apply Z.mod_pos_bound; lia).
    transitivity (zsum n (fun k => f (((q + k) mod n) * w + r))).
    { apply zsum_ext. intros k Hk. f_equal. rewrite Hc.
      replace (k * w + (q * w + r)) with (w * (q + k) + r) by ring.
      rewrite (Z.mul_comm n w).
      assert (E : w * (q + k) + r = w * ((q + k) mod n) + r + ((q + k) / n) * (w * n)).
      { rewrite (Z.div_mod (q + k) n) at 1 by lia. ring. }
      rewrite E, Z.mod_add by lia. rewrite Z.mod_small; [ring|].
      pose proof (Z.mod_pos_bound (q + k) n Hn). nia. }
    transitivity (zsum n (fun k => f (k * w + r))).
    { apply (zsum_cyclic n q (fun z => f (z * w + r)) Hn). }
    apply zsum_ext. intros k Hk. fold r.
    rewrite (zsum_ext w _ (fun i => if i =? r then f (k * w + i) else zero)).
    - symmetry. apply (zsum_single w r (fun i => f (k * w + i))). lia.
    - intros i Hi. replace ((k * w + i) mod w) with i; [reflexivity|].
      rewrite Z.add_comm, Z.mod_add by lia. symmetry. apply Z.mod_small. lia.
  Qed.

  (** summing over all residues gives everything *)
  Lemma zsum_all_residues n w c f : 0 < w ->
    zsum w (fun a => zsum n (fun i => if (i mod w) =? ((c + a) mod w) then f i else zero)) = zsum n f.
  Proof.
    intros Hw. rewrite zsum_swap. apply zsum_ext. intros i Hi.
    rewrite (zsum_cyclic w c (fun z => if (i mod w) =? z then f i else zero) Hw).
    rewrite (zsum_ext w _ (fun z => if z =? (i mod w) then f i else zero)).
    - apply (zsum_single w (i mod w) (fun _ => f i)). apply Z.mod_pos_bound. lia.
    - intros z Hz. rewrite Z.eqb_sym. reflexivity.
  Qed.

  (** zero padding *)
  Lemma zsum_pad n m f : 0 <= n <= m ->
    zsum m (fun i => if i <? n then f i else zero) = zsum n f.
  Proof.
    intros H. replace m with (n + (m - n)) by lia. rewrite zsum_app by lia.
    rewrite (zsum_zero (m - n)).
    - rewrite add_zero_r. apply zsum_ext. intros i Hi. destruct (Z.ltb_spec i n); [reflexivity|lia].
    - intros i Hi. destruct (Z.ltb_spec (n + i) n); [lia|reflexivity].
  Qed.
  Lemma zsum_rev n f : zsum n (fun i => f (n - 1 - i)) = zsum n f.
  Proof.
    destruct (Z.leb_spec 0 n) as [Hn|Hn]; [|rewrite !zsum_neg by lia; reflexivity].
    revert n Hn f. refine (natlike_ind _ _ _).
    - reflexivity.
    - intros n Hn IH f. unfold Z.succ. rewrite (zsum_S n f) by assumption.
      rewrite (Z.add_comm n 1) at 1. rewrite zsum_app by lia. rewrite add_comm.
      f_equal.
      + rewrite <- (IH f). apply zsum_ext. intros i Hi. f_equal. lia.
      + rewrite zsum_1. f_equal. lia.
  Qed.
End S.
Arguments nsum {V}. Arguments zsum {V}.
