(** Properties C46 (combining and changing GSParams) and C83 (equality and hashing of GSParams). *)
From Coq Require Import ZArith Reals String List Bool Lia Lra Permutation.
From Verif Require Import Base Bounds_Model Bounds_Proofs GSP_Model GSP_Spec GSP_Proofs.
Import ListNotations.
Open Scope list_scope.

(** * C46 *)
Theorem C46_combination_is_strictest : forall l, l <> [] ->
  exists c, combine plt peq l = Ok c /\ combines l c.
Proof. exact combine_combines. Qed.
Print Assumptions C46_combination_is_strictest.

(** The result depends only on which parameter sets occur, not on their order or repetition, and
    combining in stages gives the same. *)
Theorem C46_order_and_nesting_irrelevant : forall l1 l2 c1 c2,
  combine plt peq l1 = Ok c1 -> combine plt peq l2 = Ok c2 ->
  ((forall g, In g l1 <-> In g l2) -> same c1 c2) /\
  (exists c d, combine plt peq [c1; c2] = Ok c /\ combine plt peq (l1 ++ l2) = Ok d /\ same c d).
Proof.
  intros l1 l2 c1 c2 E1 E2.
  assert (N1 : l1 <> []) by (intros ->; discriminate). assert (N2 : l2 <> []) by (intros ->; discriminate).
  destruct (combine_combines l1 N1) as (d1 & F1 & P1). destruct (combine_combines l2 N2) as (d2 & F2 & P2).
  assert (d1 = c1) by congruence. assert (d2 = c2) by congruence. subst d1 d2. split.
  - intros H. apply (combines_unique l1 l2); auto.
  - destruct (combine_combines [c1; c2]) as (c & E & P); [discriminate|].
    destruct (combine_combines (l1 ++ l2)) as (d & F & Q). { destruct l1; [congruence|discriminate]. }
    exists c, d. split; auto. split; auto.
    apply (combines_unique (l1 ++ l2) (l1 ++ l2)); [tauto| |auto]. eapply combines_app; eauto.
Qed.
Print Assumptions C46_order_and_nesting_irrelevant.

(** Combining copies of one set returns that very set. *)
Theorem C46_combine_idempotent : forall g n, combine plt peq (repeat g (S n)) = Ok g.
Proof.
  intros g n. destruct n; [reflexivity|]. cbn [repeat combine].
  assert (E : forallb (fun x => gsp_eqb peq x g) (g :: repeat g n) = true).
  { apply forallb_forall. intros x H. apply gsp_eqb_spec.
    assert (x = g). { destruct H as [->|H]; auto. apply repeat_spec in H. auto. } subst x. intros f. reflexivity. }
  rewrite E. reflexivity.
Qed.
Print Assumptions C46_combine_idempotent.

Theorem C46_with_params_changes_only_named : forall (A : Type) kw (g : gsp A), NoDup (map fst kw) ->
  (forall k, In k (map fst kw) -> exists f, In (k, f) all_fields) ->
  exists g', withParams g kw = Ok g' /\
    forall n f, In (n, f) all_fields ->
      (forall v, In (n, v) kw -> gget f g' = v) /\ (~ In n (map fst kw) -> gget f g' = gget f g).
Proof. exact withParams_spec. Qed.
Print Assumptions C46_with_params_changes_only_named.

Theorem C46_unknown_parameter_rejected : forall (A : Type) kw (g : gsp A) k v, In (k, v) kw ->
  (forall f, ~ In (k, f) all_fields) -> withParams g kw = Err TypeError.
Proof. exact withParams_unknown. Qed.
Print Assumptions C46_unknown_parameter_rejected.

(** check takes the parameters given, else the default of the call, else the global default, and then makes the named changes. *)
Theorem C46_check_takes_first_given : forall (A : Type) (dflt : gsp A) g d kw, NoDup (map fst kw) ->
  (forall k, In k (map fst kw) -> exists f, In (k, f) all_fields) ->
  exists g', check dflt g d kw = Ok g' /\
    forall n f, In (n, f) all_fields -> (forall v, In (n, v) kw -> gget f g' = v) /\
      (~ In n (map fst kw) -> (forall h, g = Some h -> gget f g' = gget f h) /\ (forall e, g = None -> d = Some e -> gget f g' = gget f e) /\
                             (g = None -> d = None -> gget f g' = gget f dflt)).
Proof.
  intros A dflt g d kw N K. unfold check. set (h := match g with None => match d with Some d => d | None => dflt end | Some g => g end).
  destruct (withParams_spec _ kw h N K) as (g' & E & P). exists g'. split; [exact E|]. intros n f F. destruct (P n f F) as [P1 P2]. split; [exact P1|].
  intro X. rewrite (P2 X). unfold h. repeat split; intros; subst; congruence.
Qed.
Print Assumptions C46_check_takes_first_given.

Definition ex_loose : gsp pnum := gset maxk_threshold (PFlt (1 / 100)) (gset maximum_fft_size (PInt 4096) gsp_default).
Definition ex_fine : gsp pnum := gset folding_threshold (PFlt (1 / 1000)) (gset maximum_fft_size (PInt 2048) gsp_default).
Example C46_ex : exists c, combine plt peq [ex_loose; ex_fine] = Ok c /\
  gget maximum_fft_size c = PInt 4096 /\ pval (gget folding_threshold c) = (1 / 1000)%R /\ pval (gget maxk_threshold c) = (1 / 1000)%R.
Proof.
  destruct (combine_combines [ex_loose; ex_fine]) as (c & E & P); [discriminate|]. exists c. split; auto.
  pose proof E as E'. cbn [combine] in E'.
  assert (F : forallb (fun x => gsp_eqb peq x ex_loose) [ex_fine] = false).
  { apply not_true_is_false. intros H. rewrite forallb_forall in H. specialize (H ex_fine (or_introl eq_refl)).
    apply gsp_eqb_spec in H. specialize (H maximum_fft_size). simpl in H. lra. }
  rewrite F in E'. assert (E2 : c = _) by (symmetry; exact (f_equal (fun r => match r with Ok x => x | Err _ => c end) E')).
  rewrite E2. unfold pmax, pmin, plt. simpl.
  repeat match goal with |- context [Rltb ?a ?b] => destruct (Rltb_spec a b); try lra end; auto.
Qed.
Example C46_ex_params : withParams gsp_default [("maxk_threshold"%string, PFlt (1 / 2))] = Ok (gset maxk_threshold (PFlt (1 / 2)) gsp_default)
  /\ withParams gsp_default [("maxk"%string, PFlt (1 / 2))] = Err TypeError.
Proof. split; reflexivity. Qed.

(** * C83 *)
(** Equality is numerical equality of all thirteen fields. *)
Theorem C83_equality : forall a b, gsp_eqb peq a b = true <-> (forall f, pval (gget f a) = pval (gget f b)).
Proof. exact gsp_eqb_spec. Qed.
Print Assumptions C83_equality.

(** Full statement (false, see below): equal parameter sets have equal hashes. Proved when each
    field has the same Python type in both. *)
Theorem C83_equal_hash_partial : forall a b, gsp_eqb peq a b = true ->
  (forall f, match gget f a, gget f b with PInt _, PInt _ | PFlt _, PFlt _ => True | _, _ => False end) ->
  gsp_repr a = gsp_repr b.
Proof.
  intros a b E T. assert (a = b); [|congruence]. apply gsp_ext. intros f.
  apply gsp_eqb_spec in E. specialize (E f). specialize (T f).
  destruct (gget f a), (gget f b); simpl in *; try tauto; f_equal; auto. apply eq_IZR. auto.
Qed.
Print Assumptions C83_equal_hash_partial.

(** GSParams(stepk_minimum_hlr=5) equals GSParams() but its repr, hence its hash, differs. *)
Theorem C83_equal_hash_refuted : exists a b, gsp_eqb peq a b = true /\ gsp_repr a <> gsp_repr b.
Proof.
  exists gsp_default, (gset stepk_minimum_hlr (PInt 5) gsp_default). split.
  - apply gsp_eqb_spec. intros f. destruct f; reflexivity.
  - unfold gsp_repr. simpl. intros H. discriminate H.
Qed.
Print Assumptions C83_equal_hash_refuted.
(** The text shows every field: parameter sets with the same text are equal (sizes and spacing integers). *)
Theorem C83_repr_distinguishes : forall a b,
  (forall g f, In g [a; b] -> In f [minimum_fft_size; maximum_fft_size; table_spacing] -> exists z, gget f g = PInt z) ->
  gsp_repr a = gsp_repr b -> gsp_eqb peq a b = true.
Proof. exact repr_distinguishes. Qed.
Print Assumptions C83_repr_distinguishes.
Example C83_ex : gsp_eqb peq gsp_default (gset stepk_minimum_hlr (PFlt (10 / 2)) gsp_default) = true.
Proof. apply gsp_eqb_spec. intros f. destruct f; simpl; lra. Qed.
