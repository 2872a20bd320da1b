From Coq Require Import ZArith Reals String List Bool Lia Lra Permutation.
From Verif Require Import Base Bounds_Model Bounds_Proofs GSP_Model GSP_Spec.
Import ListNotations.
Open Scope list_scope.

Lemma peq_spec : forall a b, reflect (pval a = pval b) (peq a b).
Proof. intros. apply Reqb_spec. Qed.
Lemma plt_spec : forall a b, reflect (pval a < pval b)%R (plt a b).
Proof. intros. apply Rltb_spec. Qed.

Lemma pmin_spec : forall l x, (In (pmin plt x l) (x :: l)) /\ forall y, In y (x :: l) -> (pval (pmin plt x l) <= pval y)%R.
Proof.
  unfold pmin. induction l as [|a t IH]; intros x; simpl.
  - split; auto. intros y [->|[]]. lra.
  - destruct (IH (if plt a x then a else x)) as [I1 I2].
    destruct (plt_spec a x) as [L|L].
    + split. { destruct I1 as [<-|I1]; auto. }
      intros y [<-|[<-|H]]; [apply Rle_trans with (pval a); [apply I2; simpl; auto|lra] | apply I2; simpl; auto | apply I2; simpl; auto].
    + split. { destruct I1 as [<-|I1]; auto. }
      intros y [<-|[<-|H]]; [apply I2; simpl; auto | apply Rle_trans with (pval x); [apply I2; simpl; auto|lra] | apply I2; simpl; auto].
Qed.
Lemma pmax_spec : forall l x, (In (pmax plt x l) (x :: l)) /\ forall y, In y (x :: l) -> (pval y <= pval (pmax plt x l))%R.
Proof.
  unfold pmax. induction l as [|a t IH]; intros x; simpl.
  - split; auto. intros y [->|[]]. lra.
  - destruct (IH (if plt x a then a else x)) as [I1 I2].
    destruct (plt_spec x a) as [L|L].
    + split. { destruct I1 as [<-|I1]; auto. }
      intros y [<-|[<-|H]]; [apply Rle_trans with (pval a); [lra|apply I2; simpl; auto] | apply I2; simpl; auto | apply I2; simpl; auto].
    + split. { destruct I1 as [<-|I1]; auto. }
      intros y [<-|[<-|H]]; [apply I2; simpl; auto | apply Rle_trans with (pval x); [lra|apply I2; simpl; auto] | apply I2; simpl; auto].
Qed.

Lemma in_all_fields : forall f, exists n, In (n, f) all_fields.
Proof. intros f. unfold all_fields. destruct f; eexists; simpl; repeat (first [left; reflexivity | right]).

Qed.
Lemma gsp_eqb_spec : forall a b, gsp_eqb peq a b = true <-> same a b.
Proof.
  intros a b. unfold gsp_eqb. rewrite forallb_forall. split.
  - intros H f. destruct (in_all_fields f) as [n I]. specialize (H _ I). simpl in H.
    destruct (peq_spec (gget f a) (gget f b)); congruence.
  - intros H [n f] _. simpl. destruct (peq_spec (gget f a) (gget f b)) as [|N]; [reflexivity|destruct (N (H f))].
Qed.

Lemma same_sym : forall a b, same a b -> same b a.
Proof. intros a b H f. symmetry. apply H. Qed.
Lemma same_trans : forall a b c, same a b -> same b c -> same a c.
Proof. intros a b c H1 H2 f. rewrite H1. apply H2. Qed.

Lemma strict_same : forall f a b, a = b -> at_least_as_strict f a b.
Proof. intros f a b ->. unfold at_least_as_strict. destruct (larger_is_stricter f); lra. Qed.
Lemma strict_trans : forall f a b c, at_least_as_strict f a b -> at_least_as_strict f b c -> at_least_as_strict f a c.
Proof. intros f a b c. unfold at_least_as_strict. destruct (larger_is_stricter f); lra. Qed.
Lemma strict_antisym : forall f a b, at_least_as_strict f a b -> at_least_as_strict f b a -> a = b.
Proof. intros f a b. unfold at_least_as_strict. destruct (larger_is_stricter f); lra. Qed.

Lemma combine_combines : forall l, l <> [] -> exists c, combine plt peq l = Ok c /\ combines l c.
Proof.
  intros [|g t] N; [congruence|]. clear N. destruct t as [|g2 t].
  - exists g. split; auto. intros f. split. { exists g. simpl; auto. }
    intros x [<-|[]]. apply strict_same. auto.
  - cbn [combine]. set (u := g2 :: t). destruct (forallb (fun x => gsp_eqb peq x g) u) eqn:E.
    + exists g. split; auto. rewrite forallb_forall in E. intros f. split. { exists g. simpl; auto. }
      intros x [<-|H]; apply strict_same; auto. symmetry. apply (proj1 (gsp_eqb_spec x g) (E x H)).
    + eexists. split; [reflexivity|].
      assert (MX : forall h : gsp pnum -> pnum, let m := pmax plt (h g) (map h u) in
               (exists x, In x (g :: u) /\ pval m = pval (h x)) /\ forall x, In x (g :: u) -> (pval (h x) <= pval m)%R).
      { intros h m. destruct (pmax_spec (map h u) (h g)) as [I1 I2]. fold m in I1, I2.
        change (h g :: map h u) with (map h (g :: u)) in I1, I2. split.
        - apply in_map_iff in I1. destruct I1 as (x & Ex & Ix). exists x. split; auto. congruence.
        - intros x Hx. apply I2. apply in_map. auto. }
      assert (MN : forall h : gsp pnum -> pnum, let m := pmin plt (h g) (map h u) in
               (exists x, In x (g :: u) /\ pval m = pval (h x)) /\ forall x, In x (g :: u) -> (pval m <= pval (h x))%R).
      { intros h m. destruct (pmin_spec (map h u) (h g)) as [I1 I2]. fold m in I1, I2.
        change (h g :: map h u) with (map h (g :: u)) in I1, I2. split.
        - apply in_map_iff in I1. destruct I1 as (x & Ex & Ix). exists x. split; auto. congruence.
        - intros x Hx. apply I2. apply in_map. auto. }
      intros f. unfold at_least_as_strict. destruct f; cbn [gget g_min g_max g_fold g_hlr g_maxk g_kacc g_xacc g_tab g_rrel g_rabs g_irel g_iabs g_shoot larger_is_stricter];
        first [apply MX | apply MN].
Qed.

Lemma combines_unique : forall l l' c c', (forall g, In g l <-> In g l') -> combines l c -> combines l' c' -> same c c'.
Proof.
  intros l l' c c' E H H' f. destruct (H f) as [(g & I & Eg) B]. destruct (H' f) as [(g' & I' & Eg') B'].
  apply (strict_antisym f).
  - rewrite Eg'. apply B. apply E. auto.
  - rewrite Eg. apply B'. apply E. auto.
Qed.

Lemma combines_app : forall l1 l2 c1 c2 c, combines l1 c1 -> combines l2 c2 -> combines [c1; c2] c -> combines (l1 ++ l2) c.
Proof.
  intros l1 l2 c1 c2 c H1 H2 H f. destruct (H f) as [(g & I & Eg) B]. destruct (H1 f) as [(g1 & I1 & E1) B1].
  destruct (H2 f) as [(g2 & I2 & E2) B2]. split.
  - destruct I as [<-|[<-|[]]].
    + exists g1. split; [apply in_or_app; auto|congruence].
    + exists g2. split; [apply in_or_app; auto|congruence].
  - intros x Hx. apply in_app_or in Hx. destruct Hx as [Hx|Hx].
    + apply strict_trans with (pval (gget f c1)); [apply B; simpl; auto|auto].
    + apply strict_trans with (pval (gget f c2)); [apply B; simpl; auto|auto].
Qed.

(** withParams *)
Lemma gget_gset : forall (A : Type) (f f' : field) (v : A) g, gget f' (gset f v g) = if field_eqb f f' then v else gget f' g.
Proof. intros A f f' v g. unfold gset, gbuild. destruct f'; reflexivity. Qed.
Lemma field_eqb_spec : forall a b, reflect (a = b) (field_eqb a b).
Proof. intros a b. destruct a, b; constructor; congruence. Qed.
Lemma gsp_ext : forall (A : Type) (a b : gsp A), (forall f, gget f a = gget f b) -> a = b.
Proof.
  intros A a b H. destruct a, b.
  pose proof (H minimum_fft_size) as h1; pose proof (H maximum_fft_size) as h2; pose proof (H folding_threshold) as h3;
  pose proof (H stepk_minimum_hlr) as h4; pose proof (H maxk_threshold) as h5; pose proof (H kvalue_accuracy) as h6;
  pose proof (H xvalue_accuracy) as h7; pose proof (H table_spacing) as h8; pose proof (H realspace_relerr) as h9;
  pose proof (H realspace_abserr) as h10; pose proof (H integration_relerr) as h11; pose proof (H integration_abserr) as h12;
  pose proof (H shoot_accuracy) as h13.
  simpl in *. congruence.
Qed.

Lemma lookup_spec : forall k f, lookup k all_fields = Some f <-> In (k, f) all_fields.
Proof.
  intros k f. split.
  - generalize all_fields. induction l as [|[n f'] t IH]; simpl; [discriminate|].
    destruct (String.eqb_spec k n) as [->|]; intros H. { left. congruence. } right; auto.
  - intros H. unfold all_fields in H. simpl in H.
    repeat (destruct H as [H|H]; [assert (K : k = fst (k, f)) by reflexivity; rewrite <- H in K; assert (F : f = snd (k, f)) by reflexivity; rewrite <- H in F; simpl in K, F; subst k f; reflexivity|]).
    destruct H.
Qed.

Lemma withParams_spec : forall (A : Type) kw (g : gsp A), NoDup (map fst kw) ->
  (forall k, In k (map fst kw) -> exists f, In (k, f) all_fields) ->
  exists g', withParams g kw = Ok g' /\
    forall n f, In (n, f) all_fields ->
      (forall v, In (n, v) kw -> gget f g' = v) /\ (~ In n (map fst kw) -> gget f g' = gget f g).
Proof.
  induction kw as [|[k v] t IH]; intros g ND K; cbn [withParams].
  - exists g. split; auto. intros n f I. split; [intros v []|auto].
  - destruct (K k) as [f0 I0]; [simpl; auto|].
    rewrite (proj2 (lookup_spec k f0) I0). inversion ND; subst.
    destruct (IH (gset f0 v g)) as (g' & E & P); auto. { intros. apply K. simpl; auto. }
    exists g'. split; auto. intros n f I. destruct (P n f I) as [P1 P2]. split.
    + intros w [W|W].
      * assert (n = k) by congruence. assert (w = v) by congruence. subst n w.
        rewrite P2 by auto. rewrite gget_gset.
        assert (f = f0). { apply lookup_spec in I, I0. congruence. } subst f.
        destruct (field_eqb_spec f0 f0); congruence.
      * auto.
    + intros N. simpl in N. rewrite P2 by tauto. rewrite gget_gset.
      destruct (field_eqb_spec f0 f) as [->|]; auto. exfalso. apply N. left.
      (* names are determined by fields *)
      clear - I I0. unfold all_fields in *. simpl in I, I0.
      repeat (destruct I as [I|I]; [inversion I; subst; repeat (destruct I0 as [I0|I0]; [inversion I0; subst; try reflexivity|]); try destruct I0|]); try destruct I.
Qed.

Lemma withParams_unknown : forall (A : Type) kw (g : gsp A) k v, In (k, v) kw -> (forall f, ~ In (k, f) all_fields) ->
  withParams g kw = Err TypeError.
Proof.
  induction kw as [|[k0 v0] t IH]; intros g k v I N; [destruct I|]. cbn [withParams].
  destruct (lookup k0 all_fields) as [f|] eqn:E; auto.
  destruct I as [I|I]; [|eapply IH; eauto]. exfalso. apply (N f). apply lookup_spec. congruence.
Qed.

Lemma repr_distinguishes : forall a b,
  (forall g f, In g [a; b] -> In f [minimum_fft_size; maximum_fft_size; table_spacing] -> exists z, gget f g = PInt z) ->
  gsp_repr a = gsp_repr b -> gsp_eqb peq a b = true.
Proof.
  intros a b I E. apply gsp_eqb_spec.
  assert (R : forall x y, show_r x = show_r y -> pval x = pval y).
  { intros [z|r] [z'|r'] H; cbn [show_r] in H; try discriminate H; injection H as ->; reflexivity. }
  assert (D : forall f, In f [minimum_fft_size; maximum_fft_size; table_spacing] ->
                show_d (gget f a) = show_d (gget f b) -> pval (gget f a) = pval (gget f b)).
  { intros f F H. destruct (I a f (or_introl eq_refl) F) as [z Z], (I b f (or_intror (or_introl eq_refl)) F) as [z' Z'].
    rewrite Z, Z' in H |- *. cbn [show_d] in H. injection H as ->. reflexivity. }
  unfold gsp_repr in E.
  injection E as E1 E2 E3 E4 E5 E6 E7 E8 E9 E10 E11 E12 E13.
  intro f. destruct f; cbn [gget]; try (apply R; assumption); 
  [apply (D minimum_fft_size) | apply (D maximum_fft_size) | apply (D table_spacing)]; cbn [In gget]; auto.
Qed.
