(** Proofs about pytrees. *)
From Coq Require Import Reals List Bool Arith Lia Lra.
From Verif Require Import Base Bounds_Model Bounds_Proofs Tree_Model Tree_Spec.
Import ListNotations.
Open Scope R_scope.

Section Proofs.
  Context {G : Type}.
  Variable geq : G -> G -> bool.
  Hypothesis GE : forall a b, reflect (a = b) (geq a b).
  Lemma geq_refl : forall g, geq g g = true.
  Proof using GE. intro g. destruct (GE g g); congruence. Qed.

  Lemma obj_ind2 : forall P : obj G -> Prop,
    (forall k ps g, P (Elem k ps g)) -> (forall o ps g pg, P o -> P (Trans o ps g pg)) -> (forall l g pg, Forall P l -> P (Sum l g pg)) ->
    (forall st l g pg, Forall P st -> Forall P l -> P (Conv st l g pg)) -> (forall o g pg, P o -> P (Deconv o g pg)) -> (forall img ps im g, P (Interp img ps im g)) -> forall o, P o.
  Proof using Type.
    intros P H1 H2 H3 H4 H5 H6. fix F 1. intros [k ps g|o ps g pg|l g pg|st l g pg|o g pg|img ps im g].
    - apply H1. - apply H2, F. - apply H3. induction l; constructor; auto. - apply H4; [induction st|induction l]; constructor; auto. - apply H5, F. - apply H6.
  Qed.
  Lemma tdef_ind2 : forall P : tdef G -> Prop,
    (forall k n g, P (TElem k n g)) -> (forall t n g pg, P t -> P (TTrans t n g pg)) -> (forall l g pg, Forall P l -> P (TSum l g pg)) ->
    (forall l g pg, Forall P l -> P (TConv l g pg)) -> (forall t g pg, P t -> P (TDeconv t g pg)) -> (forall n m chk gi g, P (TInterp n m chk gi g)) -> forall t, P t.
  Proof using Type.
    intros P H1 H2 H3 H4 H5 H6. fix F 1. intros [k n g|t n g pg|l g pg|l g pg|t g pg|n m chk gi g].
    - apply H1. - apply H2, F. - apply H3. induction l; constructor; auto. - apply H4. induction l; constructor; auto. - apply H5, F. - apply H6.
  Qed.

  (** withGSParams on what is seen *)
  Definition im_with (g : G) (im : impl G) : impl G := if geq g (pi_gs im) then im else Impl (pi_img im) (pi_ps im) (pi_chk im) g.
  Fixpoint pgs (g : G) (o : obj G) : obj G :=
    if geq g (gs o) then o else
    match o with
    | Elem k ps _ => Elem k ps g
    | Trans o ps _ pg => Trans (if pg then pgs g o else o) ps g pg
    | Sum l _ pg => Sum (if pg then map (pgs g) l else l) g pg
    | Conv _ l _ pg => let l := if pg then map (pgs g) l else l in Conv l l g pg
    | Deconv o _ pg => Deconv (if pg then pgs g o else o) g pg
    | Interp img ps im _ => Interp img ps (im_with g im) g
    end.
  Definition is_sum (o : obj G) : bool := match o with Sum _ _ _ => true | _ => false end.
  Inductive ok : obj G -> Prop :=
  | ok_elem : forall k ps g, elem_new k ps g = Ok (Elem k ps g) -> ok (Elem k ps g)
  | ok_trans : forall o ps g pg, ok o -> (pg = true -> gs o = g) -> ok (Trans o ps g pg)
  | ok_sum : forall l g pg, Forall ok l -> Forall (fun o => is_sum o = false) l -> (pg = true -> Forall (fun o => gs o = g) l) -> ok (Sum l g pg)
  | ok_conv : forall st l g pg, Forall ok st -> Forall ok l -> (pg = true -> Forall (fun o => gs o = g) l /\ map seen l = map (pgs g) (map seen st)) -> (pg = false -> st = l) -> flat_map leaves st = flat_map leaves l -> ok (Conv st l g pg)
  | ok_deconv : forall o g pg, ok o -> (pg = true -> gs o = g) -> ok (Deconv o g pg)
  | ok_interp : forall img ps im g, impl_new (pi_img im) (pi_ps im) (pi_chk im) (pi_gs im) = Ok im -> pi_gs im = g -> ok (Interp img ps im g).

  Lemma gs_seen : forall o : obj G, gs (seen o) = gs o.
  Proof using Type. intros []; reflexivity. Qed.
  Lemma sum_seen : forall o : obj G, is_sum (seen o) = is_sum o.
  Proof using Type. intros []; reflexivity. Qed.
  Lemma gs_pgs : forall g o, gs (pgs g o) = g.
  Proof using GE. intros g o. destruct o; cbn; match goal with |- context [geq ?a ?b] => destruct (GE a b) end; cbn; congruence. Qed.
  Lemma pgs_same : forall o, pgs (gs o) o = o.
  Proof using GE. intros []; cbn; rewrite geq_refl; reflexivity. Qed.
  Lemma with_same : forall o, withGS geq (gs o) o = Ok o.
  Proof using GE. intros []; cbn; rewrite geq_refl; reflexivity. Qed.

  Lemma map_ext_Forall : forall (A B : Type) (f h : A -> B) l, Forall (fun a => f a = h a) l -> map f l = map h l.
  Proof using Type. induction 1; cbn; congruence. Qed.
  (** The last gsparams count *)
  Lemma im_with_twice : forall g h im, im_with g (im_with h im) = im_with g im.
  Proof using GE.
    intros g h [img ps chk c]. unfold im_with. cbn. destruct (GE h c) as [->|N]; [reflexivity|]. cbn. destruct (GE g h) as [->|N2]; [destruct (GE h c); [congruence|reflexivity]|]. destruct (GE g c) as [->|]; reflexivity.
  Qed.
  Lemma pgs_pgs : forall o, ok o -> forall g h, pgs g (pgs h (seen o)) = pgs g (seen o).
  Proof using GE.
    induction o as [k ps c|o ps c pg IH|l c pg IH|st l c pg IHs IH|o c pg IH|img ps im c] using obj_ind2; intros OK g h; inversion OK; subst; cbn [seen].
    - cbn. destruct (GE h c) as [->|N]; [reflexivity|]. cbn. destruct (GE g h), (GE g c); congruence.
    - specialize (IH ltac:(assumption)). cbn [pgs gs]. destruct (GE h c) as [->|N]; [reflexivity|]. cbn [pgs gs].
      destruct (GE g h) as [->|N2]; [destruct (GE h c); [congruence|reflexivity]|]. destruct pg; [|destruct (GE g c) as [->|]; reflexivity].
      rewrite IH. destruct (GE g c) as [->|]; [|reflexivity]. rewrite <- (H4 eq_refl) at 1. rewrite <- gs_seen, pgs_same. reflexivity.
    - cbn [pgs gs]. destruct (GE h c) as [->|N]; [reflexivity|]. cbn [pgs gs].
      destruct (GE g h) as [->|N2]; [destruct (GE h c); [congruence|reflexivity]|]. destruct pg; [|destruct (GE g c) as [->|]; reflexivity].
      assert (E : map (pgs g) (map (pgs h) (map seen l)) = map (pgs g) (map seen l)).
      { rewrite !map_map. apply map_ext_in. intros o I. rewrite Forall_forall in IH, H2. apply IH; auto. }
      rewrite E. destruct (GE g c) as [->|]; [|reflexivity]. f_equal. rewrite map_map. apply map_ext_in. intros o I. specialize (H4 eq_refl). rewrite Forall_forall in H4. rewrite <- (H4 o I), <- gs_seen, pgs_same. reflexivity.
    - cbn [pgs gs]. destruct (GE h c) as [->|N]; [reflexivity|]. cbn [pgs gs].
      destruct (GE g h) as [->|N2]; [destruct (GE h c); [congruence|reflexivity]|]. destruct pg; [|destruct (GE g c) as [->|]; reflexivity].
      assert (E : map (pgs g) (map (pgs h) (map seen l)) = map (pgs g) (map seen l)).
      { rewrite !map_map. apply map_ext_in. intros o I. rewrite Forall_forall in IH, H4. apply IH; auto. }
      cbv zeta. rewrite E. destruct (GE g c) as [->|]; [|reflexivity]. destruct (H5 eq_refl) as [U _].
      assert (E2 : map (pgs c) (map seen l) = map seen l). { rewrite map_map. apply map_ext_in. intros o I. rewrite Forall_forall in U. rewrite <- (U o I), <- gs_seen, pgs_same. reflexivity. }
      rewrite E2. reflexivity.
    - specialize (IH ltac:(assumption)). cbn [pgs gs]. destruct (GE h c) as [->|N]; [reflexivity|]. cbn [pgs gs].
      destruct (GE g h) as [->|N2]; [destruct (GE h c); [congruence|reflexivity]|]. destruct pg; [|destruct (GE g c) as [->|]; reflexivity].
      rewrite IH. destruct (GE g c) as [->|]; [|reflexivity]. rewrite <- (H3 eq_refl) at 1. rewrite <- gs_seen, pgs_same. reflexivity.
    - cbn [pgs gs]. destruct (GE h (pi_gs im)) as [->|N]; [reflexivity|]. cbn [pgs gs]. rewrite im_with_twice.
      destruct (GE g h) as [->|N2]; [destruct (GE h (pi_gs im)); [congruence|reflexivity]|].
      destruct (GE g (pi_gs im)) as [->|]; [|reflexivity]. unfold im_with. rewrite geq_refl. reflexivity.
  Qed.

  Lemma mapM_cons : forall (A B : Type) (f : A -> res B) a l, mapM f (a :: l) = bind (f a) (fun b => bind (mapM f l) (fun t => Ok (b :: t))).
  Proof using Type. reflexivity. Qed.
  Lemma flatM_cons : forall (A B : Type) (f : A -> res (list B)) a l, flatM f (a :: l) = bind (f a) (fun b => bind (flatM f l) (fun t => Ok (b ++ t))).
  Proof using Type. reflexivity. Qed.
  Lemma mapM_ok : forall (A B : Type) (f : A -> res B) (P : A -> B -> Prop) l, Forall (fun a => exists b, f a = Ok b /\ P a b) l -> exists l', mapM f l = Ok l' /\ Forall2 P l l'.
  Proof using Type.
    induction 1 as [|a l (b & E & Q) F (l' & E' & F')]; [exists []; split; [reflexivity|constructor]|]. exists (b :: l'). rewrite mapM_cons, E. cbn [bind]. rewrite E'. split; [reflexivity|]. constructor; assumption.
  Qed.
  Lemma Forall2_l : forall (A B : Type) (P : A -> B -> Prop) (Q : B -> Prop) l l', Forall2 P l l' -> (forall a b, P a b -> Q b) -> Forall Q l'.
  Proof using Type. induction 1; intro H1; constructor; eauto. Qed.
  Lemma Forall2_map_eq : forall (A B C : Type) (P : A -> B -> Prop) (f : A -> C) (h : B -> C) l l', Forall2 P l l' -> (forall a b, P a b -> h b = f a) -> map h l' = map f l.
  Proof using Type. induction 1; intro H1; cbn; [reflexivity|]. f_equal; auto. Qed.
  Lemma Forall2_flat_eq : forall (A B C : Type) (P : A -> B -> Prop) (f : A -> list C) (h : B -> list C) l l', Forall2 P l l' -> (forall a b, P a b -> h b = f a) -> flat_map h l' = flat_map f l.
  Proof using Type. induction 1; intro H1; cbn; [reflexivity|]. f_equal; auto. Qed.

  Definition became (g : G) (o o' : obj G) : Prop := ok o' /\ seen o' = pgs g (seen o) /\ leaves o' = leaves o /\ is_sum o' = is_sum o.
  Lemma became_gs : forall g o o', became g o o' -> gs o' = g.
  Proof using GE. intros g o o' (_ & E & _). rewrite <- gs_seen, E, gs_pgs. reflexivity. Qed.
  Lemma elem_any : forall k ps (g h : G), elem_new k ps g = Ok (Elem k ps g) -> elem_new k ps h = Ok (Elem k ps h).
  Proof using Type. intros k ps g h E. unfold elem_new in *. destruct (length ps =? arity k)%nat; [|discriminate]. destruct k, ps; auto. destruct (check_beta l); [reflexivity|discriminate]. Qed.
  Lemma impl_any : forall (im : impl G) (h : G), impl_new (pi_img im) (pi_ps im) (pi_chk im) (pi_gs im) = Ok im -> impl_new (pi_img im) (pi_ps im) (pi_chk im) h = Ok (Impl (pi_img im) (pi_ps im) (pi_chk im) h).
  Proof using Type. intros im h E. unfold impl_new in *. destruct (check_image (pi_chk im) (pi_img im)); [reflexivity|discriminate]. Qed.
  Lemma impl_with_ok : forall (im : impl G) g, impl_new (pi_img im) (pi_ps im) (pi_chk im) (pi_gs im) = Ok im -> impl_with geq g im = Ok (im_with g im).
  Proof using Type. intros im g E. unfold impl_with, im_with. destruct (geq g (pi_gs im)); [reflexivity|]. now apply impl_any. Qed.
  Lemma im_with_gs : forall g im, pi_gs (im_with g im) = g.
  Proof using GE. intros g im. unfold im_with. destruct (GE g (pi_gs im)); [congruence|reflexivity]. Qed.
  Lemma im_with_ok : forall g (im : impl G), impl_new (pi_img im) (pi_ps im) (pi_chk im) (pi_gs im) = Ok im -> let j := im_with g im in impl_new (pi_img j) (pi_ps j) (pi_chk j) (pi_gs j) = Ok j.
  Proof using Type. intros g im E j. unfold j, im_with. destruct (geq g (pi_gs im)); [exact E|]. cbn. now apply impl_any. Qed.
  Lemma im_with_same : forall g (im : impl G), pi_img (im_with g im) = pi_img im /\ pi_ps (im_with g im) = pi_ps im /\ pi_chk (im_with g im) = pi_chk im.
  Proof using Type. intros g im. unfold im_with. destruct (geq g (pi_gs im)); auto. Qed.

  Lemma flat_no_sum : forall (A : Type) (f : obj G -> res A) l, Forall (fun o => is_sum o = false) l ->
    flatM (fun o => match o with Sum l' _ _ => mapM f l' | _ => bind (f o) (fun x => Ok [x]) end) l = mapM f l.
  Proof using Type.
    intros A f l. induction 1 as [|o l N F IH]; [reflexivity|]. rewrite flatM_cons, mapM_cons, IH. destruct o; try discriminate; destruct (f _); reflexivity.
  Qed.
  Lemma with_ok : forall o, ok o -> forall g, exists o', withGS geq g o = Ok o' /\ became g o o'.
  Proof using GE.
    assert (SAME : forall o, ok o -> became (gs o) o o). { intros o OK. split; [exact OK|]. rewrite <- gs_seen at 1. rewrite pgs_same. auto. }
    induction o as [k ps c|o ps c pg IH|l c pg IH|st l c pg IHs IH|o c pg IH|img ps im c] using obj_ind2; intros OK g.
    - destruct (GE g c) as [->|N]; [exists (Elem k ps c); split; [apply (with_same (Elem k ps c))|apply (SAME _ OK)]|]. inversion OK; subst. exists (Elem k ps g). cbn. destruct (GE g c); [congruence|]. split; [eapply elem_any; eassumption|].
      split; [constructor; eapply elem_any; eassumption|]. cbn. destruct (GE g c); [congruence|]. auto.
    - destruct (GE g c) as [->|N]; [exists (Trans o ps c pg); split; [apply (with_same (Trans o ps c pg))|apply (SAME _ OK)]|]. inversion OK; subst. cbn [withGS gs]. destruct (GE g c); [congruence|]. destruct pg.
      + destruct (IH ltac:(assumption) g) as (o' & E & B). rewrite E. cbn [bind]. exists (Trans o' ps g true). split; [reflexivity|]. pose proof (became_gs _ _ _ B). destruct B as (B1 & B2 & B3 & B4). split; [constructor; auto|]. cbn [seen pgs gs leaves is_sum]. destruct (GE g c); [congruence|]. rewrite B2, B3. auto.
      + exists (Trans o ps g false). split; [reflexivity|]. split; [constructor; auto; discriminate|]. cbn [seen pgs gs leaves is_sum]. destruct (GE g c); [congruence|]. auto.
    - destruct (GE g c) as [->|N]; [exists (Sum l c pg); split; [apply (with_same (Sum l c pg))|apply (SAME _ OK)]|]. inversion OK; subst. cbn [withGS gs]. destruct (GE g c); [congruence|]. rewrite (flat_no_sum _ (fun o => if pg then withGS geq g o else Ok o)) by assumption. destruct pg.
      + destruct (mapM_ok _ _ (withGS geq g) (became g) l) as (l' & E & F); [rewrite Forall_forall in *; intros o I; apply IH; auto|]. change (fun o => withGS geq g o) with (withGS geq g). rewrite E. cbn [bind]. exists (Sum l' g true). split; [reflexivity|].
        split.
        * constructor; [eapply Forall2_l; [exact F|]; intros a b B; apply B| |intros _; eapply Forall2_l; [exact F|]; intros a b; apply became_gs].
          assert (Q : Forall (fun b => b = false) (map is_sum l')) by (rewrite (Forall2_map_eq _ _ _ _ is_sum is_sum _ _ F) by (intros a b B; apply B); apply Forall_map; assumption). apply Forall_map in Q. exact Q.
        * cbn [seen pgs gs leaves is_sum]. destruct (GE g c); [congruence|]. split; [|split; [apply (Forall2_flat_eq _ _ _ _ _ _ _ _ F); intros a b B; apply B|reflexivity]]. f_equal. rewrite map_map. apply (Forall2_map_eq _ _ _ _ _ _ _ _ F). intros a b B. apply B.
      + assert (E : mapM (fun o : obj G => Ok o) l = Ok l) by (clear; induction l as [|a l IH]; [reflexivity|]; rewrite mapM_cons, IH; reflexivity). rewrite E. cbn [bind]. exists (Sum l g false). split; [reflexivity|]. split; [constructor; auto; discriminate|]. cbn [seen pgs gs leaves is_sum]. destruct (GE g c); [congruence|]. auto.
    - destruct (GE g c) as [->|N]; [exists (Conv st l c pg); split; [apply (with_same (Conv st l c pg))|apply (SAME _ OK)]|]. inversion OK; subst. cbn [withGS gs]. destruct (GE g c); [congruence|]. destruct pg.
      + destruct (mapM_ok _ _ (withGS geq g) (became g) l) as (l' & E & F); [rewrite Forall_forall in *; intros o I; apply IH; auto|]. rewrite E. cbn [bind]. exists (Conv st l' g true). split; [reflexivity|].
        assert (SL : map seen l' = map (pgs g) (map seen l)) by (rewrite map_map; apply (Forall2_map_eq _ _ _ _ _ _ _ _ F); intros a b B; apply B).
        assert (LL : flat_map leaves l' = flat_map leaves l) by (apply (Forall2_flat_eq _ _ _ _ _ _ _ _ F); intros a b B; apply B).
        destruct (H5 eq_refl) as [_ HS]. split.
        * constructor; auto; [eapply Forall2_l; [exact F|]; intros a b B; apply B| |discriminate|congruence]. intros _. split; [eapply Forall2_l; [exact F|]; intros a b; apply became_gs|].
          rewrite SL, HS. rewrite !map_map. apply map_ext_in. intros o I. apply pgs_pgs. rewrite Forall_forall in *. auto.
        * cbn [seen pgs gs leaves is_sum]. destruct (GE g c); [congruence|]. cbv zeta. rewrite SL. auto.
      + exists (Conv st l g false). split; [reflexivity|]. split; [constructor; auto; discriminate|]. cbn [seen pgs gs leaves is_sum]. destruct (GE g c); [congruence|]. auto.
    - destruct (GE g c) as [->|N]; [exists (Deconv o c pg); split; [apply (with_same (Deconv o c pg))|apply (SAME _ OK)]|]. inversion OK; subst. cbn [withGS gs]. destruct (GE g c); [congruence|]. destruct pg.
      + destruct (IH ltac:(assumption) g) as (o' & E & B). rewrite E. cbn [bind]. exists (Deconv o' g true). split; [reflexivity|]. pose proof (became_gs _ _ _ B). destruct B as (B1 & B2 & B3 & B4). split; [constructor; auto|]. cbn [seen pgs gs leaves is_sum]. destruct (GE g c); [congruence|]. rewrite B2, B3. auto.
      + exists (Deconv o g false). split; [reflexivity|]. split; [constructor; auto; discriminate|]. cbn [seen pgs gs leaves is_sum]. destruct (GE g c); [congruence|]. auto.
    - destruct (GE g c) as [->|N]; [exists (Interp img ps im c); split; [apply (with_same (Interp img ps im c))|apply (SAME _ OK)]|]. inversion OK; subst. cbn [withGS gs]. destruct (GE g (pi_gs im)); [congruence|]. unfold interp_new. rewrite impl_with_ok by assumption. cbn [bind].
      exists (Interp img ps (im_with g im) g). split; [reflexivity|]. split; [constructor; [now apply im_with_ok|apply im_with_gs]|]. cbn [seen pgs gs leaves is_sum]. destruct (GE g (pi_gs im)); [congruence|]. split; [reflexivity|]. destruct (im_with_same g im) as (-> & -> & _). auto.
  Qed.
  Lemma mapM_with : forall g l, Forall ok l -> exists l', mapM (withGS geq g) l = Ok l' /\ Forall2 (became g) l l'.
  Proof using GE. intros g l F. apply mapM_ok. eapply Forall_impl; [|exact F]. intros o OK. now apply with_ok. Qed.

  Lemma conv_new_ok : forall l g pg, Forall ok l -> exists l', conv_new geq l g pg = Ok (Conv l' l' g pg) /\ ok (Conv l' l' g pg) /\ map seen l' = (if pg then map (pgs g) (map seen l) else map seen l) /\ flat_map leaves l' = flat_map leaves l.
  Proof using GE.
    intros l g pg F. unfold conv_new. destruct pg.
    - destruct (mapM_with g l F) as (l' & -> & F2). cbn [bind]. exists l'. split; [reflexivity|].
      assert (O : Forall ok l') by (eapply Forall2_l; [exact F2|]; intros a b B; apply B). assert (Q : Forall (fun o => gs o = g) l') by (eapply Forall2_l; [exact F2|]; intros a b; apply became_gs).
      split; [|split; [rewrite map_map; apply (Forall2_map_eq _ _ _ _ _ _ _ _ F2); intros a b B; apply B|apply (Forall2_flat_eq _ _ _ _ _ _ _ _ F2); intros a b B; apply B]].
      constructor; auto. intros _. split; [exact Q|]. rewrite map_map. apply map_ext_in. intros o I. rewrite Forall_forall in Q. rewrite <- (Q o I), <- gs_seen, pgs_same. reflexivity.
    - exists l. split; [reflexivity|]. split; [constructor; auto; discriminate|]. auto.
  Qed.
  Lemma sum_flat_ok : forall l, Forall ok l -> let l' := flat_map (fun o : obj G => match o with Sum l' _ _ => l' | _ => [o] end) l in Forall ok l' /\ Forall (fun o => is_sum o = false) l'.
  Proof using Type.
    induction 1 as [|o l O F (A & B)]; [split; constructor|]. cbn. split; apply Forall_app; (split; [|assumption]); destruct o; try (constructor; [first [exact O|reflexivity]|constructor]); inversion O; assumption.
  Qed.
  Lemma sum_new_ok : forall l g pg o, Forall ok l -> sum_new geq l g pg = Ok o -> ok o.
  Proof using GE.
    intros l g pg o F E. unfold sum_new in E. destruct (sum_flat_ok l F) as [A B]. set (l' := flat_map _ l) in *. destruct pg.
    - destruct (mapM_with g l' A) as (l2 & E2 & F2). rewrite E2 in E. injection E as <-. constructor; [eapply Forall2_l; [exact F2|]; intros a b X; apply X| |intros _; eapply Forall2_l; [exact F2|]; intros a b; apply became_gs].
      assert (Q : Forall (fun b => b = false) (map is_sum l2)) by (rewrite (Forall2_map_eq _ _ _ _ is_sum is_sum _ _ F2) by (intros a b X; apply X); apply Forall_map; assumption). apply Forall_map in Q. exact Q.
    - injection E as <-. constructor; auto. discriminate.
  Qed.
  Lemma deconv_new_ok : forall o g pg, ok o -> exists o', deconv_new geq o g pg = Ok (Deconv o' g pg) /\ ok (Deconv o' g pg) /\ seen o' = (if pg then pgs g (seen o) else seen o) /\ leaves o' = leaves o.
  Proof using GE.
    intros o g pg OK. unfold deconv_new. destruct pg; [|exists o; split; [reflexivity|]; split; [constructor; auto; discriminate|]; auto].
    destruct (with_ok o OK g) as (o' & -> & B). cbn [bind]. exists o'. pose proof (became_gs _ _ _ B). destruct B as (B1 & B2 & B3 & _). split; [reflexivity|]. split; [constructor; auto|]. auto.
  Qed.
  Lemma elem_new_is : forall k ps (g : G) o, elem_new k ps g = Ok o -> o = Elem k ps g.
  Proof using Type. intros k ps g o E. unfold elem_new in E. destruct (length ps =? arity k)%nat; [|discriminate]. destruct k, ps; try congruence. destruct (check_beta l); cbn [bind] in E; congruence. Qed.
  Lemma impl_new_is : forall img ps chk (g : G) im, impl_new img ps chk g = Ok im -> im = Impl img ps chk g.
  Proof using Type. intros img ps chk g im E. unfold impl_new in E. destruct (check_image chk img); cbn [bind] in E; congruence. Qed.
  Lemma trans_new_ok : forall o ps g pg o', ok o -> trans_new geq o ps g pg = Ok o' -> tidy o' -> ok o'.
  Proof using GE.
    intros o ps g pg o' OK E T. unfold trans_new in E. assert (M : exists m, (if pg then withGS geq g o else Ok o) = Ok m /\ ok m).
    { destruct pg; [|eauto]. destruct (with_ok o OK g) as (m & -> & B). exists m. split; [reflexivity|apply B]. }
    destruct M as (m & EM & OM). rewrite EM in E. cbn [bind] in E. assert (K : forall c, ok c -> Ok o' = Ok (Trans c ps g pg) -> ok o').
    { intros c OC Q. injection Q as ->. constructor; [exact OC|]. intros ->. exact T. }
    destruct m; try (apply (K _ OM); congruence). inversion OM; subst. eapply K; [eassumption|congruence].
  Qed.
  Lemma built_ok : forall o, built geq o -> ok o.
  Proof using GE.
    fix F 2. intros o [k ps g o1 E|img ps ps' chk g im o1 E1 E2|o0 ps g pg o1 B E T|l g pg o1 B E|l g pg o1 B E|o0 g pg o1 B E|g o0 o1 B E].
    - pose proof (elem_new_is _ _ _ _ E) as ->. now constructor.
    - pose proof (impl_new_is _ _ _ _ _ E1) as ->. unfold interp_new, impl_with in E2. cbn [pi_gs] in E2. rewrite geq_refl in E2. injection E2 as <-. constructor; [exact E1|reflexivity].
    - exact (trans_new_ok _ _ _ _ _ (F _ B) E T).
    - apply (sum_new_ok l g pg); [|exact E]. clear E. revert l B. fix Q 2. intros l [|x l' H H']; constructor; [exact (F _ H)|exact (Q _ H')].
    - assert (FL : Forall ok l). { clear E. revert l B. fix Q 2. intros l [|x l' H H']; constructor; [exact (F _ H)|exact (Q _ H')]. }
      destruct (conv_new_ok l g pg FL) as (l' & E' & O & _). rewrite E' in E. injection E as <-. exact O.
    - destruct (deconv_new_ok o0 g pg (F _ B)) as (o' & E' & O & _). rewrite E' in E. injection E as <-. exact O.
    - destruct (with_ok o0 (F _ B) g) as (o' & E' & O & _). rewrite E' in E. injection E as <-. exact O.
  Qed.

  (** ** Structures *)
  Definition tgs (t : tdef G) : G := match t with TElem _ _ g | TTrans _ _ g _ | TSum _ g _ | TConv _ g _ | TDeconv _ g _ | TInterp _ _ _ _ g => g end.
  Definition tsum (t : tdef G) : bool := match t with TSum _ _ _ => true | _ => false end.
  Lemma tgs_structure : forall o : obj G, tgs (structure o) = gs o.
  Proof using Type. intros []; reflexivity. Qed.
  Lemma tsum_structure : forall o : obj G, tsum (structure o) = is_sum o.
  Proof using Type. intros []; reflexivity. Qed.
  Fixpoint tpgs (g : G) (t : tdef G) : tdef G :=
    if geq g (tgs t) then t else
    match t with
    | TElem k n _ => TElem k n g
    | TTrans t n _ pg => TTrans (if pg then tpgs g t else t) n g pg
    | TSum l _ pg => TSum (if pg then map (tpgs g) l else l) g pg
    | TConv l _ pg => TConv (if pg then map (tpgs g) l else l) g pg
    | TDeconv t _ pg => TDeconv (if pg then tpgs g t else t) g pg
    | TInterp n m chk gi _ => TInterp n m chk (if geq g gi then gi else g) g
    end.
  Lemma structure_pgs : forall g (o : obj G), structure (pgs g (seen o)) = tpgs g (structure (seen o)).
  Proof using Type.
    intro g. induction o as [k ps c|o ps c pg IH|l c pg IH|st l c pg IHs IH|o c pg IH|img ps im c] using obj_ind2; cbn [seen pgs structure tpgs gs tgs]; destruct (geq g c); try reflexivity; try (destruct pg; [|reflexivity]); cbn [structure].
    - rewrite IH. reflexivity.
    - f_equal. rewrite !map_map. apply map_ext_Forall. exact IH.
    - f_equal. rewrite !map_map. apply map_ext_Forall. exact IH.
    - rewrite IH. reflexivity.
    - unfold im_with. destruct (geq g (pi_gs im)); reflexivity.
  Qed.
  Fixpoint count (t : tdef G) : nat :=
    match t with
    | TElem _ n _ => n
    | TTrans t n _ _ => count t + n
    | TSum l _ _ | TConv l _ _ => fold_right (fun t n => count t + n) 0 l
    | TDeconv t _ _ => count t
    | TInterp n m _ _ _ => S (n + S m)
    end%nat.
  Lemma count_structure : forall o : obj G, length (leaves o) = count (structure o).
  Proof using Type.
    assert (L : forall l : list (obj G), Forall (fun o => length (leaves o) = count (structure o)) l -> length (flat_map leaves l) = fold_right (fun t n => count t + n)%nat 0%nat (map structure l)).
    { induction 1; cbn; [reflexivity|]. rewrite app_length. lia. }
    induction o as [k ps c|o ps c pg IH|l c pg IH|st l c pg IHs IH|o c pg IH|img ps im c] using obj_ind2; cbn [leaves structure count]; auto.
    - rewrite app_length. lia.
    - cbn. rewrite app_length. cbn. reflexivity.
  Qed.
  Lemma leaves_seen : forall o, ok o -> leaves (seen o) = leaves o.
  Proof using Type.
    assert (L : forall l : list (obj G), Forall (fun o => ok o -> leaves (seen o) = leaves o) l -> Forall ok l -> flat_map leaves (map seen l) = flat_map leaves l).
    { induction 1; intro O; inversion O; subst; cbn; [reflexivity|]. f_equal; auto. }
    induction o as [k ps c|o ps c pg IH|l c pg IH|st l c pg IHs IH|o c pg IH|img ps im c] using obj_ind2; intro O; inversion O; subst; cbn [leaves seen]; auto.
    - rewrite IH by assumption. reflexivity.
    - rewrite L by assumption. congruence.
  Qed.
  Lemma app_eq : forall (A : Type) (a b c d : list A), length a = length c -> a ++ b = c ++ d -> a = c /\ b = d.
  Proof using Type. induction a; intros b [|x c] d L E; cbn in *; try discriminate; [auto|]. injection E as -> E. injection L as L. destruct (IHa _ _ _ L E). split; congruence. Qed.
  Lemma determined : forall a b : obj G, structure (seen a) = structure (seen b) -> leaves (seen a) = leaves (seen b) -> seen a = seen b.
  Proof using Type.
    assert (L : forall l : list (obj G), Forall (fun a => forall b, structure (seen a) = structure (seen b) -> leaves (seen a) = leaves (seen b) -> seen a = seen b) l ->
      forall l', map structure (map seen l) = map structure (map seen l') -> flat_map leaves (map seen l) = flat_map leaves (map seen l') -> map seen l = map seen l').
    { induction 1 as [|a l H F IH]; intros [|b l'] S E; cbn in *; try discriminate; [reflexivity|]. injection S as S1 S2. apply app_eq in E; [|rewrite !count_structure; congruence]. destruct E as [E1 E2]. f_equal; auto. }
    induction a as [k ps c|o ps c pg IH|l c pg IH|st l c pg IHs IH|o c pg IH|img ps im c] using obj_ind2; intros b S E; destruct b; cbn [seen structure] in S; try discriminate; injection S as; subst; cbn [seen leaves] in *.
    - subst. reflexivity.
    - apply app_eq in E; [|rewrite !count_structure; congruence]. destruct E as [E ->]. f_equal. auto.
    - f_equal. auto.
    - assert (Q : map seen l = map seen l0) by auto. rewrite Q. reflexivity.
    - f_equal. auto.
    - injection E as -> E. apply app_eq in E; [|assumption]. destruct E as [-> E]. injection E as E1 E2. f_equal. destruct im, im0; cbn in *; congruence.
  Qed.

  (** ** Leaves that pass *)
  Lemma take_app : forall n a r, length a = n -> take n (a ++ r) = Ok (a, r).
  Proof using Type. intros n a r <-. unfold take. rewrite app_length. destruct (Nat.ltb_spec (length a + length r) (length a)); [lia|]. rewrite firstn_app, Nat.sub_diag, firstn_O, app_nil_r, firstn_all, skipn_app, Nat.sub_diag, skipn_O, skipn_all. reflexivity. Qed.
  Lemma take_inv : forall n ls a r, take n ls = Ok (a, r) -> ls = a ++ r /\ length a = n.
  Proof using Type. intros n ls a r E. unfold take in E. destruct (Nat.ltb_spec (length ls) n); [discriminate|]. injection E as <- <-. rewrite firstn_skipn, firstn_length. split; [reflexivity|lia]. Qed.
  Lemma free_all : forall n ls, Forall2 passes (repeat Free n) ls <-> length ls = n.
  Proof using Type.
    induction n as [|n IH]; intros ls; cbn.
    - destruct ls; split; intro H; try constructor; try inversion H; reflexivity.
    - destruct ls as [|l ls]; split; intro H; try (inversion H; fail).
      + inversion H; subst. cbn. f_equal. now apply IH.
      + constructor; [exact I|]. apply IH. cbn in H. lia.
  Qed.
  Lemma beta_passes : forall b, check_beta b = Ok tt <-> passes Beta b.
  Proof using Type.
    intros [r|l|]; cbn.
    - destruct (Rltb_spec (11/10) r); split; intro H; try discriminate; auto. contradiction.
    - destruct (forallb _ l) eqn:E; split; intro H; try discriminate; auto.
      + rewrite forallb_forall in E. apply Forall_forall. intros r I. specialize (E r I). destruct (Rltb_spec (11/10) r); [assumption|discriminate].
      + exfalso. assert (Q : forallb (fun r => Rltb (11/10) r) l = true); [|congruence]. apply forallb_forall. intros r I. rewrite Forall_forall in H. specialize (H r I). destruct (Rltb_spec (11/10) r); [reflexivity|contradiction].
    - split; [discriminate|tauto].
  Qed.
  Lemma array_passes : forall chk b, check_image chk b = Ok tt <-> passes (if chk then Array else Free) b.
  Proof using Type.
    intros [] b; cbn; [|tauto]. destruct b as [r|l|]; cbn; [split; [discriminate|tauto]| |split; [discriminate|tauto]].
    unfold Reqb. destruct (Req_EM_T (Rsum l) 0); split; intro H; try discriminate; auto. contradiction.
  Qed.
  Lemma elem_passes : forall k ps (g : G), elem_new k ps g = Ok (Elem k ps g) <-> length ps = arity k /\ Forall2 passes (guards (TElem k (length ps) g)) ps.
  Proof using Type.
    intros k ps g. unfold elem_new. destruct (Nat.eqb_spec (length ps) (arity k)) as [E|N]; [|split; [discriminate|tauto]].
    destruct k; try (split; [intros _; split; [assumption|]; apply free_all; reflexivity|reflexivity]).
    destruct ps as [|b ps]; [discriminate|]. cbn [guards length]. cbn [Nat.sub]. rewrite Nat.sub_0_r. pose proof (beta_passes b) as B. split; intro H.
    - split; [assumption|]. constructor; [|apply free_all; reflexivity]. apply B. destruct (check_beta b) as [[]|]; [reflexivity|discriminate].
    - destruct H as [_ H]. inversion H; subst. apply B in H3. rewrite H3. reflexivity.
  Qed.
  Lemma impl_passes : forall img ps chk (g : G), impl_new img ps chk g = Ok (Impl img ps chk g) <-> passes (if chk then Array else Free) img.
  Proof using Type. intros img ps chk g. rewrite <- array_passes. unfold impl_new. destruct (check_image chk img) as [[]|]; split; intro H; try reflexivity; discriminate. Qed.
  Lemma Forall2_length : forall (A B : Type) (P : A -> B -> Prop) a b, Forall2 P a b -> length a = length b.
  Proof using Type. induction 1; cbn; congruence. Qed.
  Lemma Forall2_app_l : forall (A B : Type) (P : A -> B -> Prop) a1 a2 b, Forall2 P (a1 ++ a2) b -> exists b1 b2, b = b1 ++ b2 /\ Forall2 P a1 b1 /\ Forall2 P a2 b2.
  Proof using Type. intros A B P a1 a2 b F. apply Forall2_app_inv_l in F. destruct F as (b1 & b2 & F1 & F2 & ->). eauto. Qed.
  (** The leaves an object has pass *)
  Lemma own_leaves : forall o, ok o -> Forall2 passes (guards (structure o)) (leaves o).
  Proof using Type.
    assert (L : forall l : list (obj G), Forall (fun o => ok o -> Forall2 passes (guards (structure o)) (leaves o)) l -> Forall ok l -> Forall2 passes (flat_map guards (map structure l)) (flat_map leaves l)).
    { induction 1; intro O; inversion O; subst; cbn; [constructor|]. apply Forall2_app; auto. }
    induction o as [k ps c|o ps c pg IH|l c pg IH|st l c pg IHs IH|o c pg IH|img ps im c] using obj_ind2; intro O; inversion O; subst; cbn [leaves structure].
    - match goal with H : elem_new _ _ _ = _ |- _ => apply elem_passes in H; apply H end.
    - cbn [guards]. apply Forall2_app; [auto|apply free_all; reflexivity].
    - cbn [guards]. auto.
    - cbn [guards]. auto.
    - cbn [guards]. auto.
    - cbn [guards]. constructor; [exact I|]. apply Forall2_app; [apply free_all; reflexivity|]. constructor; [|apply free_all; reflexivity]. destruct im as [a b chk g]. cbn in *. eapply impl_passes. eassumption.
  Qed.
  (** Only leaves that pass are accepted *)
  Lemma unflatten_passes : forall (t : tdef G) ls o r, unflatten geq t ls = Ok (o, r) -> exists a, ls = a ++ r /\ Forall2 passes (guards t) a.
  Proof using Type.
    assert (L : forall l : list (tdef G), Forall (fun t => forall ls o r, unflatten geq t ls = Ok (o, r) -> exists a, ls = a ++ r /\ Forall2 passes (guards t) a) l ->
      forall ls os r, unflattens (unflatten geq) l ls = Ok (os, r) -> exists a, ls = a ++ r /\ Forall2 passes (flat_map guards l) a).
    { induction 1 as [|t l H F IH]; intros ls os r E; cbn in E; [injection E as _ <-; exists []; split; [reflexivity|constructor]|].
      destruct (unflatten geq t ls) as [[o r1]|] eqn:E1; [|discriminate]. cbn [bind snd fst] in E. fold (unflattens (unflatten geq)) in E. destruct (unflattens (unflatten geq) l r1) as [[os' r2]|] eqn:E2; [|discriminate]. cbn [bind snd fst] in E. injection E as _ <-.
      destruct (H _ _ _ E1) as (a & -> & Fa). destruct (IH _ _ _ E2) as (b & -> & Fb). exists (a ++ b). rewrite app_assoc. split; [reflexivity|]. cbn. now apply Forall2_app. }
    induction t as [k n g|t n g pg IH|l g pg IH|l g pg IH|t g pg IH|n m chk gi g] using tdef_ind2; intros ls o r E; cbn [unflatten] in E.
    - destruct (take n ls) as [[a r1]|] eqn:T; [|discriminate]. cbn [bind fst snd] in E. destruct (elem_new k a g) as [e|] eqn:EN; [|discriminate]. injection E as _ <-. apply take_inv in T. destruct T as [-> <-]. exists a. split; [reflexivity|]. rewrite (elem_new_is _ _ _ _ EN) in EN. now apply elem_passes in EN.
    - destruct (unflatten geq t ls) as [[o1 r1]|] eqn:E1; [|discriminate]. cbn [bind fst snd] in E. destruct (take n r1) as [[a r2]|] eqn:T; [|discriminate]. injection E as _ <-. apply take_inv in T. destruct T as [-> <-]. destruct (IH _ _ _ E1) as (b & -> & F). exists (b ++ a). rewrite app_assoc. split; [reflexivity|]. cbn. apply Forall2_app; [exact F|]. now apply free_all.
    - destruct (unflattens (unflatten geq) l ls) as [[os r1]|] eqn:E1; [|discriminate]. cbn [bind fst snd] in E. destruct (sum_new geq os g pg); [|discriminate]. injection E as _ <-. eapply L; eassumption.
    - destruct (unflattens (unflatten geq) l ls) as [[os r1]|] eqn:E1; [|discriminate]. cbn [bind fst snd] in E. destruct (conv_new geq os g pg); [|discriminate]. injection E as _ <-. eapply L; eassumption.
    - destruct (unflatten geq t ls) as [[o1 r1]|] eqn:E1; [|discriminate]. cbn [bind fst snd] in E. destruct (deconv_new geq o1 g pg); [|discriminate]. injection E as _ <-. eapply IH; eassumption.
    - destruct (take 1 ls) as [[a ra]|] eqn:Ta; [|discriminate]. cbn [bind fst snd] in E. destruct (take n ra) as [[b rb]|] eqn:Tb; [|discriminate]. cbn [bind fst snd] in E. destruct (take 1 rb) as [[c rc]|] eqn:Tc; [|discriminate]. cbn [bind fst snd] in E. destruct (take m rc) as [[d rd]|] eqn:Td; [|discriminate]. cbn [bind fst snd] in E.
      apply take_inv in Ta, Tb, Tc, Td. destruct Ta as [-> La], Tb as [-> Lb], Tc as [-> Lc], Td as [-> Ld]. destruct a as [|a []]; try discriminate. destruct c as [|c []]; try discriminate. cbn [hd] in E.
      destruct (impl_new c d chk gi) as [im|] eqn:EI; [|discriminate]. cbn [bind] in E. destruct (interp_new geq a b im g) as [o'|]; [|discriminate]. injection E as _ <-. exists ([a] ++ b ++ [c] ++ d). split; [rewrite <- !app_assoc; reflexivity|]. cbn [guards app].
      constructor; [exact I|]. apply Forall2_app; [now apply free_all|]. constructor; [|now apply free_all]. rewrite (impl_new_is _ _ _ _ _ EI) in EI. eapply impl_passes. eassumption.
  Qed.
  (** All of these are *)
  Lemma flat_single : forall l : list (obj G), Forall (fun o => is_sum o = false) l -> flat_map (fun o : obj G => match o with Sum l' _ _ => l' | _ => [o] end) l = l.
  Proof using Type. induction 1 as [|o l N F IH]; [reflexivity|]. cbn. rewrite IH. destruct o; try reflexivity. discriminate. Qed.
  Lemma mapM_same : forall g l, Forall (fun o => gs o = g) l -> mapM (withGS geq g) l = Ok l.
  Proof using GE. induction 1 as [|o l N F IH]; [reflexivity|]. rewrite mapM_cons, IH, <- N, with_same. reflexivity. Qed.
  Definition alike (o : obj G) (a : list leaf) (o' : obj G) : Prop := ok o' /\ leaves o' = a /\ structure (seen o') = structure (seen o).
  Lemma alike_gs : forall o a o', alike o a o' -> gs o' = gs o.
  Proof using Type. intros o a o' (_ & _ & E). rewrite <- (gs_seen o), <- (gs_seen o'), <- !tgs_structure, E. reflexivity. Qed.
  Lemma alike_sum : forall o a o', alike o a o' -> is_sum o' = is_sum o.
  Proof using Type. intros o a o' (_ & _ & E). rewrite <- (sum_seen o), <- (sum_seen o'), <- !tsum_structure, E. reflexivity. Qed.
  Lemma accepted : forall o, ok o -> forall a r, Forall2 passes (guards (structure o)) a -> exists o', unflatten geq (structure o) (a ++ r) = Ok (o', r) /\ alike o a o'.
  Proof using GE.
    assert (L : forall l : list (obj G), Forall (fun o => ok o -> forall a r, Forall2 passes (guards (structure o)) a -> exists o', unflatten geq (structure o) (a ++ r) = Ok (o', r) /\ alike o a o') l -> Forall ok l ->
      forall a r, Forall2 passes (flat_map guards (map structure l)) a -> exists l', unflattens (unflatten geq) (map structure l) (a ++ r) = Ok (l', r) /\ Forall2 (fun o o' => exists b, alike o b o') l l' /\ flat_map leaves l' = a).
    { induction 1 as [|o l H F IH]; intros O a r P; inversion O; subst; cbn [map flat_map] in *.
      - inversion P; subst. exists []. split; [reflexivity|]. split; [constructor|reflexivity].
      - apply Forall2_app_l in P. destruct P as (a1 & a2 & -> & P1 & P2). rewrite <- app_assoc. destruct (H ltac:(assumption) a1 (a2 ++ r) P1) as (o' & E & Al). destruct (IH ltac:(assumption) a2 r P2) as (l' & E2 & F2 & L2).
        exists (o' :: l'). cbn [unflattens]. rewrite E. cbn [bind fst snd]. fold (unflattens (unflatten geq)). rewrite E2. split; [reflexivity|]. split; [constructor; eauto|]. cbn. rewrite L2. destruct Al as (_ & -> & _). reflexivity. }
    assert (LO : forall l l', Forall2 (fun o o' => exists b, alike o b o') l l' -> Forall ok l' /\ map structure (map seen l') = map structure (map seen l) /\ (forall g, Forall (fun o => gs o = g) l -> Forall (fun o => gs o = g) l') /\ (Forall (fun o => is_sum o = false) l -> Forall (fun o => is_sum o = false) l')).
    { induction 1 as [|o o' l l' (b & Al) F (A & B & C & D)]; [repeat split; constructor|]. split; [constructor; [apply Al|exact A]|]. split; [cbn; f_equal; [apply Al|exact B]|]. split.
      - intros g Q. inversion Q; subst. constructor; [eapply alike_gs; eassumption|]. auto.
      - intros Q. inversion Q; subst. constructor; [erewrite alike_sum by eassumption; assumption|]. auto. }
    induction o as [k ps c|o ps c pg IH|l c pg IH|st l c pg IHs IH|o c pg IH|img ps im c] using obj_ind2; intros O a r P; inversion O; subst; cbn [structure unflatten] in *.
    - assert (EN : elem_new k a c = Ok (Elem k a c)).
      { match goal with H : elem_new _ _ _ = _ |- _ => apply elem_passes in H; destruct H as [LL PP] end. assert (LA : length a = length ps) by (rewrite <- (Forall2_length _ _ _ _ _ P); exact (Forall2_length _ _ _ _ _ PP)). apply elem_passes. rewrite LA. auto. }
      assert (LA : length a = length ps). { match goal with H : elem_new _ ps _ = _ |- _ => apply elem_passes in H; destruct H as [LL PP] end. rewrite <- (Forall2_length _ _ _ _ _ P). exact (Forall2_length _ _ _ _ _ PP). }
      rewrite take_app by exact LA. cbn [bind fst snd]. rewrite EN. cbn [bind]. exists (Elem k a c). split; [reflexivity|]. split; [constructor; exact EN|]. split; [reflexivity|]. cbn. rewrite LA. reflexivity.
    - cbn [guards] in P. apply Forall2_app_l in P. destruct P as (a1 & a2 & -> & P1 & P2). apply free_all in P2. rewrite <- app_assoc. destruct (IH ltac:(assumption) a1 (a2 ++ r) P1) as (o' & -> & Al). cbn [bind fst snd]. rewrite take_app by exact P2. cbn [bind fst snd]. exists (Trans o' a2 c pg). split; [reflexivity|].
      pose proof (alike_gs _ _ _ Al) as AG. destruct Al as (A1 & A2 & A3). split; [constructor; [exact A1|intros E; rewrite AG; auto]|]. split; [cbn; rewrite A2; reflexivity|]. cbn. rewrite A3, P2. reflexivity.
    - cbn [guards] in P. destruct (L l ltac:(assumption) ltac:(assumption) a r P) as (l' & -> & F & LL). cbn [bind fst snd]. destruct (LO _ _ F) as (A & B & C & D). unfold sum_new. rewrite flat_single by auto.
      assert (E : (if pg then mapM (withGS geq c) l' else Ok l') = Ok l'). { destruct pg; [|reflexivity]. apply mapM_same, C. auto. }
      rewrite E. cbn [bind]. exists (Sum l' c pg). split; [reflexivity|]. split; [constructor; auto|]. split; [exact LL|]. cbn. rewrite B. reflexivity.
    - cbn [guards] in P. destruct (L st ltac:(assumption) ltac:(assumption) a r P) as (st' & -> & F & LL). cbn [bind fst snd]. destruct (LO _ _ F) as (A & B & C & D). destruct (conv_new_ok st' c pg A) as (l' & -> & OC & SL & LV). cbn [bind]. exists (Conv l' l' c pg). split; [reflexivity|]. split; [exact OC|]. split; [cbn; congruence|]. cbn [seen structure]. f_equal. rewrite SL. destruct pg.
      + destruct (H5 eq_refl) as [_ ->]. rewrite !map_map. rewrite !map_map in B. clear - B GE. revert st' B. induction st as [|x st IH]; intros [|y st'] B; cbn in *; try discriminate; [reflexivity|]. injection B as B1 B2. f_equal; [|apply IH; exact B2]. rewrite !structure_pgs, B1. reflexivity.
      + rewrite <- (H6 eq_refl). exact B.
    - destruct (IH ltac:(assumption) a r P) as (o' & -> & Al). cbn [bind fst snd]. pose proof (alike_gs _ _ _ Al) as AG. destruct Al as (A1 & A2 & A3). unfold deconv_new. assert (E : (if pg then withGS geq c o' else Ok o') = Ok o'). { destruct pg; [|reflexivity]. rewrite <- (H3 eq_refl), <- AG. apply with_same. }
      rewrite E. cbn [bind]. exists (Deconv o' c pg). split; [reflexivity|]. split; [constructor; [exact A1|intros; rewrite AG; auto]|]. split; [exact A2|]. cbn. rewrite A3. reflexivity.
    - cbn [guards] in P. inversion P as [|g0 a0 gl al _ P2]; subst. apply Forall2_app_l in P2. destruct P2 as (b & c & -> & Pb & Pc). inversion Pc as [|g1 c0 gl1 d Pi Pd]; subst. apply free_all in Pb, Pd.
      change ((a0 :: b ++ c0 :: d) ++ r) with ([a0] ++ (b ++ [c0] ++ d) ++ r). rewrite <- !app_assoc. rewrite take_app by reflexivity. cbn [bind fst snd]. rewrite take_app by exact Pb. cbn [bind fst snd]. rewrite take_app by reflexivity. cbn [bind fst snd]. rewrite take_app by exact Pd. cbn [bind fst snd hd].
      apply (impl_passes c0 d (pi_chk im) (pi_gs im)) in Pi. rewrite Pi. cbn [bind]. unfold interp_new, impl_with. cbn [pi_gs]. rewrite geq_refl. cbn [bind].
      eexists. split; [reflexivity|]. split; [constructor; [exact Pi|reflexivity]|]. split; [reflexivity|]. cbn. rewrite Pb, Pd. reflexivity.
  Qed.
  Lemma which_leaves : forall o ls, ok o -> (Forall2 passes (guards (structure o)) ls -> exists o', tree_unflatten geq (structure o) ls = Ok o' /\ alike o ls o') /\ (forall o', tree_unflatten geq (structure o) ls = Ok o' -> Forall2 passes (guards (structure o)) ls).
  Proof using GE.
    intros o ls O. unfold tree_unflatten. split.
    - intro P. destruct (accepted o O ls [] P) as (o' & E & A). rewrite app_nil_r in E. rewrite E. exists o'. split; [reflexivity|exact A].
    - intros o' E. destruct (unflatten geq (structure o) ls) as [[o1 r]|] eqn:E1; [|discriminate]. cbn [bind snd fst] in E. destruct r; [|discriminate]. destruct (unflatten_passes _ _ _ _ E1) as (a & -> & P). rewrite app_nil_r. exact P.
  Qed.
  Lemma round_trip : forall o, ok o -> exists o', tree_unflatten geq (structure o) (leaves o) = Ok o' /\ seen o' = seen o /\ leaves o' = leaves o.
  Proof using GE.
    intros o O. destruct (which_leaves o (leaves o) O) as [W _]. destruct (W (own_leaves o O)) as (o' & E & A1 & A2 & A3). exists o'. split; [exact E|]. split; [|exact A2]. apply determined; [exact A3|]. rewrite !leaves_seen by assumption. exact A2.
  Qed.
  Lemma fresh_ind : forall l : list (obj G), fold_right (fun o P => fresh o /\ P) True l -> Forall fresh l.
  Proof using Type. induction l; cbn; constructor; tauto. Qed.
  Lemma exact_trip : forall o, ok o -> fresh o -> forall r, unflatten geq (structure o) (leaves o ++ r) = Ok (o, r).
  Proof using GE.
    assert (L : forall l : list (obj G), Forall (fun o => ok o -> fresh o -> forall r, unflatten geq (structure o) (leaves o ++ r) = Ok (o, r)) l -> Forall ok l -> Forall fresh l -> forall r, unflattens (unflatten geq) (map structure l) (flat_map leaves l ++ r) = Ok (l, r)).
    { induction 1 as [|o l H F IH]; intros O Fr r; [reflexivity|]. inversion O; inversion Fr; subst. cbn [map flat_map unflattens]. rewrite <- app_assoc, H by assumption. cbn [bind fst snd]. fold (unflattens (unflatten geq)). rewrite IH by assumption. reflexivity. }
    induction o as [k ps c|o ps c pg IH|l c pg IH|st l c pg IHs IH|o c pg IH|img ps im c] using obj_ind2; intros O F r; inversion O; subst; cbn [structure unflatten leaves fresh] in *.
    - rewrite take_app by reflexivity. cbn [bind fst snd]. match goal with H : elem_new _ _ _ = _ |- _ => rewrite H end. reflexivity.
    - rewrite <- app_assoc, IH by assumption. cbn [bind fst snd]. rewrite take_app by reflexivity. reflexivity.
    - apply fresh_ind in F. rewrite L by assumption. cbn [bind fst snd]. unfold sum_new. rewrite flat_single by assumption. assert (E : (if pg then mapM (withGS geq c) l else Ok l) = Ok l). { destruct pg; [|reflexivity]. apply mapM_same. auto. } rewrite E. reflexivity.
    - destruct F as [<- F]. apply fresh_ind in F. rewrite L by assumption. cbn [bind fst snd]. unfold conv_new. assert (E : (if pg then mapM (withGS geq c) st else Ok st) = Ok st). { destruct pg; [|reflexivity]. apply mapM_same. now apply H5. } rewrite E. reflexivity.
    - rewrite IH by assumption. cbn [bind fst snd]. unfold deconv_new. assert (E : (if pg then withGS geq c o else Ok o) = Ok o). { destruct pg; [|reflexivity]. rewrite <- (H3 eq_refl). apply with_same. } rewrite E. reflexivity.
    - change ((img :: ps ++ pi_img im :: pi_ps im) ++ r) with ([img] ++ (ps ++ [pi_img im] ++ pi_ps im) ++ r). rewrite <- !app_assoc. rewrite take_app by reflexivity. cbn [bind fst snd]. rewrite take_app by reflexivity. cbn [bind fst snd]. rewrite take_app by reflexivity. cbn [bind fst snd]. rewrite take_app by reflexivity. cbn [bind fst snd hd].
      match goal with H : impl_new _ _ _ _ = _ |- _ => rewrite H end. cbn [bind]. unfold interp_new, impl_with. rewrite geq_refl. reflexivity.
  Qed.
  Lemma exact_round_trip : forall o, ok o -> fresh o -> tree_unflatten geq (structure o) (leaves o) = Ok o.
  Proof using GE. intros o O F. unfold tree_unflatten. pose proof (exact_trip o O F []) as E. rewrite app_nil_r in E. rewrite E. reflexivity. Qed.
End Proofs.

Lemma wcs_which : forall k ls, (exists w, wcs_unflatten k ls = Ok w) <-> length ls = warity k /\ (k = WShear \/ k = WOffsetShear -> nth 1 ls (PyNum 0) <> Other).
Proof.
  intros k ls. unfold wcs_unflatten, wcs_new. destruct (Nat.eqb_spec (length ls) (warity k)) as [E|N]; [|split; [intros (w & ?); discriminate|tauto]].
  destruct k; try (split; [intros _; split; [assumption|]; intros [?|?]; discriminate|eauto]).
  - destruct ls as [|a [|b ls]]; try discriminate. cbn [nth]. split.
    + intros (w & H). split; [assumption|]. intros _ ->. discriminate.
    + intros [_ H]. specialize (H (or_introl eq_refl)). destruct b; try congruence; cbn; eauto.
  - destruct ls as [|a [|b ls]]; try discriminate. cbn [nth]. split.
    + intros (w & H). split; [assumption|]. intros _ ->. discriminate.
    + intros [_ H]. specialize (H (or_intror eq_refl)). destruct b; try congruence; cbn; eauto.
Qed.
Lemma wcs_trip : forall k ps w, wcs_new k ps = Ok w -> wcs_flatten w = (ps, k) /\ wcs_unflatten (snd (wcs_flatten w)) (fst (wcs_flatten w)) = Ok w.
Proof.
  intros k ps w E. assert (W : w = Wcs k ps). { unfold wcs_new in E. destruct (length ps =? warity k)%nat; [|discriminate]. destruct k, ps as [|a [|b ps]]; try congruence; destruct (has_real b); cbn [bind] in E; congruence. }
  subst w. split; [reflexivity|exact E].
Qed.
