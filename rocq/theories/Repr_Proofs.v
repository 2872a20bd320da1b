(** Proofs about representations. *)
From Coq Require Import Reals Bool List Lra.
From Verif Require Import Base Bounds_Model Bounds_Proofs Geo_Model GSP_Model Prof_Model Prof_Spec Prof_Proofs Repr_Model Repr_Spec.
Import ListNotations.
Open Scope R_scope.

Definition is_sum (p : prof) : bool := match p with PSum _ _ _ => true | _ => false end.
Definition is_tr (p : prof) : bool := match p with PTr _ _ _ _ _ _ => true | _ => false end.
(** With [b] false, only the shape. *)
Definition local (b : bool) (p : prof) : Prop :=
  match p with
  | PLeaf _ _ _ _ => True
  | PTr o _ _ _ g pg => is_tr o = false /\ (b = true -> pg = true -> gsparams o = g)
  | PSum l g pg => l <> [] /\ Forall (fun o => is_sum o = false /\ (b = true -> pg = true -> gsparams o = g)) l
  | PConv l g pg => l <> [] /\ Forall (fun o => b = true -> pg = true -> gsparams o = g) l
  | PDec o g pg => b = true -> pg = true -> gsparams o = g
  end.
Definition cons (b : bool) : prof -> Prop := everywhere (local b).

Lemma gs_with : forall g p, gsparams (withGSP g p) = g.
Proof. intros g p. destruct p; unfold withGSP; fold withGSP; cbn [gsparams]; destruct (gspR_eqb_spec g g0); cbn [gsparams]; congruence. Qed.
Lemma sum_with : forall g p, is_sum (withGSP g p) = is_sum p.
Proof. intros g p. destruct p; unfold withGSP; fold withGSP; cbn [gsparams]; destruct (gspR_eqb_spec g g0); reflexivity. Qed.
Lemma tr_with : forall g p, is_tr (withGSP g p) = is_tr p.
Proof. intros g p. destruct p; unfold withGSP; fold withGSP; cbn [gsparams]; destruct (gspR_eqb_spec g g0); reflexivity. Qed.
Lemma flat_none : forall {B} (f : prof -> B) (h : list prof -> list B) l, Forall (fun o => is_sum o = false) l ->
  flat_map (fun o => match o with PSum l' _ _ => h l' | _ => [f o] end) l = map f l.
Proof.
  intros B f h l F. induction F as [|o l Ho F IH]; [reflexivity|]. cbn [flat_map map]. rewrite IH. destruct o; try reflexivity. discriminate.
Qed.
Lemma cons_with : forall b g p, cons b p -> cons b (withGSP g p).
Proof.
  intros b g p. induction p as [own fam fl g0|o J off fr g0 pg IH|l g0 pg IH|l g0 pg IH|o g0 pg IH] using prof_ind2; intro C;
    unfold withGSP; fold withGSP; cbn [gsparams]; destruct (gspR_eqb_spec g g0) as [E|E]; try exact C; destruct C as [L C].
  - destruct L as [L1 L2]. split; [|destruct pg; [exact (IH C)|exact C]]. destruct pg; (split; [try rewrite tr_with; exact L1|intros _ K; try discriminate; apply gs_with]).
  - destruct L as [L1 L2]. apply every_list in C.
    assert (NS : Forall (fun o => is_sum o = false) l) by (eapply Forall_impl; [|exact L2]; intros o [H _]; exact H).
    assert (FM : flat_map (fun o => match o with PSum l' _ _ => map (fun o' => if pg then withGSP g o' else o') l' | _ => [if pg then withGSP g o else o] end) l
      = map (fun o => if pg then withGSP g o else o) l).
    { apply (flat_none (fun o => if pg then withGSP g o else o) (map (fun o' => if pg then withGSP g o' else o'))). exact NS. }
    rewrite FM. split.
    + split; [intro K; apply map_eq_nil in K; contradiction|]. rewrite Forall_forall in *. intros o Ho. apply in_map_iff in Ho.
      destruct Ho as (q & <- & Hq). destruct pg; [rewrite sum_with; split; [apply NS; exact Hq|intros _ _; apply gs_with]|split; [apply NS; exact Hq|intros _ K'; discriminate]].
    + apply every_list. rewrite Forall_forall in *. intros o Ho. apply in_map_iff in Ho. destruct Ho as (q & <- & Hq). destruct pg; [exact (IH q Hq (C q Hq))|exact (C q Hq)].
  - destruct L as [L1 L2]. apply every_list in C. split.
    + split; [intro K; apply map_eq_nil in K; contradiction|]. rewrite Forall_forall in *. intros o Ho. apply in_map_iff in Ho.
      destruct Ho as (q & <- & Hq). intros _ P. rewrite P. apply gs_with.
    + apply every_list. rewrite Forall_forall in *. intros o Ho. apply in_map_iff in Ho. destruct Ho as (q & <- & Hq). destruct pg; [exact (IH q Hq (C q Hq))|exact (C q Hq)].
  - split; [|destruct pg; [exact (IH C)|exact C]]. cbn [local]. intros _ P. rewrite P. apply gs_with.
Qed.

Lemma made_cons : forall b p, made (fun o pg => b = true -> careful o pg) p -> cons b p.
Proof.
  intros b p M. induction M as [own fam fl g|o J off fr gs pg M IH K|l gs pg s M IH E|l rs gs pg s M IH E|o gs pg M IH|p g M IH].
  - split; exact Logic.I.
  - unfold mkTransform. set (g := match gs with Some g => g | None => gsparams o end).
    assert (C : cons b (if pg then withGSP g o else o)) by (destruct pg; [apply cons_with|]; exact IH).
    destruct o as [own fam fl g0|o J' off' fr' g0 pg'|l g0 pg'|l g0 pg'|o g0 pg'].
    + destruct pg; [|split; [split; [reflexivity|intros _ K'; discriminate]|exact C]].
      pose proof (gs_with g (PLeaf own fam fl g0)) as G. pose proof (tr_with g (PLeaf own fam fl g0)) as T.
      destruct (withGSP g (PLeaf own fam fl g0)) eqn:Q; try discriminate; (split; [split; [reflexivity|intros _ _; exact G]|exact C]).
    + destruct pg.
      * assert (W : exists o', withGSP g (PTr o J' off' fr' g0 pg') = PTr o' J' off' fr' g pg' /\ (b = true -> gsparams o' = g)).
        { unfold withGSP; fold withGSP; cbn [gsparams]. destruct (gspR_eqb_spec g g0) as [Q|Q].
          - exists o. split; [rewrite Q; reflexivity|]. intro Hb. specialize (K Hb). destruct pg'; [|discriminate]. destruct IH as [[_ L] _]. rewrite Q. exact (L Hb eq_refl).
          - exists (if pg' then withGSP g o else o). split; [reflexivity|]. intro Hb. specialize (K Hb). destruct pg'; [|discriminate]. apply gs_with. }
        destruct W as (o' & W & Wg). rewrite W in *. destruct C as [[L1 L2] C]. split; [split; [exact L1|intros Hb _; exact (Wg Hb)]|exact C].
      * destruct IH as [[L1 L2] C']. split; [split; [exact L1|intros _ K'; discriminate]|exact C'].
    + destruct pg; [|split; [split; [reflexivity|intros _ K'; discriminate]|exact C]].
      pose proof (gs_with g (PSum l g0 pg')) as G. pose proof (tr_with g (PSum l g0 pg')) as T.
      destruct (withGSP g (PSum l g0 pg')) eqn:Q; try discriminate; (split; [split; [reflexivity|intros _ _; exact G]|exact C]).
    + destruct pg; [|split; [split; [reflexivity|intros _ K'; discriminate]|exact C]].
      pose proof (gs_with g (PConv l g0 pg')) as G. pose proof (tr_with g (PConv l g0 pg')) as T.
      destruct (withGSP g (PConv l g0 pg')) eqn:Q; try discriminate; (split; [split; [reflexivity|intros _ _; exact G]|exact C]).
    + destruct pg; [|split; [split; [reflexivity|intros _ K'; discriminate]|exact C]].
      pose proof (gs_with g (PDec o g0 pg')) as G. pose proof (tr_with g (PDec o g0 pg')) as T.
      destruct (withGSP g (PDec o g0 pg')) eqn:Q; try discriminate; (split; [split; [reflexivity|intros _ _; exact G]|exact C]).
  - destruct l as [|a t]; [discriminate|]. unfold mkSum in E. set (fl := flat_map (fun o => match o with PSum l' _ _ => l' | _ => [o] end) (a :: t)) in E.
    assert (F : Forall (fun o => cons b o /\ is_sum o = false) fl).
    { apply Forall_forall. intros o Ho. apply in_flat_map in Ho. destruct Ho as (q & Hq & Ho). specialize (IH q Hq).
      destruct q as [| |l' g' pg'| |]; try (destruct Ho as [<-|[]]; split; [exact IH|reflexivity]).
      destruct IH as [[_ L] C]. apply every_list in C. rewrite Forall_forall in L, C. split; [apply C; exact Ho|apply L; exact Ho]. }
    assert (NE : fl <> []).
    { unfold fl. cbn [flat_map]. specialize (IH a (or_introl eq_refl)). destruct a as [| |l' g' pg'| |]; try discriminate.
      destruct IH as [[L _] _]. destruct l'; [contradiction|discriminate]. }
    destruct (match gs with Some g => Ok g | None => gspR_combine (map gsparams fl) end) as [g|] eqn:G; [|discriminate]. cbn [bind] in E. injection E as <-.
    destruct pg.
    + split.
      * split; [intro K; apply map_eq_nil in K; contradiction|]. rewrite Forall_forall in *. intros o Ho. apply in_map_iff in Ho. destruct Ho as (q & <- & Hq).
        rewrite sum_with. split; [apply F; exact Hq|intros _ _; apply gs_with].
      * apply every_list. rewrite Forall_forall in *. intros o Ho. apply in_map_iff in Ho. destruct Ho as (q & <- & Hq). apply cons_with. apply F; exact Hq.
    + split.
      * split; [exact NE|]. rewrite Forall_forall in *. intros o Ho. split; [apply F; exact Ho|intros _ K'; discriminate].
      * apply every_list. rewrite Forall_forall in *. intros o Ho. apply F; exact Ho.
  - destruct l as [|a t]; [discriminate|]. unfold mkConv in E. destruct (decide_real_space rs (a :: t)) as [[]|]; try discriminate. cbn [bind] in E.
    destruct (match gs with Some g => Ok g | None => gspR_combine (map gsparams (a :: t)) end) as [g|] eqn:G; [|discriminate]. cbn [bind] in E. injection E as <-.
    destruct pg.
    + split.
      * split; [discriminate|]. apply Forall_forall. intros o Ho. change (In o (map (withGSP g) (a :: t))) in Ho. apply in_map_iff in Ho. destruct Ho as (q & <- & Hq). intros _ _; apply gs_with.
      * apply every_list. apply Forall_forall. intros o Ho. change (In o (map (withGSP g) (a :: t))) in Ho. apply in_map_iff in Ho. destruct Ho as (q & <- & Hq). apply cons_with. apply IH; exact Hq.
    + split.
      * split; [discriminate|]. apply Forall_forall. intros o Ho _ K'. discriminate.
      * apply every_list. apply Forall_forall. intros o Ho. apply IH; exact Ho.
  - unfold mkDec. set (g := match gs with Some g => g | None => gsparams o end). destruct pg.
    + split; [intros _ _; apply gs_with|apply cons_with; exact IH].
    + split; [intros _ K'; discriminate|exact IH].
  - apply cons_with. exact IH.
Qed.

Lemma all_ok_map : forall l, Forall (fun p => eval (repr p) = Ok p) l -> all_ok (map eval (map repr l)) = Ok l.
Proof. intros l F. induction F as [|p l H F IH]; [reflexivity|]. cbn [map all_ok]. rewrite H. cbn [bind]. rewrite IH. reflexivity. Qed.
Lemma map_same : forall g l, Forall (fun o => gsparams o = g) l -> map (withGSP g) l = l.
Proof. intros g l F. induction F as [|p l H F IH]; [reflexivity|]. cbn [map]. rewrite IH, <- H, withGSP_same. reflexivity. Qed.
Lemma cons_roundtrip : forall p, cons true p -> eval (repr p) = Ok p.
Proof.
  intro p. induction p as [own fam fl g|o J off fr g pg IH|l g pg IH|l g pg IH|o g pg IH] using prof_ind2; intros [L C]; cbn [repr eval].
  - reflexivity.
  - rewrite (IH C). cbn [bind]. destruct L as [L1 L2]. unfold mkTransform. f_equal.
    assert (E : (if pg then withGSP g o else o) = o) by (destruct pg; [rewrite <- (L2 eq_refl eq_refl); apply withGSP_same|reflexivity]).
    rewrite E. destruct o; try reflexivity. discriminate.
  - apply every_list in C. destruct L as [L1 L2]. rewrite all_ok_map.
    2:{ rewrite Forall_forall in *. intros q Hq. apply IH; [exact Hq|exact (C q Hq)]. }
    cbn [bind]. unfold mkSum. destruct l as [|a t]; [contradiction|].
    assert (FM : flat_map (fun o => match o with PSum l' _ _ => l' | _ => [o] end) (a :: t) = a :: t).
    { transitivity (map (fun o : prof => o) (a :: t)); [|apply map_id]. apply (flat_none (fun o : prof => o) (fun l => l)).
      eapply Forall_impl; [|exact L2]. intros q [H _]; exact H. }
    rewrite FM. cbn [bind]. do 2 f_equal. destruct pg; [|reflexivity]. apply map_same. eapply Forall_impl; [|exact L2]. intros q [_ H]; exact (H eq_refl eq_refl).
  - apply every_list in C. destruct L as [L1 L2]. rewrite all_ok_map.
    2:{ rewrite Forall_forall in *. intros q Hq. apply IH; [exact Hq|exact (C q Hq)]. }
    cbn [bind]. unfold mkConv. destruct l as [|a t]; [contradiction|]. cbn [decide_real_space bind]. do 2 f_equal. destruct pg; [|reflexivity].
    apply map_same. eapply Forall_impl; [|exact L2]. intros q H; exact (H eq_refl eq_refl).
  - rewrite (IH C). cbn [bind]. unfold mkDec. destruct pg; [|reflexivity]. cbn [local] in L. rewrite <- (L eq_refl eq_refl), withGSP_same. reflexivity.
Qed.

(** * One trip settles the gsparams and changes nothing else *)
Lemma erase_with : forall g p, cons false p -> erase (withGSP g p) = erase p.
Proof.
  intros g p. induction p as [own fam fl g0|o J off fr g0 pg IH|l g0 pg IH|l g0 pg IH|o g0 pg IH] using prof_ind2; intro C;
    unfold withGSP; fold withGSP; cbn [gsparams]; destruct (gspR_eqb_spec g g0) as [E|E]; try reflexivity; destruct C as [L C].
  - cbn [erase]. destruct pg; [rewrite (IH C)|]; reflexivity.
  - apply every_list in C. destruct L as [_ L].
    assert (FM : flat_map (fun o => match o with PSum l' _ _ => map (fun o' => if pg then withGSP g o' else o') l' | _ => [if pg then withGSP g o else o] end) l
      = map (fun o => if pg then withGSP g o else o) l).
    { apply (flat_none (fun o => if pg then withGSP g o else o) (map (fun o' => if pg then withGSP g o' else o'))).
      eapply Forall_impl; [|exact L]. intros q [H _]; exact H. }
    rewrite FM. cbn [erase]. rewrite map_map. f_equal. apply map_ext_in. intros q Hq. rewrite Forall_forall in IH, C. destruct pg; [exact (IH q Hq (C q Hq))|reflexivity].
  - apply every_list in C. cbn [erase]. rewrite map_map. f_equal. apply map_ext_in. intros q Hq. rewrite Forall_forall in IH, C.
    destruct pg; [exact (IH q Hq (C q Hq))|reflexivity].
  - cbn [erase]. destruct pg; [rewrite (IH C)|]; reflexivity.
Qed.
Lemma cons_weak : forall p, cons true p -> cons false p.
Proof.
  intro p. induction p as [own fam fl g0|o J off fr g0 pg IH|l g0 pg IH|l g0 pg IH|o g0 pg IH] using prof_ind2; intros [L C].
  - split; exact Logic.I.
  - split; [split; [exact (proj1 L)|discriminate]|exact (IH C)].
  - apply every_list in C. split; [split; [exact (proj1 L)|]|apply every_list]; rewrite Forall_forall in *; intros q Hq; [|exact (IH q Hq (C q Hq))].
    destruct L as [_ L]. rewrite Forall_forall in L. split; [apply L; exact Hq|discriminate].
  - apply every_list in C. split; [split; [exact (proj1 L)|]|apply every_list]; rewrite Forall_forall in *; intros q Hq; [discriminate|exact (IH q Hq (C q Hq))].
  - split; [discriminate|exact (IH C)].
Qed.
Definition settled (p q : prof) : Prop := eval (repr p) = Ok q /\ cons true q /\ erase q = erase p.
Lemma erase_tr : forall p q, erase q = erase p -> is_tr q = is_tr p.
Proof. intros p q E. destruct p, q; try discriminate E; reflexivity. Qed.
Lemma erase_sum : forall p q, erase q = erase p -> is_sum q = is_sum p.
Proof. intros p q E. destruct p, q; try discriminate E; reflexivity. Qed.
Lemma settle_list : forall l, Forall (fun p => exists q, settled p q) l ->
  exists m, all_ok (map eval (map repr l)) = Ok m /\ Forall (cons true) m /\ map erase m = map erase l.
Proof.
  intros l F. induction F as [|p l (q & E & C & H) F (m & IE & IC & IH)].
  - exists []. repeat split; constructor.
  - exists (q :: m). cbn [map all_ok]. rewrite E. cbn [bind]. rewrite IE. split; [reflexivity|]. split; [constructor; assumption|]. rewrite H, IH. reflexivity.
Qed.
Lemma no_sums : forall l m, map erase m = map erase l -> Forall (fun o => is_sum o = false) l -> Forall (fun o => is_sum o = false) m.
Proof.
  induction l as [|a l IH]; intros [|b m] E F; try discriminate; constructor; inversion F; subst; injection E as E1 E2.
  - rewrite (erase_sum _ _ E1). assumption.
  - apply IH; assumption.
Qed.
Lemma settles : forall p, cons false p -> exists q, settled p q.
Proof.
  intro p. induction p as [own fam fl g|o J off fr g pg IH|l g pg IH|l g pg IH|o g pg IH] using prof_ind2; intros [L C]; unfold settled; cbn [repr eval].
  - exists (PLeaf own fam fl g). repeat split.
  - destruct (IH C) as (q & E & Cq & H). rewrite E. cbn [bind]. set (q' := if pg then withGSP g q else q).
    assert (T : is_tr q' = false) by (unfold q'; destruct pg; try rewrite tr_with; rewrite (erase_tr _ _ H); exact (proj1 L)).
    exists (PTr q' J off fr g pg). split; [|split].
    + unfold mkTransform. fold q'. destruct q'; try reflexivity. discriminate T.
    + split; [split; [exact T|]|unfold q'; destruct pg; [apply cons_with|]; exact Cq]. intros _ Hp. unfold q'. rewrite Hp. apply gs_with.
    + cbn [erase]. do 1 f_equal. unfold q'. destruct pg; [rewrite (erase_with _ _ (cons_weak _ Cq))|]; exact H.
  - apply every_list in C. destruct L as [L1 L2]. assert (FS : Forall (fun p => exists q, settled p q) l).
    { rewrite Forall_forall in *. intros q Hq. exact (IH q Hq (C q Hq)). }
    destruct (settle_list l FS) as (m & E & Cm & H). rewrite E. cbn [bind].
    assert (NS : Forall (fun o => is_sum o = false) m).
    { apply (no_sums l); [exact H|]. eapply Forall_impl; [|exact L2]. intros q [K _]; exact K. }
    assert (NE : m <> []) by (destruct l; [contradiction|destruct m; [discriminate H|discriminate]]).
    exists (PSum (if pg then map (withGSP g) m else m) g pg). split; [|split].
    + unfold mkSum. destruct m as [|a t]; [contradiction|].
      assert (FM : flat_map (fun o => match o with PSum l' _ _ => l' | _ => [o] end) (a :: t) = a :: t).
      { transitivity (map (fun o : prof => o) (a :: t)); [|apply map_id]. apply (flat_none (fun o : prof => o) (fun l => l)). exact NS. }
      rewrite FM. cbn [bind]. reflexivity.
    + destruct pg.
      * split.
        -- split; [intro K; apply map_eq_nil in K; contradiction|]. rewrite Forall_forall in *. intros o Ho. apply in_map_iff in Ho. destruct Ho as (q & <- & Hq).
           rewrite sum_with. split; [exact (NS q Hq)|intros _ _; apply gs_with].
        -- apply every_list. rewrite Forall_forall in *. intros o Ho. apply in_map_iff in Ho. destruct Ho as (q & <- & Hq). apply cons_with. exact (Cm q Hq).
      * split; [split; [exact NE|]|apply every_list; exact Cm]. rewrite Forall_forall in *. intros o Ho. split; [exact (NS o Ho)|intros _ K; discriminate].
    + cbn [erase]. f_equal. rewrite <- H. destruct pg; [|reflexivity]. rewrite map_map. apply map_ext_in. intros q Hq. rewrite Forall_forall in Cm.
      apply erase_with, cons_weak. exact (Cm q Hq).
  - apply every_list in C. destruct L as [L1 L2]. assert (FS : Forall (fun p => exists q, settled p q) l).
    { rewrite Forall_forall in *. intros q Hq. exact (IH q Hq (C q Hq)). }
    destruct (settle_list l FS) as (m & E & Cm & H). rewrite E. cbn [bind].
    assert (NE : m <> []) by (destruct l; [contradiction|destruct m; [discriminate H|discriminate]]).
    exists (PConv (if pg then map (withGSP g) m else m) g pg). split; [|split].
    + unfold mkConv. destruct m as [|a t]; [contradiction|]. reflexivity.
    + destruct pg.
      * split.
        -- split; [intro K; apply map_eq_nil in K; contradiction|]. rewrite Forall_forall in *. intros o Ho. apply in_map_iff in Ho. destruct Ho as (q & <- & Hq).
           intros _ _; apply gs_with.
        -- apply every_list. rewrite Forall_forall in *. intros o Ho. apply in_map_iff in Ho. destruct Ho as (q & <- & Hq). apply cons_with. exact (Cm q Hq).
      * split; [split; [exact NE|]|apply every_list; exact Cm]. apply Forall_forall. intros o Ho _ K; discriminate.
    + cbn [erase]. f_equal. rewrite <- H. destruct pg; [|reflexivity]. rewrite map_map. apply map_ext_in. intros q Hq. rewrite Forall_forall in Cm.
      apply erase_with, cons_weak. exact (Cm q Hq).
  - destruct (IH C) as (q & E & Cq & H). rewrite E. cbn [bind]. exists (mkDec q (Some g) pg). unfold mkDec. split; [reflexivity|]. split.
    + destruct pg; (split; [|try apply cons_with; exact Cq]); [intros _ _; apply gs_with|intros _ K; discriminate].
    + cbn [erase]. f_equal. destruct pg; [rewrite (erase_with _ _ (cons_weak _ Cq))|]; exact H.
Qed.
Lemma made_mono : forall (ok ok' : prof -> bool -> Prop) p, (forall o pg, ok o pg -> ok' o pg) -> made ok p -> made ok' p.
Proof.
  intros ok ok' p H M. induction M as [own fam fl g|o J off fr gs pg M IH K|l gs pg s M IH E|l rs gs pg s M IH E|o gs pg M IH|p g M IH].
  - apply made_leaf.
  - apply made_tr; [exact IH|apply H; exact K].
  - eapply made_sum; eassumption.
  - eapply made_conv; eassumption.
  - apply made_dec; exact IH.
  - apply made_gsp; exact IH.
Qed.
Lemma roundtrip : forall p, made careful p -> eval (repr p) = Ok p.
Proof. intros p M. apply cons_roundtrip, made_cons. eapply made_mono; [|exact M]. intros o pg K _. exact K. Qed.
Lemma settling : forall p, made any p -> exists q, eval (repr p) = Ok q /\ erase q = erase p /\ eval (repr q) = Ok q.
Proof.
  intros p M. destruct (settles p) as (q & E & C & H).
  - apply made_cons. eapply made_mono; [|exact M]. intros o pg K Q. discriminate.
  - exists q. split; [exact E|]. split; [exact H|]. apply cons_roundtrip. exact C.
Qed.
Lemma merged : forall own fam fl a b J off fr J' off' fr', a <> b ->
  let t := mkTransform (PLeaf own fam fl a) J off fr (Some b) false in
  let u := mkTransform t J' off' fr' None true in
  exists q, eval (repr u) = Ok q /\ q <> u /\
    match u, q with PTr o _ _ _ _ _, PTr o' _ _ _ _ _ => gsparams o = a /\ gsparams o' = b | _, _ => False end.
Proof.
  intros own fam fl a b J off fr J' off' fr' N t u. unfold u, t, mkTransform. cbn [gsparams].
  rewrite (withGSP_same (PTr (PLeaf own fam fl a) J off fr b false)) || (replace (withGSP b (PTr (PLeaf own fam fl a) J off fr b false)) with (PTr (PLeaf own fam fl a) J off fr b false) by (symmetry; apply (withGSP_same (PTr (PLeaf own fam fl a) J off fr b false)))).
  cbn [repr eval bind]. unfold mkTransform. unfold withGSP. cbn [gsparams]. destruct (gspR_eqb_spec b a) as [E|E]; [congruence|].
  eexists. split; [reflexivity|]. split; [|split; reflexivity]. intro K. injection K as K. congruence.
Qed.
