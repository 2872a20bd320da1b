(** Proofs about is_equal_with_arrays. *)
From Coq Require Import ZArith Reals Bool String List Permutation Lra Lia Arith.
From Verif Require Import Base Bounds_Model Bounds_Proofs Util_Model Util_Spec.
Import ListNotations.
Open Scope R_scope.

Section Ind.
  Variable P : pv -> Prop.
  Hypothesis HN : forall x, P (PNum x).
  Hypothesis HO : forall s, P (PObj s).
  Hypothesis HA : forall sh d, P (PArr sh d).
  Hypothesis HL : forall l, Forall P l -> P (PList l).
  Hypothesis HT : forall l, Forall P l -> P (PTuple l).
  Hypothesis HS : forall l, P (PSet l).
  Hypothesis HD : forall l, Forall (fun kv => P (snd kv)) l -> P (PDict l).
  Fixpoint pv_induction (v : pv) : P v :=
    match v with
    | PNum x => HN x | PObj s => HO s | PArr sh d => HA sh d
    | PList l => HL l ((fix f l : Forall P l := match l with [] => Forall_nil _ | a :: t => Forall_cons _ (pv_induction a) (f t) end) l)
    | PTuple l => HT l ((fix f l : Forall P l := match l with [] => Forall_nil _ | a :: t => Forall_cons _ (pv_induction a) (f t) end) l)
    | PSet l => HS l
    | PDict l => HD l ((fix f l : Forall (fun kv => P (snd kv)) l :=
                          match l with [] => Forall_nil _ | a :: t => Forall_cons _ (pv_induction (snd a)) (f t) end) l)
    end.
End Ind.

Fixpoint all_eq (f : pv -> pv -> res eqr) (l l' : list pv) : res eqr :=
  match l, l' with
  | v :: t, v' :: t' => bind (f v v') (fun r => bind (truth r) (fun b => if b then all_eq f t t' else Ok (EBool false)))
  | _, _ => Ok (EBool true)
  end.
Fixpoint items_eq (f : pv -> pv -> res eqr) (l' l : list (string * pv)) : res eqr :=
  match l with
  | [] => Ok (EBool true)
  | (k, v) :: t =>
      match assoc k l' with
      | None => Ok (EBool false)
      | Some v' => bind (f v v') (fun r => bind (truth r) (fun b => if b then items_eq f l' t else Ok (EBool false)))
      end
  end.

Lemma num_eq_spec : forall a b, num_eq a b = true <-> exists x, a = Some x /\ b = Some x.
Proof.
  intros [x|] [y|]; cbn [num_eq]; split; intro H; try discriminate; try (destruct H as [? [? ?]]; discriminate).
  - destruct (Reqb_spec x y) as [e|e]; [|discriminate]. subst. eauto.
  - destruct H as [z [A B]]. injection A as ->. injection B as ->. destruct (Reqb_spec z z) as [_|n]; [reflexivity | congruence].
Qed.
Lemma list_eqb_spec : forall A (f : A -> A -> bool) l l', list_eqb f l l' = true <-> Forall2 (fun a b => f a b = true) l l'.
Proof.
  intros A f l. induction l as [|a t IH]; intros [|b t']; cbn [list_eqb].
  - split; [constructor | reflexivity].
  - split; [discriminate | intro H; inversion H].
  - split; [discriminate | intro H; inversion H].
  - rewrite andb_true_iff, IH. split; intro H; [constructor; apply H | inversion H; auto].
Qed.
Lemma list_eqb_eq : forall A (f : A -> A -> bool) l l', (forall a b, f a b = true -> a = b) -> list_eqb f l l' = true -> l = l'.
Proof. intros A f l l' H E. apply list_eqb_spec in E. induction E; [reflexivity | f_equal; auto]. Qed.
Lemma list_eqb_refl : forall A (f : A -> A -> bool) l, (forall a, In a l -> f a a = true) -> list_eqb f l l = true.
Proof. intros A f l. induction l as [|a t IH]; intro H; [reflexivity|]. cbn [list_eqb]. rewrite H, IH; auto with datatypes. Qed.
Lemma Reqb_eq : forall a b, Reqb a b = true -> a = b.
Proof. intros a b. destruct (Reqb_spec a b) as [e|e]; [auto | discriminate]. Qed.
Lemma Reqb_refl : forall a, Reqb a a = true.
Proof. intro a. destruct (Reqb_spec a a) as [e|e]; [auto | congruence]. Qed.
Lemma nat_eqb_list_refl : forall l, list_eqb Nat.eqb l l = true.
Proof. intro. apply list_eqb_refl. intros. apply Nat.eqb_refl. Qed.
Lemma nat_eqb_list : forall l l', list_eqb Nat.eqb l l' = true -> l = l'.
Proof. intros. eapply list_eqb_eq; [|eassumption]. intros a b. apply Nat.eqb_eq. Qed.

(** ** Sorting *)
Lemma insert_comm : forall x y l, insert x (insert y l) = insert y (insert x l).
Proof.
  intros x y l. induction l as [|z t IH]; cbn [insert].
  - destruct (Rltb_spec y x) as [a|a], (Rltb_spec x y) as [b|b]; try lra; [reflexivity | reflexivity|].
    assert (x = y) by lra. subst. reflexivity.
  - destruct (Rltb_spec z y) as [a|a], (Rltb_spec z x) as [b|b]; cbn [insert].
    + destruct (Rltb_spec z x) as [c|c]; [|lra]. destruct (Rltb_spec z y) as [d|d]; [|lra]. now rewrite IH.
    + destruct (Rltb_spec z x) as [c|c]; [lra|]. destruct (Rltb_spec x y) as [d|d]; [|lra].
      destruct (Rltb_spec z y) as [e|e]; [reflexivity | lra].
    + destruct (Rltb_spec y x) as [c|c]; [|lra]. destruct (Rltb_spec z x) as [d|d]; [|lra]. 
      destruct (Rltb_spec z y) as [e|e]; [lra | reflexivity].
    + destruct (Rltb_spec y x) as [c|c], (Rltb_spec x y) as [d|d]; try lra.
      * destruct (Rltb_spec z x) as [e|e]; [lra | reflexivity].
      * destruct (Rltb_spec z y) as [e|e]; [lra | reflexivity].
      * assert (x = y) by lra. subst. reflexivity.
Qed.
Lemma sorted_perm : forall l l', Permutation l l' -> sorted l = sorted l'.
Proof.
  intros l l' H. induction H; cbn [sorted fold_right]; [reflexivity | f_equal; exact IHPermutation | apply insert_comm | congruence].
Qed.
Lemma insert_perm : forall x l, Permutation (x :: l) (insert x l).
Proof.
  intros x l. induction l as [|y t IH]; cbn [insert]; [reflexivity|].
  destruct (Rltb_spec y x) as [a|a]; [|reflexivity]. rewrite perm_swap. now constructor.
Qed.
Lemma perm_sorted : forall l, Permutation l (sorted l).
Proof.
  induction l as [|x t IH]; [reflexivity|]. change (sorted (x :: t)) with (insert x (sorted t)).
  rewrite <- insert_perm. now constructor.
Qed.

(** ** Lookup *)
Lemma assoc_in : forall A k (l : list (string * A)) v, assoc k l = Some v -> In (k, v) l.
Proof.
  intros A k l v. induction l as [|[k' v'] t IH]; cbn [assoc]; [discriminate|].
  destruct (String.eqb_spec k k') as [e|e]; intro H; [injection H as ->; subst; now left | right; auto].
Qed.
Lemma in_assoc : forall A k (l : list (string * A)) v, NoDup (map fst l) -> In (k, v) l -> assoc k l = Some v.
Proof.
  intros A k l v. induction l as [|[k' v'] t IH]; cbn [map fst assoc]; intros N H; [destruct H|].
  inversion N; subst. destruct (String.eqb_spec k k') as [e|e].
  - subst. destruct H as [H|H]; [congruence|]. exfalso. apply H2. apply (in_map fst) in H. exact H.
  - destruct H as [H|H]; [injection H; congruence | auto].
Qed.
Lemma assoc_none : forall A k (l : list (string * A)), assoc k l = None <-> ~ In k (map fst l).
Proof.
  intros A k l. induction l as [|[k' v'] t IH]; cbn [map fst assoc In]; [tauto|].
  destruct (String.eqb_spec k k') as [e|e]; split; intro H; try discriminate.
  - subst. tauto.
  - intros [Q|Q]; [congruence | apply IH in H; tauto].
  - apply IH. tauto.
Qed.

Section Eq.
  Variable foreign : pv -> pv -> res bool.
  Notation eq := (is_equal foreign).

  Lemma eq_all : forall l l', (fix all (l l' : list pv) {struct l} : res eqr :=
      match l, l' with
      | v :: t, v' :: t' =>
          bind (eq v v') (fun r => bind (truth r) (fun b => if b then all t t' else Ok (EBool false)))
      | _, _ => Ok (EBool true)
      end) l l' = all_eq eq l l'.
  Proof.
    induction l as [|v t IH]; intros [|v' t']; try reflexivity. cbn [all_eq]. destruct (eq v v') as [r|e]; [|reflexivity].
    cbn [bind]. destruct (truth r) as [[|]|e]; cbn [bind]; [apply IH | reflexivity | reflexivity].
  Qed.
  Lemma eq_list : forall l l', eq (PList l) (PList l') = if Nat.eqb (length l) (length l') then all_eq eq l l' else Ok (EBool false).
  Proof. intros. cbn [is_equal]. destruct (Nat.eqb _ _); [apply eq_all | reflexivity]. Qed.
  Lemma eq_tuple : forall l l', eq (PTuple l) (PTuple l') = if Nat.eqb (length l) (length l') then all_eq eq l l' else Ok (EBool false).
  Proof. intros. cbn [is_equal]. destruct (Nat.eqb _ _); [apply eq_all | reflexivity]. Qed.
  Lemma eq_items : forall l' l, (fix items (l : list (string * pv)) : res eqr :=
                 match l with
                 | [] => Ok (EBool true)
                 | (k, v) :: t =>
                     match assoc k l' with
                     | None => Ok (EBool false)
                     | Some v' => bind (eq v v') (fun r => bind (truth r) (fun b => if b then items t else Ok (EBool false)))
                     end
                 end) l = items_eq eq l' l.
  Proof.
    intros l'. induction l as [|[k v] t IH]; [reflexivity|]. cbn [items_eq]. destruct (assoc k l') as [v'|]; [|reflexivity].
    destruct (eq v v') as [r|e]; [|reflexivity]. cbn [bind]. destruct (truth r) as [[|]|e]; cbn [bind]; [apply IH | reflexivity | reflexivity].
  Qed.
  Lemma eq_dict : forall l l', eq (PDict l) (PDict l') = if Nat.eqb (length l) (length l') then items_eq eq l' l else Ok (EBool false).
  Proof. intros. cbn [is_equal]. destruct (Nat.eqb _ _); [apply eq_items | reflexivity]. Qed.

  (** ** Same values compare equal *)
  Lemma all_same : forall l l', Forall (fun x => forall y, same x y -> eq x y = Ok (EBool true)) l -> Forall2 same l l' ->
    all_eq eq l l' = Ok (EBool true).
  Proof.
    intros l l' H S. induction S; [reflexivity|]. inversion H; subst. cbn [all_eq].
    match goal with K : forall y, same x y -> _ |- _ => rewrite K by assumption end. cbn [bind truth]. auto.
  Qed.
  Lemma length_same : forall (l l' : list pv) (R : pv -> pv -> Prop), Forall2 R l l' -> Nat.eqb (length l) (length l') = true.
  Proof. intros l l' R H. apply Nat.eqb_eq. induction H; cbn [length]; auto. Qed.
  Lemma keys_length : forall A B (l : list (string * A)) (l' : list (string * B)), NoDup (map fst l) -> NoDup (map fst l') ->
    (forall k, In k (map fst l) <-> In k (map fst l')) -> length l = length l'.
  Proof.
    intros A B l l' N N' E. rewrite <- (map_length fst l), <- (map_length fst l').
    apply Nat.le_antisymm; apply NoDup_incl_length; auto; intros k; apply E.
  Qed.
  Lemma same_equal : forall x y, same x y -> eq x y = Ok (EBool true).
  Proof.
    apply (pv_induction (fun x => forall y, same x y -> eq x y = Ok (EBool true))).
    - intros x y H. inversion H as [v w r [A|A] [B|B]| | | | | |]; subst; try discriminate; injection A as ->; cbn [is_equal array_equal py_eq list_eqb num_eq];
        rewrite Reqb_refl; reflexivity.
    - intros s y H. inversion H as [v w r [A|A] [B|B]| | | | | |]; subst; try discriminate. cbn [is_equal py_eq]. now rewrite String.eqb_refl.
    - intros sh d y H. inversion H as [v w r [A|A] [B|B]| |n sh' d' F| | | |]; subst; try discriminate.
      + injection A as -> ->. cbn [is_equal array_equal list_eqb num_eq]. now rewrite Reqb_refl.
      + injection A as -> ->. cbn [is_equal array_equal list_eqb num_eq]. now rewrite Reqb_refl.
      + cbn [is_equal]. rewrite nat_eqb_list_refl, list_eqb_refl; [reflexivity|]. intros a I.
        rewrite Forall_forall in F. specialize (F _ I). destruct a as [x|]; [apply Reqb_refl | congruence].
    - intros l IH y H. inversion H as [v w r [A|A] [B|B]| | |l1 l' F| | |]; subst; try discriminate.
      rewrite eq_list, (length_same _ _ _ F). now apply all_same.
    - intros l IH y H. inversion H as [v w r [A|A] [B|B]| | | |l1 l' F| |]; subst; try discriminate.
      rewrite eq_tuple, (length_same _ _ _ F). now apply all_same.
    - intros l y H. inversion H as [v w r [A|A] [B|B]| | | | |l1 l' N N' E|]; subst; try discriminate.
      assert (P : Permutation l l') by (now apply NoDup_Permutation). cbn [is_equal].
      rewrite (Permutation_length P), Nat.eqb_refl, (sorted_perm _ _ P), list_eqb_refl; [reflexivity|]. intros. apply Reqb_refl.
    - intros l IH y H. inversion H as [v w r [A|A] [B|B]| | | | | |l1 l' N N' E F]; subst; try discriminate.
      rewrite eq_dict, (proj2 (Nat.eqb_eq _ _) (keys_length _ _ _ _ N N' E)).
      assert (G : forall l0, incl l0 l -> items_eq eq l' l0 = Ok (EBool true)).
      { induction l0 as [|[k v] t IHt]; intro I; [reflexivity|]. cbn [items_eq].
        assert (I0 : In (k, v) l) by (apply I; now left).
        assert (K : In k (map fst l')) by (apply E; apply (in_map fst) in I0; exact I0).
        destruct (assoc k l') as [v'|] eqn:Q; [|apply assoc_none in Q; contradiction].
        apply assoc_in in Q. rewrite Forall_forall in IH. assert (IH' : eq v v' = Ok (EBool true)) by (apply (IH (k, v) I0 v'), (F _ _ _ I0 Q)). rewrite IH'. cbn [bind truth]. apply IHt.
        intros a Ha. apply I. now right. }
      apply G. apply incl_refl.
  Qed.

  (** ** Values of the same layout *)
  Lemma num_eq_b : forall a b : option R, exists t, num_eq a b = t. Proof. eauto. Qed.
  Lemma alike_equal : forall x y, alike x y -> exists b, eq x y = Ok (EBool b) /\ (b = true -> same x y).
  Proof.
    assert (ALL : forall l l', Forall (fun x => forall y, alike x y -> exists b, eq x y = Ok (EBool b) /\ (b = true -> same x y)) l ->
      Forall2 alike l l' -> exists b, all_eq eq l l' = Ok (EBool b) /\ (b = true -> Forall2 same l l')).
    { intros l l' H S. induction S as [|x y l l' A S IH]; [exists true; auto|]. inversion H as [|? ? H1 H2]; subst.
      destruct (H1 _ A) as [b [E B]]. cbn [all_eq]. rewrite E. cbn [bind truth]. destruct b.
      - destruct (IH H2) as [b' [E' B']]. exists b'. split; [exact E'|]. intro T. constructor; auto.
      - exists false. split; [reflexivity | discriminate]. }
    apply (pv_induction (fun x => forall y, alike x y -> exists b, eq x y = Ok (EBool b) /\ (b = true -> same x y))).
    - intros x y H. inversion H as [v w A B| | | | | |]; subst. inversion B as [z|z]; subst.
      + exists (num_eq x z). split; [reflexivity|]. intro T. apply num_eq_spec in T. destruct T as [r [-> ->]]. apply (same_num _ _ r); left; reflexivity.
      + exists (num_eq x z && true). split; [reflexivity|]. intro T. apply andb_true_iff in T. destruct T as [T _]. apply num_eq_spec in T.
        destruct T as [r [-> ->]]. apply (same_num _ _ r); [left | right]; reflexivity.
    - intros s y H. inversion H as [v w A B| s1 s2| | | | |]; subst; [inversion A|]. exists (String.eqb s s2). split; [reflexivity|].
      intro T. apply String.eqb_eq in T. subst. constructor.
    - intros sh d y H. inversion H as [v w A B| |n sh1 d1 n' sh' d'| | | |]; subst.
      + inversion A; subst. inversion B as [z|z]; subst.
        * exists (num_eq x z && true). split; [reflexivity|]. intro T. apply andb_true_iff in T. destruct T as [T _]. apply num_eq_spec in T.
          destruct T as [r [-> ->]]. apply (same_num _ _ r); [right | left]; reflexivity.
        * exists (num_eq x z && true). split; [reflexivity|]. intro T. apply andb_true_iff in T. destruct T as [T _]. apply num_eq_spec in T.
          destruct T as [r [-> ->]]. apply (same_num _ _ r); right; reflexivity.
      + cbn [is_equal]. eexists. split; [reflexivity|]. intro T. apply andb_true_iff in T. destruct T as [T1 T2].
        apply nat_eqb_list in T1. injection T1 as -> ->. apply list_eqb_spec in T2.
        assert (d = d' /\ Forall (fun x => x <> None) d) as [-> F].
        { clear - T2. induction T2 as [|a b l l' E T2 IH]; [auto|]. apply num_eq_spec in E. destruct E as [r [-> ->]].
          destruct IH as [-> F]. split; [reflexivity|]. constructor; [discriminate | exact F]. }
        now constructor.
    - intros l IH y H. inversion H as [v w A B| | |l1 l' F| | |]; subst; [inversion A|]. rewrite eq_list.
      destruct (Nat.eqb_spec (length l) (length l')) as [e|e]; [|exists false; split; [reflexivity | discriminate]].
      destruct (ALL _ _ IH (F e)) as [b [E B]]. exists b. split; [exact E|]. intro T. constructor. auto.
    - intros l IH y H. inversion H as [v w A B| | | |l1 l' F| |]; subst; [inversion A|]. rewrite eq_tuple.
      destruct (Nat.eqb_spec (length l) (length l')) as [e|e]; [|exists false; split; [reflexivity | discriminate]].
      destruct (ALL _ _ IH (F e)) as [b [E B]]. exists b. split; [exact E|]. intro T. constructor. auto.
    - intros l y H. inversion H as [v w A B| | | | |l1 l' N N'|]; subst; [inversion A|]. cbn [is_equal].
      destruct (Nat.eqb (length l) (length l')); eexists; (split; [reflexivity|]); intro T; [|discriminate].
      assert (E : sorted l = sorted l') by (eapply list_eqb_eq; [|exact T]; exact Reqb_eq).
      constructor; auto. intro x. assert (P : Permutation l l') by (rewrite (perm_sorted l), E, <- perm_sorted; reflexivity).
      split; apply Permutation_in; [exact P | symmetry; exact P].
    - intros l IH y H. inversion H as [v w A B| | | | | |l1 l' N N' F]; subst; [inversion A|]. rewrite eq_dict.
      destruct (Nat.eqb_spec (length l) (length l')) as [e|e]; [|exists false; split; [reflexivity | discriminate]].
      assert (G : forall l0, incl l0 l -> exists b, items_eq eq l' l0 = Ok (EBool b) /\
                (b = true -> forall k v, In (k, v) l0 -> exists v', In (k, v') l' /\ same v v')).
      { induction l0 as [|[k v] t IHt]; intro I; [exists true; split; [reflexivity | intros _ k v []]|]. cbn [items_eq].
        assert (I0 : In (k, v) l) by (apply I; now left).
        destruct (assoc k l') as [v'|] eqn:Q; [|exists false; split; [reflexivity | discriminate]].
        apply assoc_in in Q. rewrite Forall_forall in IH. destruct (IH (k, v) I0 v' (F _ _ _ I0 Q)) as [b [E B]]. cbn [snd] in E, B. rewrite E. cbn [bind truth].
        destruct b; [|exists false; split; [reflexivity | discriminate]].
        destruct IHt as [b' [E' B']]; [intros a Ha; apply I; now right|]. exists b'. split; [exact E'|].
        intros T k0 v0 [J|J]; [injection J as <- <-; exists v'; auto | auto]. }
      destruct (G l (incl_refl _)) as [b [E B]]. exists b. split; [exact E|]. intro T. specialize (B T).
      assert (K : incl (map fst l) (map fst l')).
      { intros k I. apply in_map_iff in I. destruct I as [[k' v] [<- I]]. destruct (B _ _ I) as [v' [I' _]]. apply (in_map fst) in I'. exact I'. }
      constructor; auto.
      + intro k. split; [apply K|]. apply (NoDup_length_incl N); [rewrite !map_length; lia | exact K].
      + intros k v v' I I'. destruct (B _ _ I) as [v'' [I'' S]].
        pose proof (in_assoc _ _ _ _ N' I'') as Q. rewrite (in_assoc _ _ _ _ N' I') in Q. injection Q as ->. exact S.
  Qed.
End Eq.

(** ** [same] and [alike] are symmetric; [same] is transitive *)
Lemma Forall2_sym : forall (R : pv -> pv -> Prop) l l', Forall (fun x => forall y, R x y -> R y x) l -> Forall2 R l l' -> Forall2 R l' l.
Proof. intros R l l' H F. induction F; constructor; inversion H; subst; auto. Qed.
Lemma same_sym : forall x y, same x y -> same y x.
Proof.
  apply (pv_induction (fun x => forall y, same x y -> same y x)); intros.
  - inversion H as [v w r A B| | | | | |]; subst. eapply same_num; eauto.
  - inversion H as [v w r A B| | | | | |]; subst; [eapply same_num; eauto | constructor].
  - inversion H as [v w r A B| | | | | |]; subst; [eapply same_num; eauto | now constructor].
  - inversion H0 as [v w r A B| | | | | |]; subst; [eapply same_num; eauto|]. constructor. now apply Forall2_sym.
  - inversion H0 as [v w r A B| | | | | |]; subst; [eapply same_num; eauto|]. constructor. now apply Forall2_sym.
  - inversion H as [v w r A B| | | | | |]; subst; [eapply same_num; eauto|]. constructor; auto. intro x. symmetry. auto.
  - inversion H0 as [v w r A B| | | | | |]; subst; [eapply same_num; eauto|]. constructor; auto; [intro; symmetry; auto|].
    intros k v v' I I'. rewrite Forall_forall in H. apply (H (k, v') I'). eauto.
Qed.
Lemma alike_sym : forall x y, alike x y -> alike y x.
Proof.
  apply (pv_induction (fun x => forall y, alike x y -> alike y x)); intros.
  - inversion H; subst. now constructor.
  - inversion H; subst; [now constructor | apply alike_obj].
  - inversion H; subst; [now constructor | apply alike_arr].
  - inversion H0; subst; [now constructor|]. apply alike_list. intro E. apply Forall2_sym; auto.
  - inversion H0; subst; [now constructor|]. apply alike_tuple. intro E. apply Forall2_sym; auto.
  - inversion H; subst; [now constructor|]. apply alike_set; auto.
  - inversion H0; subst; [now constructor|]. apply alike_dict; auto.
    intros k v v' I I'. rewrite Forall_forall in H. apply (H (k, v') I'). eauto.
Qed.
Lemma number_fun : forall v x y, number v x -> number v y -> x = y.
Proof. intros v x y [A|A] [B|B]; congruence. Qed.
Lemma Forall2_trans : forall (R : pv -> pv -> Prop) l l' l'', Forall (fun x => forall y z, R x y -> R y z -> R x z) l ->
  Forall2 R l l' -> Forall2 R l' l'' -> Forall2 R l l''.
Proof.
  intros R l l' l'' H F. revert l''. induction F; intros l'' G; inversion G; subst; constructor; inversion H; subst; eauto.
Qed.
Lemma same_trans : forall x y z, same x y -> same y z -> same x z.
Proof.
  apply (pv_induction (fun x => forall y z, same x y -> same y z -> same x z)).
  - intros x y z H K. inversion H as [v w r A B| | | | | |]; subst. inversion K as [v w r' A' B'| | | | | |]; subst;
      try (destruct B; discriminate). rewrite (number_fun _ _ _ B A') in A. eapply same_num; eauto.
  - intros s y z H K. inversion H as [v w r [A|A] B| | | | | |]; subst; try discriminate. exact K.
  - intros sh d y z H K. inversion H as [v w r A B| | | | | |]; subst.
    + inversion K as [v w r' A' B'| | | | | |]; subst; try (destruct B; discriminate). rewrite (number_fun _ _ _ B A') in A. eapply same_num; eauto.
    + exact K.
  - intros l IH y z H K. inversion H as [v w r [A|A] B| | | | | |]; subst; try discriminate.
    inversion K as [v w r [A|A] B| | | | | |]; subst; try discriminate. constructor. eapply Forall2_trans; eauto.
  - intros l IH y z H K. inversion H as [v w r [A|A] B| | | | | |]; subst; try discriminate.
    inversion K as [v w r [A|A] B| | | | | |]; subst; try discriminate. constructor. eapply Forall2_trans; eauto.
  - intros l y z H K. inversion H as [v w r [A|A] B| | | | | |]; subst; try discriminate.
    inversion K as [v w r [A|A] B| | | | | |]; subst; try discriminate. constructor; auto. intro x. etransitivity; eauto.
  - intros l IH y z H K. inversion H as [v w r [A|A] B| | | | | |]; subst; try discriminate.
    inversion K as [v w r [A|A] B| | | | | |l1 l2 N1 N2 E1 F1]; subst; try discriminate.
    match goal with E0 : forall k, In k (map fst l) <-> _ |- _ => pose proof E0 as E2 end.
    constructor; auto; [intro; etransitivity; eauto|].
    intros k v v' I I'. assert (J : In k (map fst l')) by (apply E2; apply (in_map fst) in I; exact I).
    apply in_map_iff in J. destruct J as [[k' v0] [E J]]. cbn [fst] in E. subst k'. rewrite Forall_forall in IH. apply (IH (k, v) I v0 v'); eauto.
Qed.
Lemma equal_symmetric : forall foreign x y, alike x y ->
  exists b, is_equal foreign x y = Ok (EBool b) /\ is_equal foreign y x = Ok (EBool b) /\ (b = true <-> same x y).
Proof.
  intros f x y H. destruct (alike_equal f x y H) as [b [E B]]. destruct (alike_equal f y x (alike_sym _ _ H)) as [b' [E' B']].
  exists b. split; [exact E|]. destruct b.
  - specialize (B eq_refl). split; [apply same_equal, same_sym; exact B | tauto].
  - split; [destruct b'|]; auto.
    + specialize (B' eq_refl). apply same_sym in B'. apply (same_equal f) in B'. rewrite E in B'. discriminate.
    + split; [discriminate|]. intro S. apply (same_equal f) in S. rewrite E in S. discriminate.
Qed.
Lemma nodup_fun : forall A (l : list (string * A)) k v v', NoDup (map fst l) -> In (k, v) l -> In (k, v') l -> v = v'.
Proof. intros A l k v v' N H H'. apply (in_assoc _ _ _ _ N) in H. apply (in_assoc _ _ _ _ N) in H'. congruence. Qed.
Lemma same_refl : forall x, nan_free x -> same x x.
Proof.
  intro x. induction x using pv_induction; intro N; inversion N; subst.
  - eapply same_num; left; reflexivity.
  - apply same_obj.
  - eapply same_num; right; reflexivity.
  - now apply same_arr.
  - apply same_list. induction l as [|a t IH]; constructor; inversion H; inversion H1; subst; auto. apply IH; auto. now constructor.
  - apply same_tuple. induction l as [|a t IH]; constructor; inversion H; inversion H1; subst; auto. apply IH; auto. now constructor.
  - apply same_set; auto. tauto.
  - apply same_dict; auto; [tauto|]. intros k v v' A B. rewrite <- (nodup_fun _ _ _ _ _ H1 A B).
    rewrite Forall_forall in H, H2. apply (H (k, v) A). apply (H2 (k, v) A).
Qed.
Lemma same_hash : forall x y h, same x y -> ensure_hashable x = Some h -> ensure_hashable y = Some h.
Proof.
  intros x y h H. destruct H; cbn; try discriminate; auto.
  destruct H as [-> | ->], H0 as [-> | ->]; cbn; auto.
Qed.
(** The keys of arrays of one shape differ when the data differ. *)
Lemma chunks_concat : forall A k n (l : list A), length l = (k * n)%nat -> concat (chunks k n l) = l.
Proof.
  induction k; intros n l H; cbn in *; [destruct l; auto; discriminate|]. rewrite IHk; [apply firstn_skipn|]. rewrite skipn_length. lia.
Qed.
Lemma chunks_len : forall A k n (l : list A), length l = (k * n)%nat -> Forall (fun c => length c = n) (chunks k n l).
Proof.
  induction k; intros n l H; cbn in *; constructor; [rewrite firstn_length; lia|]. apply IHk. rewrite skipn_length. lia.
Qed.
Lemma map_inj_on : forall A B (f : A -> B) (P : A -> Prop) l l', (forall a b, P a -> P b -> f a = f b -> a = b) -> Forall P l -> Forall P l' -> map f l = map f l' -> l = l'.
Proof.
  intros A B f P l. induction l as [|a l IH]; intros [|b l'] H F F' E; try discriminate; auto. inversion F; inversion F'; subst. injection E as E1 E2. f_equal; auto.
Qed.
Lemma tolist_inj : forall sh d d', length d = fold_right Nat.mul 1%nat sh -> length d' = fold_right Nat.mul 1%nat sh -> tolist sh d = tolist sh d' -> d = d'.
Proof.
  induction sh as [|n sh IH]; intros d d' L L' E.
  - cbn in *. destruct d as [|a [|b d]]; try discriminate. destruct d' as [|a' [|b' d']]; try discriminate. cbn in E. congruence.
  - cbn [tolist fold_right] in *. injection E as E. rewrite <- (chunks_concat _ n (fold_right Nat.mul 1%nat sh) d), <- (chunks_concat _ n (fold_right Nat.mul 1%nat sh) d') by auto.
    f_equal. eapply map_inj_on; [|apply chunks_len; exact L|apply chunks_len; exact L'|exact E]. cbn. auto.
Qed.
