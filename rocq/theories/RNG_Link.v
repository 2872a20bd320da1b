(** Proofs about linked and duplicated generators, serialization and permute. *)
From Coq Require Import ZArith Reals Bool List String Ascii Lia Lra Permutation.
From Verif Require Import Base Bounds_Model Bounds_Proofs RNG_Model RNG_Spec RNG_Proofs.
Import ListNotations.
Open Scope list_scope.
Open Scope nat_scope.

Lemma Int_part_IZR' : forall z, Int_part (IZR z) = z.
Proof.
  intros. destruct (base_Int_part (IZR z)) as [A B].
  rewrite <- minus_IZR in B. apply le_IZR in A. assert (IZR (-1) < IZR (Int_part (IZR z) - z))%R by (simpl; lra).
  apply lt_IZR in H. lia.
Qed.

Section Link.
  Context {key : Type}.
  Variable J : jrandom key.
  Variable ent : nat -> Z.
  Notation store := (store (key := key)).
  Notation dkey := (dkey J).
  Notation step := (step J ent).
  Notation run := (run J ent).

  (** * Frames: what creating, resetting and seeding change *)
  Lemma dref_ext : forall (s s' : store) x, devs s' = devs s -> dref s' x = dref s x.
  Proof. intros. unfold dref. rewrite H. reflexivity. Qed.
  Lemma kget_app : forall (s : store) ks r, r < List.length (keys s) ->
    nth r (keys s ++ ks) (jkey J 0) = kget J s r.
  Proof. intros. apply app_nth1. auto. Qed.

  (** Outcome of reset_state: extended keys, same deviates. *)
  Lemma reset_state_frame : forall sd (s : store), wf s -> seed_ok (List.length (devs s)) sd ->
    wf (fst (reset_state J ent sd s)) /\ devs (fst (reset_state J ent sd s)) = devs s /\
    (forall r, r < List.length (keys s) -> r < List.length (keys (fst (reset_state J ent sd s))) /\
        kget J (fst (reset_state J ent sd s)) r = kget J s r).
  Proof.
    intros sd s W O. destruct (reset_state_spec J ent sd s W O) as (ks & m & E & _).
    rewrite E. split; [|split]; simpl; auto.
    - unfold wf in *. simpl. rewrite app_length. eapply Forall_impl; [|exact W]. simpl. intros; lia.
    - intros. split. { rewrite app_length. lia. } unfold kget at 1. simpl. apply kget_app; auto.
  Qed.

  (** new: the exact effect. *)
  Lemma new_spec : forall c sd (s : store), wf s -> seed_ok (List.length (devs s)) sd ->
    let r := new J ent c sd s in
    wf (fst r) /\
    (forall x, exists_dev s x -> exists_dev (fst r) x /\ dref (fst r) x = dref s x /\
        dcls (fst r) x = dcls s x /\ dkey (fst r) x = dkey s x) /\
    (forall d, snd r = Ok d -> d = List.length (devs s) /\ exists_dev (fst r) d /\
        List.length (devs (fst r)) = S (List.length (devs s)) /\ dcls (fst r) d = c /\
        match sd with
        | SDev c0 => dref (fst r) d = dref s c0 /\ dkey (fst r) d = dkey s c0
        | _ => dref (fst r) d = List.length (keys s)
        end) /\
    (forall e, snd r = Err e -> devs (fst r) = devs s).
  Proof.
    intros c sd s W O r.
    destruct (reset_state_spec J ent sd s W O) as (ks & m & E & K).
    destruct (reset_state_frame sd s W O) as (W1 & D1 & F1).
    unfold new in r. unfold r, bindM. clear r.
    destruct (snd (reset_state J ent sd s)) as [r|e] eqn:R.
    - destruct (K r eq_refl) as [Hr Hs].
      set (s1 := fst (reset_state J ent sd s)) in *. clearbody s1.
      assert (Lk : List.length (keys s1) = List.length (keys s ++ ks)) by (rewrite E; reflexivity).
      destruct (class_ok c); unfold new_dev, raise; cbn [fst snd].
      + split; [|split; [|split]].
        * unfold wf in *. cbn [keys devs]. apply Forall_app. split; auto. constructor; auto. simpl. lia.
        * intros x X. unfold exists_dev, dref, dcls, RNG_Model.dkey, dref in *. cbn [devs keys].
          rewrite D1. rewrite app_length. rewrite app_nth1 by auto. split; [simpl; lia|].
          split; auto. split; auto. unfold kget. cbn [keys].
          destruct (F1 (fst (nth x (devs s) (0, KBase)))) as [_ F2]; [apply wf_ref; auto|exact F2].
        * intros d [= <-]. rewrite D1. split; auto. unfold exists_dev, dref, dcls, RNG_Model.dkey, dref.
          cbn [devs keys]. rewrite app_length. simpl List.length. split; [lia|]. split; [lia|].
          rewrite app_nth2, Nat.sub_diag by lia. simpl. split; auto.
          destruct sd; try exact Hs. destruct Hs as [-> ->]. split; auto.
          unfold kget. cbn [keys]. destruct (F1 (dref s d)) as [_ F2]; [apply wf_ref; auto|].
          exact F2.
        * intros e [=].
      + split; auto. split; [|split].
        * intros x X. unfold exists_dev, dref, dcls, RNG_Model.dkey, dref in *. rewrite D1.
          repeat split; auto. apply F1. apply wf_ref; auto.
        * intros d [=].
        * auto.
    - split; auto. split; [|split].
      + intros x X. unfold exists_dev, dref, dcls, RNG_Model.dkey, dref in *. cbn [fst]. rewrite D1.
        repeat split; auto. apply F1. apply wf_ref; auto.
      + intros d [=].
      + auto.
  Qed.

  Lemma reset_spec : forall d sd (s : store), wf s -> exists_dev s d -> seed_ok (List.length (devs s)) sd ->
    let r := reset J ent d sd s in
    wf (fst r) /\ List.length (devs (fst r)) = List.length (devs s) /\
    (forall x, exists_dev s x -> dcls (fst r) x = dcls s x) /\
    (forall x, exists_dev s x -> x <> d -> dref (fst r) x = dref s x /\ dkey (fst r) x = dkey s x) /\
    (snd r = Ok tt ->
        match sd with
        | SDev c0 => dref (fst r) d = dref s c0 /\ dkey (fst r) d = dkey s c0
        | _ => dref (fst r) d = List.length (keys s)
        end) /\
    (forall e, snd r = Err e -> devs (fst r) = devs s).
  Proof.
    intros d sd s W X O r.
    destruct (reset_state_spec J ent sd s W O) as (ks & m & E & K).
    destruct (reset_state_frame sd s W O) as (W1 & D1 & F1).
    unfold reset in r. unfold r, bindM. clear r.
    destruct (snd (reset_state J ent sd s)) as [r|e] eqn:R; cbn [fst snd].
    - destruct (K r eq_refl) as [Hr Hs].
      set (s1 := fst (reset_state J ent sd s)) in *. clearbody s1.
      assert (Lk : List.length (keys s1) = List.length (keys s ++ ks)) by (rewrite E; reflexivity).
      unfold set_dref; cbn [fst snd].
      unfold exists_dev in X.
      assert (C1 : dcls s1 d = dcls s d) by (unfold dcls; rewrite D1; auto).
      split; [|split; [|split; [|split; [|split]]]].
      + unfold wf in *. cbn [keys devs]. rewrite C1, D1. rewrite D1 in W1. clear - W1 Hr Lk.
        rewrite <- Lk in Hr. generalize (dcls s d). revert d. induction (devs s) as [|h t IH]; intros d cc; simpl; auto.
        apply Forall_cons_iff in W1. destruct W1 as [W1 W2]. destruct d; constructor; auto.
      + cbn [devs]. rewrite length_lset, D1. auto.
      + intros x Hx. unfold dcls at 1. cbn [devs]. rewrite D1.
        destruct (Nat.eq_dec x d) as [->|N].
        * rewrite nth_lset_same by auto. simpl. auto.
        * rewrite nth_lset_other by auto. reflexivity.
      + intros x Hx N. unfold RNG_Model.dkey, kget, dref. cbn [devs keys]. rewrite D1.
        rewrite nth_lset_other by auto. split; auto. apply F1. apply wf_ref; auto.
      + intros _.
        assert (Er : dref (St (keys s1) (lset (devs s1) d (r, dcls s1 d)) (nent s1)) d = r).
        { unfold dref. cbn [devs]. rewrite D1, nth_lset_same by auto. reflexivity. }
        unfold RNG_Model.dkey at 1. rewrite Er.
        destruct sd; try exact Hs. destruct Hs as [-> ->]. split; auto.
        apply F1. apply wf_ref; auto.
      + intros e [=].
    - split; auto. split. { rewrite D1; auto. } split.
      { intros x _. unfold dcls. rewrite D1. auto. }
      split; [|split].
      + intros x Hx N. unfold RNG_Model.dkey, dref. rewrite D1. split; auto. apply F1. apply wf_ref; auto.
      + intros [=].
      + auto.
  Qed.

  (** seed: re-keys the shared state. *)
  Lemma seed_spec : forall d sd (s : store), wf s -> exists_dev s d ->
    let r := seed J ent d sd s in
    wf (fst r) /\ devs (fst r) = devs s /\
    (forall x, dref s x <> dref s d -> dkey (fst r) x = dkey s x) /\
    (forall x, dref s x = dref s d -> dkey (fst r) x = dkey (fst r) d) /\
    (forall z, (sd = SInt z \/ sd = SFloat (IZR z)) -> z <> 0%Z ->
       snd r = Ok tt /\ dkey (fst r) d = jkey J z).
  Proof.
    intros d sd s W X.
    assert (G : forall z, let r := seed_ J ent d z s in
      wf (fst r) /\ devs (fst r) = devs s /\
      (forall x, dref s x <> dref s d -> dkey (fst r) x = dkey s x) /\
      (forall x, dref s x = dref s d -> dkey (fst r) x = dkey (fst r) d)).
    { intros z. cbv zeta.
      assert (Q : exists k m, fst (seed_ J ent d z s) = set_dkey (St (keys s) (devs s) m) d k).
      { unfold seed_, bindM, seed_or_random, entropy, ret. destruct z as [z|]; [destruct (z =? 0)%Z|]; cbn [fst snd]; eauto.
        exists (jkey J z), (nent s). destruct s; reflexivity. }
      destruct Q as (k & m & ->).
      set (s' := St (keys s) (devs s) m).
      assert (W' : wf s') by exact W. assert (X' : exists_dev s' d) by exact X.
      split; [apply wf_set_dkey; auto|]. split; auto.
      split.
      - intros x N. rewrite (dkey_set_other J s' d k x N). reflexivity.
      - intros x N. rewrite (dkey_set_same J s' d k x W' X' N). rewrite dkey_set_same; auto. }
    assert (Id : wf s /\ devs s = devs s /\
       (forall x, dref s x <> dref s d -> dkey s x = dkey s x) /\
       (forall x, dref s x = dref s d -> dkey s x = dkey s d)).
    { split; auto. split; auto. split; auto. intros x H. unfold RNG_Model.dkey. rewrite H. auto. }
    assert (Z1 : forall z, z <> 0%Z -> seed_ J ent d (Some z) s = (set_dkey s d (jkey J z), Ok tt)).
    { intros z Hz. unfold seed_, bindM, seed_or_random, ret.
      destruct (Z.eqb_spec z 0); [contradiction|]. reflexivity. }
    cbv zeta.
    destruct sd; unfold seed.
    - destruct (G None) as (a & b & c & e). split; auto. split; auto. split; auto. split; auto. intros z [H|H]; discriminate.
    - destruct (G (Some z)) as (a & b & c & e). split; auto. split; auto. split; auto. split; auto.
      intros z0 [H|H] Hz; [|discriminate]. injection H as ->. rewrite Z1 by auto. split; auto.
      apply dkey_set_same; auto.
    - destruct (Reqb_spec x (IZR (Int_part x))) as [e|e].
      + destruct (G (Some (Int_part x))) as (a & b & c & e'). split; auto. split; auto. split; auto. split; auto.
        intros z [H|H] Hz; [discriminate|]. injection H as H.
        assert (I : Int_part x = z) by (rewrite H; apply Int_part_IZR').
        rewrite I. rewrite Z1 by auto. split; auto. apply dkey_set_same; auto.
      + unfold raise; cbn [fst snd]. destruct Id as (a & b & c & e'). split; auto. split; auto. split; auto. split; auto.
        intros z [H|H] Hz; [discriminate|]. injection H as H. exfalso. apply e. rewrite H at 2. rewrite Int_part_IZR'. exact H.
    - unfold raise; cbn [fst snd]. destruct Id as (a & b & c & e). split; auto. split; auto. split; auto. split; auto. intros z [H|H]; discriminate.
    - unfold raise; cbn [fst snd]. destruct Id as (a & b & c & e). split; auto. split; auto. split; auto. split; auto. intros z [H|H]; discriminate.
    - unfold raise; cbn [fst snd]. destruct Id as (a & b & c & e). split; auto. split; auto. split; auto. split; auto. intros z [H|H]; discriminate.
    - unfold raise; cbn [fst snd]. destruct Id as (a & b & c & e). split; auto. split; auto. split; auto. split; auto. intros z [H|H]; discriminate.
    - unfold raise; cbn [fst snd]. destruct Id as (a & b & c & e). split; auto. split; auto. split; auto. split; auto. intros z [H|H]; discriminate.
    - unfold raise; cbn [fst snd]. destruct Id as (a & b & c & e). split; auto. split; auto. split; auto. split; auto. intros z [H|H]; discriminate.
  Qed.

  Lemma dup_eq : forall d (s : store),
    duplicate J d s = (St (keys s ++ [dkey s d]) (devs s ++ [(List.length (keys s), dcls s d)]) (nent s),
                       Ok (List.length (devs s))).
  Proof. reflexivity. Qed.
  Lemma tree_eq : forall d (s : store),
    tree_copy J ent d s =
      if class_ok (dcls s d) then duplicate J d s
      else (St (keys s ++ [dkey s d]) (devs s) (nent s), Err ValueError).
  Proof.
    intros. unfold tree_copy, new, bindM, new_state, reset_state, ret. cbn [fst snd].
    destruct (class_ok (dcls s d)); reflexivity.
  Qed.

  (** Adding a state and a deviate holding it. *)
  Lemma grow_spec : forall (s : store) k c m, wf s ->
    let s' := St (keys s ++ [k]) (devs s ++ [(List.length (keys s), c)]) m in
    let d := List.length (devs s) in
    wf s' /\ List.length (devs s') = S (List.length (devs s)) /\
    (forall x, exists_dev s x -> dref s' x = dref s x /\ dcls s' x = dcls s x /\ dkey s' x = dkey s x) /\
    dref s' d = List.length (keys s) /\ dcls s' d = c /\ dkey s' d = k.
  Proof.
    intros s k c m W s' d. unfold s', d. clear s' d.
    split; [|split; [|split; [|split; [|split]]]].
    - unfold wf in *. cbn [keys devs]. rewrite app_length. apply Forall_app. split.
      + eapply Forall_impl; [|exact W]. simpl; intros; lia.
      + constructor; auto. simpl. lia.
    - cbn [devs]. rewrite app_length. simpl. lia.
    - intros x X. unfold exists_dev in X. unfold RNG_Model.dkey, kget, dref, dcls. cbn [devs keys].
      rewrite app_nth1 by auto. split; auto. split; auto.
      apply app_nth1. apply wf_ref; auto.
    - unfold dref. cbn [devs]. rewrite app_nth2, Nat.sub_diag by lia. reflexivity.
    - unfold dcls. cbn [devs]. rewrite app_nth2, Nat.sub_diag by lia. reflexivity.
    - unfold RNG_Model.dkey, kget, dref. cbn [devs keys]. rewrite (app_nth2 (devs s)), Nat.sub_diag by lia.
      simpl. rewrite app_nth2, Nat.sub_diag by lia. reflexivity.
  Qed.

  (** * The sharing relation of a store is the one read off the program *)
  Definition share_inv (s : store) (R : nat -> nat -> Prop) : Prop :=
    wf s /\ forall x y, exists_dev s x -> exists_dev s y -> (R x y <-> dref s x = dref s y).

  Lemma relink_inv : forall (s s' : store) R d (sd : seedarg (key := key)),
    wf s' -> share_inv s R -> seed_ok (List.length (devs s)) sd ->
    (forall x, exists_dev s' x -> x <> d -> exists_dev s x /\ dref s' x = dref s x) ->
    match sd with SDev c0 => dref s' d = dref s c0 | _ => dref s' d = List.length (keys s) end ->
    share_inv s' (relink R d sd).
  Proof.
    intros s s' R d sd W' [W I] O F D. split; auto. intros x y X Y.
    assert (A : match sd with SDev _ => True | _ => share_inv s' (alone R d) end).
    { assert (B : dref s' d = List.length (keys s) -> share_inv s' (alone R d)).
      { intros Dd. split; auto. intros x' y' X' Y'. unfold alone.
        destruct (Nat.eqb_spec x' d) as [->|Nx]; destruct (Nat.eqb_spec y' d) as [->|Ny]; simpl.
        - tauto.
        - destruct (F y' Y' Ny) as [Ey ->]. pose proof (wf_ref _ _ W Ey). split; [tauto|]. rewrite Dd. intros; exfalso; lia.
        - destruct (F x' X' Nx) as [Ex ->]. pose proof (wf_ref _ _ W Ex). split; [tauto|]. rewrite Dd. intros; exfalso; lia.
        - destruct (F x' X' Nx) as [Ex ->]. destruct (F y' Y' Ny) as [Ey ->]. auto. }
      destruct sd; auto. }
    destruct sd; try (apply A; auto); simpl in O |- *.
    unfold follow.
    assert (P : forall z, exists_dev s' z ->
       exists_dev s (if Nat.eqb z d then d0 else z) /\ dref s' z = dref s (if Nat.eqb z d then d0 else z)).
    { intros z Z. destruct (Nat.eqb_spec z d) as [->|N]; auto. }
    destruct (P x X) as [Ex ->]. destruct (P y Y) as [Ey ->]. apply I; auto.
  Qed.

  Lemma alone_grow_inv : forall (s : store) R k c m, share_inv s R ->
    share_inv (St (keys s ++ [k]) (devs s ++ [(List.length (keys s), c)]) m) (alone R (List.length (devs s))).
  Proof.
    intros s R k c m SI. pose proof SI as [W I].
    destruct (grow_spec s k c m W) as (W' & L & F & D & _).
    apply (relink_inv s _ R (List.length (devs s)) SNone W' SI Logic.I).
    - intros x X N. unfold exists_dev in *. rewrite L in X. assert (x < List.length (devs s)) by lia.
      split; auto. apply F; auto.
    - exact D.
  Qed.

  Lemma share_ext : forall (s s' : store) R, share_inv s R -> wf s' -> devs s' = devs s -> share_inv s' R.
  Proof.
    intros s s' R [W I] W' E. split; auto. intros x y. unfold exists_dev, dref. rewrite E. apply I.
  Qed.

  Lemma draw_target : forall o : op (key := key), is_draw o = true -> exists d, target o = Some d.
  Proof. intros [] H; simpl in *; try discriminate; eauto. Qed.

  Lemma step_share : forall o (s : store) R, share_inv s R -> op_ok (List.length (devs s)) o ->
    share_inv (fst (step o s)) (link_step R (o, snd (step o s))).
  Proof.
    intros o s R SI O. pose proof SI as [W I].
    destruct (is_draw o) eqn:D.
    - destruct (draw_target o D) as [d T].
      assert (X : exists_dev s d) by (destruct o; simpl in *; try discriminate; injection T as <-; exact O).
      destruct (draw_step_key J ent o d s 0 W X D T) as (_ & E & W' & _).
      assert (G : link_step R (o, snd (step o s)) = R) by (destruct o; simpl in D; try discriminate; reflexivity).
      rewrite G. apply (share_ext s); auto.
    - destruct o; simpl in D; try discriminate; unfold RNG_Model.step, mapM, bindM; cbn [op_ok] in O.
      + destruct (new_spec c sd s W O) as (W' & F & K & Fe). cbv zeta in *.
        destruct (snd (new J ent c sd s)) as [d|e] eqn:S; unfold ret; cbn [fst snd link_step].
        * destruct (K d eq_refl) as (-> & _ & L & _ & M).
          apply (relink_inv s); auto.
          -- intros x X N. unfold exists_dev in *. rewrite L in X. assert (x < List.length (devs s)) by lia.
             split; auto. apply F; auto.
          -- destruct sd; try exact M. apply M.
        * apply (share_ext s); auto. apply (Fe e eq_refl).
      + destruct O as [O1 O2].
        destruct (reset_spec d sd s W O1 O2) as (W' & L & _ & F & K & Fe). cbv zeta in *.
        destruct (snd (reset J ent d sd s)) as [[]|e] eqn:S; unfold ret; cbn [fst snd link_step].
        * apply (relink_inv s); auto.
          -- intros x X N. unfold exists_dev in *. rewrite L in X. split; auto. apply F; auto.
          -- specialize (K eq_refl). destruct sd; try exact K. apply K.
        * apply (share_ext s); auto. apply (Fe e eq_refl).
      + destruct O as [O1 O2].
        destruct (seed_spec d sd s W O1) as (W' & E & _). cbv zeta in *.
        destruct (snd (seed J ent d sd s)) as [[]|e]; unfold ret; cbn [fst snd link_step];
          apply (share_ext s); auto.
      + rewrite dup_eq. unfold ret; cbn [fst snd link_step]. apply alone_grow_inv; auto.
      + rewrite tree_eq. destruct (class_ok (dcls s d)).
        * rewrite dup_eq. unfold ret; cbn [fst snd link_step]. apply alone_grow_inv; auto.
        * cbn [fst snd link_step]. apply (share_ext s); auto.
          unfold wf in *. cbn [keys devs]. rewrite app_length. eapply Forall_impl; [|exact W]. simpl; intros; lia.
  Qed.

  Lemma run_share : forall p (s : store) R, share_inv s R -> prog_ok J ent s p ->
    share_inv (fst (run p s)) (fold_left link_step (combine p (snd (run p s))) R).
  Proof.
    induction p as [|o t IH]; intros s R SI O; simpl; auto.
    destruct O as [O1 O2]. apply IH; auto. apply step_share; auto.
  Qed.

  Lemma empty_inv : share_inv empty (fun _ _ => False).
  Proof.
    split. { constructor. } intros x y X. unfold exists_dev in X. simpl in X. lia.
  Qed.

  Theorem linked_iff : forall p x y, prog_ok J ent empty p ->
    let s := fst (run p empty) in
    exists_dev s x -> exists_dev s y ->
    (linked (combine p (snd (run p empty))) x y <-> dref s x = dref s y).
  Proof. intros p x y O s X Y. apply (run_share p empty _ empty_inv O); auto. Qed.
  Lemma run_wf : forall p, prog_ok J ent empty p -> wf (fst (run p empty)).
  Proof. intros p O. apply (run_share p empty _ empty_inv O). Qed.

  (** * Whole histories *)
  Definition tcost (s : store) (o : op (key := key)) : nat :=
    match target o with Some d => cost (dcls s d) o | None => 0 end.

  (** A program of draws through deviates sharing one state walks along one stream. *)
  Lemma draws_total : forall p (s : store) d, wf s -> exists_dev s d ->
    (forall o, In o p -> is_draw o = true /\ exists e, target o = Some e /\ exists_dev s e /\ dref s e = dref s d) ->
    let s' := fst (run p s) in
    wf s' /\ devs s' = devs s /\
    dkey s' d = adv J (dkey s d) (fold_right plus 0 (map (tcost s) p)).
  Proof.
    induction p as [|o t IH]; intros s d W X H; cbn [RNG_Model.run fst snd map fold_right]; auto.
    destruct (H o (or_introl eq_refl)) as (D & e & T & Xe & Re).
    destruct (draw_step_key J ent o e s d W Xe D T) as (_ & Ed & W1 & K).
    set (s1 := fst (step o s)) in *.
    assert (X1 : exists_dev s1 d) by (unfold exists_dev in *; rewrite Ed; auto).
    destruct (IH s1 d W1 X1) as (W2 & E2 & K2).
    { intros o' Ho'. destruct (H o' (or_intror Ho')) as (D' & e' & T' & Xe' & Re').
      split; auto. exists e'. split; auto. unfold exists_dev in *. rewrite Ed. split; auto.
      rewrite !(dref_ext s s1) by auto. auto. }
    split; auto. split. { congruence. }
    rewrite K2, K. rewrite <- Re, Nat.eqb_refl.
    assert (Ke : dkey s e = dkey s d) by (unfold RNG_Model.dkey; rewrite Re; auto).
    rewrite Ke, adv_add. unfold tcost at 2. rewrite T. f_equal. f_equal.
    apply map_ext. intros a. unfold tcost, dcls. rewrite Ed. reflexivity.
  Qed.

  (** The outcome of the i-th draw, given the draws made before it. *)
  Lemma draws_outcome : forall p q o (s : store) d, wf s -> exists_dev s d ->
    (forall o', In o' (p ++ o :: q) -> is_draw o' = true /\
        exists e, target o' = Some e /\ exists_dev s e /\ dref s e = dref s d) ->
    forall e, target o = Some e ->
    nth_error (snd (run (p ++ o :: q) s)) (List.length p) =
      Some (outcome J (dcls s e) (adv J (dkey s d) (fold_right plus 0 (map (tcost s) p))) o).
  Proof.
    induction p as [|o1 t IH]; intros q o s d W X H e T.
    - cbn [app RNG_Model.run snd List.length nth_error map fold_right].
      destruct (H o (or_introl eq_refl)) as (D & e' & T' & Xe & Re).
      rewrite T in T'. injection T' as <-.
      destruct (draw_step_key J ent o e s d W Xe D T) as (-> & _).
      unfold RNG_Model.dkey. rewrite Re. reflexivity.
    - cbn [app RNG_Model.run snd List.length nth_error map fold_right].
      destruct (H o1 (or_introl eq_refl)) as (D & e1 & T1 & Xe & Re).
      destruct (draw_step_key J ent o1 e1 s d W Xe D T1) as (_ & Ed & W1 & K).
      set (s1 := fst (step o1 s)) in *.
      assert (X1 : exists_dev s1 d) by (unfold exists_dev in *; rewrite Ed; auto).
      rewrite (IH q o s1 d W1 X1) with (e := e); auto.
      + rewrite K, <- Re, Nat.eqb_refl.
        assert (Ke : dkey s e1 = dkey s d) by (unfold RNG_Model.dkey; rewrite Re; auto).
        assert (Ce : forall x, dcls s1 x = dcls s x) by (intros; unfold dcls; rewrite Ed; auto).
        rewrite Ce, Ke, adv_add. unfold tcost at 2. rewrite T1. do 3 f_equal. f_equal.
        apply map_ext. intros a. unfold tcost. destruct (target a); auto. rewrite Ce. reflexivity.
      + intros o' Ho'. destruct (H o' (or_intror Ho')) as (D' & e' & T' & Xe' & Re').
        split; auto. exists e'. split; auto. unfold exists_dev in *. rewrite Ed. split; auto.
        rewrite !(dref_ext s s1) by auto. auto.
  Qed.

  (** Operations that do not draw from, seed or reset anything linked to d leave d alone. *)
  Definition leaves (s : store) (d : nat) (o : op (key := key)) : Prop :=
    match o with
    | OReset e _ => e <> d
    | OSeed e _ => dref s e <> dref s d
    | ONew _ _ | ODup _ | OTree _ => True
    | _ => match target o with Some e => dref s e <> dref s d | None => True end
    end.
  Fixpoint leaves_all (s : store) (d : nat) (p : list (op (key := key))) : Prop :=
    match p with
    | [] => True
    | o :: t => leaves s d o /\ leaves_all (fst (step o s)) d t
    end.

  Lemma step_leaves : forall o (s : store) d, wf s -> exists_dev s d -> op_ok (List.length (devs s)) o ->
    leaves s d o ->
    wf (fst (step o s)) /\ exists_dev (fst (step o s)) d /\
    dkey (fst (step o s)) d = dkey s d /\ dcls (fst (step o s)) d = dcls s d.
  Proof.
    intros o s d W X O L.
    destruct (is_draw o) eqn:D.
    - destruct (draw_target o D) as [e T].
      assert (Xe : exists_dev s e) by (destruct o; simpl in *; try discriminate; injection T as <-; exact O).
      destruct (draw_step_key J ent o e s d W Xe D T) as (_ & E & W' & K).
      split; auto. unfold exists_dev, dcls in *. rewrite E. split; auto. split; auto.
      assert (N : dref s e <> dref s d) by (destruct o; simpl in *; try discriminate; injection T as <-; exact L).
      rewrite K. destruct (Nat.eqb_spec (dref s d) (dref s e)); congruence.
    - destruct o; simpl in D; try discriminate; unfold RNG_Model.step, mapM, bindM; cbn [op_ok] in O; cbn [leaves] in L.
      + destruct (new_spec c sd s W O) as (W' & F & _). cbv zeta in *.
        destruct (F d X) as (a & b & cc & dd).
        destruct (snd (new J ent c sd s)); unfold ret; cbn [fst snd]; auto.
      + destruct O as [O1 O2]. destruct (reset_spec d0 sd s W O1 O2) as (W' & Ln & C & F & _). cbv zeta in *.
        assert (XX : exists_dev (fst (reset J ent d0 sd s)) d) by (unfold exists_dev in *; rewrite Ln; auto).
        assert (N : d <> d0) by congruence.
        destruct (snd (reset J ent d0 sd s)); unfold ret; cbn [fst snd]; split; auto; split; auto; split; auto; apply F; auto.
      + destruct O as [O1 O2]. destruct (seed_spec d0 sd s W O1) as (W' & E & F & _). cbv zeta in *.
        assert (XX : exists_dev (fst (seed J ent d0 sd s)) d) by (unfold exists_dev in *; rewrite E; auto).
        assert (C : dcls (fst (seed J ent d0 sd s)) d = dcls s d) by (unfold dcls; rewrite E; auto).
        destruct (snd (seed J ent d0 sd s)); unfold ret; cbn [fst snd]; split; auto.
      + rewrite dup_eq. unfold ret; cbn [fst snd].
        destruct (grow_spec s (dkey s d0) (dcls s d0) (nent s) W) as (W' & L' & F & _).
        destruct (F d X) as (a & b & cc). split; auto. split; auto. unfold exists_dev in *. rewrite L'. lia.
      + rewrite tree_eq. destruct (class_ok (dcls s d0)).
        * rewrite dup_eq. unfold ret; cbn [fst snd].
          destruct (grow_spec s (dkey s d0) (dcls s d0) (nent s) W) as (W' & L' & F & _).
          destruct (F d X) as (a & b & cc). split; auto. split; auto. unfold exists_dev in *. rewrite L'. lia.
        * cbn [fst snd]. split.
          { unfold wf in *. cbn [keys devs]. rewrite app_length. eapply Forall_impl; [|exact W]. simpl; intros; lia. }
          split; auto. split; auto. unfold RNG_Model.dkey, kget, dref. cbn [keys devs].
          apply app_nth1. apply wf_ref; auto.
  Qed.

  Lemma run_leaves : forall p (s : store) d, wf s -> exists_dev s d -> prog_ok J ent s p -> leaves_all s d p ->
    dkey (fst (run p s)) d = dkey s d /\ dcls (fst (run p s)) d = dcls s d.
  Proof.
    induction p as [|o t IH]; intros s d W X O L; simpl; auto.
    destruct O as [O1 O2]. destruct L as [L1 L2].
    destruct (step_leaves o s d W X O1 L1) as (W' & X' & K & C).
    destruct (IH _ d W' X' O2 L2) as [E1 E2]. rewrite E1, E2. auto.
  Qed.

  (** Generators of one class with equal keys have the same future. *)
  Lemma retarget_draw : forall d (o : op (key := key)), is_draw o = true ->
    is_draw (retarget d o) = true /\ target (retarget d o) = Some d /\
    forall c k, cost c (retarget d o) = cost c o /\ outcome J c k (retarget d o) = outcome J c k o.
  Proof. intros d [] H; simpl in H; try discriminate; simpl; auto. Qed.

  Lemma same_future : forall p (s1 s2 : store) d1 d2,
    wf s1 -> wf s2 -> exists_dev s1 d1 -> exists_dev s2 d2 ->
    dkey s1 d1 = dkey s2 d2 -> dcls s1 d1 = dcls s2 d2 -> forallb is_draw p = true ->
    snd (run (map (retarget d1) p) s1) = snd (run (map (retarget d2) p) s2) /\
    dkey (fst (run (map (retarget d1) p) s1)) d1 = dkey (fst (run (map (retarget d2) p) s2)) d2.
  Proof.
    induction p as [|o t IH]; intros s1 s2 d1 d2 W1 W2 X1 X2 K C H; cbn [map RNG_Model.run fst snd]; auto.
    cbn [forallb] in H. apply andb_prop in H. destruct H as [H1 H2].
    destruct (retarget_draw d1 o H1) as (A1 & B1 & C1). destruct (retarget_draw d2 o H1) as (A2 & B2 & C2).
    destruct (draw_step_key J ent _ d1 s1 d1 W1 X1 A1 B1) as (R1 & E1 & Wf1 & K1).
    destruct (draw_step_key J ent _ d2 s2 d2 W2 X2 A2 B2) as (R2 & E2 & Wf2 & K2).
    rewrite Nat.eqb_refl in K1, K2.
    destruct (IH (fst (step (retarget d1 o) s1)) (fst (step (retarget d2 o) s2)) d1 d2) as [I1 I2]; auto.
    - unfold exists_dev in *. rewrite E1. auto.
    - unfold exists_dev in *. rewrite E2. auto.
    - rewrite K1, K2, K, C. destruct (C1 (dcls s2 d2) (dkey s2 d2)) as [-> _].
      destruct (C2 (dcls s2 d2) (dkey s2 d2)) as [-> _]. reflexivity.
    - unfold dcls in *. rewrite E1, E2. auto.
    - split; auto. rewrite I1, R1, R2, K, C.
      destruct (C1 (dcls s2 d2) (dkey s2 d2)) as [_ ->]. destruct (C2 (dcls s2 d2) (dkey s2 d2)) as [_ ->]. reflexivity.
  Qed.

  (** Explicit seeds: the key after new/reset depends on the seed only. *)
  Lemma reset_int : forall d z (s : store), wf s -> exists_dev s d -> z <> 0%Z ->
    snd (reset J ent d (SInt z) s) = Ok tt /\ dkey (fst (reset J ent d (SInt z) s)) d = jkey J z.
  Proof.
    intros d z s W X Hz.
    assert (E : reset J ent d (SInt z) s =
       (St (keys s ++ [jkey J z]) (lset (devs s) d (List.length (keys s), dcls s d)) (nent s), Ok tt)).
    { unfold reset, bindM, reset_state, bindM, seed_or_random, ret.
      destruct (Z.eqb_spec z 0); [contradiction|]. reflexivity. }
    rewrite E. split; auto. unfold RNG_Model.dkey, kget, dref. cbn [fst keys devs].
    rewrite nth_lset_same by exact X. simpl. rewrite app_nth2, Nat.sub_diag by lia. reflexivity.
  Qed.
  Lemma new_int : forall c z (s : store), wf s -> z <> 0%Z -> class_ok c = true ->
    snd (new J ent c (SInt z) s) = Ok (List.length (devs s)) /\
    dkey (fst (new J ent c (SInt z) s)) (List.length (devs s)) = jkey J z.
  Proof.
    intros c z s W Hz Hc.
    assert (E : new J ent c (SInt z) s =
       (St (keys s ++ [jkey J z]) (devs s ++ [(List.length (keys s), c)]) (nent s), Ok (List.length (devs s)))).
    { unfold new, bindM, reset_state, bindM, seed_or_random, ret.
      destruct (Z.eqb_spec z 0); [contradiction|]. cbn [fst snd]. rewrite Hc. reflexivity. }
    rewrite E. split; auto. unfold RNG_Model.dkey, kget, dref. cbn [fst keys devs].
    rewrite (app_nth2 (devs s)), Nat.sub_diag by lia. simpl. rewrite app_nth2, Nat.sub_diag by lia. reflexivity.
  Qed.

  (** After a program, a duplicate and its source agree and are not linked to each other. *)
  Lemma dup_spec : forall d (s : store), wf s -> exists_dev s d ->
    let r := duplicate J d s in
    exists e, snd r = Ok e /\ exists_dev (fst r) e /\ wf (fst r) /\
      dkey (fst r) e = dkey s d /\ dcls (fst r) e = dcls s d /\
      forall x, exists_dev s x -> x <> e /\ dref (fst r) x <> dref (fst r) e /\
        dkey (fst r) x = dkey s x /\ dcls (fst r) x = dcls s x.
  Proof.
    intros d s W X r. exists (List.length (devs s)). unfold r. rewrite dup_eq. cbn [fst snd].
    destruct (grow_spec s (dkey s d) (dcls s d) (nent s) W) as (W' & L & F & D & C & K).
    split; auto. split. { unfold exists_dev. rewrite L. lia. } split; auto. split; auto. split; auto.
    intros x Hx. destruct (F x Hx) as (a & b & c). unfold exists_dev in Hx. split; [lia|]. split; [|auto].
    rewrite a, D. pose proof (wf_ref s x W Hx). lia.
  Qed.
End Link.
