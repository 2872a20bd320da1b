From Coq Require Import ZArith Reals Lra Lia Bool List Permutation ZifyBool.
From Verif Require Import Base Array_Model Bounds_Model Bounds_Spec Bounds_Proofs Image_Model Image_Spec Image_Proofs
  FFT_Model FFT_Spec FFT_Proofs Draw_Model Draw_Spec.
Import ListNotations.
Open Scope Z_scope.
Ltac Zify.zify_post_hook ::= Z.div_mod_to_equations.

Section P.
  Context {V D W : Type}.
  Variable T : vops V D W.
  Variable dflt : D.
  Notation image := (image V D W).
  Notation dargs := (dargs (V:=V) (D:=D) (W:=W)).

  (** conflicts are exactly the GalSimIncompatibleValuesErrors *)
  Lemma setup_conflict N (a : dargs) :
    setup_image T dflt N (a_image a) (a_nx a) (a_ny a) (a_bounds a) (a_add a) (a_dtype a) (a_center a) false
      = Err GalSimIncompatibleValuesError <-> conflicting T a.
  Proof using Type.
    destruct a as [im nx ny bounds add dtype center offset utc]. unfold conflicting, setup_image.
    cbn [a_image a_nx a_ny a_bounds a_add a_dtype a_center].
    destruct im as [im|].
    - destruct bounds as [b|]; cbn [opt_some].
      { split; [|reflexivity]. intros _. left. exists im. split; [reflexivity|]. left. discriminate. }
      destruct nx as [nx|]; cbn [opt_some orb].
      { split; [|reflexivity]. intros _. left. exists im. split; [reflexivity|]. right; left. discriminate. }
      destruct ny as [ny|]; cbn [opt_some orb].
      { split; [|reflexivity]. intros _. left. exists im. split; [reflexivity|]. right; right; left. discriminate. }
      destruct dtype as [d|].
      + destruct (deqb T (idt im) d) eqn:E; cbn [negb].
        * destruct (bdef (ibnd im)) eqn:Ed.
          { split; [discriminate|]. intros [(i & Hi & H)|[(H & H')|[(H & _)|(H & _)]]]; try discriminate.
            - destruct H as [H|[H|[H|(d' & Hd & H)]]]; try congruence.
            - specialize (H' im eq_refl). congruence. }
          destruct add.
          { split; [|reflexivity]. intros _. right; left. split; [reflexivity|]. intros i Hi. congruence. }
          split.
          { unfold resize, if_mutable, isconst. destruct (iconst im) as [[|]|]; cbn; try discriminate.
            destruct (numpyShapeI _) as [h w]. cbn. discriminate. }
          intros [(i & Hi & H)|[(H & H')|[(H & _)|(H & _)]]]; try discriminate.
          destruct H as [H|[H|[H|(d' & Hd & H)]]]; congruence.
        * split; [|reflexivity]. intros _. left. exists im. split; [reflexivity|]. right; right; right. exists d. auto.
      + destruct (bdef (ibnd im)) eqn:Ed.
        { split; [discriminate|]. intros [(i & Hi & H)|[(H & H')|[(H & _)|(H & _)]]]; try discriminate.
          - destruct H as [H|[H|[H|(d' & Hd & H)]]]; try congruence.
          - specialize (H' im eq_refl). congruence. }
        destruct add.
        { split; [|reflexivity]. intros _. right; left. split; [reflexivity|]. intros i Hi. congruence. }
        split.
        { unfold resize, if_mutable, isconst. destruct (iconst im) as [[|]|]; cbn; try discriminate.
          destruct (numpyShapeI _) as [h w]. cbn. discriminate. }
        intros [(i & Hi & H)|[(H & H')|[(H & _)|(H & _)]]]; try discriminate.
        destruct H as [H|[H|[H|(d' & Hd & H)]]]; congruence.
    - destruct add.
      { split; [|reflexivity]. intros _. right; left. split; [reflexivity|]. intros i Hi. discriminate. }
      destruct bounds as [b|].
      + destruct nx as [nx|]; cbn [opt_some orb].
        { split; [|reflexivity]. intros _. right; right; left. repeat split; try discriminate. left. discriminate. }
        destruct ny as [ny|]; cbn [opt_some orb].
        { split; [|reflexivity]. intros _. right; right; left. repeat split; try discriminate. right. discriminate. }
        split; [destruct (bdef b); cbn; discriminate|].
        intros [(i & Hi & H)|[(H & H')|[(_ & _ & H)|(_ & H & _)]]]; try discriminate. destruct H as [H|H]; congruence.
      + destruct nx as [nx|], ny as [ny|].
        * split; [destruct center as [c|]; [destruct (center_shift _ _)|]; discriminate|].
          intros [(i & Hi & H)|[(H & H')|[(_ & H & _)|(_ & _ & H)]]]; try discriminate; try congruence.
          assert (Some nx = None) by (apply H; discriminate). discriminate.
        * split; [|reflexivity]. intros _. right; right; right. repeat split; congruence.
        * split; [|reflexivity]. intros _. right; right; right. repeat split; congruence.
        * split.
          { destruct center as [c|]; [|discriminate]. unfold setCenter, centerI. destruct (bdef _); cbn; discriminate. }
          intros [(i & Hi & H)|[(H & H')|[(_ & H & _)|(_ & _ & H)]]]; try discriminate; try congruence.
          assert ((None : option Z) <> None) by (apply H; reflexivity). congruence.
  Qed.

  (** basic facts about the images made by setup *)
  Lemma make_empty_zero h w i j : elt (make_empty T h w) i j = vzero T.
  Proof using Type. unfold make_empty. destruct (h * w =? 0); reflexivity. Qed.
  Lemma all_zero_arr (im : image) : (forall i j, elt (iarr im) i j = vzero T) -> all_zero T im.
  Proof using Type.
    intros H x y v. unfold getValue. destruct (negb (bdef (ibnd im))); [discriminate|].
    destruct (negb (includesI (ibnd im) x y)); [discriminate|]. intros E. assert (E' : elt (iarr im) (y - ymin_ im) (x - xmin_ im) = v) by congruence.
    rewrite <- E'. apply H.
  Qed.
  Lemma shift_bounds (im : image) dx dy : nv (bxmin (ibnd (shift T im dx dy))) = nv (bxmin (ibnd im)) + nv dx /\
    nv (bymin (ibnd (shift T im dx dy))) = nv (bymin (ibnd im)) + nv dy /\
    bdx (ibnd (shift T im dx dy)) = bdx (ibnd im) /\ bdy (ibnd (shift T im dx dy)) = bdy (ibnd im).
  Proof using Type. repeat split; reflexivity. Qed.
  Lemma shift_def (im : image) dx dy : 1 <= nv (bdx (ibnd im)) -> 1 <= nv (bdy (ibnd im)) -> bdef (ibnd (shift T im dx dy)) = true.
  Proof using Type. intros. unfold shift, shiftI, b_shift. cbn [ibnd]. apply BoundsI_delta_def; assumption. Qed.

  Lemma floor_half c t : (IZR (floorR (c + / 2 - t)) <= c + / 2 - t < IZR (floorR (c + / 2 - t)) + 1)%R.
  Proof using Type. apply floorR_bounds. Qed.

  Lemma nxny_vals nx ny d : let i := Image_nxny (V:=V) (D:=D) (W:=W) T nx ny d in
    nv (bxmin (ibnd i)) = 1 /\ nv (bdx (ibnd i)) = nx /\ nv (bymin (ibnd i)) = 1 /\ nv (bdy (ibnd i)) = ny /\
    nv (xmaxI (ibnd i)) = nx /\ nv (ymaxI (ibnd i)) = ny.
  Proof using Type.
    cbv zeta. unfold Image_nxny. cbn [ibnd]. destruct (bound_vals 1 nx 1 ny) as (A & B & C & E & F & G).
    rewrite A, B, C, E, F, G. lia.
  Qed.
  Lemma nxny_def nx ny d : 1 <= nx -> 1 <= ny -> bdef (ibnd (Image_nxny (V:=V) (D:=D) (W:=W) T nx ny d)) = true.
  Proof using Type. intros. unfold Image_nxny. cbn [ibnd]. apply BoundsI_delta_def; assumption. Qed.

  Lemma setCenter_auto (i : image) cx cy : 1 <= nv (bdx (ibnd i)) -> 1 <= nv (bdy (ibnd i)) -> bdef (ibnd i) = true ->
    exists i', setCenter T i cx cy = (i', None) /\ center_x (ibnd i') = nv cx /\ center_y (ibnd i') = nv cy /\
      nv (bdx (ibnd i')) = nv (bdx (ibnd i)) /\ nv (bdy (ibnd i')) = nv (bdy (ibnd i)) /\ bdef (ibnd i') = true /\ iarr i' = iarr i /\ idt i' = idt i
      /\ iconst i' = iconst i.
  Proof using Type.
    intros H1 H2 Hd. unfold setCenter, centerI. rewrite Hd. eexists. split; [reflexivity|].
    match goal with |- context [shift T i ?a ?b] => set (dx := a); set (dy := b) end.
    destruct (shift_bounds i dx dy) as (A & B & C & E).
    unfold center_x, center_y. rewrite A, B, C, E. unfold dx, dy. cbn [nv].
    split; [lia|]. split; [lia|]. split; [reflexivity|]. split; [reflexivity|]. split; [apply shift_def; assumption|]. repeat split.
  Qed.

  (** ** C19 *)
  Lemma setup_outcome N (a : dargs) im : sane a -> 2 <= N ->
    setup_image T dflt N (a_image a) (a_nx a) (a_ny a) (a_bounds a) (a_add a) (a_dtype a) (a_center a) false = Ok im ->
    bdef (ibnd im) = true /\
    (forall d, a_dtype a = Some d -> deqb T (idt im) d = true \/ idt im = d) /\
    match a_image a with
    | Some i =>
        if bdef (ibnd i) then im = i
        else all_zero T im /\ idt im = idt i /\ iwcs im = iwcs i /\
             nv (bxmin (ibnd im)) = 1 /\ nv (bymin (ibnd im)) = 1 /\ nv (bdx (ibnd im)) = N /\ nv (bdy (ibnd im)) = N
    | None =>
        all_zero T im /\
        match a_bounds a, a_nx a, a_ny a with
        | Some b, _, _ => ibnd im = b
        | None, Some nx, Some ny =>
            nv (bdx (ibnd im)) = nx /\ nv (bdy (ibnd im)) = ny /\
            match a_center a with
            | None => nv (bxmin (ibnd im)) = 1 /\ nv (bymin (ibnd im)) = 1
            | Some c => (Rabs (fst c - true_center_x (ibnd im)) <= / 2 /\ Rabs (snd c - true_center_y (ibnd im)) <= / 2)%R
            end
        | None, _, _ =>
            nv (bdx (ibnd im)) = N /\ nv (bdy (ibnd im)) = N /\
            match a_center a with
            | None => nv (bxmin (ibnd im)) = 1 /\ nv (bymin (ibnd im)) = 1
            | Some c => centerI (ibnd im) = Ok (ceilR (fst c), ceilR (snd c))
            end
        end
    end.
  Proof using Type.
    destruct a as [i nx ny bounds add dtype center offset utc]. unfold sane, setup_image.
    cbn [a_image a_nx a_ny a_bounds a_add a_dtype a_center]. intros (S1 & S2 & S3 & S4) HN.
    destruct i as [i|].
    - destruct bounds; cbn [opt_some]; [discriminate|]. destruct nx; [discriminate|]. destruct ny; [discriminate|]. cbn [opt_some orb].
      destruct (match dtype with Some d => negb (deqb T (idt i) d) | None => false end) eqn:Hdt; [discriminate|].
      assert (Hdt' : forall d, dtype = Some d -> deqb T (idt i) d = true).
      { intros d Hd. subst dtype. destruct (deqb T (idt i) d); [reflexivity|discriminate]. }
      destruct (bdef (ibnd i)) eqn:Hb.
      { intros E. assert (i = im) by congruence. subst im. split; [exact Hb|]. split; [intros d Hd; left; auto|reflexivity]. }
      destruct add; [discriminate|].
      unfold resize, if_mutable, isconst. destruct (iconst i) as [[|]|]; cbn [raise]; try discriminate.
      set (b := BoundsI _). assert (Hbd : bdef b = true) by (apply BoundsI_delta_def; cbn [nv py]; lia).
      destruct (numpyShapeI b) as [h w]. unfold done. intros E.
      assert (E' : im = Img (make_empty T h w) b (idt i) (Some false) (iwcs i)) by congruence. clear E. rewrite E'. clear E'.
      cbn [ibnd idt iwcs]. destruct (bound_vals 1 N 1 N) as (A & B & C & E & F & G). fold b in A, B, C, E, F, G.
      split; [exact Hbd|]. split; [intros d Hd; left; auto|]. split.
      { apply all_zero_arr. intros. apply make_empty_zero. } repeat (split; [first [reflexivity|assumption]|]). assumption.
    - destruct add; [discriminate|]. destruct bounds as [b|].
      + destruct nx; [discriminate|]. destruct ny; [discriminate|]. cbn [opt_some orb].
        destruct (bdef b) eqn:Hb; [|discriminate]. cbn [negb]. unfold Image_bounds. destruct (numpyShapeI b) as [h w].
        intros E. assert (E' : im = Img (make_empty T h w) b (or_dflt dflt dtype) (Some false) None) by congruence. rewrite E'. cbn [ibnd idt].
        split; [exact Hb|]. split; [intros d Hd; right; subst dtype; reflexivity|]. split; [|reflexivity].
        apply all_zero_arr. intros. apply make_empty_zero.
      + destruct nx as [nx|], ny as [ny|]; try discriminate.
        * pose proof (S1 nx eq_refl) as Hx. pose proof (S2 ny eq_refl) as Hy.
          set (i := Image_nxny T nx ny (or_dflt dflt dtype)).
          assert (Hid : bdef (ibnd i) = true) by (apply nxny_def; assumption).
          destruct (nxny_vals nx ny (or_dflt dflt dtype)) as (A & B & C & E & F & G). fold i in A, B, C, E, F, G.
          assert (Hz : forall r c, elt (iarr i) r c = vzero T) by (intros; apply make_empty_zero).
          destruct center as [c|].
          -- unfold center_shift. set (dx := jx _). set (dy := jx _). intros HE.
             assert (HE' : im = shift T i dx dy) by congruence. rewrite HE'.
             destruct (shift_bounds i dx dy) as (P1 & P2 & P3 & P4).
             split; [apply shift_def; lia|]. split; [intros d Hd; right; subst dtype; reflexivity|].
             split; [apply all_zero_arr; exact Hz|]. split; [rewrite P3; exact B|]. split; [rewrite P4; exact E|].
             assert (X1 : true_center_x (ibnd (shift T i dx dy)) = (true_center_x (ibnd i) + IZR (nv dx))%R).
             { unfold true_center_x. assert (Q : nv (xmaxI (ibnd (shift T i dx dy))) = nv (xmaxI (ibnd i)) + nv dx).
               { unfold xmaxI, b_xmax, nlift2. cbn [nv]. rewrite P1, P3. lia. }
               rewrite Q, P1. rewrite !plus_IZR. field. }
             assert (X2 : true_center_y (ibnd (shift T i dx dy)) = (true_center_y (ibnd i) + IZR (nv dy))%R).
             { unfold true_center_y. assert (Q : nv (ymaxI (ibnd (shift T i dx dy))) = nv (ymaxI (ibnd i)) + nv dy).
               { unfold ymaxI, b_ymax, nlift2. cbn [nv]. rewrite P2, P4. lia. }
               rewrite Q, P2. rewrite !plus_IZR. field. }
             rewrite X1, X2. unfold dx, dy, jx. cbn [nv].
             pose proof (floor_half (fst c) (true_center_x (ibnd i))). pose proof (floor_half (snd c) (true_center_y (ibnd i))).
             split; apply Rabs_le; lra.
          -- intros HE. assert (HE' : im = i) by congruence. rewrite HE'. split; [exact Hid|]. split; [intros d Hd; right; subst dtype; reflexivity|].
             split; [apply all_zero_arr; exact Hz|]. auto.
        * set (i := Image_nxny T N N (or_dflt dflt dtype)).
          assert (Hid : bdef (ibnd i) = true) by (apply nxny_def; lia).
          destruct (nxny_vals N N (or_dflt dflt dtype)) as (A & B & C & E & F & G). fold i in A, B, C, E, F, G.
          assert (Hz : forall r c, elt (iarr i) r c = vzero T) by (intros; apply make_empty_zero).
          destruct center as [c|].
          -- destruct (setCenter_auto i (jx (ceilR (fst c))) (jx (ceilR (snd c))) ltac:(lia) ltac:(lia) Hid) as (i' & I1 & I2 & I3 & I4 & I5 & I6 & I7 & I8 & I9).
             rewrite I1. intros HE. assert (HE' : im = i') by congruence. rewrite HE'.
             split; [exact I6|]. split; [intros d Hd; right; rewrite I8; subst dtype; reflexivity|].
             split; [apply all_zero_arr; intros; rewrite I7; apply Hz|]. split; [lia|]. split; [lia|].
             unfold centerI. rewrite I6. unfold center_x, center_y in I2, I3. rewrite I2, I3. reflexivity.
          -- intros HE. assert (HE' : im = i) by congruence. rewrite HE'. split; [exact Hid|]. split; [intros d Hd; right; subst dtype; reflexivity|].
             split; [apply all_zero_arr; exact Hz|]. auto.
  Qed.

  (** ** C20 *)
  Lemma posR_eq (p q : posR) : fst p = fst q -> snd p = snd q -> p = q.
  Proof using Type. destruct p, q. cbn. intros -> ->. reflexivity. Qed.

  Lemma nominal_true lo w : 1 <= w ->
    (IZR (lo + w / 2) - / 2 * IZR ((w + 1) mod 2) = (IZR lo + IZR (lo + w - 1)) / 2)%R.
  Proof using Type.
    intros Hw. assert (E : 2 * (lo + w / 2) - (w + 1) mod 2 = lo + (lo + w - 1)) by lia.
    apply (f_equal IZR) in E. repeat rewrite ?minus_IZR, ?mult_IZR, ?plus_IZR in E. repeat rewrite ?minus_IZR, ?plus_IZR. lra.
  Qed.

  (** new_bounds agrees with the image finally used, whenever it is defined *)
  Lemma new_bounds_agree N (a : dargs) im :
    sane a -> 2 <= N ->
    setup_image T dflt N (a_image a) (a_nx a) (a_ny a) (a_bounds a) (a_add a) (a_dtype a) (a_center a) false = Ok im ->
    let nb := get_new_bounds (a_image a) (a_nx a) (a_ny a) (a_bounds a) (a_center a) in
    (bdef nb = true -> nv (bxmin nb) = nv (bxmin (ibnd im)) /\ nv (bymin nb) = nv (bymin (ibnd im)) /\
        nv (bdx nb) = nv (bdx (ibnd im)) /\ nv (bdy nb) = nv (bdy (ibnd im)) /\ wfI (ibnd im)) /\
    (bdef nb = false -> nv (bdx (ibnd im)) = N /\ nv (bdy (ibnd im)) = N /\
        (forall i, a_image a = Some i -> bdef (ibnd i) = false)).
  Proof using Type.
    intros Hs HN HOk. destruct (setup_outcome N a im Hs HN HOk) as (Hd & _ & H).
    destruct Hs as (S1 & S2 & S3 & S4).
    revert HOk H S1 S2 S3 S4. destruct a as [i nx ny bounds add dtype center offset utc]. unfold get_new_bounds, setup_image.
    cbn [a_image a_nx a_ny a_bounds a_add a_dtype a_center]. intros HOk H S1 S2 S3 S4. cbv zeta.
    destruct i as [i|].
    - destruct bounds; [discriminate|]. destruct nx; [discriminate|]. destruct ny; [discriminate|].
      destruct (bdef (ibnd i)) eqn:Hb.
      + subst im. split; [|congruence]. intros _. repeat (split; [reflexivity|]). exact (S4 i eq_refl).
      + destruct H as (_ & _ & _ & _ & _ & H1 & H2). split; [discriminate|]. intros _. split; [exact H1|]. split; [exact H2|].
        intros i' Hi'. congruence.
    - destruct add; [discriminate|]. destruct H as [_ H]. destruct bounds as [b|].
      + destruct nx; [discriminate|]. destruct ny; [discriminate|]. cbn [opt_some orb] in HOk.
        destruct (bdef b) eqn:Hb; [|discriminate]. split; [|congruence]. intros _. rewrite H.
        repeat (split; [reflexivity|]). exact (S3 b eq_refl).
      + destruct nx as [nx|], ny as [ny|]; try discriminate.
        * pose proof (S1 nx eq_refl) as Hx. pose proof (S2 ny eq_refl) as Hy.
          destruct center as [c|].
          -- unfold Image_nxny in HOk. cbn [ibnd] in HOk. set (b := BoundsI _) in *.
             destruct (center_shift c b) as [dx dy].
             match type of HOk with Ok ?s = Ok _ => assert (HE : im = s) by congruence end.
             assert (Q : ibnd im = shiftI b dx dy) by (rewrite HE; reflexivity).
             rewrite <- Q. split; [|congruence]. intros _. repeat (split; [reflexivity|]). intros _. lia.
          -- match type of HOk with Ok ?s = Ok _ => assert (HE : im = s) by congruence end.
             assert (Q : ibnd im = BoundsI (ArgsKwDelta (py 1) (py nx) (py 1) (py ny))) by (rewrite HE; reflexivity).
             rewrite <- Q. split; [|congruence]. intros _. repeat (split; [reflexivity|]). intros _. lia.
        * destruct H as (H1 & H2 & _). split; [discriminate|]. intros _. split; [exact H1|]. split; [exact H2|]. discriminate.
  Qed.

  Lemma drawn_where_asked N (a : dargs) im off :
    sane a -> 2 <= N -> Z.even N = true ->
    (forall i, a_image a = Some i -> bdef (ibnd i) = false -> a_center a = None) ->
    draw_geometry T dflt N a = Ok (im, off) ->
    drawn_at im off = asked_position im a.
  Proof using Type.
    intros Hs HN HNe Hc. unfold draw_geometry.
    destruct (setup_image T dflt N _ _ _ _ _ _ _ false) as [im'|e] eqn:HOk; [|discriminate]. cbn [bind].
    intros E. assert (im' = im) by congruence. subst im'.
    match type of E with Ok (_, ?o) = _ => assert (Eo : off = o) by congruence end. rewrite Eo. clear E Eo off.
    destruct (new_bounds_agree N a im Hs HN HOk) as [A1 A2]. cbv zeta in A1, A2.
    destruct (setup_outcome N a im Hs HN HOk) as (Hd & _ & H).
    set (nb := get_new_bounds _ _ _ _ _) in *.
    unfold drawn_at, asked_position, adjust_offset.
    destruct (a_center a) as [c|] eqn:Ec.
    - destruct (bdef nb) eqn:Hb.
      + destruct (A1 eq_refl) as (E1 & E2 & E3 & E4 & _). unfold center_x, center_y. rewrite E1, E2, E3, E4.
        apply posR_eq; cbn [fst snd]; lra.
      + destruct (A2 eq_refl) as (E1 & E2 & E3).
        destruct (a_image a) as [i|] eqn:Ei; [exfalso; specialize (Hc i eq_refl (E3 i eq_refl)); discriminate|].
        destruct H as [_ H].
        assert (HC : centerI (ibnd im) = Ok (ceilR (fst c), ceilR (snd c))).
        { destruct (a_bounds a) as [b|] eqn:Eb.
          - exfalso. unfold nb, get_new_bounds in Hb. rewrite <- H in Hb. cbn [setup_image] in HOk.
            destruct (a_nx a), (a_ny a); cbn in HOk; try (destruct (a_add a); discriminate). rewrite Hd in Hb. congruence.
          - destruct (a_nx a) as [nx|] eqn:Ex, (a_ny a) as [ny|] eqn:Ey.
            + exfalso. destruct Hs as (S1 & S2 & _). pose proof (S1 nx Ex). pose proof (S2 ny Ey).
              revert Hb. unfold nb, get_new_bounds. destruct (center_shift _ _) as [dx dy]. unfold shiftI, b_shift.
              rewrite BoundsI_delta_def; [discriminate| |]; cbn; lia.
            + exfalso. cbn [setup_image] in HOk. destruct (a_add a); discriminate.
            + exfalso. cbn [setup_image] in HOk. destruct (a_add a); discriminate.
            + destruct H as (_ & _ & H). exact H. }
        unfold centerI in HC. rewrite Hd in HC. unfold center_x, center_y.
        assert (C1 : nv (bxmin (ibnd im)) + nv (bdx (ibnd im)) / 2 = ceilR (fst c)) by congruence.
        assert (C2 : nv (bymin (ibnd im)) + nv (bdy (ibnd im)) / 2 = ceilR (snd c)) by congruence.
        rewrite C1, C2. apply posR_eq; cbn [fst snd]; lra.
    - destruct (a_utc a).
      + assert (HS : exists h w, numpyShapeI nb = (h, w) /\ (w + 1) mod 2 = (nv (bdx (ibnd im)) + 1) mod 2 /\
                     (h + 1) mod 2 = (nv (bdy (ibnd im)) + 1) mod 2 /\ 1 <= nv (bdx (ibnd im)) /\ 1 <= nv (bdy (ibnd im))).
        { unfold numpyShapeI. destruct (bdef nb) eqn:Hb.
          - destruct (A1 eq_refl) as (E1 & E2 & E3 & E4 & E5). exists (nv (bdy nb)), (nv (bdx nb)). rewrite E3, E4. destruct (E5 Hd). auto.
          - destruct (A2 eq_refl) as (E1 & E2 & E3). exists 0, 0. rewrite E1, E2. apply Z.even_spec in HNe. destruct HNe as [k ->]. split; [reflexivity|]. lia. }
        destruct HS as (h & w & E1 & E2 & E3 & E4 & E5). rewrite E1, E2, E3.
        assert (X1 : nv (xmaxI (ibnd im)) = nv (bxmin (ibnd im)) + nv (bdx (ibnd im)) - 1) by reflexivity.
        assert (X2 : nv (ymaxI (ibnd im)) = nv (bymin (ibnd im)) + nv (bdy (ibnd im)) - 1) by reflexivity.
        rewrite X1, X2. unfold center_x, center_y. apply posR_eq; cbn [fst snd].
        * rewrite <- (nominal_true (nv (bxmin (ibnd im))) _ E4). lra.
        * rewrite <- (nominal_true (nv (bymin (ibnd im))) _ E5). lra.
      + unfold centerI. rewrite Hd. apply posR_eq; reflexivity.
  Qed.

  (** the wcs is linearised at the same place *)
  Lemma local_pos_asked N (a : dargs) im off p :
    sane a -> 2 <= N ->
    draw_geometry T dflt N a = Ok (im, off) ->
    local_wcs_pos (a_image a) (get_new_bounds (a_image a) (a_nx a) (a_ny a) (a_bounds a) (a_center a))
      (a_offset a) (a_center a) (a_utc a) = Ok p ->
    p = asked_position im a.
  Proof using Type.
    intros Hs HN. unfold draw_geometry.
    destruct (setup_image T dflt N _ _ _ _ _ _ _ false) as [im'|e] eqn:HOk; [|discriminate]. cbn [bind].
    intros E. assert (im' = im) by congruence. subst im'. clear E.
    destruct (new_bounds_agree N a im Hs HN HOk) as [A1 A2]. cbv zeta in A1, A2.
    destruct (setup_outcome N a im Hs HN HOk) as (Hd & _ & H).
    set (nb := get_new_bounds _ _ _ _ _) in *. unfold local_wcs_pos.
    assert (Hb : exists b, b = match a_image a with Some i => ibnd i | None => nb end) by (eexists; reflexivity).
    destruct Hb as [b Hb]. rewrite <- Hb. destruct (bdef b) eqn:Hbd; [|discriminate]. cbn [negb].
    assert (Hv : nv (bxmin b) = nv (bxmin (ibnd im)) /\ nv (bymin b) = nv (bymin (ibnd im)) /\
        nv (bdx b) = nv (bdx (ibnd im)) /\ nv (bdy b) = nv (bdy (ibnd im))).
    { destruct (a_image a) as [i|].
      - subst b. rewrite Hbd in H. subst im. auto.
      - subst b. destruct (A1 Hbd) as (E1 & E2 & E3 & E4 & _). auto. }
    destruct Hv as (E1 & E2 & E3 & E4). intros HE. unfold asked_position.
    assert (X : nv (xmaxI b) = nv (xmaxI (ibnd im)) /\ nv (ymaxI b) = nv (ymaxI (ibnd im))).
    { unfold xmaxI, ymaxI, b_xmax, b_ymax, nlift2. cbn [nv]. lia. }
    destruct X as [X1 X2].
    match type of HE with Ok ?q = Ok _ => assert (p = q) by congruence end. subst p. clear HE.
    unfold true_center_x, true_center_y, center_x, center_y, centerI. rewrite Hd, E1, E2, E3, E4, X1, X2.
    destruct (a_center a); [reflexivity|]. destruct (a_utc a); [|reflexivity].
    apply posR_eq; cbn [fst snd]; rewrite plus_IZR; lra.
  Qed.

  (** the recentre / draw / restore bracket *)
  Lemma bracket_ok (f : image -> arr V) (im : image) : bdef (ibnd im) = true -> wfI (ibnd im) ->
    exists im', draw_bracket T f im = Ok im' /\ eqI (ibnd im') (ibnd im) = true /\ iwcs im' = iwcs im /\ idt im' = idt im /\
      exists im1, centred (ibnd im1) /\ nv (bdx (ibnd im1)) = nv (bdx (ibnd im)) /\ nv (bdy (ibnd im1)) = nv (bdy (ibnd im)) /\
        iarr im1 = iarr im /\ iarr im' = f im1.
  Proof using Type.
    intros Hd Hw. destruct (Hw Hd) as [W1 W2]. unfold draw_bracket, centerI at 1. rewrite Hd.
    destruct (setCenter_auto im (py 0) (py 0) W1 W2 Hd) as (i' & I1 & I2 & I3 & I4 & I5 & I6 & I7 & I8 & I9).
    rewrite I1. eexists. split; [reflexivity|]. cbn [ibnd iwcs idt iarr].
    set (im2 := Img (f i') (ibnd i') (idt i') (iconst i') (iwcs i')).
    match goal with |- context [shift T im2 ?a ?b] => set (dx := a); set (dy := b) end.
    destruct (shift_bounds im2 dx dy) as (A & B & C & E). cbn [ibnd im2] in A, B, C, E.
    split.
    { unfold eqI, b_eq_I. rewrite Hd, shift_def by (cbn [im2 ibnd]; lia). rewrite A, B, C, E, I4, I5. unfold dx, dy. cbn [nv].
      unfold center_x, center_y in I2, I3. cbn [nv py] in I2, I3. rewrite I4 in I2. rewrite I5 in I3.
      rewrite !Z.eqb_refl. lia. }
    split; [reflexivity|]. split; [exact I8|]. exists i'. split.
    { unfold centred, centerI. rewrite I6. unfold center_x, center_y in I2, I3. rewrite I2, I3. reflexivity. }
    split; [exact I4|]. split; [exact I5|]. split; [exact I7|]. reflexivity.
  Qed.
End P.

(** * Real-space drawing *)
Lemma roundR_err x : (Rabs (IZR (roundR x) - x) <= / 2)%R.
Proof.
  unfold roundR. pose proof (floorR_bounds x). destruct (Rltb_spec (x - IZR (floorR x)) (/ 2)) as [L|L].
  - apply Rabs_le. lra.
  - destruct (Rltb_spec (/ 2) (x - IZR (floorR x))) as [M|M]; [rewrite plus_IZR; apply Rabs_le; lra|].
    destruct (Z.even (floorR x)); rewrite ?plus_IZR; apply Rabs_le; lra.
Qed.
Lemma roundR_IZR z : roundR (IZR z) = z.
Proof.
  unfold roundR. rewrite (floorR_unique (IZR z) z) by lra.
  destruct (Rltb_spec (IZR z - IZR z) (/ 2)); [reflexivity|lra].
Qed.

Lemma rsum_fold fs : forall (v : Z -> Z -> R) d x y,
  let r := fold_left (fun im g => radd im (draw_leaf g im)) fs (RImg (RArr v RF64) RF64) in
  rval (rarray r) x y = (v x y + rsum fs x y)%R /\ radt (rarray r) = RF64 /\ rdtype r = RF64 /\ d = d :> rdt.
Proof.
  induction fs as [|f fs IH]; intros v d x y; cbn [fold_left].
  - cbn. repeat split; lra.
  - cbv zeta. unfold radd at 2, draw_leaf at 2. cbn [rarray rval radt rdtype is_rint].
    destruct (IH (fun x y => v x y + f x y)%R d x y) as (A & B & C & _). cbv zeta in A, B, C.
    split; [|auto]. rewrite A. change (rsum (f :: fs) x y) with (f x y + rsum fs x y)%R. lra.
Qed.
Lemma draw_sum_val f fs im x y : let r := draw_sum (f :: fs) im in
  rval (rarray r) x y = ((if is_rint (rdtype im) then IZR (roundR (f x y)) else f x y) + rsum fs x y)%R /\
  radt (rarray r) = RF64.
Proof.
  cbv zeta. unfold draw_sum, draw_leaf at 2 4.
  destruct (rsum_fold fs (if is_rint (rdtype im) then fun x y => IZR (roundR (f x y)) else f) RF64 x y) as (A & B & _ & _).
  cbv zeta in A, B. split; [|exact B]. rewrite A. destruct (is_rint (rdtype im)); reflexivity.
Qed.
Lemma rsum_perm fs gs x y : Permutation fs gs -> rsum fs x y = rsum gs x y.
Proof. unfold rsum. induction 1; cbn [fold_right]; lra. Qed.
