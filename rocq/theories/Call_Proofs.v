From Coq Require Import ZArith Reals Bool List String Lra Lia.
From Verif Require Import Base Array_Model Bounds_Model Bounds_Spec Bounds_Proofs Image_Model Image_Spec Image_Proofs FFT_Model FFT_Spec FFT_Proofs
  Draw_Model Draw_Spec Draw_Proofs Call_Model Call_Spec.
Import ListNotations.
Open Scope Z_scope.

Lemma nonpos_true x : nonpos x = true <-> (x <= 0)%R.
Proof. unfold nonpos, Rltb. destruct (Rlt_dec 0 x); cbn; split; intros; try discriminate; try reflexivity; lra. Qed.
Lemma nonpos_false x : nonpos x = false <-> (0 < x)%R.
Proof. unfold nonpos, Rltb. destruct (Rlt_dec 0 x); cbn; split; intros; try discriminate; try reflexivity; lra. Qed.

Section P.
  Context {V D W : Type}.
  Variable T : vops V D W.
  Variable dflt : D.
  Variable O : wops W.
  Notation image := (image V D W).

  Lemma determine_uses nq scale wcs (im : option image) w b : lawful_pixels O ->
    determine_wcs O nq scale wcs im = Ok (w, b) ->
    uses O nq scale wcs (wcs_of im) w /\ b = match scale, wcs with None, NoWcs => false | _, _ => true end.
  Proof using Type.
    intros (L1 & L2 & _). unfold determine_wcs.
    assert (F : forall v, match pixel_scale O v with Some s => if nonpos s then mk_pixel O nq else mk_pixel O s | None => v end
                 = match pixel_scale O v with Some s => if nonpos s then mk_pixel O nq else v | None => v end).
    { intro v. destruct (pixel_scale O v) as [s|] eqn:E; [|reflexivity]. rewrite (L2 _ _ E). reflexivity. }
    assert (U : forall v s, pixel_scale O v = Some s -> (0 < s)%R -> usable O v) by (intros v s E H s' E'; rewrite E in E'; injection E' as <-; exact H).
    assert (U0 : forall v, pixel_scale O v = None -> usable O v) by (intros v E s' E'; rewrite E in E'; discriminate).
    destruct wcs as [|v|]; destruct scale as [s|]; cbn [bind]; try discriminate.
    - rewrite L1. intro H. injection H as <- <-. split; [|reflexivity]. destruct (nonpos s) eqn:E.
      + apply U_scale_nyquist. now apply nonpos_true.
      + apply U_scale. now apply nonpos_false.
    - destruct im as [i|]; cbn [wcs_of].
      + destruct (iwcs i) as [v|].
        * rewrite F. destruct (pixel_scale O v) as [s|] eqn:E.
          -- pose proof (L2 _ _ E). subst v. intro H. injection H as <- <-. split; [|reflexivity]. destruct (nonpos s) eqn:E2.
             ++ apply U_image_nyquist. now apply nonpos_true.
             ++ apply U_image. apply nonpos_false in E2. exact (U _ _ E E2).
          -- intro H. injection H as <- <-. split; [|reflexivity]. apply U_image. now apply U0.
        * rewrite L1. intro H. injection H as <- <-. split; [|reflexivity]. destruct (nonpos nq); apply U_nothing.
      + rewrite L1. intro H. injection H as <- <-. split; [|reflexivity]. destruct (nonpos nq); apply U_nothing.
    - rewrite F. destruct (pixel_scale O v) as [s|] eqn:E.
      + pose proof (L2 _ _ E). subst v. intro H. injection H as <- <-. split; [|reflexivity]. destruct (nonpos s) eqn:E2.
        * apply U_wcs_nyquist. now apply nonpos_true.
        * apply U_wcs. apply nonpos_false in E2. exact (U _ _ E E2).
      + intro H. injection H as <- <-. split; [|reflexivity]. apply U_wcs. now apply U0.
  Qed.
  Lemma uses_determine nq scale wcs (im : option image) w : lawful_pixels O ->
    uses O nq scale wcs (wcs_of im) w -> exists b, determine_wcs O nq scale wcs im = Ok (w, b).
  Proof using Type.
    intros L H. pose proof L as (L1 & L2 & _).
    assert (D1 : exists v b, determine_wcs O nq scale wcs im = Ok (v, b)).
    { unfold determine_wcs. inversion H; subst; cbn [bind]; eauto. }
    destruct D1 as (v & b & E). exists b. rewrite E. destruct (determine_uses _ _ _ _ _ _ L E) as [H2 _].
    assert (N : forall s, usable O (mk_pixel O s) -> (0 < s)%R) by (intros s U; exact (U s (L1 s))).
    assert (I : forall s s', mk_pixel O s = mk_pixel O s' -> s = s') by (intros s s' E'; pose proof (L1 s) as X; rewrite E', L1 in X; congruence).
    assert (w = v); [|subst; reflexivity].
    destruct scale as [s|], wcs as [|u|]; try (now inversion H).
    - inversion H; inversion H2; subst; try reflexivity; lra.
    - destruct (wcs_of im) as [u|].
      + inversion H; inversion H2; subst; try reflexivity; exfalso;
        match goal with A : usable O (mk_pixel O ?s), B : (?s <= 0)%R |- _ => pose proof (N _ A); lra end.
      + inversion H; inversion H2; subst; reflexivity.
    - inversion H; inversion H2; subst; try reflexivity; exfalso;
        match goal with A : usable O (mk_pixel O ?s), B : (?s <= 0)%R |- _ => pose proof (N _ A); lra end.
  Qed.
  Lemma uses_usable nq scale wcs i w : lawful_pixels O -> (0 < nq)%R -> uses O nq scale wcs i w -> usable O w.
  Proof using Type.
    intros (L1 & _) Hn H. assert (U : forall s, (0 < s)%R -> usable O (mk_pixel O s)).
    { intros s Hs s' E. rewrite L1 in E. injection E as <-. exact Hs. }
    inversion H; subst; auto.
  Qed.
  Lemma uses_functional nq scale wcs i w w' : lawful_pixels O -> uses O nq scale wcs i w -> uses O nq scale wcs i w' -> w = w'.
  Proof using T dflt.
    intros L H1 H2. pose (im := match i with Some v => Some (Img (aconst 1 1 (vzero T)) (BoundsI ArgsNone) dflt None (Some v)) | None => None end : option image).
    assert (E : wcs_of im = i) by (destruct i; reflexivity). rewrite <- E in H1, H2.
    destruct (uses_determine nq scale wcs im w L H1) as [b1 E1]. destruct (uses_determine nq scale wcs im w' L H2) as [b2 E2].
    rewrite E1 in E2. congruence.
  Qed.
  Lemma determine_err nq scale wcs (im : option image) e : determine_wcs O nq scale wcs im = Err e <->
    (e = GalSimIncompatibleValuesError /\ scale <> None /\ wcs <> NoWcs) \/ (e = TypeError /\ scale = None /\ wcs = NotWcs).
  Proof using Type.
    unfold determine_wcs. destruct wcs as [|v|], scale as [s|]; cbn [bind]; split; intro H;
      try discriminate; try (destruct H as [(A & B & C)|(A & B & C)]; congruence).
    - left. repeat split; congruence.
    - left. repeat split; congruence.
    - right. repeat split; congruence.
  Qed.

  (** ** drawImage *)
  Definition dropped (i : image) : image := with_wcs i None.
  Lemma with_wcs_bnd (i : image) w : ibnd (with_wcs i w) = ibnd i. Proof using Type. reflexivity. Qed.

  Lemma setup_canvas N (a : dargs) (b : bool) im : sane a -> 2 <= N ->
    let im1 := if b then option_map (fun i => with_wcs i None) (a_image a) else a_image a in
    setup_image T dflt N im1 (a_nx a) (a_ny a) (a_bounds a) (a_add a) (a_dtype a) (a_center a) false = Ok im ->
    canvas T (a_image a) im /\ wfI (ibnd im).
  Proof using Type.
    intros S HN im1 E. set (a' := DArgs im1 (a_nx a) (a_ny a) (a_bounds a) (a_add a) (a_dtype a) (a_center a) (a_offset a) (a_utc a)).
    assert (S' : sane a').
    { destruct S as (S1 & S2 & S3 & S4). split; [exact S1|]. split; [exact S2|]. split; [exact S3|]. intros i Hi. cbn [a' a_image] in Hi. unfold im1 in Hi.
      destruct b; [|exact (S4 _ Hi)]. destruct (a_image a) as [g|]; [|discriminate]. cbn [option_map] in Hi. injection Hi as <-. exact (S4 g eq_refl). }
    destruct (setup_outcome T dflt N a' im S' HN E) as (Hd & _ & H). cbn [a' a_image] in H. split.
    - split; [exact Hd|]. unfold im1 in H. destruct (a_image a) as [g|].
      + destruct b; cbn [option_map] in H; [rewrite with_wcs_bnd in H|]; destruct (bdef (ibnd g)) eqn:Hg.
        * subst im. repeat split.
        * apply H.
        * subst im. repeat split.
        * apply H.
      + destruct b; cbn [option_map] in H; apply H.
    - intros _. destruct S as (S1 & S2 & S3 & S4). unfold im1 in H. destruct (a_image a) as [g|].
      + assert (Q : if bdef (ibnd g) then ibnd im = ibnd g else nv (bdx (ibnd im)) = N /\ nv (bdy (ibnd im)) = N).
        { destruct b; cbn [option_map] in H; [rewrite with_wcs_bnd in H|]; destruct (bdef (ibnd g)) eqn:Hg; try (subst im; reflexivity); destruct H as (_ & _ & _ & _ & _ & H1 & H2); auto. }
        destruct (bdef (ibnd g)) eqn:Hg; [rewrite Q in Hd |- *; exact (S4 g eq_refl Hd)|]. destruct Q as [-> ->]. lia.
      + assert (H' : match a_bounds a, a_nx a, a_ny a with Some b, _, _ => ibnd im = b | None, Some nx, Some ny => nv (bdx (ibnd im)) = nx /\ nv (bdy (ibnd im)) = ny
                     | None, _, _ => nv (bdx (ibnd im)) = N /\ nv (bdy (ibnd im)) = N end).
        { destruct b; cbn [option_map] in H; destruct H as [_ H]; cbn [a' a_bounds a_nx a_ny a_center] in H; destruct (a_bounds a), (a_nx a), (a_ny a); tauto. }
        destruct (a_bounds a) as [bb|] eqn:Eb; [subst bb; exact (S3 _ eq_refl Hd)|].
        destruct (a_nx a) as [nx|] eqn:Ex, (a_ny a) as [ny|] eqn:Ey; destruct H' as [-> ->]; try lia. split; [exact (S1 _ eq_refl)|exact (S2 _ eq_refl)].
  Qed.

  Lemma flux_scale_ok (c : call) pa counts : (0 < k_gain c)%R -> (0 < k_area c)%R -> (0 < k_exptime c)%R -> (0 < pa)%R ->
    flux_of (k_method c) (k_sensor c) (k_gain c) (k_area c) (k_exptime c) pa counts (counts / flux_scale (V:=V) (D:=D) (W:=W) c pa).
  Proof using Type.
    intros G A E P. unfold flux_of, flux_scale, is_phot. destruct (String.eqb (k_method c) "phot") eqn:M.
    - apply String.eqb_eq in M. rewrite M. cbn [negb andb orb]. change (String.eqb "phot" "sb") with false. cbv iota. field. lra.
    - cbn [negb andb orb]. destruct (k_sensor c); cbn [negb]; destruct (String.eqb (k_method c) "sb"); field; lra.
  Qed.

  Lemma check_pos (c : call (V:=V) (D:=D) (W:=W)) : check_args c = None -> (0 < k_gain c /\ 0 < k_area c /\ 0 < k_exptime c)%R.
  Proof using Type.
    unfold check_args. destruct (nonpos (k_gain c)) eqn:G; [discriminate|]. destruct (nonpos (k_area c)) eqn:A; [discriminate|].
    destruct (nonpos (k_exptime c)) eqn:E; [discriminate|]. intros _. rewrite <- !nonpos_false. auto.
  Qed.

  Lemma center_some (i : image) : bdef (ibnd i) = true -> centerI (ibnd i) = Ok (center_x (ibnd i), center_y (ibnd i)).
  Proof using Type. intro H. unfold centerI. rewrite H. reflexivity. Qed.

  Lemma draw_returns nq N prof draw (c : call) st im fl : lawful_pixels O -> sane (k_args c) -> 2 <= N -> k_setup_only c = false ->
    drawImage T dflt O nq N prof draw c = (st, Ok (im, fl)) ->
    exists w cv im1 added p,
      uses O nq (k_scale c) (k_wcs c) (wcs_of (a_image (k_args c))) w /\ canvas T (a_image (k_args c)) cv /\
      eqI (ibnd im) (ibnd cv) = true /\ iwcs im = Some w /\ idt im = idt cv /\
      at_origin O im1 cv /\ draw im1 = (iarr im, Ok added) /\
      (uniform O w = false -> local_wcs_pos (a_image (k_args c)) (get_new_bounds (a_image (k_args c)) (a_nx (k_args c)) (a_ny (k_args c)) (a_bounds (k_args c)) (a_center (k_args c)))
                                (a_offset (k_args c)) (a_center (k_args c)) (a_utc (k_args c)) = Ok p) /\
      ((0 < pixel_area O w p)%R -> flux_of (k_method c) (k_sensor c) (k_gain c) (k_area c) (k_exptime c) (pixel_area O w p) added fl) /\
      same_object (a_image (k_args c)) st im.
  Proof using Type.
    intros L S HN SO. unfold drawImage. destruct (check_args c) eqn:CK; [discriminate|].
    destruct (determine_wcs O nq (k_scale c) (k_wcs c) (a_image (k_args c))) as [[w b]|e] eqn:DW; [|discriminate].
    destruct (determine_uses _ _ _ _ _ _ L DW) as [U _]. set (a := k_args c) in *.
    set (im1 := if b then option_map (fun i => with_wcs i None) (a_image a) else a_image a).
    assert (LP : forall nb, local_wcs_pos im1 nb (a_offset a) (a_center a) (a_utc a) = local_wcs_pos (a_image a) nb (a_offset a) (a_center a) (a_utc a)).
    { intro nb. unfold im1. destruct b; [|reflexivity]. destruct (a_image a); reflexivity. }
    assert (NB : get_new_bounds im1 (a_nx a) (a_ny a) (a_bounds a) (a_center a) = get_new_bounds (a_image a) (a_nx a) (a_ny a) (a_bounds a) (a_center a)).
    { unfold im1. destruct b; [|reflexivity]. destruct (a_image a); reflexivity. }
    rewrite LP, NB.
    match goal with |- context [if uniform O w then _ else ?x] => set (lp := x) end.
    destruct (if uniform O w then Ok (0, 0)%R else lp) as [p|e] eqn:PE; [|discriminate]. destruct prof; [discriminate|].
    destruct (setup_image T dflt N im1 (a_nx a) (a_ny a) (a_bounds a) (a_add a) (a_dtype a) (a_center a) false) as [cv|e] eqn:SE; [|discriminate].
    destruct (setup_canvas N a b cv S HN SE) as [CV WF]. rewrite SO.
    pose proof CV as [Hd _]. destruct (WF Hd) as [W1 W2].
    rewrite (center_some (with_wcs cv (Some w)) Hd).
    destruct (setCenter_auto T (with_wcs cv (Some w)) (py 0) (py 0) W1 W2 Hd) as (i3 & I1 & I2 & I3 & I4 & I5 & I6 & I7 & I8 & I9).
    rewrite I1. set (im3 := with_wcs i3 (Some (mk_pixel O 1))).
    destruct (negb (is_phot c) && (k_sensor c || k_ops c)); [discriminate|].
    destruct (draw im3) as [ar r] eqn:DE. destruct r as [added|e]; [|discriminate].
    intro H. injection H as H0 H1 H2.
    exists w, cv, im3, added, p. split; [exact U|]. split; [exact CV|].
    match goal with H1 : with_wcs (shift T ?x ?dx ?dy) _ = im |- _ => set (im4 := x) in *; set (dxx := dx) in *; set (dyy := dy) in * end.
    destruct (shift_bounds T im4 dxx dyy) as (A & B & C & E). cbn [im4 with_arr ibnd im3 with_wcs] in A, B, C, E.
    split.
    { rewrite <- H1. cbn [with_wcs ibnd]. unfold eqI, b_eq_I. rewrite Hd. rewrite (shift_def T im4 dxx dyy) by (cbn [im4 with_arr ibnd im3 with_wcs]; rewrite ?I4, ?I5; assumption).
      rewrite A, B, C, E, I4, I5. unfold dxx, dyy. cbn [nv with_wcs ibnd].
      unfold center_x, center_y in *. cbn [nv py with_wcs ibnd] in I2, I3, I4, I5 |- *. rewrite I4 in I2. rewrite I5 in I3.
      rewrite !Z.eqb_refl. lia. }
    split; [rewrite <- H1; reflexivity|]. split; [rewrite <- H1; exact I8|]. split.
    { split; [|split; [exact I4|split; [exact I5|split; [reflexivity|split; [exact I7|exact I8]]]]].
      unfold centred, centerI, im3. cbn [with_wcs ibnd]. rewrite I6. unfold center_x, center_y in I2, I3. cbn [nv py] in I2, I3. rewrite I2, I3. reflexivity. }
    split; [rewrite <- H1; exact DE|]. split.
    { intro HU. rewrite HU in PE. exact PE. }
    split.
    { intro PA. rewrite <- H2. destruct (check_pos c CK) as (G1 & G2 & G3). apply flux_scale_ok; assumption. }
    unfold same_object. rewrite <- H0, H1. destruct (a_image a); reflexivity.
  Qed.

  (** ** What a failing call leaves *)
  Lemma draw_fails nq N prof draw (c : call) i st e : a_image (k_args c) = Some i -> bdef (ibnd i) = true -> wfI (ibnd i) ->
    drawImage T dflt O nq N prof draw c = (st, Err e) ->
    st = Some i \/
    (st = Some (with_wcs i None) /\ (k_scale c <> None \/ k_wcs c <> NoWcs)) \/
    (exists i1, at_origin O i1 i /\ (st = Some i1 \/ exists a, draw i1 = (a, Err e) /\ st = Some (with_arr i1 a))).
  Proof using Type.
    intros Hi Hd Hw. unfold drawImage. rewrite Hi. destruct (check_args c) eqn:CK; [intro H; injection H as <- <-; auto|].
    destruct (determine_wcs O nq (k_scale c) (k_wcs c) (Some i)) as [[w b]|e'] eqn:DW; [|intro H; injection H as <- <-; auto].
    set (a := k_args c) in *. set (im1 := if b then option_map (fun i => with_wcs i None) (Some i) else Some i).
    assert (B : b = true -> k_scale c <> None \/ k_wcs c <> NoWcs).
    { intro Hb. unfold determine_wcs in DW. destruct (k_wcs c); destruct (k_scale c); cbn [bind] in DW; try discriminate; try (left; discriminate); try (right; discriminate).
      injection DW as _ <-. discriminate Hb. }
    assert (G : forall r, im1 = r -> r = Some i \/ (r = Some (with_wcs i None) /\ (k_scale c <> None \/ k_wcs c <> NoWcs)) \/
        (exists i1, at_origin O i1 i /\ (r = Some i1 \/ exists a, draw i1 = (a, Err e) /\ r = Some (with_arr i1 a)))).
    { intros r <-. unfold im1. destruct b; [right; left; split; [reflexivity|apply B; reflexivity]|left; reflexivity]. }
    match goal with |- context [if uniform O w then _ else ?x] => set (lp := x) end.
    destruct (if uniform O w then Ok (0, 0)%R else lp) as [p|e']; [|intro H; injection H as H <-; exact (G _ H)].
    destruct prof; [intro H; injection H as H <-; exact (G _ H)|].
    destruct (setup_image T dflt N im1 (a_nx a) (a_ny a) (a_bounds a) (a_add a) (a_dtype a) (a_center a) false) as [cv|e'] eqn:SE; [|intro H; injection H as H <-; exact (G _ H)].
    assert (CV : cv = if b then with_wcs i None else i).
    { unfold im1 in SE. destruct b; cbn [option_map] in SE; unfold setup_image in SE; destruct (opt_some (a_bounds a)); try discriminate;
      destruct (opt_some (a_nx a) || opt_some (a_ny a)); try discriminate;
      match type of SE with (if ?x then _ else _) = _ => destruct x; [discriminate|] end; cbn [with_wcs ibnd] in SE; rewrite Hd in SE; congruence. }
    destruct (k_setup_only c); [discriminate|].
    assert (Hc : ibnd cv = ibnd i /\ iarr cv = iarr i /\ idt cv = idt i) by (rewrite CV; destruct b; repeat split). destruct Hc as (Hc & Hca & Hcd).
    assert (Hd' : bdef (ibnd (with_wcs cv (Some w))) = true) by (cbn [with_wcs ibnd]; rewrite Hc; exact Hd).
    rewrite (center_some _ Hd'). destruct (Hw Hd) as [W1 W2]. rewrite <- Hc in W1, W2.
    destruct (setCenter_auto T (with_wcs cv (Some w)) (py 0) (py 0) W1 W2 Hd') as (i3 & I1 & I2 & I3 & I4 & I5 & I6 & I7 & I8 & I9).
    rewrite I1. set (im3 := with_wcs i3 (Some (mk_pixel O 1))).
    assert (AO : at_origin O im3 i).
    { cbn [with_wcs ibnd iarr idt] in I4, I5, I7, I8. rewrite Hc in I4, I5. rewrite Hca in I7. rewrite Hcd in I8.
      split; [|split; [exact I4|split; [exact I5|split; [reflexivity|split; [exact I7|exact I8]]]]].
      unfold centred, centerI, im3. cbn [with_wcs ibnd]. rewrite I6. unfold center_x, center_y in I2, I3. cbn [nv py] in I2, I3. rewrite I2, I3. reflexivity. }
    destruct (negb (is_phot c) && (k_sensor c || k_ops c)).
    { intro H. injection H as <- <-. right. right. exists im3. split; [exact AO|left; reflexivity]. }
    destruct (draw im3) as [ar r] eqn:DE. destruct r as [added|e']; [discriminate|].
    intro H. injection H as <- <-. right. right. exists im3. split; [exact AO|]. right. exists ar. split; [exact DE|reflexivity].
  Qed.

  Lemma draw_refused nq N prof draw (c : call) e :
    check_args c = Some e \/ (check_args c = None /\ determine_wcs O nq (k_scale c) (k_wcs c) (a_image (k_args c)) = Err e) ->
    drawImage T dflt O nq N prof draw c = (a_image (k_args c), Err e).
  Proof using Type. unfold drawImage. intros [H|[H H']]; rewrite H; [|rewrite H']; reflexivity. Qed.
End P.
