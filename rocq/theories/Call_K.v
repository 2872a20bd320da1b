From Coq Require Import ZArith Reals Bool List String Lra Lia.
From Verif Require Import Base Array_Model Bounds_Model Bounds_Spec Bounds_Proofs Image_Model Image_Spec Image_Proofs FFT_Model FFT_Spec FFT_Proofs
  Draw_Model Draw_Spec Draw_Proofs Call_Model Call_Spec Call_Proofs.
Import ListNotations.
Open Scope Z_scope.

Section K.
  Context {V D W : Type}.
  Variable T : vops V D W.
  Variable dflt : D.
  Variable O : wops W.
  Notation image := (image V D W).
  Lemma shift_centred (im : image) cx cy fl : bdef (ibnd im) = true -> 1 <= nv (bdx (ibnd im)) -> 1 <= nv (bdy (ibnd im)) -> centerI (ibnd im) = Ok (cx, cy) ->
    let i := shift T im (Num (- cx)%Z fl) (Num (- cy)%Z fl) in
    centred (ibnd i) /\ nv (bdx (ibnd i)) = nv (bdx (ibnd im)) /\ nv (bdy (ibnd i)) = nv (bdy (ibnd im)) /\ bdef (ibnd i) = true.
  Proof using Type.
    intros Hd W1 W2 C i. assert (Hi : bdef (ibnd i) = true) by (apply shift_def; assumption).
    destruct (shift_bounds T im (Num (- cx)%Z fl) (Num (- cy)%Z fl)) as (A & B & C1 & E1). fold i in A, B, C1, E1.
    unfold centerI in C. rewrite Hd in C. injection C as C C'. split; [|rewrite C1, E1; auto].
    unfold centred, centerI. rewrite Hi, A, B, C1, E1. cbn [nv]. f_equal. f_equal; lia.
  Qed.

  Variable iscomplex : D -> bool.
  Variable cdflt : D.
  Notation drawK := (drawKImage T dflt O iscomplex cdflt).

  Lemma setup_odd N im nx ny b add dt c : setup_image T dflt N im nx ny b add dt c true = setup_image T dflt (N + 1) im nx ny b add dt c false.
  Proof using Type. reflexivity. Qed.

  Definition kargs (q : kcall (V:=V) (D:=D) (W:=W)) : dargs :=
    DArgs (q_image q) (q_nx q) (q_ny q) (q_bounds q) (q_add q) (Some (match q_image q with Some i => idt i | None => cdflt end)) None (0, 0)%R true.
  Lemma spacing_ok stepk scale : (0 < stepk)%R -> (0 < k_spacing stepk scale)%R.
  Proof using Type. intro H. unfold k_spacing. destruct scale as [s|]; [|exact H]. destruct (nonpos s) eqn:E; [exact H|now apply nonpos_false]. Qed.
  Lemma spacing_given stepk s : (0 < s)%R -> k_spacing stepk (Some s) = s.
  Proof using Type. intro H. unfold k_spacing. apply nonpos_false in H. rewrite H. reflexivity. Qed.
  Lemma dx_spacing maxk stepk scale : (0 < stepk)%R -> (0 < maxk)%R -> (stepk * k_dx maxk stepk scale = PI / maxk * k_spacing stepk scale)%R.
  Proof using Type. intros H H1. unfold k_dx, k_spacing. destruct scale as [s|]; [destruct (nonpos s)|]; field; lra. Qed.

  (** The scale found *)
  Definition scale_found (q : kcall (V:=V) (D:=D) (W:=W)) (s : option R) : Prop :=
    match q_scale q, q_image q with
    | Some s', _ => s = Some s'
    | None, Some i => match iwcs i with Some w => s <> None /\ scale_attr O w = s | None => s = None end
    | None, None => s = None
    end.

  Lemma kdraw_returns maxk stepk kdraw q st im : (0 < stepk)%R -> (0 < maxk)%R -> sane (kargs q) ->
    drawK maxk stepk kdraw q = (st, Ok im) ->
    exists cv s, canvas T (q_image q) cv /\ scale_found q s /\
      (q_image q = None -> setup_image T dflt (getGoodImageSize 1 (stepk * k_dx maxk stepk s) + 1) None (q_nx q) (q_ny q) (q_bounds q) (q_add q) (Some cdflt) None false = Ok cv) /\
      (match q_image q with Some i => iscomplex (idt i) = true | None => True end) /\
      iwcs im = Some (mk_pixel O (k_spacing stepk s)) /\ idt im = idt cv /\
      nv (bdx (ibnd im)) = nv (bdx (ibnd cv)) /\ nv (bdy (ibnd im)) = nv (bdy (ibnd cv)) /\
      (if q_recenter q then centred (ibnd im) else ibnd im = ibnd cv) /\
      (if q_setup_only q then iarr im = iarr cv
       else if q_add q then iarr im = Arr (nrow (iarr cv)) (ncol (iarr cv))
              (fun i j => bop T Add (idt cv) (idt cv) (elt (iarr cv) i j) (elt (kdraw (ibnd im) (k_spacing stepk s)) i j))
       else iarr im = kdraw (ibnd im) (k_spacing stepk s)) /\
      same_object (q_image q) st im.
  Proof using Type.
    intros Hs Hm S. unfold drawKImage.
    destruct (match q_image q with Some i => if iscomplex (idt i) then None else Some GalSimValueError | None => None end) as [e|] eqn:CX; [discriminate|].
    assert (CX' : match q_image q with Some i => iscomplex (idt i) = true | None => True end).
    { destruct (q_image q) as [i|]; [|trivial]. destruct (iscomplex (idt i)); [reflexivity|discriminate]. }
    destruct (match q_image q, q_scale q with Some i, None => image_scale O i | _, s => Ok s end) as [s|e] eqn:SC; [|discriminate].
    assert (SF : scale_found q s).
    { unfold scale_found. destruct (q_image q) as [i|], (q_scale q) as [s'|]; try (injection SC as <-; reflexivity).
      unfold image_scale in SC. destruct (iwcs i) as [w|]; [|injection SC as <-; reflexivity]. destruct (scale_attr O w); [|discriminate]. injection SC as <-. split; [discriminate|reflexivity]. }
    set (N := getGoodImageSize 1 (stepk * k_dx maxk stepk s)).
    assert (HN : 2 <= N + 1).
    { assert (P : (0 < stepk * k_dx maxk stepk s)%R).
      { rewrite dx_spacing by assumption. apply Rmult_lt_0_compat; [|apply spacing_ok; assumption]. apply Rdiv_lt_0_compat; [apply PI_RGT_0|assumption]. }
      pose proof (getGoodImageSize_ge 1 _ ltac:(lra) P) as [G _].
      assert (G0 : (0 < IZR N)%R).
      { eapply Rlt_le_trans; [|exact G]. apply Rmult_lt_0_compat; [|lra]. apply Rdiv_lt_0_compat; [pose proof PI_RGT_0; lra|lra]. }
      apply lt_IZR in G0. lia. }
    match goal with |- context [match ?x with Ok im => _ | Err e => (q_image q, Err e) end] => set (su := x) end.
    destruct su as [cv|e] eqn:SU; [|discriminate].
    assert (CV : canvas T (q_image q) cv /\ wfI (ibnd cv)).
    { unfold su in SU. destruct (match q_image q with Some i => negb (bdef (ibnd i)) | None => true end) eqn:FR.
      - rewrite setup_odd in SU. exact (setup_canvas T dflt (N + 1) (kargs q) false cv S HN SU).
      - destruct (opt_some (q_bounds q)); [discriminate|]. destruct (opt_some (q_nx q) || opt_some (q_ny q)); [discriminate|].
        destruct (q_image q) as [i|] eqn:Qi; [|discriminate]. injection SU as <-. apply negb_false_iff in FR.
        split; [split; [exact FR|rewrite FR; repeat split]|]. destruct S as (_ & _ & _ & S4). apply S4. cbn [kargs a_image]. exact Qi. }
    assert (CN : q_image q = None -> setup_image T dflt (N + 1) None (q_nx q) (q_ny q) (q_bounds q) (q_add q) (Some cdflt) None false = Ok cv).
    { intro Q. unfold su in SU. rewrite Q, setup_odd in SU. exact SU. }
    destruct CV as [CV WF]. pose proof CV as [Hd _]. destruct (WF Hd) as [W1 W2].
    rewrite (center_some cv Hd). set (cx := center_x (ibnd cv)). set (cy := center_y (ibnd cv)).
    destruct (q_recenter q && negb ((cx =? 0) && (cy =? 0)) && q_add q); [discriminate|].
    match goal with |- context [set_scale O (if q_recenter q then ?x else cv)] => set (sh := x) end.
    set (im1 := if q_recenter q then sh else cv).
    assert (I1 : nv (bdx (ibnd im1)) = nv (bdx (ibnd cv)) /\ nv (bdy (ibnd im1)) = nv (bdy (ibnd cv)) /\ iarr im1 = iarr cv /\ idt im1 = idt cv /\
       (if q_recenter q then centred (ibnd im1) else ibnd im1 = ibnd cv)).
    { unfold im1. destruct (q_recenter q); [|repeat split].
      destruct (shift_centred cv cx cy (bstatic (ibnd cv)) Hd W1 W2 (center_some cv Hd)) as (A & B & C & _). fold sh in A, B, C. repeat split; assumption. }
    destruct I1 as (J1 & J2 & J3 & J4 & J5).
    destruct (set_scale O im1 (k_spacing stepk s)) as [im2|e] eqn:SS; [|discriminate].
    assert (I2 : im2 = with_wcs im1 (Some (mk_pixel O (k_spacing stepk s)))).
    { unfold set_scale in SS. destruct (iwcs im1) as [w|]; [destruct (is_pixel O w); [|discriminate]|]; injection SS as <-; reflexivity. }
    intro H. exists cv, s. split; [exact CV|]. split; [exact SF|]. split; [exact CN|]. split; [exact CX'|].
    destruct (q_setup_only q).
    - injection H as H0 H1. subst im. rewrite I2. cbn [with_wcs iwcs idt ibnd iarr]. repeat split; try assumption.
      unfold same_object. rewrite <- H0, I2. destruct (q_image q); reflexivity.
    - injection H as H0 H1. rewrite <- H1, I2. cbn [with_wcs with_arr iwcs idt ibnd iarr]. repeat split; try assumption.
      + destruct (q_add q); [|reflexivity]. rewrite J3, J4. reflexivity.
      + unfold same_object. rewrite <- H0, ?I2. destruct (q_image q); reflexivity.
  Qed.

  Lemma kauto maxk stepk kdraw q st im : (0 < stepk)%R -> (0 < maxk)%R ->
    q_image q = None -> q_nx q = None -> q_ny q = None -> q_bounds q = None -> q_recenter q = true ->
    drawK maxk stepk kdraw q = (st, Ok im) ->
    exists h dk, iwcs im = Some (mk_pixel O dk) /\ dk = k_spacing stepk (q_scale q) /\
      (forall x y, includesI (ibnd im) x y = true <-> - h <= x <= h /\ - h <= y <= h) /\
      (maxk * (1 - / 1000000000000) <= IZR h * dk < maxk + dk)%R.
  Proof using Type.
    intros Hs Hm Qi Qx Qy Qb Qr E.
    assert (S : sane (kargs q)).
    { unfold sane, kargs. cbn [a_nx a_ny a_bounds a_image]. rewrite Qi, Qx, Qy, Qb. repeat split; discriminate. }
    pose proof E as E'. destruct (kdraw_returns maxk stepk kdraw q st im Hs Hm S E) as (cv & s & CV & SF & CN & _ & IW & _ & DX & DY & RC & _ & _).
    rewrite Qr in RC. unfold scale_found in SF. rewrite Qi in SF.
    assert (Es : s = q_scale q) by (destruct (q_scale q); assumption).
    set (dk := k_spacing stepk s) in *. set (N := getGoodImageSize 1 (stepk * k_dx maxk stepk s)).
    assert (Hdk : (0 < dk)%R) by (apply spacing_ok; assumption).
    assert (P : (stepk * k_dx maxk stepk s = PI / maxk * dk)%R) by (apply dx_spacing; assumption).
    assert (P0 : (0 < stepk * k_dx maxk stepk s)%R).
    { rewrite P. apply Rmult_lt_0_compat; [|assumption]. apply Rdiv_lt_0_compat; [apply PI_RGT_0|assumption]. }
    pose proof (getGoodImageSize_ge 1 _ ltac:(lra) P0) as G. pose proof (getGoodImageSize_even 1 (stepk * k_dx maxk stepk s)) as EV. fold N in G, EV.
    assert (Q : (2 * PI / (1 * (stepk * k_dx maxk stepk s)) = 2 * maxk / dk)%R).
    { rewrite P. field. split; [lra|]. split; [lra|]. pose proof PI_RGT_0. lra. }
    rewrite Q in G. apply Zeven_bool_iff in EV. destruct (Zeven_ex _ EV) as [h Hh].
    assert (Hh0 : 1 <= h).
    { assert (G0 : (0 < IZR N)%R). { eapply Rlt_le_trans; [|apply G]. apply Rmult_lt_0_compat; [|lra]. apply Rdiv_lt_0_compat; lra. }
      apply lt_IZR in G0. lia. }
    specialize (CN Qi). rewrite Qx, Qy, Qb in CN. fold N in CN.
    assert (S' : sane (V:=V) (D:=D) (W:=W) (DArgs None None None None (q_add q) (Some cdflt) None (0, 0)%R true)) by (repeat split; discriminate).
    destruct (setup_outcome T dflt (N + 1) (DArgs None None None None (q_add q) (Some cdflt) None (0, 0)%R true) cv S' ltac:(lia) CN) as (_ & _ & _ & Z1 & Z2 & _).
    rewrite Z1 in DX. rewrite Z2 in DY. unfold centred, centerI in RC. destruct (bdef (ibnd im)) eqn:Hd; [|discriminate]. injection RC as R1 R2.
    rewrite DX in R1. rewrite DY in R2. exists h, dk. split; [exact IW|]. split; [unfold dk; rewrite Es; reflexivity|].
    assert (H2 : (N + 1) / 2 = h) by (rewrite Hh; replace (2 * h + 1) with (1 + h * 2) by ring; rewrite Z.div_add by lia; reflexivity).
    rewrite H2 in R1, R2. split.
    - intros x y. rewrite includesI_iff, Hd. unfold rectZ, xmaxI, ymaxI, b_xmax, b_ymax, nlift2. cbn [nv]. rewrite DX, DY, Hh.
      cbn [py nv]. split; [intros [_ Hr]; lia|intro Hr; split; [reflexivity|lia]].
    - rewrite Hh, mult_IZR in G. destruct G as [G1 G2]. split.
      + apply Rmult_le_reg_r with (2 / dk)%R; [apply Rdiv_lt_0_compat; lra|]. replace (IZR h * dk * (2 / dk))%R with (2 * IZR h)%R by (field; lra).
        replace (maxk * (1 - / 1000000000000) * (2 / dk))%R with (2 * maxk / dk * (1 - / 1000000000000))%R by (field; lra). exact G1.
      + apply Rmult_lt_reg_r with (2 / dk)%R; [apply Rdiv_lt_0_compat; lra|]. replace (IZR h * dk * (2 / dk))%R with (2 * IZR h)%R by (field; lra).
        replace ((maxk + dk) * (2 / dk))%R with (2 * maxk / dk + 2)%R by (field; lra). 
        assert (0 < 2 * maxk / dk)%R by (apply Rdiv_lt_0_compat; lra). nra.
  Qed.

  Lemma kdraw_fails maxk stepk kdraw q i st e : q_image q = Some i -> bdef (ibnd i) = true ->
    (forall w dx dy, is_pixel O (wshift T w dx dy) = is_pixel O w) ->
    drawK maxk stepk kdraw q = (st, Err e) ->
    st = Some i \/ (e = GalSimError /\ exists w, iwcs i = Some w /\ is_pixel O w = false).
  Proof using Type.
    intros Qi Hd L. unfold drawKImage. rewrite Qi.
    destruct (if iscomplex (idt i) then None else Some GalSimValueError) as [e'|]; [intro H; injection H as <- <-; auto|].
    destruct (match q_scale q with Some s => Ok (Some s) | None => image_scale O i end) as [s|e'] eqn:SC.
    2:{ intro H. injection H as <- <-. auto. }
    clear SC. (rewrite Hd; cbn [negb]; destruct (opt_some (q_bounds q)); [intro H; injection H as <- <-; auto|];
     destruct (opt_some (q_nx q) || opt_some (q_ny q)); [intro H; injection H as <- <-; auto|];
     rewrite (center_some i Hd);
     match goal with |- context [if ?c then (Some i, _) else _] => destruct c; [intro H; injection H as <- <-; auto|] end;
     unfold set_scale; destruct (q_recenter q); cbn [shift iwcs option_map];
     destruct (iwcs i) as [w|] eqn:Ew; cbn [option_map]; rewrite ?Ew;
     try (rewrite L); try (destruct (is_pixel O w) eqn:Ep; [|intro H; injection H as _ <-; right; split; [reflexivity|exists w; auto]]);
     destruct (q_setup_only q); discriminate).
  Qed.
End K.
