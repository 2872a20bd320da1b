(** Proofs about the conversions. *)
From Coq Require Import ZArith Reals Bool String List Lra Lia.
From Coquelicot Require Import Complex.
From Verif Require Import Base Array_Model Bounds_Model Bounds_Proofs Geo_Model Shear_Model WCS_Model GSP_Model Noise_Model Noise_Proofs
  Sky_Model FITS_Model Pos_Model Image_Model Conv_Model Conv_Spec.
Import ListNotations.
Open Scope R_scope.

Lemma Rltb_false' : forall a b, b <= a -> Rltb a b = false.
Proof. intros a b H. unfold Rltb. destruct (Rlt_dec a b); [lra|reflexivity]. Qed.
Lemma Rltb_true' : forall a b, a < b -> Rltb a b = true.
Proof. intros a b H. unfold Rltb. destruct (Rlt_dec a b); [reflexivity|lra]. Qed.

Lemma pos_survives : survives pos_to pos_from whole same_place.
Proof.
  intros [[|] [x kx] [y ky]] W; unfold whole in W; cbn in W.
  - exists (GPosD x y), (Pos PosD (py x) (py y)). repeat split; reflexivity.
  - destruct (W eq_refl) as (m & n & -> & ->).
    exists (GPosI m n), (Pos PosI (py (IZR m)) (py (IZR n))).
    split; [unfold pos_to; cbn; rewrite !truncR_IZR; reflexivity|].
    split; [|repeat split; reflexivity].
    unfold pos_from, pos2, mkPos. cbn. unfold check_is_int_then_cast. cbn.
    unfold is_int. cbn. rewrite !truncR_IZR.
    destruct (Reqb_spec (IZR m) (IZR m)); [|congruence]. destruct (Reqb_spec (IZR n) (IZR n)); [|congruence].
    reflexivity.
Qed.

Lemma bndI_to_within : forall b x y, within_gI (bndI_to b) x y <-> withinI b x y.
Proof.
  intros b x y. unfold within_gI, withinI, bndI_to. destruct (bdef b); [|cbn; split; intros [H _]; discriminate].
  unfold gs_bounds, pycast, xmaxI, ymaxI, b_xmax, b_ymax. cbn. rewrite andb_true_iff, !Z.leb_le. lia.
Qed.
Lemma Rleb_iff : forall a b, negb (Rltb b a) = true <-> a <= b.
Proof. intros a b. unfold Rltb. destruct (Rlt_dec b a); cbn; split; intro; try discriminate; try reflexivity; lra. Qed.
Lemma bndD_to_within : forall b x y, within_gD (bndD_to b) x y <-> withinD b x y.
Proof.
  intros b x y. unfold within_gD, withinD, bndD_to. destruct (bdef b); [|cbn; split; intros [H _]; discriminate].
  unfold gs_bounds, pycast, xmaxD, ymaxD, b_xmax, b_ymax. cbn. rewrite andb_true_iff, !Rleb_iff.
  split; intros H; repeat split; lra.
Qed.
Lemma bndI_from_within : forall g x y, withinI (bndI_from g) x y <-> within_gI g x y.
Proof.
  intros [d x1 x2 y1 y2] x y. unfold withinI, within_gI, bndI_from. cbn [gb_def gb_x1 gb_x2 gb_y1 gb_y2].
  destruct d; [|cbn; split; intros [H _]; discriminate].
  unfold BoundsI, parse, parse_raw, py_check, delta_of. cbn.
  destruct (Z.ltb_spec (x2 - x1 + 1) 1), (Z.ltb_spec (y2 - y1 + 1) 1); cbn.
  - split; intros [K K']; [discriminate|lia].
  - split; intros [K K']; [discriminate|lia].
  - split; intros [K K']; [discriminate|lia].
  - lia.
Qed.
Lemma BoundsD_none : bdef (BoundsD ArgsNone) = false.
Proof. unfold BoundsD, parse, parse_raw, py_check. cbn. destruct (Rltb 0 0 || Rltb 0 0); reflexivity. Qed.
Lemma bndD_from_within : forall g x y, withinD (bndD_from g) x y <-> within_gD g x y.
Proof.
  intros [d x1 x2 y1 y2] x y. unfold withinD, within_gD, bndD_from. cbn [gb_def gb_x1 gb_x2 gb_y1 gb_y2].
  destruct d; [|rewrite BoundsD_none; split; intros [H _]; discriminate].
  unfold BoundsD, parse, parse_raw, py_check, delta_of. cbn. unfold Rltb.
  destruct (Rlt_dec (x2 - x1 + 0) 0); cbn; [split; intros H; [destruct H; discriminate|exfalso; lra]|].
  destruct (Rlt_dec (y2 - y1 + 0) 0); cbn; [split; intros H; [destruct H; discriminate|exfalso; lra]|].
  split; intros (_ & H1 & H2); repeat split; lra.
Qed.

Lemma boxI_survives : forall b, (bdef b = true -> (1 <= nv (bdx b) /\ 1 <= nv (bdy b))%Z) ->
  same_box b (bndI_from (bndI_to b)).
Proof.
  intros b H. unfold bndI_to. destruct (bdef b) eqn:Db.
  - destruct (H eq_refl) as [Hx Hy].
    unfold gs_bounds, pycast, xmaxI, ymaxI, b_xmax, b_ymax, bndI_from. cbn.
    replace (nv (bxmin b) <=? _)%Z with true by (symmetry; apply Z.leb_le; lia).
    replace (nv (bymin b) <=? _)%Z with true by (symmetry; apply Z.leb_le; lia). cbn.
    unfold BoundsI, parse, parse_raw, py_check, delta_of, boundsI_finish. cbn.
    destruct (Z.ltb_spec (nv (bxmin b) + nv (bdx b) - 1 - nv (bxmin b) + 1) 1); [lia|].
    destruct (Z.ltb_spec (nv (bymin b) + nv (bdy b) - 1 - nv (bymin b) + 1) 1); [lia|]. cbn.
    split; [exact Db|]. intros _. cbn. repeat split; lia.
  - cbn. split; [exact Db|]. rewrite Db. discriminate.
Qed.
Lemma boxD_survives : forall b, (bdef b = true -> 0 <= nv (bdx b) /\ 0 <= nv (bdy b)) ->
  same_box b (bndD_from (bndD_to b)).
Proof.
  intros b H. unfold bndD_to. destruct (bdef b) eqn:Db.
  - destruct (H eq_refl) as [Hx Hy].
    unfold gs_bounds, pycast, xmaxD, ymaxD, b_xmax, b_ymax, bndD_from. cbn.
    rewrite !Rltb_false' by lra. cbn.
    unfold BoundsD, parse, parse_raw, py_check, delta_of. cbn.
    rewrite !Rltb_false' by lra. cbn.
    split; [exact Db|]. intros _. cbn. repeat split; lra.
  - split; [rewrite Db; symmetry; exact BoundsD_none|]. rewrite Db. discriminate.
Qed.
Lemma bounds_survive : survives bounds_to bounds_from inhabited same_bounds.
Proof.
  intros [b|b] H; cbn in H.
  - exists (GBoundsD (bndD_to b)), (JBoundsD (bndD_from (bndD_to b))).
    split; [reflexivity|]. split; [reflexivity|]. exact (boxD_survives b H).
  - exists (GBoundsI (bndI_to b)), (JBoundsI (bndI_from (bndI_to b))).
    split; [reflexivity|]. split; [reflexivity|]. exact (boxI_survives b H).
Qed.

Lemma shear_to_ok : forall g, Cmod g <= 1 -> shear_to g = Ok g.
Proof.
  intros [a b] H. unfold shear_to, gs_shear. cbn [Re Im fst snd]. rewrite Rltb_false' by exact H. reflexivity.
Qed.
Lemma shear_to_err : forall g, 1 < Cmod g -> shear_to g = Err GalSimRangeError.
Proof.
  intros [a b] H. unfold shear_to, gs_shear. cbn [Re Im fst snd]. rewrite Rltb_true' by exact H. reflexivity.
Qed.
Lemma shear_from_ok : forall g, Cmod g <= 1 -> shear_from g = Ok g.
Proof.
  intros [a b] H. unfold shear_from, mk_shear, two. cbn [Re Im fst snd]. cbn -[Cmod].
  rewrite Rltb_false' by exact H. reflexivity.
Qed.
Lemma coord_to_ok : forall c, declination c -> coord_to c = Ok c.
Proof.
  intros [a d] [H1 H2]. cbn in H1, H2. unfold coord_to, gs_coord. cbn.
  rewrite !Rltb_false' by assumption. reflexivity.
Qed.
Lemma coord_to_err : forall c, ~ declination c -> coord_to c = Err ValueError.
Proof.
  intros [a d] H. unfold coord_to, gs_coord. cbn. unfold declination in H. cbn in H. unfold Rltb.
  destruct (Rlt_dec d (- PI / 2)); [reflexivity|]. destruct (Rlt_dec (PI / 2) d); [reflexivity|]. exfalso. apply H. lra.
Qed.
Lemma coord_from_ok : forall c, coord_from c = Ok c.
Proof. intros [a d]. reflexivity. Qed.
Lemma gsparams_to_ok : forall A (d p : gsp A), gsparams_to d p = Ok p.
Proof. intros A d [? ? ? ? ? ? ? ? ? ? ? ? ?]. reflexivity. Qed.
Lemma gsparams_from_ok : forall A (p : gsp A), gsparams_from (Some p) = Ok p.
Proof. intros A [? ? ? ? ? ? ? ? ? ? ? ? ?]. reflexivity. Qed.

Lemma gsfits_ok : forall f p, declination (f_center f) -> type_proj (f_type f) = Some p -> gsfits_data f = Ok f.
Proof.
  intros [t cr cd [ra dec] pv ab abp] p [H1 H2] Ht. cbn in *. unfold gsfits_data, new_coord. cbn.
  rewrite !Rltb_false' by assumption. cbn. rewrite Ht. reflexivity.
Qed.
Lemma wcs_survives : survives wcs_to (fun g => bind (wcs_from g) (fun o => match o with Some w => Ok w | None => Err AttributeError end))
  legal eq.
Proof.
  intros [[[s|s g|[a b c d]]|s o w|s g o w|[a b c d] o w]|f] L; cbn in L.
  - eexists; eexists; repeat split.
  - exists (GShearWCS s g), (JW (WLoc (LShear s g))). cbn [wcs_to wcs_from].
    rewrite shear_to_ok by exact L. rewrite shear_from_ok by exact L. repeat split.
  - eexists; eexists; repeat split.
  - eexists; eexists; repeat split.
  - exists (GOffsetShearWCS s g o w), (JW (WOffShear s g o w)). cbn [wcs_to wcs_from].
    rewrite shear_to_ok by exact L. rewrite shear_from_ok by exact L. repeat split.
  - eexists; eexists; repeat split.
  - destruct L as [L [p Hp]]. exists (GGSFits f), (JFits f). cbn [wcs_to wcs_from].
    rewrite coord_to_ok by exact L. cbn [bind]. unfold gs_gsfits. rewrite Hp. cbn [bind].
    rewrite (gsfits_ok f p L Hp). destruct f; repeat split.
Qed.
Lemma wcs_back : forall w g, legal w -> wcs_to w = Ok g -> wcs_from g = Ok (Some w).
Proof.
  intros w g L H. destruct (wcs_survives w L) as (g' & y & H1 & H2 & <-). rewrite H in H1. injection H1 as <-.
  destruct (wcs_from g) as [[z|]|e]; cbn in H2; try discriminate. congruence.
Qed.
Lemma wcs_forth : forall w, legal w -> exists g, wcs_to w = Ok g /\ wcs_from g = Ok (Some w).
Proof.
  intros w L. destruct (wcs_survives w L) as (g & y & H1 & _). exists g. split; [exact H1|]. exact (wcs_back w g L H1).
Qed.

Section Img.
  Context {V D HD : Type}.
  Variable T : vops V D jwcs.
  Variable U : arr V -> D -> option gwcs -> res (gimage (V := V) (D := D) (HD := HD)).
  Lemma image_to_ok : forall (im : image V D jwcs) (h : option HD), fits im ->
    exists g, image_to U (im, h) = Ok g /\ gi_arr g = iarr im /\ gi_dt g = idt im /\ gi_const g = false /\ gi_header g = None
      /\ (forall x y, within_gI (gi_bnd g) x y <-> withinI (ibnd im) x y)
      /\ exists im', image_from T g = Ok (im', None) /\ iconst im' = Some false /\ same_image im im'.
  Proof.
    intros im h (Hd & Hx & Hy & Hp & Hw).
    assert (exists gw, opt_res wcs_to (iwcs im) = Ok gw /\
      match gw with None => Ok None | Some w => wcs_from w end = Ok (iwcs im)) as (gw & W1 & W2).
    { destruct (iwcs im) as [w|]; [|exists None; split; reflexivity].
      destruct (wcs_forth w (Hw w eq_refl)) as (g & H1 & H2). exists (Some g). cbn. rewrite H1. split; [reflexivity|exact H2]. }
    exists (GI (iarr im) (bndI_to (ibnd im)) (idt im) gw false None).
    assert (B : bndI_to (ibnd im) = GB true (nv (bxmin (ibnd im))) (nv (bxmin (ibnd im)) + ncol (iarr im) - 1)%Z
                                          (nv (bymin (ibnd im))) (nv (bymin (ibnd im)) + nrow (iarr im) - 1)%Z).
    { unfold bndI_to. rewrite Hd. unfold gs_bounds, pycast, xmaxI, ymaxI, b_xmax, b_ymax. cbn. rewrite Hx, Hy.
      replace (_ <=? _)%Z with true by (symmetry; apply Z.leb_le; lia).
      replace (_ <=? _)%Z with true by (symmetry; apply Z.leb_le; lia). reflexivity. }
    split.
    { unfold image_to. cbn [fst]. rewrite W1. cbn [bind]. unfold gs_image. rewrite B. cbn.
      replace (_ =? _)%Z with true by (symmetry; apply Z.eqb_eq; lia).
      replace (_ =? _)%Z with true by (symmetry; apply Z.eqb_eq; lia). reflexivity. }
    repeat (split; [reflexivity|]). split; [exact (bndI_to_within (ibnd im))|].
    unfold image_from. cbn [gi_wcs gi_arr gi_bnd gi_dt gi_header]. rewrite W2. cbn [bind].
    rewrite B. unfold bndI_from. cbn [gb_def gb_x1 gb_x2 gb_y1 gb_y2].
    set (bb := BoundsI _).
    assert (E : bb = Bnd true true (py (nv (bxmin (ibnd im)))) (py (ncol (iarr im))) (py (nv (bymin (ibnd im)))) (py (nrow (iarr im)))).
    { unfold bb, BoundsI, parse, parse_raw, py_check, delta_of, boundsI_finish. cbn.
      set (a1 := nv (bxmin (ibnd im))). set (a2 := nv (bymin (ibnd im))).
      destruct (Z.ltb_spec (a1 + ncol (iarr im) - 1 - a1 + 1) 1); [lia|].
      destruct (Z.ltb_spec (a2 + nrow (iarr im) - 1 - a2 + 1) 1); [lia|]. cbn.
      unfold nlift2, py. cbn. f_equal; f_equal; lia. }
    unfold Image_array. rewrite E. cbn [bdef bdx bdy nv py bxmin bymin]. rewrite !Z.eqb_refl. cbn [negb bind].
    eexists. split; [reflexivity|]. split; [reflexivity|].
    unfold same_image. cbn [iarr idt iwcs ibnd]. repeat (split; [reflexivity|]).
    unfold same_box. rewrite Hd, Hx, Hy.
    unfold BoundsI, parse, parse_raw, py_check, boundsI_finish. cbn.
    replace (ncol (iarr im) <? 1)%Z with false by (symmetry; apply Z.ltb_ge; lia).
    replace (nrow (iarr im) <? 1)%Z with false by (symmetry; apply Z.ltb_ge; lia). cbn. repeat split.
  Qed.
End Img.

Lemma shear_from_inv : forall g h, shear_from g = Ok h -> h = g /\ Cmod g <= 1.
Proof.
  intros [a b] h. unfold shear_from, mk_shear, two. cbn [Re Im fst snd]. cbn -[Cmod]. unfold Rltb.
  destruct (Rlt_dec 1 (Cmod (a, b))); cbn -[Cmod]; [discriminate|]. intro E. injection E as <-. split; [reflexivity|lra].
Qed.
Lemma gsfits_inv : forall f h, gsfits_data f = Ok h -> h = f /\ declination (f_center f) /\ exists p, type_proj (f_type f) = Some p.
Proof.
  intros [t cr cd [ra dec] pv ab abp] h. unfold gsfits_data, new_coord, declination. cbn -[type_proj]. unfold Rltb.
  destruct (Rlt_dec dec (- PI / 2)); cbn -[type_proj]; [discriminate|].
  destruct (Rlt_dec (PI / 2) dec); cbn -[type_proj]; [discriminate|].
  destruct (type_proj t) as [p|] eqn:E; [|discriminate]. intro F. injection F as <-.
  split; [reflexivity|]. split; [lra|]. exists p. reflexivity.
Qed.
Lemma wcs_from_inv : forall g w, wcs_from g = Ok (Some w) -> legal w /\ wcs_to w = Ok g.
Proof.
  intros g w H. destruct g as [s|s g|a b c d|s o v|s g o v|a b c d o v|f|n|[[[]| | |]|]|]; cbn [wcs_from] in H.
  - injection H as <-. split; [exact Logic.I|reflexivity].
  - destruct (shear_from g) as [k|e] eqn:E; [|discriminate].
    destruct (shear_from_inv g k E) as [-> L]. injection H as <-. split; [exact L|]. cbn [wcs_to]. now rewrite shear_to_ok.
  - injection H as <-. split; [exact Logic.I|reflexivity].
  - injection H as <-. split; [exact Logic.I|reflexivity].
  - destruct (shear_from g) as [k|e] eqn:E; [|discriminate].
    destruct (shear_from_inv g k E) as [-> L]. injection H as <-. split; [exact L|]. cbn [wcs_to]. now rewrite shear_to_ok.
  - injection H as <-. split; [exact Logic.I|reflexivity].
  - destruct (gsfits_data f) as [k|e] eqn:E; [|discriminate].
    destruct (gsfits_inv f k E) as (-> & L & p & Hp). injection H as <-.
    split; [split; [exact L|exists p; exact Hp]|]. cbn [wcs_to]. rewrite coord_to_ok by exact L. cbn [bind].
    unfold gs_gsfits. rewrite Hp. destruct f; reflexivity.
  - destruct (negb _ && negb _) in H; discriminate.
  - discriminate.
  - discriminate.
  - discriminate.
  - discriminate.
  - discriminate.
  - discriminate.
  - discriminate.
  - discriminate.
Qed.
Lemma wcs_from_own : forall w, wcs_from (GJax w) = Ok None.
Proof. intros [[[]| | |]|]; reflexivity. Qed.
Lemma existsb_String : forall n l, existsb (String.eqb n) l = true <-> In n l.
Proof.
  intros n l. rewrite existsb_exists. split.
  - intros (x & Hx & E). apply String.eqb_eq in E. now subst.
  - intro H. exists n. split; [exact H|]. apply String.eqb_refl.
Qed.
Lemma wcs_from_derived : forall n, ~ In n wcs_globals -> n <> "GSFitsWCS"%string -> wcs_from (GDerived n) = Err NotImplementedErr.
Proof.
  intros n H1 H2. unfold wcs_from, class_name.
  destruct (existsb (String.eqb n) wcs_globals) eqn:E; [apply existsb_String in E; contradiction|].
  destruct (String.eqb_spec n "GSFitsWCS"); [contradiction|]. reflexivity.
Qed.
