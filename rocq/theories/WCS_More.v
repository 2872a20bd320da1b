(** Local representations, headers, profiles and shears. *)
From Coq Require Import ZArith Reals Bool String List Lra Lia Psatz.
From Coquelicot Require Import Complex.
From Verif Require Import Base Bounds_Model Bounds_Proofs Geo_Model Geo_Proofs Shear_Model Shear_Spec Shear_Proofs Shear_Conv
  Prof_Model Prof_Spec Prof_Proofs WCS_Model WCS_Spec WCS_Proofs.
Import ListNotations.
Open Scope R_scope.

(** * Local representations *)
Lemma jacobian_difference : forall w ip wp j p d, regular w -> jacobian w ip wp = Ok j ->
  regular j /\ posToWorld j d = vsub (posToWorld w (vadd p d)) (posToWorld w p).
Proof.
  intros w ip wp j p d H E. unfold jacobian, local in E.
  assert (J : j = WLoc (LJac (l_jac (local_wcs w)))) by (destruct wp, ip; cbn in E; congruence). subst j.
  pose proof (regular_local w H) as L. rewrite linear_jac by auto. pose proof (linear_det _ L) as [D _].
  split; [exact D|]. rewrite !world_meaning by (auto; exact D). unfold meaning. rewrite !linear_part_local. cbn [local_wcs]. cbn [linear_part linear origins fst snd].
  destruct (snd (origins w)) as [a b], p as [p1 p2], d as [d1 d2], (fst (origins w)) as [o1 o2]. vring.
Qed.
Lemma affine_same : forall isl w ip wp, regular w -> ip = None \/ wp = None ->
  exists m o v, affine isl w ip wp = Ok (WAff m o v) /\ m = linear_part w /\
    (forall p, posToWorld (WAff m o v) p = posToWorld w p) /\
    (forall p, ip = Some p -> o = p) /\ (forall p, wp = Some p -> v = p).
Proof.
  intros isl w ip wp H N. pose proof (regular_local w H) as L. pose proof (linear_det _ L) as [D _].
  set (o := match wp with Some v => posToImage w v | None => match ip with None => (0, 0) | Some p => p end end).
  assert (E : affine isl w ip wp = Ok (WAff (linear_part w) o (posToWorld w o))).
  { unfold affine, jacobian, local. rewrite linear_part_local.
    replace (match wp with Some _ => match ip with Some _ => Err GalSimIncompatibleValuesError | None => Ok (local_wcs w) end | None => Ok (local_wcs w) end)
      with (Ok (local_wcs w)) by (destruct ip, wp; auto; destruct N; discriminate).
    cbn [bind]. fold o. f_equal. rewrite linear_jac by auto. set (j := WLoc (LJac (linear (local_wcs w)))).
    assert (R : regular j) by exact D.
    assert (W : match wp with None => posToWorld w o | Some v => v end = posToWorld w o).
    { destruct wp; auto. unfold o. symmetry. apply round_trips; auto. }
    rewrite W. unfold shiftOrigin. rewrite posToWorld_origin by auto. cbn [world_origin j].
    assert (Z : vadd (posToWorld w o) (vsub (0, 0) (0, 0)) = posToWorld w o) by (destruct (posToWorld w o); vring).
    destruct isl; cbn [negb]; rewrite ?Z; reflexivity. }
  do 3 eexists. split; [exact E|]. split; auto. split; [|split].
  - intros p. assert (R : regular (WAff (linear_part w) o (posToWorld w o))) by (rewrite linear_part_local; exact D).
    rewrite !world_meaning by auto. unfold meaning. cbn [linear_part linear origins fst snd]. destruct p, o, (origins w) as [[] []]; vring.
  - intros p Hp. unfold o. destruct wp; subst; auto. destruct N; discriminate.
  - intros p Hp. unfold o. subst wp. apply round_trips; auto.
Qed.
Lemma compatible_iff : forall w1 w2, regular w1 -> regular w2 -> compatible w1 w2 = true <-> linear_part w1 = linear_part w2.
Proof.
  intros w1 w2 H1 H2. apply regular_local in H1. apply regular_local in H2. rewrite !linear_part_local, <- !linear_jac by auto.
  unfold compatible. destruct (l_jac (local_wcs w1)) as [a b c d], (l_jac (local_wcs w2)) as [a' b' c' d']. cbn [m00 m01 m10 m11].
  destruct (Reqb_spec a a'), (Reqb_spec b b'), (Reqb_spec c c'), (Reqb_spec d d'); subst; cbn [andb]; split; intros E; auto; try discriminate; try (injection E; congruence).
Qed.
Lemma fd_exact : forall u v a b c d e k a' b' c' d' e' k' o p, quadratic u a b c d e k -> quadratic v a' b' c' d' e' k' ->
  let x := fst p - fst o in let y := snd p - snd o in
  fd_local u v o p = Mat (a + 2 * c * x + d * y) (b + d * x + 2 * e * y) (a' + 2 * c' * x + d' * y) (b' + d' * x + 2 * e' * y).
Proof. intros u v a b c d e k a' b' c' d' e' k' o p Hu Hv x y. unfold fd_local. fold x y. rewrite !Hu, !Hv. apply mat_eq; field. Qed.
Lemma sky_exact : forall w sky i j, regular w -> 
  fd_sky (l_u (local_wcs w)) (l_v (local_wcs w)) (origin w) sky i j = uniform_sky w sky.
Proof.
  intros w sky i j H. apply regular_local in H. pose proof (linear_det _ H) as [_ A]. unfold uniform_sky. rewrite <- A.
  assert (U : forall x y, l_u (local_wcs w) x y = m00 (linear (local_wcs w)) * x + m01 (linear (local_wcs w)) * y) by (intros; apply (f_equal fst (l_world _ x y H))).
  assert (V : forall x y, l_v (local_wcs w) x y = m10 (linear (local_wcs w)) * x + m11 (linear (local_wcs w)) * y) by (intros; apply (f_equal snd (l_world _ x y H))).
  unfold fd_sky. rewrite !U, !V, !plus_IZR, !minus_IZR. rewrite Rmult_comm. f_equal. f_equal. unfold mdet. field.
Qed.

(** * Headers *)
Open Scope string_scope.
Lemma hset_same : forall h k v, hset h k v k = Some v.
Proof. intros. unfold hset. rewrite String.eqb_refl. reflexivity. Qed.
Lemma write_parts : forall isl w h, regular w -> (forall s g, local_wcs w <> LShear s g) ->
  exists name, writeHeader isl w h "GS_WCS"%string = Some (HS name) /\ read_class name (writeHeader isl w h) = Ok w.
Proof.
  intros isl w h H N. destruct (affine_same isl w None None H (or_introl eq_refl)) as [m [o [v [A [M _]]]]].
  destruct w as [[s|s g|J]|s o' v'|s g o' v'|J o' v'].
  2, 5: exfalso; eapply N; reflexivity.
  - exists "PixelScale"%string. unfold writeHeader, writeAffine. rewrite A. split; reflexivity.
  - exists "JacobianWCS"%string. unfold writeHeader, writeAffine. rewrite A. cbn in M. subst m. split; [reflexivity|]. destruct J; reflexivity.
  - exists "OffsetWCS"%string. unfold writeHeader, writeAffine. rewrite A. split; [reflexivity|]. destruct o', v'; reflexivity.
  - exists "AffineTransform"%string. split; [reflexivity|]. destruct o', v', J; reflexivity.
Qed.
Lemma write_keeps : forall isl w h k, regular w -> k = "GS_XMIN"%string \/ k = "GS_YMIN"%string -> writeHeader isl w h k = h k.
Proof.
  intros isl w h k H K. destruct (affine_same isl w None None H (or_introl eq_refl)) as [m [o [v [A [M _]]]]].
  assert (X : forall h', writeAffine isl w h' k = h' k) by (intros h'; unfold writeAffine; rewrite A; destruct K; subst k; reflexivity).
  destruct w as [[s|s g|J]|s o' v'|s g o' v'|J o' v']; cbn [writeHeader]; rewrite ?X; destruct K; subst k; reflexivity.
Qed.
Lemma header_round_trip : forall isl w xmin ymin h, regular w -> (forall s g, local_wcs w <> LShear s g) ->
  exists w', readFromFitsHeader isl (writeToFitsHeader isl w xmin ymin h) = Ok (w', (xmin, ymin)) /\
    same_map w w' /\ (xmin = 1%Z -> ymin = 1%Z -> w' = w) /\ ((forall l, w <> WLoc l) -> w' = w).
Proof.
  intros isl w xmin ymin h H N. set (c := negb (Z.eqb xmin 1) || negb (Z.eqb ymin 1)).
  set (h0 := hset (hset h "GS_XMIN" (HZ xmin)) "GS_YMIN" (HZ ymin)).
  set (w1 := if c then shiftOrigin isl w (IZR (1 - xmin), IZR (1 - ymin)) None else w).
  destruct (shift_parts isl w (IZR (1 - xmin), IZR (1 - ymin)) None H) as [P1 [P2 [P3 P4]]].
  assert (R1 : regular w1) by (unfold w1; destruct c; auto).
  assert (L1 : local_wcs w1 = local_wcs w) by (unfold w1; destruct c; auto).
  destruct (write_parts isl w1 h0 R1) as [name [W1 W2]]. { intros s g. rewrite L1. apply N. }
  unfold writeToFitsHeader. fold h0 c w1. unfold readFromFitsHeader, corner.
  rewrite !write_keeps by auto. unfold h0 at 1 2. cbn [hset String.eqb Ascii.eqb Bool.eqb].
  replace (hset (hset h "GS_XMIN" (HZ xmin)) "GS_YMIN" (HZ ymin) "GS_XMIN") with (Some (HZ xmin)) by reflexivity.
  replace (hset (hset h "GS_XMIN" (HZ xmin)) "GS_YMIN" (HZ ymin) "GS_YMIN") with (Some (HZ ymin)) by reflexivity.
  cbn [bind]. rewrite W1, W2. cbn [bind]. fold c. eexists. split; [reflexivity|].
  unfold w1. destruct c eqn:Ec.
  - set (w2 := shiftOrigin isl w (IZR (1 - xmin), IZR (1 - ymin)) None) in *.
    destruct (shift_parts isl w2 (IZR (xmin - 1), IZR (ymin - 1)) None P3) as [Q1 [Q2 [Q3 Q4]]].
    set (w3 := shiftOrigin isl w2 (IZR (xmin - 1), IZR (ymin - 1)) None) in *.
    assert (O : origins w3 = origins w).
    { rewrite Q4, P4. cbn [fst snd]. rewrite (surjective_pairing (origins w)) at 3. f_equal. destruct (fst (origins w)). unfold vadd. cbn [fst snd]. rewrite !minus_IZR. apply vec_eq; ring. }
    split; [|split].
    + intros p. unfold meaning. rewrite Q2, P2, O. reflexivity.
    + intros X Y. subst. discriminate Ec.
    + intros Nl. unfold w3, w2 in *. destruct w as [l|s o v|s g o v|m o v]; [destruct (Nl l eq_refl)|..];
      unfold shiftOrigin in O |- *; cbn [negb newOrigin origin world_origin local_wcs origins] in O |- *; injection O; intros; congruence.
  - split; [|split]; auto. intros p. reflexivity.
Qed.
Lemma shear_header : forall isl w xmin ymin h s g, local_wcs w = LShear s g -> regular w ->
  readFromFitsHeader isl (writeToFitsHeader isl w xmin ymin h) = Err AttributeError.
Proof.
  intros isl w xmin ymin h s g L H. set (c := negb (Z.eqb xmin 1) || negb (Z.eqb ymin 1)).
  set (h0 := hset (hset h "GS_XMIN" (HZ xmin)) "GS_YMIN" (HZ ymin)).
  set (w1 := if c then shiftOrigin isl w (IZR (1 - xmin), IZR (1 - ymin)) None else w).
  destruct (shift_parts isl w (IZR (1 - xmin), IZR (1 - ymin)) None H) as [P1 [P2 [P3 P4]]].
  assert (R1 : regular w1) by (unfold w1; destruct c; auto).
  assert (L1 : local_wcs w1 = LShear s g) by (rewrite <- L; unfold w1; destruct c; auto).
  unfold writeToFitsHeader. fold h0 c w1. unfold readFromFitsHeader, corner. rewrite !write_keeps by auto.
  unfold h0 at 1 2. 
  replace (hset (hset h "GS_XMIN" (HZ xmin)) "GS_YMIN" (HZ ymin) "GS_XMIN") with (Some (HZ xmin)) by reflexivity.
  replace (hset (hset h "GS_XMIN" (HZ xmin)) "GS_YMIN" (HZ ymin) "GS_YMIN") with (Some (HZ ymin)) by reflexivity.
  cbn [bind]. destruct (affine_same isl w1 None None R1 (or_introl eq_refl)) as [m [o [v [A [M _]]]]].
  destruct w1 as [[s'|s' g'|J]|s' o' v'|s' g' o' v'|J o' v']; cbn [local_wcs] in L1; try discriminate L1;
  unfold writeHeader, writeAffine; rewrite A; reflexivity.
Qed.
