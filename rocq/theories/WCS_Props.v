(** Properties C51-C56 of the Euclidean WCS classes, and the world-coordinate half of C10. *)
From Coq Require Import ZArith Reals Bool String List Lra Lia Psatz.
From Coquelicot Require Import Complex.
From Verif Require Import Base Bounds_Model Bounds_Proofs Array_Model Image_Model Image_Example Geo_Model Geo_Proofs
  Shear_Model Shear_Spec Shear_Proofs Shear_Conv GSP_Model Prof_Model Prof_Spec Prof_Proofs
  WCS_Model WCS_Spec WCS_Proofs WCS_More WCS_Prof.
Import ListNotations.
Open Scope R_scope.

(** The WCS used in the examples: scale 1/4 with shear, offset, and a flipped Jacobian. *)
Definition wshear : wcs := WOffShear (1 / 4) (1 / 2, 1 / 3) (10, 20) (- 3, 5).
Definition wflip : wcs := WAff (Mat (1 / 10) (1 / 4) (1 / 5) (- 1 / 20)) (100, 200) (0, 7).
Lemma wshear_regular : regular wshear.
Proof. split; [lra|]. apply Cmod_lt_1. lra. Qed.
Lemma wflip_regular : regular wflip.
Proof. unfold regular, wflip, mdet; cbn [m00 m01 m10 m11]; lra. Qed.

(** * C51: the two directions *)
Theorem C51_maps_are_inverse : forall w p, regular w ->
  posToImage w (posToWorld w p) = p /\ posToWorld w (posToImage w p) = p.
Proof. exact round_trips. Qed.
Print Assumptions C51_maps_are_inverse.
Theorem C51_inverse_swaps : forall w p, regular w ->
  regular (inverse w) /\ posToWorld (inverse w) p = posToImage w p /\ posToImage (inverse w) p = posToWorld w p.
Proof. exact inverse_swaps. Qed.
Print Assumptions C51_inverse_swaps.
(** The maps are the affine map described by the parameters; methods on coordinates and on positions
    agree. *)
Theorem C51_world_position : forall w x y, regular w ->
  posToWorld w (x, y) = meaning w (x, y) /\ xyTouv w x y = posToWorld w (x, y) /\ uvToxy w x y = posToImage w (x, y).
Proof. intros w x y H. split; [apply world_meaning; auto|apply xy_uv]. Qed.
Print Assumptions C51_world_position.
Example C51_witness : regular wshear /\ regular wflip /\ posToWorld wflip (101, 202) = (6 / 10, 71 / 10).
Proof.
  split; [apply wshear_regular|]. split; [apply wflip_regular|].
  unfold wflip, posToWorld, l_u, l_v, vadd, local_wcs. cbn [origin world_origin fst snd m00 m01 m10 m11]. apply vec_eq; lra.
Qed.

(** * C52: changing the origin; [isl] is whatever the inherited attribute _isLocal says *)
Theorem C52_origin_moves_with_image : forall isl w o p, regular w ->
  posToWorld (shiftOrigin isl w o None) (vadd p o) = posToWorld w p.
Proof. exact shift_none. Qed.
Print Assumptions C52_origin_moves_with_image.
Theorem C52_world_origin_set : forall isl w o v p, regular w ->
  posToWorld (shiftOrigin isl w o (Some v)) o = v /\
  vsub (posToWorld (shiftOrigin isl w o (Some v)) (vadd p o)) v = vsub (posToWorld w (vadd p (origin w))) (world_origin w).
Proof. exact shift_some. Qed.
Print Assumptions C52_world_origin_set.
Theorem C52_local_part_unchanged : forall isl w o wo, regular w ->
  local_wcs (shiftOrigin isl w o wo) = local_wcs w /\ regular (shiftOrigin isl w o wo).
Proof. intros isl w o wo H. destruct (shift_parts isl w o wo H) as [A [B [D E]]]. auto. Qed.
Print Assumptions C52_local_part_unchanged.
Theorem C52_sequences_add : forall isl l w p, regular w ->
  posToWorld (fold_left (fun w o => shiftOrigin isl w o None) l w) (vadd p (vsum l)) = posToWorld w p /\
  local_wcs (fold_left (fun w o => shiftOrigin isl w o None) l w) = local_wcs w.
Proof. exact shifts. Qed.
Print Assumptions C52_sequences_add.
Example C52_witness : regular wflip /\ shiftOrigin false wflip (1, 2) None = WAff (Mat (1 / 10) (1 / 4) (1 / 5) (- 1 / 20)) (1 + 100, 2 + 200) (0, 7).
Proof. split; [apply wflip_regular|reflexivity]. Qed.

(** * C53: decomposition and scales *)
Theorem C53_decomposition : forall m, mdet m <> 0 -> exists s g t f, getDecomposition m = Ok (s, g, t, f) /\
  0 < s /\ s * s = Rabs (mdet m) /\ Cmod g < 1 /\ - PI < t <= PI /\ (f = true <-> mdet m < 0) /\
  m = mscale (mdot (mdot (getMatrix g) (rotm t)) (if f then swap else mI)) s.
Proof. exact decomposition. Qed.
Print Assumptions C53_decomposition.
Theorem C53_pixel_area : forall w, regular w -> l_area (local_wcs w) = Rabs (mdet (linear_part w)).
Proof. intros w H. rewrite linear_part_local. symmetry. apply linear_det. apply regular_local; auto. Qed.
Print Assumptions C53_pixel_area.
Theorem C53_linear_scales_are_singular_values : forall m,
  singular_value m (l_max (LJac m)) /\ singular_value m (l_min (LJac m)) /\
  0 <= l_min (LJac m) <= l_max (LJac m) /\ l_min (LJac m) * l_max (LJac m) = Rabs (mdet m).
Proof. exact scales_are_singular. Qed.
Print Assumptions C53_linear_scales_are_singular_values.
Theorem C53_linear_scales_of_other_classes : forall l, positive_l l ->
  l_min l = l_min (LJac (linear l)) /\ l_max l = l_max (LJac (linear l)).
Proof.
  intros l H. rewrite <- linear_jac; [apply scales_agree; auto|]. destruct l as [s|s g|m]; cbn in *; auto; [|split]; intuition lra.
Qed.
Print Assumptions C53_linear_scales_of_other_classes.
Example C53_witness : mdet (Mat (1 / 10) (1 / 4) (1 / 5) (- 1 / 20)) < 0 /\ positive_l (LShear (1 / 4) (1 / 2, 1 / 3)).
Proof. split; [unfold mdet; cbn [m00 m01 m10 m11]; lra|]. split; [lra|]. apply Cmod_lt_1. lra. Qed.

(** * C54: profiles and shears *)
Theorem C54_flux_conserved : forall w p fr off ip wp, regular w -> ip = None \/ wp = None ->
  exists pw pi, profileToWorld w p ip wp fr off = Ok pw /\ profileToImage w p ip wp fr off = Ok pi /\
    flux pw = fr * flux p /\ flux pi = fr * flux p.
Proof.
  intros w p fr off ip wp H N. unfold profileToWorld, profileToImage.
  assert (E : local w ip wp = Ok (local_wcs w)) by (destruct N; subst; [destruct wp|destruct ip]; reflexivity).
  rewrite E. cbn [bind]. do 2 eexists. split; [reflexivity|]. split; [reflexivity|]. apply profile_flux. apply regular_local; auto.
Qed.
Print Assumptions C54_flux_conserved.
(** Surface brightness in the world is that of the image per unit area of the world, at corresponding
    points, and conversely. *)
Theorem C54_surface_brightness : forall l p x, regular_l l -> nonsingular p ->
  xValue (l_profileToWorld l p 1 (0, 0)) (mapp (linear l) x) = scale_res (/ l_area l) (xValue p x) /\
  xValue (l_profileToImage l p 1 (0, 0)) x = scale_res (l_area l) (xValue p (mapp (linear l) x)).
Proof. exact profile_value. Qed.
Print Assumptions C54_surface_brightness.
(** There and back gives a profile that cannot be told from the original, also when flux ratios and
    offsets are undone. *)
Theorem C54_profile_round_trip : forall l p fr off, regular_l l -> nonsingular p -> 0 < stepk p -> fr <> 0 ->
  alike (l_profileToImage l (l_profileToWorld l p fr off) (/ fr) (vneg (mapp (minv (linear l)) off))) p /\
  alike (l_profileToWorld l (l_profileToImage l p fr off) (/ fr) (vneg (mapp (linear l) off))) p.
Proof. exact profile_round_trip. Qed.
Print Assumptions C54_profile_round_trip.
(** The shear that is returned has the ellipticity given by the transformation of second moments. *)
Theorem C54_shear_moments : forall l g, regular_l l -> Cmod g < 1 ->
  (let e := shape_map (linear l) (shape g) in
   exists s, l_shearToWorld l g = Ok s /\ Cmod s <= 1 /\ close (sh_e1 s) (fst e) /\ close (sh_e2 s) (snd e) /\
    (exact_range e -> Cmod s < 1 /\ shape s = e)) /\
  (let e := shape_map (minv (linear l)) (shape g) in
   exists s, l_shearToImage l g = Ok s /\ Cmod s <= 1 /\ close (sh_e1 s) (fst e) /\ close (sh_e2 s) (snd e) /\
    (exact_range e -> Cmod s < 1 /\ shape s = e)).
Proof. exact shears. Qed.
Print Assumptions C54_shear_moments.
(** Missing for the full statement: ellipticities between 0 and 0.01, where Shear(e1=, e2=) uses a
    truncated series and the result is only equal to rounding (C54_shear_moments). *)
Theorem C54_shear_round_trip_partial : forall l g, regular_l l -> Cmod g < 1 -> exact_range (shape g) ->
  (exact_range (shape_map (linear l) (shape g)) -> bind (l_shearToWorld l g) (l_shearToImage l) = Ok g) /\
  (exact_range (shape_map (minv (linear l)) (shape g)) -> bind (l_shearToImage l g) (l_shearToWorld l) = Ok g).
Proof. exact shear_round_trip. Qed.
Print Assumptions C54_shear_round_trip_partial.
(** A round profile sheared in the image is, in the world, the round profile scaled to the same area
    and sheared by the transformed shear. *)
Theorem C54_sheared_round_profile : forall l g s p, regular_l l -> Cmod g < 1 -> Cmod s < 1 ->
  shape s = shape_map (linear l) (shape g) -> nonsingular p -> radial (xValue p) -> radial (kValue p) ->
  let world := l_profileToWorld l (apply p (ShearBy g)) 1 (0, 0) in
  let direct := apply (apply p (Dilate (sqrt (l_area l)))) (ShearBy s) in
  (forall x, xValue world x = xValue direct x) /\ (forall k, kValue world k = kValue direct k) /\ flux world = flux direct.
Proof. exact sheared_round. Qed.
Print Assumptions C54_sheared_round_profile.
Example C54_witness : let J := Mat (1 / 10) (1 / 4) (1 / 5) (- 1 / 20) in let g : C := (1 / 2, 1 / 3) in
  regular_l (LJac J) /\ Cmod g < 1 /\ exact_range (shape g) /\ exact_range (shape_map J (shape g)) /\ shape_map J (shape g) <> shape g.
Proof.
  intros J g. assert (E : shape g = (36 / 49, 24 / 49)) by (unfold shape, g; cbn [Re Im fst snd]; apply vec_eq; field).
  split; [unfold regular_l, mdet, J; cbn [m00 m01 m10 m11]; lra|]. split; [apply Cmod_lt_1; lra|]. rewrite E.
  assert (F : shape_map J (36 / 49, 24 / 49) = (-18 / 1163, 1047 / 1163)).
  { unfold shape_map, shape_of, J, mdot, mT, moments. cbn [m00 m01 m10 m11 fst snd]. apply vec_eq; field. }
  rewrite F. split; [left; cbn [fst snd]; lra|]. split; [left; cbn [fst snd]; lra|]. intros X. injection X. lra.
Qed.

(** * C55: local representations *)
Theorem C55_jacobian_gives_differences : forall w ip wp j p d, regular w -> jacobian w ip wp = Ok j ->
  regular j /\ posToWorld j d = vsub (posToWorld w (vadd p d)) (posToWorld w p).
Proof. exact jacobian_difference. Qed.
Print Assumptions C55_jacobian_gives_differences.
Theorem C55_affine_is_the_same_map : forall isl w ip wp, regular w -> ip = None \/ wp = None ->
  exists m o v, affine isl w ip wp = Ok (WAff m o v) /\ m = linear_part w /\
    (forall p, posToWorld (WAff m o v) p = posToWorld w p) /\
    (forall p, ip = Some p -> o = p) /\ (forall p, wp = Some p -> v = p).
Proof. exact affine_same. Qed.
Print Assumptions C55_affine_is_the_same_map.
Theorem C55_compatible_iff_same_linear_part : forall w1 w2, regular w1 -> regular w2 ->
  compatible w1 w2 = true <-> linear_part w1 = linear_part w2.
Proof. exact compatible_iff. Qed.
Print Assumptions C55_compatible_iff_same_linear_part.
(** The finite differences of the generic EuclideanWCS are the exact derivatives of maps of degree
    up to two, hence of all affine maps. *)
Theorem C55_finite_differences_exact : forall u v a b c d e k a' b' c' d' e' k' o p,
  quadratic u a b c d e k -> quadratic v a' b' c' d' e' k' ->
  let x := fst p - fst o in let y := snd p - snd o in
  fd_local u v o p = Mat (a + 2 * c * x + d * y) (b + d * x + 2 * e * y) (a' + 2 * c' * x + d' * y) (b' + d' * x + 2 * e' * y).
Proof. exact fd_exact. Qed.
Print Assumptions C55_finite_differences_exact.
Theorem C55_sky_image : forall w sky i j, regular w ->
  fd_sky (l_u (local_wcs w)) (l_v (local_wcs w)) (origin w) sky i j = uniform_sky w sky.
Proof. exact sky_exact. Qed.
Print Assumptions C55_sky_image.
Example C55_witness : regular wflip /\ jacobian wflip (Some (1, 1)) None = Ok (WLoc (LJac (Mat (1 / 10) (1 / 4) (1 / 5) (- 1 / 20)))) /\
  (exists j, affine true wshear None (Some (1, 1)) = Ok j) /\ quadratic (fun x y => x * x + y) 0 1 1 0 0 0.
Proof.
  split; [apply wflip_regular|]. split; [reflexivity|]. split; [eexists; reflexivity|]. intros x y. ring.
Qed.

(** * C56: headers *)
(** Missing for the full statement: the classes with a shear, see the next theorem. *)
Theorem C56_header_round_trip_partial : forall isl w xmin ymin h, regular w -> (forall s g, local_wcs w <> LShear s g) ->
  exists w', readFromFitsHeader isl (writeToFitsHeader isl w xmin ymin h) = Ok (w', (xmin, ymin)) /\
    same_map w w' /\ (xmin = 1%Z -> ymin = 1%Z -> w' = w) /\ ((forall l, w <> WLoc l) -> w' = w).
Proof. exact header_round_trip. Qed.
Print Assumptions C56_header_round_trip_partial.
(** The header of a ShearWCS or OffsetShearWCS cannot be read back: the classes have no _readHeader. *)
Theorem C56_shear_headers_refuted : forall isl w xmin ymin h s g, local_wcs w = LShear s g -> regular w ->
  readFromFitsHeader isl (writeToFitsHeader isl w xmin ymin h) = Err AttributeError.
Proof. exact shear_header. Qed.
Print Assumptions C56_shear_headers_refuted.
Example C56_witness : regular wflip /\ (forall s g, local_wcs wflip <> LShear s g) /\ regular wshear /\
  local_wcs wshear = LShear (1 / 4) (1 / 2, 1 / 3).
Proof. split; [apply wflip_regular|]. split; [discriminate|]. split; [apply wshear_regular|reflexivity]. Qed.

(** * C10 (world coordinates): re-origining an image *)
(** [T] shifts an image's wcs as Image._shift does. *)
Definition shifts_wcs {V D} (isl : bool) (T : vops V D wcs) : Prop :=
  forall w dx dy, wshift T w dx dy = shiftOrigin isl w (IZR dx, IZR dy) None.
Definition at_ (x y : Z) : vec := (IZR x, IZR y).
Theorem C10_world_positions_kept : forall V D isl (T : vops V D wcs) (im : image V D wcs) w dx dy x y,
  shifts_wcs isl T -> iwcs im = Some w -> regular w ->
  exists w', iwcs (shift T im dx dy) = Some w' /\ regular w' /\
    posToWorld w' (at_ (x + nv dx) (y + nv dy)) = posToWorld w (at_ x y).
Proof.
  intros V D isl T im w dx dy x y H E R. exists (wshift T w (nv dx) (nv dy)). unfold shift. cbn [iwcs]. rewrite E.
  split; [reflexivity|]. rewrite H. split; [apply shift_parts; auto|].
  rewrite <- (shift_none isl w (IZR (nv dx), IZR (nv dy)) (at_ x y) R). f_equal. unfold at_, vadd. cbn [fst snd]. rewrite !plus_IZR. reflexivity.
Qed.
Print Assumptions C10_world_positions_kept.
Theorem C10_world_positions_kept_by_sequences : forall V D isl (T : vops V D wcs) l (im : image V D wcs) w x y,
  shifts_wcs isl T -> iwcs im = Some w -> regular w ->
  exists w', iwcs (fold_left (fun im d => shift T im (fst d) (snd d)) l im) = Some w' /\ regular w' /\
    posToWorld w' (at_ (fold_left (fun a d => a + nv (fst d))%Z l x) (fold_left (fun a d => a + nv (snd d))%Z l y)) = posToWorld w (at_ x y).
Proof.
  intros V D isl T l. induction l as [|d l IH]; intros im w x y H E R.
  - exists w. auto.
  - destruct (C10_world_positions_kept V D isl T im w (fst d) (snd d) x y H E R) as [w1 [E1 [R1 P1]]].
    destruct (IH (shift T im (fst d) (snd d)) w1 (x + nv (fst d))%Z (y + nv (snd d))%Z H E1 R1) as [w2 [E2 [R2 P2]]].
    exists w2. cbn [fold_left]. rewrite P2. auto.
Qed.
Print Assumptions C10_world_positions_kept_by_sequences.
(** setOrigin and setCenter are shifts. *)
Theorem C10_world_positions_kept_by_setOrigin_setCenter : forall V D isl (T : vops V D wcs) (im : image V D wcs) w a b x y,
  shifts_wcs isl T -> iwcs im = Some w -> regular w ->
  (exists w', iwcs (setOrigin T im a b) = Some w' /\
    posToWorld w' (at_ (x + (nv a - nv (bxmin (ibnd im)))) (y + (nv b - nv (bymin (ibnd im))))) = posToWorld w (at_ x y)) /\
  (forall cx cy, centerI (ibnd im) = Ok (cx, cy) -> exists w', iwcs (fst (setCenter T im a b)) = Some w' /\
    posToWorld w' (at_ (x + (nv a - cx)) (y + (nv b - cy))) = posToWorld w (at_ x y)).
Proof.
  intros V D isl T im w a b x y H E R. split.
  - destruct (C10_world_positions_kept V D isl T im w (nlift2 Z.sub a (bxmin (ibnd im))) (nlift2 Z.sub b (bymin (ibnd im))) x y H E R) as [w' [A [B C0]]].
    exists w'. split; auto.
  - intros cx cy Ec. unfold setCenter. rewrite Ec. cbn [fst done].
    match goal with |- context [shift T im ?p ?q] => destruct (C10_world_positions_kept V D isl T im w p q x y H E R) as [w' [A [B C0]]] end.
    exists w'. split; auto.
Qed.
Print Assumptions C10_world_positions_kept_by_setOrigin_setCenter.
Definition Twcs : vops Z bool wcs := {|
  vzero := 0%Z; vone := 2%Z; isint := isint Tex; deqb := deqb Tex; prom := prom Tex; tcast := tcast Tex; rcast := rcast Tex;
  bop := bop Tex; vrecip := vrecip Tex; viszero := viszero Tex; visneg := visneg Tex; vconj := vconj Tex;
  wshift := fun w dx dy => shiftOrigin false w (IZR dx, IZR dy) None |}.
Example C10_witness : shifts_wcs false Twcs /\ regular wflip.
Proof. split; [intros w dx dy; reflexivity|apply wflip_regular]. Qed.
