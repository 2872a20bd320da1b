(** Units, origins, jumps, the pole and integer images. *)
From Coq Require Import ZArith Reals Bool List String Lra Lia.
From Coquelicot Require Import Coquelicot.
From Verif Require Import Base Bounds_Model Bounds_Proofs Geo_Model Geo_Proofs Angle_Model Angle_Proofs Sky_Model Sky_Spec Sky_Proofs Sky_Proj Sky_Jac FITS_Model FITS_Proofs Draw_Model Noise_Model Noise_Proofs Cel_Model Cel_Spec Cel_Proofs.
Open Scope R_scope.

Section More.
  Context {W : Type}.
  Variable O : celops W.

  (** The unit asked for *)
  Definition unit_of (a : uarg) : res R :=
    match a with NoUnit => Err TypeError | UName s => from_name s | Unit u => Ok u | NotUnit => Err GalSimValueError end.
  Lemma xy_is_pos w x y a u ra dec : unit_of a = Ok u -> u <> 0 -> posToWorld O w (x, y) None None = Ok (Sky (mkC ra dec)) ->
    exists r d, xyToradec O w x y a = Ok (r, d) /\ r * u = ra /\ d * u = dec.
  Proof using Type.
    intros A Hu. unfold posToWorld, xyToradec, unit_of in *. cbn [fst snd].
    destruct (c_radec O w (x - fst (c_origin O w), y - snd (c_origin O w))) as [r d]. unfold new_coord. destruct (Rltb _ _ || Rltb _ _); cbn [bind]; [discriminate|].
    intro H. injection H as <- <-. rewrite A. cbn [bind]. do 2 eexists. split; [reflexivity|]. unfold radians. split; field; exact Hu.
  Qed.
  Lemma radec_is_pos w ra dec a u c : unit_of a = Ok u -> ra * u = cra c -> dec * u = cdec c ->
    radecToxy O w ra dec a = posToImage O w c.
  Proof using Type.
    intros A R1 R2. unfold posToImage, radecToxy, unit_of in *.
    replace (match a with NoUnit | NotUnit => Err GalSimValueError | UName s => from_name s | Unit u => Ok u end) with (Ok u) by (destruct a; congruence).
    cbn [bind]. replace (ra * (u / radians)) with (cra c / radians) by (rewrite <- R1; unfold radians; field).
    replace (dec * (u / radians)) with (cdec c / radians) by (rewrite <- R2; unfold radians; field).
    destruct (c_xy O w (cra c / radians) (cdec c / radians)) as [p|e]; reflexivity.
  Qed.
  Lemma radec_back w x y a r d : (exists u, unit_of a = Ok u /\ u <> 0) -> 
    (forall p, c_xy O w (fst (c_radec O w p)) (snd (c_radec O w p)) = Ok p) ->
    xyToradec O w x y a = Ok (r, d) -> radecToxy O w r d a = Ok (x, y).
  Proof using Type.
    intros (u & A & Hu) I. unfold xyToradec, radecToxy, unit_of in *. rewrite A. cbn [bind].
    replace (match a with NoUnit | NotUnit => Err GalSimValueError | UName s => from_name s | Unit u => Ok u end) with (Ok u) by (destruct a; congruence).
    specialize (I (x - fst (c_origin O w), y - snd (c_origin O w))).
    destruct (c_radec O w (x - fst (c_origin O w), y - snd (c_origin O w))) as [ra dec]. cbn [fst snd] in I. intro H. injection H as <- <-. cbn [bind].
    replace (ra * (radians / u) * (u / radians)) with ra by (unfold radians; field; exact Hu).
    replace (dec * (radians / u) * (u / radians)) with dec by (unfold radians; field; exact Hu).
    rewrite I. cbn [bind fst snd]. f_equal. f_equal; ring.
  Qed.

  Lemma vsub_shift (p o q : vec) : vsub (vadd p o) (vadd o q) = vsub p q.
  Proof using Type. destruct p, o, q. cbv [vsub vadd fst snd]. f_equal; ring. Qed.
  Lemma pair_vsub (p q : vec) : (fst p - fst q, snd p - snd q) = vsub p q. Proof using Type. reflexivity. Qed.
  (** what all the methods look at *)
  Lemma seen w w' o : lawful_origin O -> shiftOrigin O w o false = Ok w' ->
    (forall p, c_radec O w' (vsub (vadd p o) (c_origin O w')) = c_radec O w (vsub p (c_origin O w))) /\
    (forall ra dec, bind (c_xy O w' ra dec) (fun p => Ok (vadd p (c_origin O w'))) = bind (c_xy O w ra dec) (fun p => Ok (vadd p (vadd o (c_origin O w))))).
  Proof using Type.
    intros L H. injection H as <-. destruct (L w (vadd o (c_origin O w))) as [A B]. split; [|exact B].
    intro p. rewrite A. f_equal. apply vsub_shift.
  Qed.
  Lemma shift_all w w' o : lawful_origin O -> shiftOrigin O w o false = Ok w' ->
    (forall p c n, posToWorld O w' (vadd p o) c n = posToWorld O w p c n) /\
    (forall c, posToImage O w' c = bind (posToImage O w c) (fun p => Ok (vadd p o))) /\
    (forall p, cel_local O w' (vadd p o) = cel_local O w p) /\
    (forall m n, o = (IZR m, IZR n) -> forall sky i j, sky_area O w' sky (i + m) (j + n) = sky_area O w sky i j).
  Proof using Type.
    intros L H. destruct (seen w w' o L H) as [A B].
    assert (A' : forall x y, c_radec O w' (x + fst o - fst (c_origin O w'), y + snd o - snd (c_origin O w')) = c_radec O w (x - fst (c_origin O w), y - snd (c_origin O w))).
    { intros x y. exact (A (x, y)). }
    repeat split.
    - intros p c n. unfold posToWorld. cbn [vadd fst snd]. rewrite A'. reflexivity.
    - intro c. unfold posToImage. rewrite B. destruct (c_xy O w (cra c / radians) (cdec c / radians)) as [p|e]; cbn [bind]; [|reflexivity].
      f_equal. destruct p, o, (c_origin O w). cbv [vadd fst snd]. f_equal; ring.
    - intro p. unfold cel_local. cbn [vadd fst snd].
      replace (fst p + fst o - fst (c_origin O w') + 1) with (fst p + 1 + fst o - fst (c_origin O w')) by ring.
      replace (fst p + fst o - fst (c_origin O w') - 1) with (fst p - 1 + fst o - fst (c_origin O w')) by ring.
      replace (snd p + snd o - snd (c_origin O w') + 1) with (snd p + 1 + snd o - snd (c_origin O w')) by ring.
      replace (snd p + snd o - snd (c_origin O w') - 1) with (snd p - 1 + snd o - snd (c_origin O w')) by ring. rewrite !A'.
      replace (fst p - fst (c_origin O w) + 1) with (fst p + 1 - fst (c_origin O w)) by ring.
      replace (fst p - fst (c_origin O w) - 1) with (fst p - 1 - fst (c_origin O w)) by ring.
      replace (snd p - snd (c_origin O w) + 1) with (snd p + 1 - snd (c_origin O w)) by ring.
      replace (snd p - snd (c_origin O w) - 1) with (snd p - 1 - snd (c_origin O w)) by ring. reflexivity.
    - intros m n -> sky i j. cbn [fst snd] in A'. unfold sky_area.
      replace (i + m + 1)%Z with (i + 1 + m)%Z by ring. replace (i + m - 1)%Z with (i - 1 + m)%Z by ring.
      replace (j + n + 1)%Z with (j + 1 + n)%Z by ring. replace (j + n - 1)%Z with (j - 1 + n)%Z by ring.
      rewrite !(plus_IZR _ m), !(plus_IZR _ n). rewrite !A'. reflexivity.
  Qed.

  Lemma sky_local w sky i j : 
    Rabs (fst (c_radec O w (IZR i + 1 - fst (c_origin O w), IZR j - snd (c_origin O w))) - fst (c_radec O w (IZR i - 1 - fst (c_origin O w), IZR j - snd (c_origin O w)))) <= 2 ->
    Rabs (fst (c_radec O w (IZR i - fst (c_origin O w), IZR j + 1 - snd (c_origin O w))) - fst (c_radec O w (IZR i - fst (c_origin O w), IZR j - 1 - snd (c_origin O w)))) <= 2 ->
    sky_area O w sky i j = sky * (let J := cel_local O w (IZR i, IZR j) in Rabs (m00 J * m11 J - m10 J * m01 J)).
  Proof using Type.
    intros H1 H2. unfold sky_area, cel_local. cbn [fst snd m00 m01 m10 m11]. rewrite !plus_IZR, !minus_IZR.
    replace (IZR i - fst (c_origin O w) + 1) with (IZR i + 1 - fst (c_origin O w)) by ring. replace (IZR i - fst (c_origin O w) - 1) with (IZR i - 1 - fst (c_origin O w)) by ring.
    replace (IZR j - snd (c_origin O w) + 1) with (IZR j + 1 - snd (c_origin O w)) by ring. replace (IZR j - snd (c_origin O w) - 1) with (IZR j - 1 - snd (c_origin O w)) by ring.
    assert (U : forall d, Rabs d <= 2 -> unjump (- / 2 * d) = - / 2 * d).
    { intros d H. apply Rabs_le_between in H. unfold unjump. destruct (Rltb_spec 1 (- / 2 * d)); [lra|]. destruct (Rltb_spec (- / 2 * d) (-1)); lra. }
    rewrite !U by assumption. set (f := radians / arcsec).
    match goal with |- Rabs ?e * _ * _ = _ * Rabs ?g => replace g with (e * f ^ 2) by field end.
    rewrite Rabs_mult, (Rabs_right (f ^ 2)) by (apply Rle_ge, pow2_ge_0). ring.
  Qed.

  Lemma sky_scales w sky i j : sky_area O w sky i j = sky * sky_area O w 1 i j.
  Proof using Type. unfold sky_area. ring. Qed.
  Lemma sky_pole w sky i j : cos (snd (c_radec O w (IZR i - fst (c_origin O w), IZR j - snd (c_origin O w)))) = 0 -> sky_area O w sky i j = 0.
  Proof using Type. intro H. unfold sky_area. rewrite H, !Rmult_0_r, Rmult_0_l, Rminus_0_r, Rabs_R0. ring. Qed.
End More.

Lemma fits_lawful : lawful_origin fits_ops.
Proof.
  intros w o. split.
  - intro p. unfold fits_ops. cbn [c_radec c_new c_origin].
    replace (vsub p (0, 0)) with (vadd (vsub p o) o) by (destruct p, o; cbv [vsub vadd fst snd]; f_equal; ring).
    pose proof (shift_radec w o (vsub p o)) as S. unfold f_shift in S. replace (vadd o (0, 0)) with o in S by (destruct o; cbv [vadd fst snd]; f_equal; ring). exact S.
  - intros ra dec. unfold fits_ops. cbn [c_xy c_new c_origin].
    assert (E : f_xy (new_origin w o) ra dec = bind (f_xy w ra dec) (fun p => Ok (vadd p o))).
    { replace o with (vadd o (0, 0)) at 1 by (destruct o; cbv [vadd fst snd]; f_equal; ring). change (new_origin w (vadd o (0, 0))) with (f_shift w o).
      destruct (f_xy w ra dec) as [p|e] eqn:E; cbn [bind]; [now apply shift_xy|now apply shift_xy_err]. }
    rewrite E. destruct (f_xy w ra dec) as [p|e]; cbn [bind]; [|reflexivity]. f_equal. destruct p, o; cbv [vadd fst snd]; f_equal; ring.
Qed.

(** A gnomonic system centred on the pole, k degrees to the pixel *)
Definition polar (k : R) : fwcs := FW "TAN" (0, 0) (Mat (- k) 0 0 k) (mkC 0 (PI / 2)) None None None.
Lemma polar_uv k x y : f_uv (polar k) (x, y) = (k * x * degrees, k * y * degrees).
Proof. unfold f_uv, polar. cbn [f_crpix f_ab f_pv f_cd apply_opt]. cbv [vsub mapp fst snd m00 m01 m10 m11]. unfold radians. f_equal; field. Qed.
Lemma polar_direction k x y : direction fits_ops (polar k) (x, y) =
  (let u := k * x * degrees in let v := k * y * degrees in let s := 1 / sqrt (1 + (u * u + v * v)) in (- v * s, - u * s, s)).
Proof.
  rewrite fits_direction. unfold f_radec. rewrite polar_uv. change (f_proj (polar k)) with Gnomonic. change (f_center (polar k)) with (mkC 0 (PI / 2)). cbn [fst snd]. set (u := k * x * degrees). set (v := k * y * degrees).
  pose proof (deproject_frame (mkC 0 (PI / 2)) Gnomonic u v) as F. cbv zeta.
  assert (Q : 0 < 1 + (u * u + v * v)) by nra. pose proof (sqrt_lt_R0 _ Q) as Q'. pose proof (sqrt_sqrt _ (Rlt_le _ _ Q)) as Q2.
  unfold deproj_cs in F. set (s := sqrt (1 + (u * u + v * v))) in *.
  assert (E : 1 / s * (1 / s) + 1 / s * (1 / s) * (u * u + v * v) = 1).
  { replace (1 / s * (1 / s) + 1 / s * (1 / s) * (u * u + v * v)) with ((1 + (u * u + v * v)) / (s * s)) by (field; lra). rewrite Q2. field. lra. }
  specialize (F E). destruct (deproject_ (mkC 0 (PI / 2)) Gnomonic u v) as [ra dec]. cbn [fst snd]. destruct F as [_ ->].
  cbv [v3add v3scale cT cE cN sky east north cra cdec]. rewrite cos_PI2, sin_PI2, cos_0, sin_0. f_equal; [f_equal|]; field; lra.
Qed.
Lemma polar_angle k : solid_angle (direction fits_ops (polar k)) 0 0 ((k * degrees) ^ 2).
Proof.
  exists (0, - (k * degrees), 0), (- (k * degrees), 0, 0). split; [|split].
  - intros [[n1 n2] n3]. apply is_derive_Reals. apply (is_derive_ext (fun s => n2 * (- (k * s * degrees) * (1 / sqrt (1 + (k * s * degrees) * (k * s * degrees)))) + n3 * (1 / sqrt (1 + (k * s * degrees) * (k * s * degrees))))).
    + intro s. rewrite polar_direction. cbv [v3dot]. rewrite Rmult_0_r, Rmult_0_l, Rmult_0_l, Rplus_0_r. match goal with |- ?a = ?b => change (@eq R a b); ring end.
    + auto_derive.
      * split; [|split]; try exact Logic.I; rewrite ?Rmult_0_r, ?Rmult_0_l, ?Rplus_0_r, ?sqrt_1; repeat split; lra.
      * rewrite ?Rmult_0_r, ?Rmult_0_l, ?Rplus_0_r, ?sqrt_1. cbv [v3dot]. field.
  - intros [[n1 n2] n3]. apply is_derive_Reals. apply (is_derive_ext (fun s => n1 * (- (k * s * degrees) * (1 / sqrt (1 + (k * s * degrees) * (k * s * degrees)))) + n3 * (1 / sqrt (1 + (k * s * degrees) * (k * s * degrees))))).
    + intro s. rewrite polar_direction. cbv [v3dot]. rewrite Rmult_0_r, Rmult_0_l, Rmult_0_l, Rplus_0_l. match goal with |- ?a = ?b => change (@eq R a b); ring end.
    + auto_derive.
      * split; [|split]; try exact Logic.I; rewrite ?Rmult_0_r, ?Rmult_0_l, ?Rplus_0_r, ?sqrt_1; repeat split; lra.
      * rewrite ?Rmult_0_r, ?Rmult_0_l, ?Rplus_0_r, ?sqrt_1. cbv [v3dot]. field.
  - unfold v3norm. cbv [v3cross v3dot]. match goal with |- _ = sqrt ?e => replace e with (((k * degrees) ^ 2) * ((k * degrees) ^ 2)) by ring end.
    symmetry. apply sqrt_square. apply pow2_ge_0.
Qed.
Lemma polar_sky k sky : sky_area fits_ops (polar k) sky 0 0 = 0.
Proof.
  apply sky_pole. unfold fits_ops. cbn [c_radec c_origin fst snd]. unfold f_radec. rewrite Rminus_0_r, polar_uv. change (f_proj (polar k)) with Gnomonic. change (f_center (polar k)) with (mkC 0 (PI / 2)). cbn [fst snd].
  rewrite Rmult_0_r, Rmult_0_l. unfold deproject_.
  cbv [deproj_cs get_aux a_cosdec a_sindec cdec cra]. replace (1 + (0 * 0 + 0 * 0)) with 1 by ring. rewrite sin_PI2, sqrt_1. cbn [snd].
  match goal with |- cos (asin ?e) = 0 => replace e with 1 by field end. rewrite asin_1. apply cos_PI2.
Qed.
