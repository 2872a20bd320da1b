(** C122 (units and origins of celestial systems), C123 (sky images of celestial systems). *)
From Coq Require Import ZArith Reals Bool List String Lra Lia.
From Coquelicot Require Import Coquelicot.
From Verif Require Import Base Bounds_Model Bounds_Proofs Geo_Model Geo_Proofs Angle_Model Angle_Proofs Sky_Model Sky_Spec Sky_Proofs Sky_Proj FITS_Model FITS_Spec FITS_Proofs Draw_Model Draw_Proofs Noise_Model Noise_Proofs Cel_Model Cel_Spec Cel_Proofs Cel_More.
Open Scope R_scope.

(** ** C122 *)

(** xyToradec gives the coordinates of posToWorld in the units asked for, by name or as an AngleUnit; *)
Theorem C122_units : forall W (O : celops W) w x y a u ra dec, unit_of a = Ok u -> u <> 0 -> posToWorld O w (x, y) None None = Ok (Sky (mkC ra dec)) ->
  exists r d, xyToradec O w x y a = Ok (r, d) /\ r * u = ra /\ d * u = dec.
Proof. exact @xy_is_pos. Qed.
Print Assumptions C122_units.
(** radecToxy is posToImage of the coordinates meant; *)
Theorem C122_units_back : forall W (O : celops W) w ra dec a u c, unit_of a = Ok u -> ra * u = cra c -> dec * u = cdec c ->
  radecToxy O w ra dec a = posToImage O w c.
Proof. exact @radec_is_pos. Qed.
Print Assumptions C122_units_back.
(** so the pixel is found again wherever _xy undoes _radec, in any units. *)
Theorem C122_round_trip : forall W (O : celops W) w x y a r d, (exists u, unit_of a = Ok u /\ u <> 0) ->
  (forall p, c_xy O w (fst (c_radec O w p)) (snd (c_radec O w p)) = Ok p) ->
  xyToradec O w x y a = Ok (r, d) -> radecToxy O w r d a = Ok (x, y).
Proof. exact @radec_back. Qed.
Print Assumptions C122_round_trip.
(** Anything else is refused. *)
Theorem C122_refused : forall W (O : celops W) w x y o a e, unit_of a = Err e -> xyToradec O w x y a = Err e /\
  (exists e', radecToxy O w x y a = Err e') /\ shiftOrigin O w o true = Err TypeError.
Proof.
  intros W O w x y o a e A. unfold xyToradec, radecToxy, unit_of in *. rewrite A. split; [reflexivity|]. split; [|reflexivity].
  destruct a; try discriminate; try (eexists; reflexivity). rewrite A. eexists. reflexivity.
Qed.
Print Assumptions C122_refused.
(** Moving the origin moves everything: positions both ways, the local Jacobian and the sky image. *)
Theorem C122_shift : forall W (O : celops W) w w' o, lawful_origin O -> shiftOrigin O w o false = Ok w' ->
  (forall p c n, posToWorld O w' (vadd p o) c n = posToWorld O w p c n) /\
  (forall c, posToImage O w' c = bind (posToImage O w c) (fun p => Ok (vadd p o))) /\
  (forall p, cel_local O w' (vadd p o) = cel_local O w p) /\
  (forall m n, o = (IZR m, IZR n) -> forall sky i j, sky_area O w' sky (i + m) (j + n) = sky_area O w sky i j).
Proof. exact @shift_all. Qed.
Print Assumptions C122_shift.
(** A class that stores its origin, and right ascensions that jump at x = 0 *)
Definition jump_radec (p : vec) : R * R := (if Rltb (fst p) 0 then fst p / 100 + 2 * PI else fst p / 100, snd p / 100).
Definition jump_ops : celops vec := CelOps vec (fun o => o) (fun _ => jump_radec)
  (fun _ ra dec => Ok (100 * (if Rltb PI ra then ra - 2 * PI else ra), 100 * dec)) (fun _ o => o).
Example C122_witness : lawful_origin jump_ops /\ lawful_origin fits_ops /\ unit_of (UName (txt "arcmin")) = Ok arcmin /\
  xyToradec jump_ops (1, 1) 3 3 (Unit (1 / 2)) = Ok (4 / 100, 4 / 100).
Proof.
  split; [|split; [exact fits_lawful|split; [reflexivity|]]].
  - intros w o. split; reflexivity.
  - unfold xyToradec. cbn [bind c_radec c_origin jump_ops]. unfold jump_radec. cbn [fst snd].
    destruct (Rltb_spec (3 - 1) 0); [lra|]. f_equal. unfold radians. f_equal; field.
Qed.

(** ** C123 *)

(** The sky image is the sky level times the solid angle of the pixel, up to an error of third order in the pixel size, whether or
    not the right ascension jumps by a full turn near the pixel. *)
Theorem C123_sky : forall W (O : celops W) w sky i j M lon lat,
  smooth_at (c_radec O w) (IZR i - fst (c_origin O w)) (IZR j - snd (c_origin O w)) M lon lat ->
  exists a b, velocity_of (fun s => direction O w (s, IZR j)) (IZR i) a /\ velocity_of (fun s => direction O w (IZR i, s)) (IZR j) b /\
    Rabs (sky_area O w sky i j - sky * v3norm (v3cross a b) * (radians / arcsec) ^ 2) <=
    Rabs sky * (radians / arcsec) ^ 2 * (M / 4 * (v3norm a + v3norm b) + M ^ 2 / 18).
Proof. exact @sky_close. Qed.
Print Assumptions C123_sky.
(** For a FITS system this is the area that local gives. *)
Theorem C123_fits : forall w sky i j M lon lat,
  match f_pv w with Some d => exists n, triangular n (fst d) /\ triangular n (snd d) | None => True end ->
  match f_ab w with Some d => exists n, triangular n (fst d) /\ triangular n (snd d) | None => True end ->
  let uv := f_uv w (IZR i, IZR j) in plane_ok (f_proj w) (fst uv * fst uv + snd uv * snd uv) -> cos (snd (f_radec w (IZR i, IZR j))) <> 0 ->
  smooth_at (f_radec w) (IZR i) (IZR j) M lon lat ->
  exists a b, velocity_of (fun s => direction fits_ops w (s, IZR j)) (IZR i) a /\ velocity_of (fun s => direction fits_ops w (IZR i, s)) (IZR j) b /\
    let J := f_local w (IZR i, IZR j) in
    Rabs (sky_area fits_ops w sky i j - sky * Rabs (m00 J * m11 J - m10 J * m01 J)) <=
    Rabs sky * (radians / arcsec) ^ 2 * (M / 4 * (v3norm a + v3norm b) + M ^ 2 / 18).
Proof.
  intros w sky i j M lon lat GP GA uv H NC S.
  destruct (sky_close fits_ops w sky i j M lon lat) as (a & b & A & B & E).
  { cbn [fits_ops c_origin c_radec fst snd]. rewrite !Rminus_0_r. exact S. }
  exists a, b. split; [exact A|]. split; [exact B|]. cbv zeta. rewrite <- (fits_area w (IZR i) (IZR j) GP GA H NC a b A B).
  rewrite <- Rmult_assoc. exact E.
Qed.
Print Assumptions C123_fits.
(** Where the right ascension does not jump, the image is the sky level times the area of the generic _local. *)
Theorem C123_local : forall W (O : celops W) w sky i j,
  Rabs (fst (c_radec O w (IZR i + 1 - fst (c_origin O w), IZR j - snd (c_origin O w))) - fst (c_radec O w (IZR i - 1 - fst (c_origin O w), IZR j - snd (c_origin O w)))) <= 2 ->
  Rabs (fst (c_radec O w (IZR i - fst (c_origin O w), IZR j + 1 - snd (c_origin O w))) - fst (c_radec O w (IZR i - fst (c_origin O w), IZR j - 1 - snd (c_origin O w)))) <= 2 ->
  sky_area O w sky i j = sky * (let J := cel_local O w (IZR i, IZR j) in Rabs (m00 J * m11 J - m10 J * m01 J)).
Proof. exact @sky_local. Qed.
Print Assumptions C123_local.

Lemma three_PI : 3 < PI.
Proof. pose proof PI2_3_2 as P. unfold PI2 in P. lra. Qed.
Lemma linear_smooth c t : smooth (fun s => s / c) t 0.
Proof.
  exists (fun _ => / c), (fun _ => 0), (fun _ => 0). intros s _. split; [|split; [|split]].
  - auto_derive; [exact Logic.I|]. unfold Rdiv. ring.
  - apply @is_derive_const.
  - apply @is_derive_const.
  - rewrite Rabs_R0. lra.
Qed.
Lemma const_smooth c t M : 0 <= M -> smooth (fun _ => c) t M.
Proof.
  intro H. exists (fun _ => 0), (fun _ => 0), (fun _ => 0). intros s _. split; [apply @is_derive_const|]. split; [apply @is_derive_const|].
  split; [apply @is_derive_const|]. rewrite Rabs_R0. exact H.
Qed.
Lemma jump_smooth : smooth_at jump_radec 0 0 0 (fun x y => x / 100) (fun x y => y / 100).
Proof.
  pose proof three_PI as P. pose proof PI_4 as P4.
  repeat split.
  - apply linear_smooth.
  - apply const_smooth. lra.
  - apply const_smooth. lra.
  - apply linear_smooth.
  - rewrite Rabs_right; lra.
  - rewrite Rminus_eq_0, Rabs_R0. lra.
  - unfold jump_radec. cbn [fst snd]. destruct (Rltb_spec (0 + 1) 0); [lra|]. destruct (Rltb_spec (0 - 1) 0); [|lra]. apply Rabs_def1; lra.
  - unfold jump_radec. cbn [fst snd]. rewrite Rminus_eq_0, Rabs_R0. lra.
  - unfold jump_radec. cbn [fst snd]. destruct (Rltb_spec s 0); [exists 1%Z|exists 0%Z]; lra.
  - unfold jump_radec. cbn [fst snd]. exists 0%Z. destruct (Rltb_spec 0 0); lra.
Qed.

(** The generic _local does not look for jumps (finding F76). *)
Theorem C123_jump_refuted :
  ~ (forall W (O : celops W) w i j lon lat,
       smooth_at (c_radec O w) (IZR i - fst (c_origin O w)) (IZR j - snd (c_origin O w)) 0 lon lat ->
       let J := cel_local O w (IZR i, IZR j) in sky_area O w 1 i j = Rabs (m00 J * m11 J - m10 J * m01 J)).
Proof.
  intro H. specialize (H vec jump_ops (0, 0) 0%Z 0%Z (fun x y => x / 100) (fun x y => y / 100)). cbn [c_radec c_origin jump_ops fst snd] in H.
  rewrite Rminus_0_r in H. specialize (H jump_smooth). cbv zeta in H. revert H. unfold sky_area, cel_local, unjump. cbn [c_radec c_origin jump_ops]. unfold jump_radec. cbn [fst snd m00 m01 m10 m11].
  pose proof three_PI as P.
  change (0 + 1)%Z with 1%Z. change (0 - 1)%Z with (-1)%Z.
  set (f := radians / arcsec). assert (Hf : 0 < f) by (unfold f, radians; apply Rdiv_lt_0_compat; [lra|apply arcsec_pos]).
  destruct (Rltb_spec (1 - 0) 0); [lra|]. destruct (Rltb_spec (-1 - 0) 0); [|lra]. destruct (Rltb_spec (0 - 0) 0); [lra|].
  destruct (Rltb_spec (0 - 0 + 1) 0); [lra|]. destruct (Rltb_spec (0 - 0 - 1) 0); [|lra].
  match goal with |- context [Rltb 1 (- / 2 * ?d)] => replace (- / 2 * d) with (PI - / 100) by (unfold Rdiv; lra) end.
  destruct (Rltb_spec 1 (PI - / 100)); [|lra]. destruct (Rltb_spec (PI - / 100 - PI) (-1)); [lra|].
  match goal with |- context [Rltb 1 (- / 2 * ?d)] => replace (- / 2 * d) with 0 by (unfold Rdiv; lra) end.
  destruct (Rltb_spec 1 0); [lra|]. destruct (Rltb_spec 0 (-1)); [lra|].
  replace (cos ((0 - 0) / 100)) with 1 by (replace ((0 - 0) / 100) with 0 by lra; symmetry; apply cos_0).
  intro E. 
  match type of E with Rabs ?a * _ * _ = Rabs ?b => replace a with (- (/ 100 * / 100)) in E by lra; replace b with ((PI - / 100) * / 100 * f ^ 2) in E by lra end.
  rewrite Rabs_Ropp, Rabs_right in E by lra. rewrite Rabs_right in E by (apply Rle_ge; apply Rmult_le_pos; [lra|apply pow2_ge_0]).
  assert (0 < f ^ 2) by (apply pow_lt; exact Hf). nra.
Qed.
Print Assumptions C123_jump_refuted.
(** At the pole the sky image is zero, whatever the solid angle of the pixel (finding F77). *)
Theorem C123_pole_refuted :
  ~ (forall w sky i j A, solid_angle (direction fits_ops w) (IZR i) (IZR j) A -> 0 < A -> 0 < sky ->
       sky * A * (radians / arcsec) ^ 2 / 2 <= sky_area fits_ops w sky i j).
Proof.
  intro H. pose proof degrees_pos as D. specialize (H (polar 1) 1 0%Z 0%Z ((1 * degrees) ^ 2) (polar_angle 1) ltac:(apply pow_lt; lra) ltac:(lra)).
  rewrite polar_sky in H. assert (P : 0 < radians / arcsec) by (unfold radians; apply Rdiv_lt_0_compat; [lra|apply arcsec_pos]).
  pose proof (pow_lt _ 2 P). pose proof (pow_lt (1 * degrees) 2 ltac:(lra)). nra.
Qed.
Print Assumptions C123_pole_refuted.

(** A gnomonic system on the equator, k degrees to the pixel *)
Definition flat (k : R) : fwcs := FW "TAN" (0, 0) (Mat (- k) 0 0 k) (mkC 0 0) None None None.
Lemma flat_radec k x y : f_radec (flat k) (x, y) =
  (let u := k * x * degrees in let v := k * y * degrees in (- atan u, asin (v / sqrt (1 + (u * u + v * v))))).
Proof.
  unfold f_radec. replace (f_uv (flat k) (x, y)) with (k * x * degrees, k * y * degrees)
    by (unfold f_uv, flat; cbn [f_crpix f_ab f_pv f_cd apply_opt]; cbv [vsub mapp fst snd m00 m01 m10 m11]; unfold radians; f_equal; field).
  change (f_proj (flat k)) with Gnomonic. change (f_center (flat k)) with (mkC 0 0). cbn [fst snd]. set (u := k * x * degrees). set (v := k * y * degrees).
  assert (Q : 0 < 1 + (u * u + v * v)) by nra. pose proof (sqrt_lt_R0 _ Q) as Q'.
  unfold deproject_. cbv [deproj_cs get_aux a_cosdec a_sindec cdec cra]. rewrite cos_0, sin_0. cbv zeta. set (s := sqrt (1 + (u * u + v * v))) in *.
  pose proof (Rinv_0_lt_compat _ Q') as Qi. f_equal.
  - unfold atan2. destruct (Rltb_spec 0 (v * (1 / s) * - 0 + 1 / s * 1)) as [_|N].
    + rewrite Rplus_0_l, <- atan_opp. f_equal. field; lra.
    + exfalso. apply N. unfold Rdiv. lra.
  - f_equal. field. lra.
Qed.
Lemma asin_line v : asin (v / sqrt (1 + v * v)) = atan v.
Proof.
  rewrite <- (asin_sin (atan v)); [|pose proof (atan_bound v); lra]. f_equal. rewrite sin_atan, cos_atan. unfold Rsqr, Rdiv. ring.
Qed.
Lemma atan_smooth c t : 0 <= c -> smooth (fun s => atan (c * s)) t (2 * c ^ 3).
Proof.
  intro Hc. exists (fun s => c / (1 + (c * s) ^ 2)), (fun s => - (2 * c ^ 3 * s) / (1 + (c * s) ^ 2) ^ 2), (fun s => 2 * c ^ 3 * (3 * (c * s) ^ 2 - 1) / (1 + (c * s) ^ 2) ^ 3).
  intros s _. pose proof (pow2_ge_0 (c * s)) as P. assert (Q : 1 + (c * s) ^ 2 <> 0) by lra. split; [|split; [|split]].
  - auto_derive; [exact Logic.I|]. unfold Rsqr. field. exact Q || (repeat split; lra) || nra.
  - auto_derive; [replace (1 + c * s * (c * s * 1)) with (1 + (c * s) ^ 2) by ring; exact Q|]. field. exact Q.
  - auto_derive; [replace ((1 + c * s * (c * s * 1)) * ((1 + c * s * (c * s * 1)) * 1)) with ((1 + (c * s) ^ 2) ^ 2) by ring; apply pow_nonzero; exact Q|]. field. exact Q.
  - pose proof (pow_le c 3 Hc) as C3. unfold Rdiv. rewrite Rabs_mult, Rabs_mult, (Rabs_right (2 * c ^ 3)) by lra.
    assert (Z : 0 < (1 + (c * s) ^ 2) ^ 3) by (apply pow_lt; lra). rewrite (Rabs_right (/ _)) by (apply Rle_ge, Rlt_le, Rinv_0_lt_compat; exact Z).
    rewrite Rmult_assoc. rewrite <- (Rmult_1_r (2 * c ^ 3)) at 2. apply Rmult_le_compat_l; [lra|]. apply (Rmult_le_reg_r ((1 + (c * s) ^ 2) ^ 3)); [exact Z|].
    rewrite Rmult_assoc, Rinv_l by lra. set (q := (c * s) ^ 2) in *. rewrite Rmult_1_r, Rmult_1_l. assert (0 <= q * q) by nra. assert (0 <= q * (q * q)) by nra. apply Rabs_le. split; nra.
Qed.
Lemma smooth_ext f g t M : (forall s, f s = g s) -> smooth f t M -> smooth g t M.
Proof.
  intros E (d1 & d2 & d3 & H). exists d1, d2, d3. intros s Hs. destruct (H s Hs) as (A & B & C & D). split; [|split; [|split]]; try assumption. exact (is_derive_ext f g s _ E A).
Qed.
Lemma opp_smooth f t M : smooth f t M -> smooth (fun s => - f s) t M.
Proof.
  intros (d1 & d2 & d3 & H). exists (fun s => - d1 s), (fun s => - d2 s), (fun s => - d3 s). intros s Hs. destruct (H s Hs) as (A & B & C & D).
  split; [exact (is_derive_opp _ _ _ A)|]. split; [exact (is_derive_opp _ _ _ B)|]. split; [exact (is_derive_opp _ _ _ C)|]. rewrite Rabs_Ropp. exact D.
Qed.
Lemma atan_small c : 0 <= c <= 1 -> 0 <= atan c <= 1.
Proof.
  intros [A B]. split. { destruct A as [A|<-]; [rewrite <- atan_0; left; apply atan_increasing; exact A|rewrite atan_0; lra]. }
  pose proof PI_4. assert (atan c <= PI / 4); [|lra]. rewrite <- atan_1. destruct B as [B| ->]; [left; apply atan_increasing; exact B|lra].
Qed.
Lemma flat_smooth k : 0 <= k * degrees <= 1 -> smooth_at (f_radec (flat k)) 0 0 (2 * (k * degrees) ^ 3) (fun x y => - atan (k * degrees * x)) (fun x y => atan (k * degrees * y)).
Proof.
  intro H. pose proof three_PI as P. pose proof (atan_small _ H) as S. pose proof (pow_le (k * degrees) 3 (proj1 H)) as C3. set (c := k * degrees) in *.
  assert (E : forall x y, f_radec (flat k) (x, y) = (- atan (c * x), asin (c * y / sqrt (1 + (c * x * (c * x) + c * y * (c * y)))))).
  { intros. rewrite flat_radec. cbv zeta. replace (k * x * degrees) with (c * x) by (unfold c; ring). replace (k * y * degrees) with (c * y) by (unfold c; ring). reflexivity. }
  assert (A1 : atan (c * (0 + 1)) = atan c) by (f_equal; ring). assert (A2 : atan (c * (0 - 1)) = - atan c) by (rewrite <- atan_opp; f_equal; ring).
  split; [|split; [|split; [|split; [|split; [|split; [|split; [|split; [|split]]]]]]]].
  - apply (opp_smooth (fun s => atan (c * s))). apply atan_smooth. apply H.
  - apply const_smooth. lra.
  - apply const_smooth. lra.
  - apply atan_smooth. apply H.
  - rewrite A1, A2. apply Rabs_le. lra.
  - rewrite Rminus_eq_0, Rabs_R0. lra.
  - rewrite !E. cbn [fst]. rewrite A1, A2. apply Rabs_def1; lra.
  - rewrite !E. cbn [fst]. rewrite Rminus_eq_0, Rabs_R0. lra.
  - intros s _. rewrite E. cbn [fst snd]. split; [|exists 0%Z; ring]. rewrite Rmult_0_r, atan_0. unfold Rdiv. rewrite Rmult_0_l. apply asin_0.
  - intros s _. rewrite E. cbn [fst snd]. split; [|exists 0%Z; ring]. rewrite Rmult_0_r, Rmult_0_r, Rplus_0_l. apply asin_line.
Qed.
(** Ten arcminutes to the pixel: the hypotheses of C123_sky, C123_fits and C123_local hold at the centre. *)
Example C123_witness : smooth_at (f_radec (flat (/ 6))) 0 0 (2 * (/ 6 * degrees) ^ 3) (fun x y => - atan (/ 6 * degrees * x)) (fun x y => atan (/ 6 * degrees * y)) /\
  cos (snd (f_radec (flat (/ 6)) (0, 0))) <> 0 /\ smooth_at (c_radec jump_ops (0, 0)) 0 0 0 (fun x y => x / 100) (fun x y => y / 100).
Proof.
  split; [|split; [|exact jump_smooth]].
  - apply flat_smooth. pose proof degrees_pos. split; [lra|]. unfold degrees. pose proof PI_4. lra.
  - rewrite flat_radec. cbn [snd]. rewrite ?Rmult_0_r, ?Rmult_0_l. unfold Rdiv. rewrite Rmult_0_l, asin_0, cos_0. lra.
Qed.

(** Images of integers: the pixel is within one of the exact value, *)
Theorem C123_integer : forall W (O : celops W) w t sky i j, Rabs (sky_pixel O w t sky i j - sky_area O w sky i j) < 1 /\ (t = NF -> sky_pixel O w t sky i j = sky_area O w sky i j).
Proof.
  intros W O w [|n] sky i j; unfold sky_pixel, ncast.
  - rewrite Rminus_eq_0, Rabs_R0. split; [lra|reflexivity].
  - split; [apply truncR_err|discriminate].
Qed.
Print Assumptions C123_integer.
(** but not the nearest integer, which a EuclideanWCS gives (finding F78). *)
Theorem C123_integer_refuted :
  (forall t v, Rabs (euclid_cast t v - v) <= / 2) /\
  ~ (forall w n sky i j, 0 < sky -> Rabs (sky_pixel fits_ops w (NI n) sky i j - sky_area fits_ops w sky i j) <= / 2).
Proof.
  split.
  - intros [|n] v; unfold euclid_cast; [rewrite Rminus_eq_0, Rabs_R0; lra|apply roundR_err].
  - intro H. pose proof degrees_pos as D.
    assert (S : 0 < sky_area fits_ops (flat (/ 6)) 1 0 0).
    { assert (C : 0 < / 6 * degrees <= 1) by (split; [lra|]; unfold degrees; pose proof PI_4; lra). pose proof (atan_small _ (conj (Rlt_le _ _ (proj1 C)) (proj2 C))) as S.
      assert (Z : 0 < atan (/ 6 * degrees)) by (rewrite <- atan_0; apply atan_increasing; apply C).
      unfold sky_area. cbn [c_radec c_origin fits_ops fst snd]. rewrite !Rminus_0_r. cbn [Z.add Z.sub Z.opp Z.pos_sub Pos.pred_double].
      change (0 + 1)%Z with 1%Z. change (0 - 1)%Z with (-1)%Z. rewrite !flat_radec. cbn [fst snd]. cbv zeta.
      replace (/ 6 * 0 * degrees) with 0 by ring. replace (/ 6 * 1 * degrees) with (/ 6 * degrees) by ring. replace (/ 6 * -1 * degrees) with (- (/ 6 * degrees)) by ring.
      set (c := / 6 * degrees) in *. rewrite !(Rmult_0_l 0), !Rplus_0_l, !asin_line, atan_opp. unfold Rdiv at 1 2 3. rewrite !Rmult_0_l, asin_0, cos_0, atan_0.
      unfold unjump. replace (- / 2 * (- atan c - - - atan c)) with (atan c) by lra. replace (- / 2 * (- 0 - - 0)) with 0 by lra.
      destruct (Rltb_spec 1 (atan c)); [lra|]. destruct (Rltb_spec (atan c) (-1)); [lra|]. destruct (Rltb_spec 1 0); [lra|]. destruct (Rltb_spec 0 (-1)); [lra|].
      match goal with |- 0 < Rabs ?e * 1 * _ => replace e with (atan c * atan c) by lra end.
      rewrite Rabs_right by nra. rewrite Rmult_1_r. apply Rmult_lt_0_compat; [nra|]. apply pow_lt. unfold radians. apply Rdiv_lt_0_compat; [lra|apply arcsec_pos]. }
    specialize (H (flat (/ 6)) 32%Z (9 / 10 / sky_area fits_ops (flat (/ 6)) 1 0 0) 0%Z 0%Z). unfold sky_pixel in H. rewrite (sky_scales fits_ops (flat (/ 6)) (9 / 10 / _) 0 0) in H.
    replace (9 / 10 / sky_area fits_ops (flat (/ 6)) 1 0 0 * sky_area fits_ops (flat (/ 6)) 1 0 0) with (9 / 10) in H by (field; lra).
    assert (T : Noise_Model.truncR (9 / 10) = 0%Z). { unfold Noise_Model.truncR. destruct (Rltb_spec (9 / 10) 0); [lra|]. apply floorR_unique. split; [cbn|cbn]; lra. }
    unfold ncast in H. rewrite T in H. assert (0 < 9 / 10 / sky_area fits_ops (flat (/ 6)) 1 0 0) by (apply Rdiv_lt_0_compat; lra). specialize (H H0). rewrite Rabs_left in H by lra. lra.
Qed.
Print Assumptions C123_integer_refuted.
