(** Properties C57 (projections), C58 (distance), C59 (other coordinate systems), C90 (Jacobian of the
    deprojection), C91 (great circles and angles), C92 (areas), C93 (epoch of galactic coordinates). *)
From Coq Require Import Reals Bool String Lra.
From Verif Require Import Base Bounds_Model Bounds_Proofs Geo_Model Geo_Proofs Angle_Model Angle_Spec Angle_Proofs Sky_Model Sky_Spec
  Sky_Proofs Sky_Proj Sky_Rot Sky_Tri Sky_Jac Sky_More.
Open Scope R_scope.
Local Notation pt c := (sky (cra c) (cdec c)).

(** * C57 *)
(** From the plane to the sky and back: the point found is a valid coordinate, and it projects to where
    we started. *)
Theorem C57_plane_sky_plane : forall c u v name p, projection_of name = Ok p -> plane_ok p (u * u + v * v) ->
  exists c', deproject c u v name = Ok c' /\ deproject_rad c u v name = Ok (cra c', cdec c') /\ latitude (cdec c')
             /\ project c c' name = Ok (u, v) /\ project_rad c (cra c') (cdec c') name = Ok (u, v).
Proof. exact plane_sky_plane. Qed.
Print Assumptions C57_plane_sky_plane.
Theorem C57_sky_plane_sky : forall c c2 name p, projection_of name = Ok p -> sky_ok p (v3dot (pt c2) (pt c)) ->
  exists u v c', project c c2 name = Ok (u, v) /\ deproject c u v name = Ok c' /\ latitude (cdec c') /\ pt c' = pt c2.
Proof. exact sky_plane_sky. Qed.
Print Assumptions C57_sky_plane_sky.
(** In coordinates: same declination, same right ascension up to whole turns (away from the poles). *)
Theorem C57_same_coordinates : forall c c', latitude (cdec c) -> latitude (cdec c') -> pt c = pt c' ->
  cdec c = cdec c' /\ (- PI / 2 < cdec c < PI / 2 -> same_direction (cra c) (cra c')).
Proof. intros c c'. apply sky_inj. Qed.
Print Assumptions C57_same_coordinates.
(** What each projection means geometrically; x is to the west, y to the north. *)
Theorem C57_geometry : forall c c2 name p, projection_of name = Ok p -> sky_ok p (v3dot (pt c2) (pt c)) ->
  exists u v k, project c c2 name = Ok (u, v) /\ 0 < k /\
    let w := in_plane (cra c) (cdec c) u v in
    w = v3scale k (perp (pt c) (pt c2)) /\
    match p with
    | Gnomonic => v3add (pt c) w = v3scale k (pt c2)
    | Stereographic => v3add (v3scale 2 (pt c)) w = v3scale k (v3add (pt c) (pt c2))
    | Lambert => v3norm w = v3norm (v3add (pt c2) (v3scale (-1) (pt c)))
    | Postel => v3norm w = distanceTo c c2
    end.
Proof. exact geometry. Qed.
Print Assumptions C57_geometry.
(** The gnomonic projection accepts points behind the plane and confuses them with their antipodes. *)
Theorem C57_gnomonic_behind : forall c c2, v3dot (pt c2) (pt c) < 0 ->
  exists u v c', project c c2 None = Ok (u, v) /\ deproject c u v None = Ok c' /\ pt c' = v3scale (-1) (pt c2).
Proof. exact gnomonic_behind. Qed.
Print Assumptions C57_gnomonic_behind.
Theorem C57_unknown_projection : forall c c2 u v ra dec s,
  s <> "gnomonic"%string -> s <> "stereographic"%string -> s <> "lambert"%string -> s <> "postel"%string ->
  project c c2 (Some s) = Err ValueError /\ project_rad c ra dec (Some s) = Err ValueError /\
  deproject c u v (Some s) = Err ValueError /\ deproject_rad c u v (Some s) = Err ValueError /\ jac_deproject c u v (Some s) = Err ValueError.
Proof. exact unknown_projection. Qed.
Print Assumptions C57_unknown_projection.
Theorem C57_names : projection_of None = Ok Gnomonic /\ projection_of (Some "gnomonic"%string) = Ok Gnomonic /\
  projection_of (Some "stereographic"%string) = Ok Stereographic /\ projection_of (Some "lambert"%string) = Ok Lambert /\
  projection_of (Some "postel"%string) = Ok Postel.
Proof. repeat split. Qed.
Print Assumptions C57_names.
Example C57_meets :
  plane_ok Lambert (1 * 1 + 1 * 1) /\ sky_ok Postel (v3dot (pt (mkC 0 0)) (pt (mkC (PI / 2) 0))).
Proof.
  repeat split; cbn [plane_ok sky_ok cra cdec]; [lra|]. cbv [v3dot sky]. rewrite cos_0, sin_0, cos_PI2, sin_PI2. lra.
Qed.

(** * C58 *)
Theorem C58_is_the_angle : forall c1 c2, angle_of (pt c1) (pt c2) (distanceTo c1 c2).
Proof. exact distance_ok. Qed.
Print Assumptions C58_is_the_angle.
Theorem C58_metric : forall c1 c2 c3, distanceTo c1 c2 = distanceTo c2 c1 /\ (distanceTo c1 c2 = 0 <-> pt c1 = pt c2) /\
  distanceTo c1 c3 <= distanceTo c1 c2 + distanceTo c2 c3.
Proof. intros. split; [apply distance_sym|]. split; [apply distance_zero | apply distance_triangle]. Qed.
Print Assumptions C58_metric.
Theorem C58_formulas_agree : forall c1 c2, v3dot (pt c1) (pt c2) <= 0 ->
  dist_near (get_aux c1) (get_aux c2) = dist_far (get_aux c1) (get_aux c2).
Proof. exact formulas_agree. Qed.
Print Assumptions C58_formulas_agree.
Example C58_antipodes : distanceTo (mkC 0 0) (mkC PI 0) = PI /\ distanceTo (mkC 0 (PI / 2)) (mkC 1 0) = PI / 2.
Proof.
  pose proof PI_RGT_0. split.
  - apply (angle_unique (pt (mkC 0 0)) (pt (mkC PI 0))); [apply C58_is_the_angle|]. split; [lra|].
    cbn [cra cdec]. cbv [v3dot sky]. rewrite cos_0, sin_0, cos_PI, sin_PI. ring.
  - apply (angle_unique (pt (mkC 0 (PI / 2))) (pt (mkC 1 0))); [apply C58_is_the_angle|]. split; [lra|].
    cbn [cra cdec]. cbv [v3dot sky]. rewrite cos_0, sin_0, cos_PI2, sin_PI2. ring.
Qed.

(** * C59 *)
(** ** Galactic: one rotation of the sphere, with the documented pole and node; from_galactic undoes it *)
Theorem C59_galactic_is_a_rotation : exists f, rotation f /\
  (forall c e, let '(el, b) := galactic c e in sky el b = f (pt c) /\ latitude b /\ 0 <= el < 2 * PI) /\
  f (sky (282.859481208 * degrees) 0) = sky (32.93191857 * degrees) 0 /\
  f (sky (192.859481208 * degrees) (27.1282511944 * degrees)) = (0, 0, 1).
Proof.
  exists gal_map. split; [exact gal_rotation|]. split; [exact galactic_sky|]. unfold gal_map. rewrite !rz_sky. split.
  - fold gal_r0. replace (gal_r0 - gal_r0) with 0 by ring.
    transitivity (rz (- gal_el0) (sky 0 0)).
    + f_equal. cbv [rx sky]. rewrite cos_0, sin_0. apply f_equal2; [apply f_equal2|]; ring.
    + rewrite rz_sky. f_equal. unfold gal_el0. ring.
  - replace (192.859481208 * degrees - gal_r0) with (- (PI / 2)) by (unfold gal_r0, degrees; literals; field).
    replace (27.1282511944 * degrees) with (PI / 2 - gal_d0) by (unfold gal_d0, degrees; literals; field).
    cbv [rx sky]. rewrite cos_minus, sin_minus, cos_neg, sin_neg, cos_PI2, sin_PI2. pose proof (sc gal_d0) as S.
    cbv [rz]. apply f_equal2; [apply f_equal2|]; try ring. lra.
Qed.
Print Assumptions C59_galactic_is_a_rotation.
Theorem C59_galactic_inverse :
  (forall c e, let '(el, b) := galactic c e in exists c', from_galactic el b e = Ok c' /\ latitude (cdec c') /\ 0 <= cra c' < 2 * PI /\ pt c' = pt c) /\
  (forall el b e, exists c, from_galactic el b e = Ok c /\ let '(el', b') := galactic c e in sky el' b' = sky el b).
Proof.
  split.
  - intros c e. pose proof (galactic_sky c e) as G. destruct (galactic c e) as [el b]. destruct G as [G _].
    destruct (from_galactic_sky el b e) as [c' [A [B [C D]]]]. exists c'. rewrite G, gal_inv in D. auto.
  - intros el b e. destruct (from_galactic_sky el b e) as [c [A [_ [_ D]]]]. exists c. split; [exact A|].
    pose proof (galactic_sky c e) as G. destruct (galactic c e) as [el' b']. destruct G as [G _]. now rewrite G, D, gal_inv'.
Qed.
Print Assumptions C59_galactic_inverse.
(** ** Ecliptic: rotation about the x axis by the obliquity; with a date, then about the ecliptic pole so
    that the sun is at longitude zero *)
Theorem C59_obliquity : forall e, exists ep, obliquity e = Ok ep /\
  ep = ((23 + 26 / 60 + 21.406 / 3600) - 46.836769 / 3600 * ((e - 2000) / 100) - 0.0001831 / 3600 * ((e - 2000) / 100) ^ 2
        + 0.0020034 / 3600 * ((e - 2000) / 100) ^ 3) * degrees.
Proof. exact obliquity_ok. Qed.
Print Assumptions C59_obliquity.
Theorem C59_ecliptic_is_a_rotation : forall e dt ep, obliquity (match dt with Some d => d_year d | None => e end) = Ok ep ->
  exists f, rotation f /\
  (forall c, exists lam beta, ecliptic c e dt = Ok (lam, beta) /\ latitude beta /\ - PI <= lam < PI /\ sky lam beta = f (pt c)) /\
  f (sky 0 0) = sky (- match dt with Some d => d_sun d | None => 0 end) 0 /\
  f (sky (- (PI / 2)) (PI / 2 - ep)) = (0, 0, 1).
Proof.
  intros e dt ep H. exists (fun p => rz (sun_of dt) (rx ep p)).
  split; [apply (rotation_comp (rz _)); [apply rz_rotation | apply rx_rotation]|].
  split; [intro c; apply ecliptic_sky; exact H|]. split.
  - transitivity (rz (sun_of dt) (sky 0 0)).
    + f_equal. cbv [rx sky]. rewrite cos_0, sin_0. apply f_equal2; [apply f_equal2|]; ring.
    + rewrite rz_sky. fold (sun_of dt). f_equal. ring.
  - cbv [rx sky]. rewrite cos_minus, sin_minus, cos_neg, sin_neg, cos_PI2, sin_PI2. pose proof (sc ep) as S.
    cbv [rz]. apply f_equal2; [apply f_equal2|]; try ring. lra.
Qed.
Print Assumptions C59_ecliptic_is_a_rotation.
Theorem C59_ecliptic_inverse : forall e dt,
  (forall c, exists lam beta c', ecliptic c e dt = Ok (lam, beta) /\ from_ecliptic lam beta e dt = Ok c' /\
     latitude (cdec c') /\ 0 <= cra c' < 2 * PI /\ pt c' = pt c) /\
  (forall lam beta, exists c lam' beta', from_ecliptic lam beta e dt = Ok c /\ ecliptic c e dt = Ok (lam', beta') /\ sky lam' beta' = sky lam beta).
Proof.
  intros e dt. destruct (obliquity_ok (year_of e dt)) as [ep [H _]]. split.
  - intro c. destruct (ecliptic_sky c e dt ep H) as [lam [beta [A [B [C D]]]]].
    destruct (from_ecliptic_sky lam beta e dt ep H) as [c' [A' [B' [C' D']]]].
    exists lam, beta, c'. rewrite D, rz_inv, rx_inv in D'. auto.
  - intros lam beta. destruct (from_ecliptic_sky lam beta e dt ep H) as [c [A [B [C D]]]].
    destruct (ecliptic_sky c e dt ep H) as [lam' [beta' [A' [B' [C' D']]]]].
    exists c, lam', beta'. rewrite D, rx_inv', rz_inv' in D'. auto.
Qed.
Print Assumptions C59_ecliptic_inverse.
(** ** Precession: a rotation for each pair of epochs, the identity for equal ones, and exactly undone by
    precessing back *)
Theorem C59_precession_is_a_rotation : forall f t, exists g, rotation g /\
  forall c, latitude (cdec c) -> exists c', precess c f t = Ok c' /\ latitude (cdec c') /\ pt c' = g (pt c).
Proof.
  intros f t. destruct (Req_dec f t) as [E|E].
  - exists (fun p => p). split; [repeat split; intros; try reflexivity; apply surjective_pairing|]. intros c L. exists c. unfold precess.
    destruct (Reqb_spec f t) as [_|n]; [auto | contradiction].
  - exists (prec (lieske f t)). split; [apply prec_rotation|]. intros c _.
    destruct (precess_sky c f t E) as [c' [A [B [_ D]]]]. exists c'. auto.
Qed.
Print Assumptions C59_precession_is_a_rotation.
Theorem C59_precession_there_and_back : forall c f t, exists c' c'', precess c f t = Ok c' /\ precess c' t f = Ok c'' /\ pt c'' = pt c.
Proof.
  intros c f t. destruct (Req_dec f t) as [E|E].
  - exists c, c. unfold precess. destruct (Reqb_spec f t) as [_|n]; [|contradiction].
    destruct (Reqb_spec t f) as [_|n]; [auto | congruence].
  - destruct (precess_sky c f t E) as [c' [A [_ [_ D]]]]. destruct (precess_sky c' t f (not_eq_sym E)) as [c'' [A' [_ [_ D']]]].
    exists c', c''. split; [exact A|]. split; [exact A'|]. pose proof (lieske_back f t) as L.
    destruct (lieske f t) as [[a b] k]. rewrite L, D, prec_inv in D'. exact D'.
Qed.
Print Assumptions C59_precession_there_and_back.
(** ** Distances survive any of these *)
Theorem C59_distances_kept : forall f c1 c2 d1 d2, rotation f -> pt d1 = f (pt c1) -> pt d2 = f (pt c2) -> distanceTo d1 d2 = distanceTo c1 c2.
Proof. exact distance_rigid. Qed.
Print Assumptions C59_distances_kept.
Theorem C59_galactic_keeps_distances : forall c1 c2 e,
  let '(l1, b1) := galactic c1 e in let '(l2, b2) := galactic c2 e in distanceTo (mkC l1 b1) (mkC l2 b2) = distanceTo c1 c2.
Proof.
  intros c1 c2 e. pose proof (galactic_sky c1 e) as A. pose proof (galactic_sky c2 e) as B.
  destruct (galactic c1 e) as [l1 b1], (galactic c2 e) as [l2 b2].
  apply (distance_rigid gal_map); [exact gal_rotation | apply A | apply B].
Qed.
Print Assumptions C59_galactic_keeps_distances.
(** ** Vectors *)
Theorem C59_from_xyz : forall x y z, (x * x + y * y + z * z <> 0 ->
  exists c, from_xyz x y z = Ok c /\ latitude (cdec c) /\ 0 <= cra c < 2 * PI
            /\ (x, y, z) = v3scale (sqrt (x * x + y * y + z * z)) (pt c)) /\
  (x * x + y * y + z * z = 0 -> from_xyz x y z = Err RuntimeError).
Proof.
  intros x y z. split; [apply from_xyz_ok|]. intro E. unfold from_xyz. rewrite E, sqrt_0.
  destruct (Reqb_spec 0 0) as [_|n]; [reflexivity | lra].
Qed.
Print Assumptions C59_from_xyz.
Theorem C59_get_xyz_back : forall c, latitude (cdec c) -> exists c', (let '(x, y, z) := get_xyz c in from_xyz x y z) = Ok c' /\
  cdec c' = cdec c /\ (- PI / 2 < cdec c < PI / 2 -> cra c' = wrap (cra c) (Some PI)).
Proof.
  intros c L. destruct (from_xyz_unit (get_xyz c)) as [c' [A [B [C D]]]]; [apply sky_unit|].
  exists c'. split; [exact A|]. rewrite xyz_sky in D. destruct (sky_inj _ _ _ _ B L D) as [E F].
  split; [exact E|]. intro R. symmetry. apply wrap_unique; [apply F; rewrite E; exact R|]. unfold centre. lra.
Qed.
Print Assumptions C59_get_xyz_back.
Theorem C59_xyz_to_radec : forall x y z, (x, y, z) <> (0, 0, 0) ->
  exists ra dec r, xyz_to_radec x y z = Some (ra, dec, r) /\ latitude dec /\ 0 < r /\ radec_to_xyz ra dec r = (x, y, z).
Proof. exact xyz_back. Qed.
Print Assumptions C59_xyz_to_radec.
Example C59_pole : exists c, from_xyz 0 0 5 = Ok c /\ cdec c = PI / 2.
Proof.
  destruct (proj1 (C59_from_xyz 0 0 5) ltac:(lra)) as [c [A [B [C D]]]]. exists c. split; [exact A|].
  replace (0 * 0 + 0 * 0 + 5 * 5) with (5 * 5) in D by ring. rewrite sqrt_square in D by lra. cbv [v3scale sky] in D. injection D as _ _ D.
  destruct B. rewrite <- (asin_sin (cdec c)) by lra. replace (sin (cdec c)) with 1 by lra. apply asin_1.
Qed.

(** * C90 *)
(** Moving in the plane moves the point on the sky: the columns of the matrix are the velocity to the west
    (first row) and to the north (second row). *)
Theorem C90_jacobian : forall c p u v name, projection_of name = Ok p -> plane_ok p (u * u + v * v) -> cos (snd (deproject_ c p u v)) <> 0 ->
  exists J, jac_deproject c u v name = Ok J /\ (forall u v, deproject_rad c u v name = Ok (deproject_ c p u v)) /\
  moves (fun t => deproject_ c p t v) u (- m00 J) (m10 J) /\ moves (fun t => deproject_ c p u t) v (- m01 J) (m11 J).
Proof.
  intros c p u v name N A B. exists (jac_deproject_ c p u v). unfold jac_deproject, deproject_rad. rewrite N.
  split; [reflexivity|]. split; [reflexivity|]. now apply jac_is_derivative.
Qed.
Print Assumptions C90_jacobian.
(** At the centre every projection is the identity. *)
Theorem C90_at_centre : forall c p name, projection_of name = Ok p -> 0 < cos (cdec c) -> jac_deproject c 0 0 name = Ok mI.
Proof.
  intros c p name N H. unfold jac_deproject. rewrite N. cbn [bind]. f_equal. unfold jac_deproject_. pose proof (sc (cdec c)) as S.
  assert (J : j_c (jac_cs p 0 0) = 1 /\ j_s (jac_cs p 0 0) = 1 /\ j_dcdu (jac_cs p 0 0) = 0 /\ j_dcdv (jac_cs p 0 0) = 0 /\ j_dsdu (jac_cs p 0 0) = 0 /\ j_dsdv (jac_cs p 0 0) = 0).
  { unfold jac_cs. replace (0 * 0 + 0 * 0) with 0 by ring. destruct p; cbn [j_c j_s j_dcdu j_dcdv j_dsdu j_dsdv].
    - rewrite Rplus_0_r, sqrt_1. repeat split; field.
    - repeat split; field.
    - rewrite Rminus_0_r. replace 4 with (2 * 2) by ring. rewrite sqrt_square by lra. repeat split; field.
    - rewrite sqrt_0. destruct (Reqb_spec 0 0) as [_|n]; [repeat split; ring | lra]. }
  destruct J as [-> [-> [-> [-> [-> ->]]]]]. cbn [get_aux a_sindec a_cosdec].
  replace (sqrt (1 - (1 * sin (cdec c) + 0 * 1 * cos (cdec c)) * (1 * sin (cdec c) + 0 * 1 * cos (cdec c)))) with (cos (cdec c)).
  - unfold mI. f_equal; field; lra.
  - symmetry. replace (1 - _ * _) with (cos (cdec c) * cos (cdec c)) by lra. apply sqrt_square. lra.
Qed.
Print Assumptions C90_at_centre.
Example C90_meets : plane_ok Postel (0 * 0 + 0 * 0) /\ cos (snd (deproject_ (mkC 1 0) Postel 0 0)) <> 0.
Proof.
  cbn [plane_ok]. pose proof PI_RGT_0. pose proof (Rmult_lt_0_compat PI PI ltac:(lra) ltac:(lra)). split; [lra|].
  unfold deproject_, deproj_cs. cbn [get_aux a_cosdec a_sindec snd cdec]. rewrite sin_0, !Rmult_0_r, Rmult_0_l, Rmult_0_l, Rplus_0_r, asin_0, cos_0. lra.
Qed.

(** * C91 *)
(** The point at angle theta along the great circle towards c2; it raises exactly for equal or antipodal
    points. *)
Theorem C91_great_circle : forall c1 c2 theta, let d := distanceTo c1 c2 in
  (sin d = 0 -> greatCirclePoint c1 c2 theta = Err RuntimeError) /\
  (sin d <> 0 -> exists c, greatCirclePoint c1 c2 theta = Ok c /\ latitude (cdec c) /\ 0 <= cra c < 2 * PI
     /\ v3scale (sin d) (pt c) = v3add (v3scale (sin (d - theta)) (pt c1)) (v3scale (sin theta) (pt c2))).
Proof. exact great_circle. Qed.
Print Assumptions C91_great_circle.
(** In particular it is c1 itself at zero, c2 at the full distance, and always theta away from c1. *)
Theorem C91_great_circle_distance : forall c1 c2 theta c, greatCirclePoint c1 c2 theta = Ok c -> 0 <= theta <= PI ->
  distanceTo c1 c = theta /\ (theta = distanceTo c1 c2 -> pt c = pt c2).
Proof.
  intros c1 c2 theta c E R. destruct (great_circle c1 c2 theta) as [G1 G2]. cbv zeta in G1, G2.
  destruct (distance_ok c1 c2) as [DR DC]. set (d := distanceTo c1 c2) in *.
  destruct (Req_dec (sin d) 0) as [Z|Z]; [rewrite (G1 Z) in E; discriminate|].
  destruct (G2 Z) as [c' [A [_ [_ D]]]]. rewrite E in A. injection A as <-. split.
  - apply (angle_unique (pt c1) (pt c)); [apply distance_ok|]. split; [exact R|].
    apply (Rmult_eq_reg_l (sin d)); [|exact Z]. rewrite (dot_sym (pt c1)), <- dot_scale, D, dot_add, !dot_scale, sky_unit, (dot_sym (pt c2)), <- DC, sin_minus. ring.
  - intros ->. replace (d - d) with 0 in D by ring. rewrite sin_0 in D.
    destruct (pt c) as [[a b] e], (pt c2) as [[x y] z], (pt c1) as [[k l] m]. cbv [v3scale v3add] in D. injection D as D1 D2 D3.
    apply f_equal2; [apply f_equal2|]; apply (Rmult_eq_reg_l (sin d)); auto; lra.
Qed.
Print Assumptions C91_great_circle_distance.
(** The angle at a vertex is the angle between the tangents to the two sides, positive when the sweep from
    the second to the third point is clockwise seen from outside (counter-clockwise from Earth). *)
Theorem C91_angle_between : forall c1 c2 c3,
  let a := perp (pt c1) (pt c2) in let b := perp (pt c1) (pt c3) in let t := angleBetween c1 c2 c3 in
  - PI < t <= PI /\ v3norm a * v3norm b * cos t = v3dot a b /\ v3norm a * v3norm b * sin t = v3dot (pt c1) (v3cross b a).
Proof. exact angle_between. Qed.
Print Assumptions C91_angle_between.
(** The spherical law of cosines ties angles and distances together. *)
Theorem C91_law_of_cosines : forall c1 c2 c3,
  cos (distanceTo c2 c3) = cos (distanceTo c1 c2) * cos (distanceTo c1 c3)
    + sin (distanceTo c1 c2) * sin (distanceTo c1 c3) * cos (angleBetween c1 c2 c3).
Proof.
  intros c1 c2 c3. destruct (angle_between c1 c2 c3) as [_ [A _]]. cbv zeta in A.
  pose proof (sky_unit (cra c1) (cdec c1)) as U. rewrite perp_dot in A by exact U.
  destruct (distance_ok c2 c3) as [_ D23].
  assert (N : forall c, v3norm (perp (pt c1) (pt c)) = sin (distanceTo c1 c)).
  { intro c. destruct (distance_ok c1 c) as [R D]. unfold v3norm. rewrite perp_dot, <- D, sky_unit by exact U.
    replace (1 - cos (distanceTo c1 c) * cos (distanceTo c1 c)) with (Rsqr (sin (distanceTo c1 c))) by (unfold Rsqr; pose proof (sc (distanceTo c1 c)); lra).
    apply sqrt_Rsqr, sin_ge_0; lra. }
  rewrite !N in A. destruct (distance_ok c1 c2) as [_ D12]. destruct (distance_ok c1 c3) as [_ D13]. rewrite A, D12, D13, D23. ring.
Qed.
Print Assumptions C91_law_of_cosines.
Example C91_meets : sin (distanceTo (mkC 0 (PI / 2)) (mkC 1 0)) <> 0.
Proof. rewrite (proj2 C58_antipodes), sin_PI2. lra. Qed.

(** * C92 *)
(** Girard: the area of a spherical triangle is the excess E of its angles over two right angles. The code
    returns it as long as E <= pi, and 2 pi - E beyond. *)
Definition excess_of (c1 c2 c3 : coord) : R :=
  Rabs (angleBetween c1 c2 c3) + Rabs (angleBetween c2 c3 c1) + Rabs (angleBetween c3 c1 c2) - PI.
Definition degenerate (c1 c2 c3 : coord) : Prop := v3dot (pt c1) (v3cross (pt c2) (pt c3)) = 0.
Lemma not_degenerate : forall c1 c2 c3, ~ degenerate c1 c2 c3 -> triple (get_aux c1) (get_aux c2) (get_aux c3) <> 0.
Proof.
  intros c1 c2 c3 H E. apply H. rewrite triple_det in E. unfold degenerate. rewrite <- Ropp_0, <- E. clear.
  destruct (pt c1) as [[a b] e], (pt c2) as [[x y] z], (pt c3) as [[k l] m]. v3ring.
Qed.
Theorem C92_area_partial : forall c1 c2 c3, ~ degenerate c1 c2 c3 ->
  0 < excess_of c1 c2 c3 < 2 * PI /\
  (excess_of c1 c2 c3 <= PI -> area c1 c2 c3 = Some (excess_of c1 c2 c3)) /\
  (PI < excess_of c1 c2 c3 -> area c1 c2 c3 = Some (2 * PI - excess_of c1 c2 c3)).
Proof. intros c1 c2 c3 H. apply area_ok, not_degenerate, H. Qed.
Print Assumptions C92_area_partial.
(** Three points a third of a turn apart, a little above the equator, span nearly a hemisphere. *)
Theorem C92_area_refuted : ~ forall c1 c2 c3, ~ degenerate c1 c2 c3 -> area c1 c2 c3 = Some (excess_of c1 c2 c3).
Proof.
  intro H. set (d := asin (1 / 10)). set (c1 := mkC 0 d). set (c2 := mkC (2 * (PI / 3)) d). set (c3 := mkC (- (2 * (PI / 3))) d).
  assert (SD : sin d = 1 / 10) by (apply sin_asin; lra). pose proof (sc d) as S. rewrite SD in S.
  assert (CD : cos d * cos d = 99 / 100) by lra.
  assert (CP : 0 < cos d) by (apply cos_gt_0; unfold d; pose proof (asin_bound_lt (1 / 10) ltac:(lra)); lra).
  assert (S3 : sqrt 3 * sqrt 3 = 3) by (apply sqrt_sqrt; lra). assert (S3P : 0 < sqrt 3) by (apply sqrt_lt_R0; lra).
  assert (C3 : cos (2 * (PI / 3)) = -1 / 2) by (exact cos_2PI3). assert (N3 : sin (2 * (PI / 3)) = sqrt 3 / 2) by (exact sin_2PI3).
  assert (ND : ~ degenerate c1 c2 c3).
  { unfold degenerate, c1, c2, c3. cbn [cra cdec]. cbv [v3dot v3cross sky]. rewrite cos_neg, sin_neg, C3, N3, cos_0, sin_0, SD.
    intro E. assert (E' : (cos d * cos d) * sqrt 3 * 3 / 20 = 0) by lra. rewrite CD in E'. lra. }
  pose proof (H c1 c2 c3 ND) as A. pose proof (not_degenerate _ _ _ ND) as NF. destruct (C92_area_partial c1 c2 c3 ND) as [P1 [_ P2]].
  assert (BIG : PI < excess_of c1 c2 c3).
  { unfold excess_of. rewrite (excess c1 c2 c3 NF).
    assert (FP : 0 < Rabs (triple (get_aux c1) (get_aux c2) (get_aux c3))) by (apply Rabs_pos_lt, NF).
    match goal with |- _ < 2 * atan2 _ ?x => assert (X : x < 0) end.
    { unfold c1, c2, c3. cbn [cra cdec]. cbv [v3dot sky]. rewrite cos_neg, sin_neg, C3, N3, cos_0, sin_0, SD.
      match goal with |- ?l < 0 => replace l with (1 + 3 * (1 / 10 * (1 / 10)) - (cos d * cos d) * (5 / 4) - (cos d * cos d) * (sqrt 3 * sqrt 3) / 4 + (cos d * cos d) / 2) by field end.
      rewrite CD, S3. lra. }
    rewrite (proj2 (proj2 (half_atan _ _ FP)) X).
    match goal with |- context [atan ?y] => pose proof (atan_bound y) end. lra. }
  rewrite (P2 BIG) in A. injection A as A. lra.
Qed.
Print Assumptions C92_area_refuted.
(** One octant of the sphere. *)
Example C92_octant : ~ degenerate (mkC 0 0) (mkC (PI / 2) 0) (mkC 0 (PI / 2)) /\ area (mkC 0 0) (mkC (PI / 2) 0) (mkC 0 (PI / 2)) = Some (PI / 2).
Proof.
  assert (ND : ~ degenerate (mkC 0 0) (mkC (PI / 2) 0) (mkC 0 (PI / 2))).
  { unfold degenerate. cbn [cra cdec]. cbv [v3dot v3cross sky]. rewrite cos_0, sin_0, cos_PI2, sin_PI2. lra. }
  split; [exact ND|]. unfold area, triple, alt_triple, raw_dsq. cbn [get_aux ax ay az cra cdec]. rewrite cos_0, sin_0, cos_PI2, sin_PI2.
  match goal with |- (if Reqb ?x 0 then _ else _) = _ => replace x with 1 by field end.
  destruct (Reqb_spec 1 0) as [n|_]; [lra|]. f_equal.
  match goal with |- context [Rabs ?x] => replace x with (-1) by field end. rewrite Rabs_left by lra. match goal with |- context [atan ?y] => replace y with 1 by field end. rewrite atan_1. field.
Qed.

(** * C93 *)
(** The epoch of the coordinate is not taken into account. *)
Theorem C93_epoch_ignored_refuted :
  (forall c e e', galactic c e = galactic c e') /\ (forall el b e e', from_galactic el b e = from_galactic el b e') /\
  ~ (forall c e c', precess c e 2000 = Ok c' ->
       sky (fst (galactic c e)) (snd (galactic c e)) = sky (fst (galactic c' 2000)) (snd (galactic c' 2000))).
Proof.
  split; [reflexivity|]. split; [reflexivity|]. intro H.
  destruct (precess_sky (mkC 0 (PI / 2)) 1900 2000 ltac:(lra)) as [c' [A [_ [_ D]]]].
  specialize (H _ _ _ A). pose proof (galactic_sky (mkC 0 (PI / 2)) 1900) as G. pose proof (galactic_sky c' 2000) as G'.
  destruct (galactic (mkC 0 (PI / 2)) 1900) as [l b], (galactic c' 2000) as [l' b']. cbn [fst snd] in H.
  destruct G as [G _], G' as [G' _]. rewrite G, G' in H. apply (f_equal gal_back) in H. rewrite !gal_inv, D in H.
  rewrite <- prec_rot in H. unfold lieske, precess_rot in H. cbn [cra cdec] in H. cbv [sky] in H. rewrite cos_0, sin_0, cos_PI2, sin_PI2 in H.
  injection H as _ _ H. revert H.
  match goal with |- 1 = _ + cos ?x * 1 -> _ => set (t := x) end. intro H.
  assert (T : 0 < t <= PI).
  { pose proof PI_RGT_0. pose proof PI_4. 
    assert (T : t = 2004.69 * arcsec + (t - 2004.69 * arcsec)) by ring.
    assert (E : t = (2004.3109 + 0.8533 - 0.000217 - 0.42665 + 0.000217 - 0.041833) * arcsec) by (unfold t; literals; field).
    rewrite E. unfold arcsec. split; [apply Rmult_lt_0_compat; lra|]. lra. }
  assert (t = 0); [|lra]. apply cos_inj; try lra. rewrite cos_0. lra.
Qed.
Print Assumptions C93_epoch_ignored_refuted.
