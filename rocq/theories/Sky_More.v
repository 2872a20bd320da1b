From Coq Require Import Reals Bool Lra ZArith String.
From Verif Require Import Base Bounds_Model Bounds_Proofs Geo_Model Geo_Proofs Angle_Model Angle_Spec Angle_Proofs Sky_Model Sky_Spec Sky_Proofs Sky_Proj Sky_Rot Sky_Tri.
Open Scope R_scope.

Definition at_ (c : coord) : v3 := sky (cra c) (cdec c).

(** * Projections *)
Lemma new_coord_ok : forall ra dec, latitude dec -> new_coord ra dec = Ok (mkC ra dec).
Proof.
  intros ra dec [A B]. unfold new_coord. destruct (Rltb_spec dec (- PI / 2)) as [l|_]; [lra|].
  destruct (Rltb_spec (PI / 2) dec) as [l|_]; [lra | reflexivity].
Qed.
Lemma plane_sky_plane : forall c u v name p, projection_of name = Ok p -> plane_ok p (u * u + v * v) ->
  exists c', deproject c u v name = Ok c' /\ deproject_rad c u v name = Ok (cra c', cdec c') /\ latitude (cdec c')
             /\ project c c' name = Ok (u, v) /\ project_rad c (cra c') (cdec c') name = Ok (u, v).
Proof.
  intros c u v name p N H. pose proof (project_deproject c p u v H) as D. pose proof (cs_unit p _ (sq2_pos u v) H) as K.
  pose proof (deproject_frame c p u v) as L. unfold deproject, deproject_rad, project, project_rad. rewrite N. cbn [bind].
  destruct (deproj_cs p (u * u + v * v)) as [k s]. destruct K as [K _]. specialize (L K).
  destruct (deproject_ c p u v) as [ra dec]. destruct L as [L _]. rewrite new_coord_ok by exact L.
  exists (mkC ra dec). cbn [cra cdec]. split; [reflexivity|]. split; [reflexivity|]. split; [exact L|].
  split; f_equal; exact D.
Qed.
Lemma sky_plane_sky : forall c c2 name p, projection_of name = Ok p -> sky_ok p (v3dot (at_ c2) (at_ c)) ->
  exists u v c', project c c2 name = Ok (u, v) /\ deproject c u v name = Ok c' /\ latitude (cdec c') /\ at_ c' = at_ c2.
Proof.
  intros c c2 name p N H. pose proof (deproject_project c p (cra c2) (cdec c2) H) as D.
  unfold deproject, project. rewrite N. cbn [bind get_aux a_cosra a_sinra a_cosdec a_sindec].
  destruct (project_ c p (cos (cra c2)) (sin (cra c2)) (cos (cdec c2)) (sin (cdec c2))) as [u v].
  exists u, v. destruct (deproject_ c p u v) as [ra dec]. destruct D as [L D]. exists (mkC ra dec).
  rewrite new_coord_ok by exact L. auto.
Qed.
Lemma gnomonic_behind : forall c c2, v3dot (at_ c2) (at_ c) < 0 ->
  exists u v c', project c c2 None = Ok (u, v) /\ deproject c u v None = Ok c' /\ at_ c' = v3scale (-1) (at_ c2).
Proof.
  intros c c2 H. unfold project, deproject. cbn [bind projection_of get_aux a_cosra a_sinra a_cosdec a_sindec].
  rewrite project_frame. cbv zeta. fold (at_ c2). change (cT c) with (at_ c).
  set (P := at_ c2) in *. set (x := v3dot P (at_ c)) in *. cbn [proj_k].
  pose proof (sky_unit (cra c2) (cdec c2)) as U. fold (at_ c2) P in U.
  pose proof (frame_norm (cra c) (cdec c) P) as Nm. fold (at_ c) (cE c) (cN c) x in Nm. rewrite U in Nm.
  set (e := v3dot P (cE c)) in *. set (n := v3dot P (cN c)) in *.
  set (u := - e * (1 / x)). set (v := n * (1 / x)). exists u, v.
  assert (RS : 1 + (u * u + v * v) = (- (1 / x)) * (- (1 / x))).
  { unfold u, v. transitivity (1 + (e * e + n * n) / (x * x)); [field; lra|]. replace (e * e + n * n) with (1 - x * x) by lra. field. lra. }
  assert (NX : 0 < - (1 / x)). { replace (- (1 / x)) with (1 / - x) by (field; lra). apply Rdiv_lt_0_compat; lra. }
  pose proof (deproject_frame c Gnomonic u v) as D. cbn [deproj_cs] in D. cbv zeta in D.
  rewrite RS, sqrt_square in D by lra. replace (1 / - (1 / x)) with (- x) in D by (field; lra).
  destruct (deproject_ c Gnomonic u v) as [ra dec]. destruct D as [L D].
  { replace (u * u + v * v) with (1 / x * (1 / x) - 1) by lra. field. lra. }
  exists (mkC ra dec). rewrite new_coord_ok by exact L. split; [reflexivity|]. split; [reflexivity|]. unfold at_. cbn [cra cdec]. rewrite D.
  rewrite (frame (cra c) (cdec c) P). fold (cT c) (cE c) (cN c). change (v3dot P (cT c)) with x. fold e n.
  replace (- (u * - x)) with (- e) by (unfold u; field; lra). replace (v * - x) with (- n) by (unfold v; field; lra).
  destruct (cT c) as [[t1 t2] t3], (cE c) as [[e1 e2] e3], (cN c) as [[n1 n2] n3]. v3ring.
Qed.
Lemma unknown_projection : forall c c2 u v ra dec s,
  s <> "gnomonic"%string -> s <> "stereographic"%string -> s <> "lambert"%string -> s <> "postel"%string ->
  project c c2 (Some s) = Err ValueError /\ project_rad c ra dec (Some s) = Err ValueError /\
  deproject c u v (Some s) = Err ValueError /\ deproject_rad c u v (Some s) = Err ValueError /\ jac_deproject c u v (Some s) = Err ValueError.
Proof.
  intros c c2 u v ra dec s A B C D. unfold project, project_rad, deproject, deproject_rad, jac_deproject, projection_of.
  apply String.eqb_neq in A, B, C, D. rewrite A, B, C, D. repeat split.
Qed.
(** the plane vector is along the perpendicular part *)
Lemma plane_vector : forall c c2 name p, projection_of name = Ok p -> sky_ok p (v3dot (at_ c2) (at_ c)) ->
  exists u v k, project c c2 name = Ok (u, v) /\ 0 < k /\ k = proj_k p (v3dot (at_ c2) (at_ c)) /\
    in_plane (cra c) (cdec c) u v = v3scale k (perp (at_ c) (at_ c2)) /\
    u * u + v * v = k * k * (1 - v3dot (at_ c2) (at_ c) * v3dot (at_ c2) (at_ c)).
Proof.
  intros c c2 name p N H. unfold project. rewrite N. cbn [bind get_aux a_cosra a_sinra a_cosdec a_sindec].
  rewrite project_frame. cbv zeta. fold (at_ c2). change (cT c) with (at_ c).
  pose proof (sky_unit (cra c2) (cdec c2)) as U. fold (at_ c2) in U. pose proof (sky_unit (cra c) (cdec c)) as UT. fold (at_ c) in UT.
  pose proof (unit_dot _ _ U UT) as B. set (P := at_ c2) in *. set (x := v3dot P (at_ c)) in *.
  destruct (cs_back p x B H) as [K _]. pose proof (frame_norm (cra c) (cdec c) P) as Nm. fold (at_ c) (cE c) (cN c) x in Nm. rewrite U in Nm.
  do 3 eexists. split; [reflexivity|]. split; [exact K|]. split; [reflexivity|]. set (k := proj_k p x) in *.
  split.
  - unfold perp. fold x. rewrite (frame (cra c) (cdec c) P) at 3. fold (at_ c) (cE c) (cN c) x.
    unfold in_plane. fold (cE c) (cN c). destruct (at_ c) as [[t1 t2] t3], (cE c) as [[e1 e2] e3], (cN c) as [[n1 n2] n3].
    generalize (v3dot P (e1, e2, e3)) (v3dot P (n1, n2, n3)). intros. cbv [v3add v3scale]. apply f_equal2; [apply f_equal2|]; ring.
  - transitivity (k * k * (v3dot P (cE c) * v3dot P (cE c) + v3dot P (cN c) * v3dot P (cN c))); [ring|]. f_equal. lra.
Qed.
Lemma geometry : forall c c2 name p, projection_of name = Ok p -> sky_ok p (v3dot (at_ c2) (at_ c)) ->
  exists u v k, project c c2 name = Ok (u, v) /\ 0 < k /\
    let w := in_plane (cra c) (cdec c) u v in
    w = v3scale k (perp (at_ c) (at_ c2)) /\
    match p with
    | Gnomonic => v3add (at_ c) w = v3scale k (at_ c2)
    | Stereographic => v3add (v3scale 2 (at_ c)) w = v3scale k (v3add (at_ c) (at_ c2))
    | Lambert => v3norm w = v3norm (v3add (at_ c2) (v3scale (-1) (at_ c)))
    | Postel => v3norm w = distanceTo c c2
    end.
Proof.
  intros c c2 name p N H. destruct (plane_vector c c2 name p N H) as [u [v [k [A [K [KE [W R]]]]]]].
  exists u, v, k. split; [exact A|]. split; [exact K|]. cbv zeta. split; [exact W|].
  pose proof (sky_unit (cra c2) (cdec c2)) as U. fold (at_ c2) in U. pose proof (sky_unit (cra c) (cdec c)) as UT. fold (at_ c) in UT.
  pose proof (unit_dot _ _ U UT) as B.
  assert (NW : v3dot (in_plane (cra c) (cdec c) u v) (in_plane (cra c) (cdec c) u v) = u * u + v * v).
  { unfold in_plane. rewrite !dot_add, !dot_scale, !(dot_sym _ (v3add _ _)), !dot_add, !dot_scale.
    rewrite east_unit, north_unit, north_east, (dot_sym (east _)), north_east. ring. }
  destruct p; cbn [proj_k sky_ok] in *.
  - rewrite W. unfold perp. rewrite KE. set (x := v3dot (at_ c2) (at_ c)) in *.
    destruct (at_ c) as [[t1 t2] t3], (at_ c2) as [[p1 p2] p3]. cbv [v3add v3scale]. apply f_equal2; [apply f_equal2|]; field; lra.
  - rewrite W. unfold perp. rewrite KE. set (x := v3dot (at_ c2) (at_ c)) in *.
    destruct (at_ c) as [[t1 t2] t3], (at_ c2) as [[p1 p2] p3]. cbv [v3add v3scale]. apply f_equal2; [apply f_equal2|]; field; lra.
  - unfold v3norm. rewrite NW, R. f_equal. rewrite KE. set (x := v3dot (at_ c2) (at_ c)) in *.
    assert (P : 0 < 2 / (1 + x)) by (apply Rdiv_lt_0_compat; lra). rewrite sqrt_sqrt by lra.
    rewrite !dot_add, !dot_scale, !(dot_sym _ (v3add _ _)), !dot_add, !dot_scale, U, UT, (dot_sym (at_ c) (at_ c2)). fold x. field. lra.
  - unfold v3norm. rewrite NW, R, KE. set (x := v3dot (at_ c2) (at_ c)) in *.
    destruct (distance_ok c c2) as [DR DC]. fold (at_ c) (at_ c2) in DC. rewrite (dot_sym (at_ c)) in DC. fold x in DC.
    set (d := distanceTo c c2) in *.
    assert (AC : acos x = d) by (rewrite <- DC; apply acos_cos; lra). rewrite AC.
    assert (DP : d < PI). { destruct (Req_dec d PI) as [E|E]; [|lra]. rewrite E, cos_PI in DC. lra. }
    pose proof (sinc_pos d ltac:(lra)) as SP. pose proof (sinc_times d ltac:(lra)) as ST.
    replace (1 / sinc (d / PI) * (1 / sinc (d / PI)) * (1 - x * x)) with (d * d); [apply sqrt_square; lra|].
    replace (1 - x * x) with (sin d * sin d) by (rewrite <- DC; pose proof (sc d); lra). rewrite <- ST. field. lra.
Qed.

(** * Distances *)
Lemma distance_zero : forall c1 c2, distanceTo c1 c2 = 0 <-> at_ c1 = at_ c2.
Proof.
  intros c1 c2. destruct (distance_ok c1 c2) as [R E]. fold (at_ c1) (at_ c2) in E.
  pose proof (sky_unit (cra c1) (cdec c1)) as U. pose proof (sky_unit (cra c2) (cdec c2)) as V. fold (at_ c1) in U. fold (at_ c2) in V.
  split; intro H.
  - rewrite H, cos_0 in E.
    assert (Z : v3dot (v3add (at_ c1) (v3scale (-1) (at_ c2))) (v3add (at_ c1) (v3scale (-1) (at_ c2))) = 0).
    { rewrite !dot_add, !dot_scale, !(dot_sym _ (v3add _ _)), !dot_add, !dot_scale, U, V, (dot_sym (at_ c2) (at_ c1)), <- E. ring. }
    apply dot_zero in Z. destruct (at_ c1) as [[a b] c], (at_ c2) as [[x y] z]. cbv [v3add v3scale] in Z. injection Z as Z1 Z2 Z3.
    apply f_equal2; [apply f_equal2|]; lra.
  - rewrite H, V in E. apply cos_inj; try lra. rewrite cos_0. exact E.
Qed.
Lemma distance_sym : forall c1 c2, distanceTo c1 c2 = distanceTo c2 c1.
Proof.
  intros c1 c2. apply (angle_unique (at_ c1) (at_ c2)); [apply distance_ok|].
  destruct (distance_ok c2 c1) as [R E]. split; [exact R|]. rewrite dot_sym. exact E.
Qed.
Lemma distance_triangle : forall c1 c2 c3, distanceTo c1 c3 <= distanceTo c1 c2 + distanceTo c2 c3.
Proof.
  intros. apply (angle_triangle (at_ c1) (at_ c2) (at_ c3)); try apply sky_unit; apply distance_ok.
Qed.
Lemma distance_rigid : forall f c1 c2 d1 d2, rotation f -> at_ d1 = f (at_ c1) -> at_ d2 = f (at_ c2) -> distanceTo d1 d2 = distanceTo c1 c2.
Proof.
  intros f c1 c2 d1 d2 [R _] A B. apply (angle_unique (at_ c1) (at_ c2)); [|apply distance_ok].
  destruct (distance_ok d1 d2) as [Q E]. split; [exact Q|]. fold (at_ d1) (at_ d2) in E. rewrite A, B, R in E. exact E.
Qed.
Lemma formulas_agree : forall c1 c2, v3dot (at_ c1) (at_ c2) <= 0 ->
  dist_near (get_aux c1) (get_aux c2) = dist_far (get_aux c1) (get_aux c2).
Proof. intros c1 c2 H. apply (angle_unique (at_ c1) (at_ c2)); [apply near_ok | apply far_ok]; try apply sky_unit. exact H. Qed.

(** * xyz *)
Lemma xyz_back : forall x y z, (x, y, z) <> (0, 0, 0) ->
  exists ra dec r, xyz_to_radec x y z = Some (ra, dec, r) /\ latitude dec /\ 0 < r /\ radec_to_xyz ra dec r = (x, y, z).
Proof.
  intros x y z N. unfold xyz_to_radec.
  assert (P2 : 0 <= x ^ 2 + y ^ 2) by (pose proof (sq2_pos x y); lra).
  destruct (atan2_polar y x) as [A B]. pose proof PI_RGT_0 as PP.
  destruct (Reqb_spec (x ^ 2 + y ^ 2) 0) as [e|e].
  - assert (x = 0 /\ y = 0) as [-> ->].
    { pose proof (Rle_0_sqr x). pose proof (Rle_0_sqr y). unfold Rsqr in *. split; apply Rsqr_0_uniq; unfold Rsqr; lra. }
    assert (ZN : z <> 0) by (intro; subst; apply N; reflexivity).
    destruct (Rltb_spec 0 z) as [l|l]; [|destruct (Rltb_spec z 0) as [k|k]; [|lra]].
    + do 3 eexists. split; [reflexivity|]. split; [unfold latitude; lra|]. rewrite e, Rplus_0_l.
      replace (z ^ 2) with (Rsqr z) by (unfold Rsqr; ring). rewrite sqrt_Rsqr_abs, (Rabs_right z) by lra. split; [exact l|].
      unfold radec_to_xyz. rewrite cos_PI2, sin_PI2. apply f_equal2; [apply f_equal2|]; ring.
    + do 3 eexists. split; [reflexivity|]. split; [unfold latitude; lra|]. rewrite e, Rplus_0_l.
      replace (z ^ 2) with (Rsqr z) by (unfold Rsqr; ring). rewrite sqrt_Rsqr_abs, (Rabs_left z) by lra. split; [lra|].
      unfold radec_to_xyz. replace (- PI / 2) with (- (PI / 2)) by field. rewrite cos_neg, sin_neg, cos_PI2, sin_PI2. apply f_equal2; [apply f_equal2|]; ring.
  - do 3 eexists. split; [reflexivity|]. pose proof (atan_bound (z / sqrt (x ^ 2 + y ^ 2))) as AB. split; [unfold latitude; lra|].
    assert (SP : 0 < sqrt (x ^ 2 + y ^ 2)) by (apply sqrt_lt_R0; lra).
    assert (SS : sqrt (x ^ 2 + y ^ 2) * sqrt (x ^ 2 + y ^ 2) = x ^ 2 + y ^ 2) by (apply sqrt_sqrt; lra).
    assert (HE : hypot x y = sqrt (x ^ 2 + y ^ 2)) by (unfold hypot; f_equal; ring). rewrite HE in A, B.
    set (q := sqrt (x ^ 2 + y ^ 2)) in *.
    assert (RP : 0 < x ^ 2 + y ^ 2 + z ^ 2) by (pose proof (Rle_0_sqr z); unfold Rsqr in *; lra).
    split; [apply sqrt_lt_R0; exact RP|]. set (r := sqrt (x ^ 2 + y ^ 2 + z ^ 2)).
    assert (RR : r = q * sqrt (1 + (z / q) ^ 2)).
    { pose proof (Rle_0_sqr (z / q)) as ZQ. unfold Rsqr in ZQ. apply Rsqr_inj.
      - apply sqrt_pos.
      - apply Rmult_le_pos; [lra | apply sqrt_pos].
      - unfold Rsqr. unfold r. rewrite sqrt_sqrt by lra.
        transitivity ((q * q) * (sqrt (1 + (z / q) ^ 2) * sqrt (1 + (z / q) ^ 2))); [|ring].
        rewrite sqrt_sqrt by lra. rewrite <- SS. field. lra. }
    assert (RQ : 0 < sqrt (1 + (z / q) ^ 2)) by (apply sqrt_lt_R0; pose proof (Rle_0_sqr (z / q)); unfold Rsqr in *; lra).
    assert (CA : cos (atan (z / q)) * r = q).
    { rewrite cos_atan, RR. unfold Rsqr. replace (z / q * (z / q)) with ((z / q) ^ 2) by ring. field. lra. }
    assert (SA : sin (atan (z / q)) * r = z).
    { rewrite sin_atan.
      rewrite Rmult_assoc, CA. field. lra. }
    unfold radec_to_xyz. apply f_equal2; [apply f_equal2|exact SA].
    + transitivity ((cos (atan (z / q)) * r) * cos (atan2 y x)); [ring|]. rewrite CA. exact A.
    + transitivity ((cos (atan (z / q)) * r) * sin (atan2 y x)); [ring|]. rewrite CA. exact B.
Qed.
