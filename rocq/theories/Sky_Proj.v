From Coq Require Import Reals Bool Lra ZArith String.
From Verif Require Import Base Bounds_Model Bounds_Proofs Geo_Model Geo_Proofs Angle_Model Angle_Spec Angle_Proofs Sky_Model Sky_Spec Sky_Proofs.
Open Scope R_scope.

(** * The frame at the centre *)
Definition cT (c : coord) : v3 := sky (cra c) (cdec c).
Definition cE (c : coord) : v3 := east (cra c).
Definition cN (c : coord) : v3 := north (cra c) (cdec c).

Lemma project_frame : forall c p ra dec,
  project_ c p (cos ra) (sin ra) (cos dec) (sin dec)
  = (let P := sky ra dec in let k := proj_k p (v3dot P (cT c)) in
     (- v3dot P (cE c) * k, v3dot P (cN c) * k)).
Proof.
  intros. unfold project_, cT, cE, cN. cbn [get_aux a_cosra a_sinra a_cosdec a_sindec]. cbv zeta.
  assert (E : cos dec * (cos (cra c) * cos ra + sin (cra c) * sin ra) * cos (cdec c) + sin (cdec c) * sin dec
              = v3dot (sky ra dec) (sky (cra c) (cdec c))) by (cbv [v3dot sky]; ring).
  rewrite E. f_equal; f_equal; cbv [v3dot sky east north]; ring.
Qed.
Lemma deproject_frame : forall c p u v, (let '(k, s) := deproj_cs p (u * u + v * v) in k * k + s * s * (u * u + v * v) = 1) ->
  let '(ra, dec) := deproject_ c p u v in
  latitude dec /\
  sky ra dec = (let '(k, s) := deproj_cs p (u * u + v * v) in
                v3add (v3scale k (cT c)) (v3add (v3scale (- (u * s)) (cE c)) (v3scale (v * s) (cN c)))).
Proof.
  intros c p u v. unfold deproject_. destruct (deproj_cs p (u * u + v * v)) as [k s]. intro H.
  cbn [get_aux a_cosdec a_sindec]. cbv zeta.
  set (sd := sin (cdec c)). set (cd := cos (cdec c)).
  set (z := v * s * cd + k * sd). set (y := u * s * -1). set (x := v * s * - sd + k * cd).
  assert (U : x * x + y * y + z * z = 1).
  { rewrite <- H. pose proof (sc (cdec c)) as S. fold sd cd in S.
    transitivity ((k * k + s * s * (v * v)) * (sd * sd + cd * cd) + s * s * (u * u)); [unfold x, y, z; ring|].
    rewrite S. ring. }
  destruct (polar_sphere x y z U) as [P L]. split; [exact L|].
  unfold sky in P |- *. injection P as P1 P2 P3. rewrite cos_plus, sin_plus, P3.
  cbv [v3add v3scale cT cE cN sky east north]. fold sd cd.
  f_equal; [f_equal|].
  - transitivity (cos (cra c) * (cos (asin z) * cos (atan2 y x)) - sin (cra c) * (cos (asin z) * sin (atan2 y x))); [ring|].
    rewrite P1, P2. unfold x, y. ring.
  - transitivity (sin (cra c) * (cos (asin z) * cos (atan2 y x)) + cos (cra c) * (cos (asin z) * sin (atan2 y x))); [ring|].
    rewrite P1, P2. unfold x, y. ring.
  - unfold z. ring.
Qed.

Lemma sinc_over : forall r, 0 <= r -> sinc (r / PI) = if Reqb r 0 then 1 else sin r / r.
Proof.
  intros r H. unfold sinc. pose proof PI_RGT_0. destruct (Reqb_spec r 0) as [e|e].
  - destruct (Reqb_spec (r / PI) 0) as [_|f]; [reflexivity|]. exfalso. apply f. rewrite e. field. lra.
  - destruct (Reqb_spec (r / PI) 0) as [f|_].
    + exfalso. apply e. replace r with (r / PI * PI) by (field; lra). rewrite f. ring.
    + replace (PI * (r / PI)) with r by (field; lra). reflexivity.
Qed.
Lemma sinc_pos : forall r, 0 <= r < PI -> 0 < sinc (r / PI).
Proof.
  intros r H. rewrite sinc_over by lra. destruct (Reqb_spec r 0) as [e|e]; [lra|].
  apply Rdiv_lt_0_compat; [apply sin_gt_0|]; lra.
Qed.
Lemma sinc_times : forall r, 0 <= r -> sinc (r / PI) * r = sin r.
Proof.
  intros r H. rewrite sinc_over by lra. destruct (Reqb_spec r 0) as [e|e]; [rewrite e, sin_0; ring | field; exact e].
Qed.

(** from the plane: (cosc, s) is on the unit circle, s undoes k *)
Lemma cs_unit : forall p rsq, 0 <= rsq -> plane_ok p rsq ->
  let '(k, s) := deproj_cs p rsq in k * k + s * s * rsq = 1 /\ 0 < s /\ -1 < k /\ proj_k p k * s = 1.
Proof.
  intros p rsq R0 H. destruct p; cbn [plane_ok deproj_cs proj_k] in *; cbv zeta.
  - assert (Q : 0 < 1 + rsq) by lra. pose proof (sqrt_lt_R0 _ Q) as S. pose proof (sqrt_sqrt (1 + rsq) ltac:(lra)) as SS.
    set (q := sqrt (1 + rsq)) in *. assert (P : 0 < 1 / q) by (apply Rdiv_lt_0_compat; lra).
    repeat split; try lra; [|field; lra].
    transitivity ((1 + rsq) / (q * q)); [field; lra|]. rewrite SS. field. lra.
  - assert (P : 0 < 4 / (4 + rsq)) by (apply Rdiv_lt_0_compat; lra).
    repeat split; try lra.
    + field. lra.
    + replace ((4 - rsq) / (4 + rsq)) with (2 * (4 / (4 + rsq)) - 1) by (field; lra). lra.
    + field. split; lra.
  - pose proof (sqrt_lt_R0 (4 - rsq) ltac:(lra)) as S. pose proof (sqrt_sqrt (4 - rsq) ltac:(lra)) as SS.
    set (q := sqrt (4 - rsq)) in *. repeat split; try lra.
    + transitivity ((1 - rsq / 2) * (1 - rsq / 2) + (q * q) * rsq / 4); [field|]. rewrite SS. field.
    + replace (2 / (1 + (1 - rsq / 2))) with ((2 / q) * (2 / q)).
      * rewrite sqrt_square; [field; lra|]. apply Rlt_le, Rdiv_lt_0_compat; lra.
      * transitivity (4 / (q * q)); [field; lra|]. rewrite SS. field. lra.
  - pose proof (sqrt_pos rsq) as S. pose proof (sqrt_sqrt rsq R0) as SS. set (r := sqrt rsq) in *.
    pose proof PI_RGT_0 as PP.
    assert (RP : r < PI).
    { destruct (Rlt_or_le r PI) as [L|L]; [exact L|]. exfalso. assert (PI * PI <= r * r) by (apply Rmult_le_compat; lra). lra. }
    pose proof (sinc_pos r ltac:(lra)) as SP. pose proof (sinc_times r S) as ST.
    repeat split; auto.
    + transitivity (cos r * cos r + (sinc (r / PI) * r) * (sinc (r / PI) * r)); [rewrite <- SS; ring|].
      rewrite ST. pose proof (sc r). lra.
    + rewrite <- cos_PI. apply cos_decreasing_1; lra.
    + rewrite acos_cos by lra. field. lra.
Qed.

Theorem project_deproject : forall c p u v, plane_ok p (u * u + v * v) ->
  let '(ra, dec) := deproject_ c p u v in project_ c p (cos ra) (sin ra) (cos dec) (sin dec) = (u, v).
Proof.
  intros c p u v H. pose proof (cs_unit p (u * u + v * v) (sq2_pos u v) H) as K. pose proof (deproject_frame c p u v) as D.
  destruct (deproj_cs p (u * u + v * v)) as [k s]. destruct K as [K1 [K2 [K3 K4]]].
  specialize (D K1). destruct (deproject_ c p u v) as [ra dec]. destruct D as [_ D].
  rewrite project_frame. cbv zeta. rewrite D. unfold cT, cE, cN.
  destruct (comb_norm (cra c) (cdec c) k (- (u * s)) (v * s)) as [A [B [C _]]]. cbv zeta in A, B, C.
  rewrite A, B, C. f_equal.
  - transitivity (u * (proj_k p k * s)); [ring|]. rewrite K4. ring.
  - transitivity (v * (proj_k p k * s)); [ring|]. rewrite K4. ring.
Qed.

(** from the sky: what deproject finds at the projected point *)
Lemma cs_back : forall p cosc, -1 <= cosc <= 1 -> sky_ok p cosc ->
  let k := proj_k p cosc in
  0 < k /\ (let '(c', s) := deproj_cs p (k * k * (1 - cosc * cosc)) in c' = cosc /\ s * k = 1).
Proof.
  intros p x B H. destruct p; cbn [sky_ok proj_k deproj_cs] in *; cbv zeta.
  - assert (P : 0 < 1 / x) by (apply Rdiv_lt_0_compat; lra). split; [exact P|].
    replace (1 + 1 / x * (1 / x) * (1 - x * x)) with ((1 / x) * (1 / x)) by (field; lra).
    rewrite sqrt_square by lra. split; field; lra.
  - split; [apply Rdiv_lt_0_compat; lra|].
    replace (2 / (1 + x) * (2 / (1 + x)) * (1 - x * x)) with (8 / (1 + x) - 4) by (field; lra).
    replace (4 + (8 / (1 + x) - 4)) with (8 / (1 + x)) by ring. split; field; lra.
  - assert (P : 0 < 2 / (1 + x)) by (apply Rdiv_lt_0_compat; lra). pose proof (sqrt_lt_R0 _ P) as S. split; [exact S|].
    rewrite sqrt_sqrt by lra.
    replace (2 / (1 + x) * (1 - x * x)) with (2 - 2 * x) by (field; lra).
    split; [field|].
    replace (4 - (2 - 2 * x)) with (2 * (1 + x)) by ring.
    replace (2 * (1 + x)) with ((2 * / sqrt (2 / (1 + x))) * (2 * / sqrt (2 / (1 + x)))).
    + rewrite sqrt_square; [field; lra|]. pose proof (Rinv_0_lt_compat _ S). lra.
    + transitivity (4 / (sqrt (2 / (1 + x)) * sqrt (2 / (1 + x)))); [field; lra|]. rewrite sqrt_sqrt by lra. field. lra.
  - pose proof (acos_bound x) as T. pose proof (cos_acos x B) as E. set (t := acos x) in *.
    assert (TP : t < PI). { destruct (Req_dec t PI) as [e|e]; [|lra]. rewrite e, cos_PI in E. lra. }
    pose proof (sinc_pos t ltac:(lra)) as SP. pose proof (sinc_times t ltac:(lra)) as ST.
    assert (P : 0 < 1 / sinc (t / PI)) by (apply Rdiv_lt_0_compat; lra). split; [exact P|].
    replace (1 / sinc (t / PI) * (1 / sinc (t / PI)) * (1 - x * x)) with (t * t).
    + rewrite sqrt_square by lra. split; [exact E | field; lra].
    + replace (1 - x * x) with (sin t * sin t) by (rewrite <- E; pose proof (sc t); lra).
      rewrite <- ST. field. lra.
Qed.

Theorem deproject_project : forall c p ra dec, sky_ok p (v3dot (sky ra dec) (cT c)) ->
  let '(u, v) := project_ c p (cos ra) (sin ra) (cos dec) (sin dec) in
  let '(ra', dec') := deproject_ c p u v in latitude dec' /\ sky ra' dec' = sky ra dec.
Proof.
  intros c p ra dec H. rewrite project_frame. cbv zeta.
  set (P := sky ra dec) in *. set (x := v3dot P (cT c)) in *. set (k := proj_k p x).
  pose proof (sky_unit ra dec) as U. fold P in U. pose proof (sky_unit (cra c) (cdec c)) as UT. fold (cT c) in UT.
  pose proof (unit_dot _ _ U UT) as B. fold x in B.
  pose proof (frame_norm (cra c) (cdec c) P) as N. fold (cT c) (cE c) (cN c) x in N. rewrite U in N.
  destruct (cs_back p x B H) as [K0 K]. fold k in K0, K.
  set (e := v3dot P (cE c)) in *. set (n := v3dot P (cN c)) in *.
  assert (RS : (- e * k) * (- e * k) + (n * k) * (n * k) = k * k * (1 - x * x)).
  { transitivity (k * k * (e * e + n * n)); [ring|]. f_equal. lra. }
  pose proof (deproject_frame c p (- e * k) (n * k)) as D. rewrite RS in D.
  destruct (deproj_cs p (k * k * (1 - x * x))) as [c' s]. destruct K as [-> K].
  destruct (deproject_ c p (- e * k) (n * k)) as [ra' dec'].
  destruct D as [L D].
  { transitivity (x * x + (s * k) * (s * k) * (1 - x * x)); [ring|]. rewrite K. ring. }
  split; [exact L|]. rewrite D. rewrite (frame (cra c) (cdec c) P). fold (cT c) (cE c) (cN c) x e n.
  replace (- (- e * k * s)) with e by (transitivity (e * (s * k)); [rewrite K; ring | ring]).
  replace (n * k * s) with n by (transitivity (n * (s * k)); [rewrite K; ring | ring]). reflexivity.
Qed.
