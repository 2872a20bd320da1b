From Coq Require Import Reals Bool Lra ZArith String List.
From Verif Require Import Base Bounds_Model Bounds_Proofs Geo_Model Geo_Proofs Angle_Model Angle_Spec Angle_Proofs Sky_Model Sky_Spec Sky_Proofs.
Open Scope R_scope.

(** decimal literals in plain form *)
Ltac literals := unfold Q2R; cbn [QArith_base.Qnum QArith_base.Qden].
(** Rotation of the axes by [t] about z and about x *)
Definition rz (t : R) (p : v3) : v3 := let '(x, y, z) := p in (cos t * x + sin t * y, - sin t * x + cos t * y, z).
Definition rx (t : R) (p : v3) : v3 := let '(x, y, z) := p in (x, cos t * y + sin t * z, - sin t * y + cos t * z).

Lemma rz_rotation : forall t, rotation (rz t).
Proof.
  intro t. pose proof (sc t) as S. split.
  - intros [[a b] c] [[x y] z]. cbv [v3dot rz].
    transitivity ((sin t * sin t + cos t * cos t) * (a * x + b * y) + c * z); [ring|]. rewrite S. ring.
  - intros [[a b] c] [[x y] z]. cbv [v3cross rz]. apply f_equal2; [apply f_equal2; ring|].
    transitivity ((sin t * sin t + cos t * cos t) * (a * y - b * x)); [rewrite S; ring | ring].
Qed.
Lemma rx_rotation : forall t, rotation (rx t).
Proof.
  intro t. pose proof (sc t) as S. split.
  - intros [[a b] c] [[x y] z]. cbv [v3dot rx].
    transitivity (a * x + (sin t * sin t + cos t * cos t) * (b * y + c * z)); [ring|]. rewrite S. ring.
  - intros [[a b] c] [[x y] z]. cbv [v3cross rx]. apply f_equal2; [apply f_equal2|]; try ring.
    transitivity ((sin t * sin t + cos t * cos t) * (b * z - c * y)); [rewrite S; ring | ring].
Qed.
Lemma rotation_comp : forall f g, rotation f -> rotation g -> rotation (fun p => f (g p)).
Proof. intros f g [A B] [C D]. split; [intros p q; rewrite A, C | intros p q; rewrite D, B]; reflexivity. Qed.
Lemma rz_inv : forall t p, rz (- t) (rz t p) = p.
Proof.
  intros t [[x y] z]. cbv [rz]. rewrite cos_neg, sin_neg. pose proof (sc t) as S. apply f_equal2; [apply f_equal2|]; try reflexivity.
  - transitivity ((sin t * sin t + cos t * cos t) * x); [ring | rewrite S; ring].
  - transitivity ((sin t * sin t + cos t * cos t) * y); [ring | rewrite S; ring].
Qed.
Lemma rx_inv : forall t p, rx (- t) (rx t p) = p.
Proof.
  intros t [[x y] z]. cbv [rx]. rewrite cos_neg, sin_neg. pose proof (sc t) as S. apply f_equal2; [apply f_equal2|]; try reflexivity.
  - transitivity ((sin t * sin t + cos t * cos t) * y); [ring | rewrite S; ring].
  - transitivity ((sin t * sin t + cos t * cos t) * z); [ring | rewrite S; ring].
Qed.
Lemma rz_inv' : forall t p, rz t (rz (- t) p) = p.
Proof. intros. pose proof (rz_inv (- t) p) as H. now rewrite Ropp_involutive in H. Qed.
Lemma rx_inv' : forall t p, rx t (rx (- t) p) = p.
Proof. intros. pose proof (rx_inv (- t) p) as H. now rewrite Ropp_involutive in H. Qed.
Lemma rz_sky : forall t l d, rz t (sky l d) = sky (l - t) d.
Proof. intros. cbv [rz sky]. rewrite cos_minus, sin_minus. apply f_equal2; [apply f_equal2|]; ring. Qed.
Lemma sky_same : forall l l' d, same_direction l l' -> sky l d = sky l' d.
Proof. intros l l' d H. destruct (cos_sin_period _ _ H) as [A B]. unfold sky. now rewrite A, B. Qed.
Lemma wrap_sky : forall l c d, sky (wrap l c) d = sky l d.
Proof. intros. apply sky_same. apply wrap_ok. Qed.
Lemma rotation_unit : forall f l d, rotation f -> v3dot (f (sky l d)) (f (sky l d)) = 1.
Proof. intros f l d [A _]. rewrite A. apply sky_unit. Qed.
Lemma normal_sky : forall c, sky (cra (normal c)) (cdec (normal c)) = sky (cra c) (cdec c).
Proof. intro c. unfold normal. cbn [cra cdec]. apply wrap_sky. Qed.
Lemma normal_range : forall c, 0 <= cra (normal c) < 2 * PI.
Proof. intro c. destruct (wrap_ok (cra c) (Some PI)) as [_ H]. unfold centre in H. unfold normal. cbn [cra]. lra. Qed.

(** ** Galactic *)
Definition gal_map (p : v3) : v3 := rz (- gal_el0) (rx gal_d0 (rz gal_r0 p)).
Definition gal_back (p : v3) : v3 := rz (- gal_r0) (rx (- gal_d0) (rz gal_el0 p)).
Lemma gal_rotation : rotation gal_map.
Proof. apply (rotation_comp (rz (- gal_el0))); [apply rz_rotation|]. apply (rotation_comp (rx gal_d0)); [apply rx_rotation | apply rz_rotation]. Qed.
Lemma gal_back_rotation : rotation gal_back.
Proof. apply (rotation_comp (rz (- gal_r0))); [apply rz_rotation|]. apply (rotation_comp (rx (- gal_d0))); [apply rx_rotation | apply rz_rotation]. Qed.
Lemma gal_inv : forall p, gal_back (gal_map p) = p.
Proof. intro p. unfold gal_back, gal_map. now rewrite rz_inv', rx_inv, rz_inv. Qed.
Lemma gal_inv' : forall p, gal_map (gal_back p) = p.
Proof. intro p. unfold gal_back, gal_map. now rewrite rz_inv', rx_inv', rz_inv. Qed.
Lemma galactic_sky : forall c e, let '(el, b) := galactic c e in sky el b = gal_map (sky (cra c) (cdec c)) /\ latitude b /\ 0 <= el < 2 * PI.
Proof.
  intros c e. unfold galactic. cbv zeta.
  set (x := cos (cdec c) * cos (cra c - gal_r0)). set (y' := sin (cra c - gal_r0)).
  set (y := sin (cdec c) * sin gal_d0 + cos (cdec c) * y' * cos gal_d0).
  set (z := sin (cdec c) * cos gal_d0 - cos (cdec c) * y' * sin gal_d0).
  assert (E : rx gal_d0 (rz gal_r0 (sky (cra c) (cdec c))) = (x, y, z)).
  { rewrite rz_sky. cbv [rx sky]. unfold x, y, z, y'. apply f_equal2; [apply f_equal2|]; ring. }
  assert (U : x * x + y * y + z * z = 1).
  { change (v3dot (x, y, z) (x, y, z) = 1). rewrite <- E.
    apply (rotation_unit (fun p => rx gal_d0 (rz gal_r0 p))). apply rotation_comp; [apply rx_rotation | apply rz_rotation]. }
  destruct (polar_sphere x y z U) as [P L]. destruct (wrap_ok (atan2 y x + gal_el0) (Some PI)) as [_ W]. unfold centre in W.
  split; [|split; [exact L | lra]].
  rewrite wrap_sky. unfold gal_map. rewrite E, <- P, rz_sky. f_equal. ring.
Qed.
Lemma from_galactic_sky : forall el b e, exists c, from_galactic el b e = Ok c /\ latitude (cdec c) /\ 0 <= cra c < 2 * PI
  /\ sky (cra c) (cdec c) = gal_back (sky el b).
Proof.
  intros el b e. unfold from_galactic. cbv zeta.
  set (p := rx (- gal_d0) (rz gal_el0 (sky el b))).
  assert (U : v3dot p p = 1).
  { apply (rotation_unit (fun p => rx (- gal_d0) (rz gal_el0 p))). apply rotation_comp; [apply rx_rotation | apply rz_rotation]. }
  destruct (from_xyz_unit p U) as [c [A [B [C D]]]].
  assert (E : p = (cos b * cos (el - gal_el0), cos b * sin (el - gal_el0) * cos gal_d0 - sin b * sin gal_d0,
                   cos b * sin (el - gal_el0) * sin gal_d0 + sin b * cos gal_d0)).
  { unfold p. rewrite rz_sky. cbv [rx sky]. rewrite cos_neg, sin_neg. apply f_equal2; [apply f_equal2|]; ring. }
  rewrite E in A. rewrite A. cbn [bind]. unfold new_coord.
  destruct B as [B1 B2]. destruct (Rltb_spec (cdec c) (- PI / 2)) as [l|_]; [lra|].
  destruct (Rltb_spec (PI / 2) (cdec c)) as [l|_]; [lra|]. cbn [orb bind].
  eexists. split; [reflexivity|]. split; [split; cbn [normal cdec]; assumption|]. split; [apply normal_range|].
  rewrite normal_sky. cbn [cra cdec]. unfold gal_back. fold p. rewrite <- D, rz_sky. f_equal. ring.
Qed.

(** ** Ecliptic *)
Lemma obliquity_ok : forall e, exists ep, obliquity e = Ok ep /\
  ep = ((23 + 26 / 60 + 21.406 / 3600) - 46.836769 / 3600 * ((e - 2000) / 100) - 0.0001831 / 3600 * ((e - 2000) / 100) ^ 2
        + 0.0020034 / 3600 * ((e - 2000) / 100) ^ 3) * degrees.
Proof.
  intro e. unfold obliquity, from_dms.
  replace (parse_dms (txt "23:26:21.406")) with (Ok (1 * (IZR 23 + IZR 0 / 10 ^ 0 + (IZR 26 + IZR 0 / 10 ^ 0) / 60 + (IZR 21 + IZR 406 / 10 ^ 3) / 3600))) by (vm_compute; reflexivity).
  replace (parse_dms (txt "00:00:46.836769")) with (Ok (1 * (IZR 0 + IZR 0 / 10 ^ 0 + (IZR 0 + IZR 0 / 10 ^ 0) / 60 + (IZR 46 + IZR 836769 / 10 ^ 6) / 3600))) by (vm_compute; reflexivity).
  replace (parse_dms (txt "00:00:0.0001831")) with (Ok (1 * (IZR 0 + IZR 0 / 10 ^ 0 + (IZR 0 + IZR 0 / 10 ^ 0) / 60 + (IZR 0 + IZR 1831 / 10 ^ 7) / 3600))) by (vm_compute; reflexivity).
  replace (parse_dms (txt "00:00:0.0020034")) with (Ok (1 * (IZR 0 + IZR 0 / 10 ^ 0 + (IZR 0 + IZR 0 / 10 ^ 0) / 60 + (IZR 0 + IZR 20034 / 10 ^ 7) / 3600))) by (vm_compute; reflexivity).
  cbn [bind]. eexists. split; [reflexivity|]. literals. field.
Qed.
Definition sun_of (dt : option date) : R := match dt with Some d => d_sun d | None => 0 end.
Definition year_of (e : R) (dt : option date) : R := match dt with Some d => d_year d | None => e end.
Lemma ecliptic_sky : forall c e dt ep, obliquity (year_of e dt) = Ok ep ->
  exists lam beta, ecliptic c e dt = Ok (lam, beta) /\ latitude beta /\ - PI <= lam < PI
    /\ sky lam beta = rz (sun_of dt) (rx ep (sky (cra c) (cdec c))).
Proof.
  intros c e dt ep H. unfold ecliptic. fold (year_of e dt). rewrite H. cbn [bind].
  destruct (rx ep (sky (cra c) (cdec c))) as [[x y] z] eqn:E.
  assert (U : x * x + y * y + z * z = 1).
  { change (v3dot (x, y, z) (x, y, z) = 1). rewrite <- E. apply rotation_unit, rx_rotation. }
  cbv [rx sky] in E. injection E as E1 E2 E3. cbn [get_aux ax ay az].
  rewrite E1, E2, E3. destruct (polar_sphere x y z U) as [P L].
  match goal with |- exists lam beta, Ok (wrap ?l None, _) = _ /\ _ => set (lam := l) end.
  assert (LE : lam = atan2 y x - sun_of dt) by (unfold lam, sun_of; destruct dt; [reflexivity | ring]).
  destruct (wrap_ok lam None) as [_ W]. unfold centre in W.
  exists (wrap lam None), (asin z). split; [reflexivity|]. split; [exact L|]. split; [lra|].
  rewrite wrap_sky, LE, <- P, rz_sky. reflexivity.
Qed.
Lemma from_ecliptic_sky : forall lam beta e dt ep, obliquity (year_of e dt) = Ok ep ->
  exists c, from_ecliptic lam beta e dt = Ok c /\ latitude (cdec c) /\ 0 <= cra c < 2 * PI
    /\ sky (cra c) (cdec c) = rx (- ep) (rz (- sun_of dt) (sky lam beta)).
Proof.
  intros lam beta e dt ep H. unfold from_ecliptic. fold (year_of e dt). rewrite H. cbn [bind].
  set (lam' := match dt with Some d => lam + d_sun d | None => lam end).
  assert (LE : lam' = lam - - sun_of dt) by (unfold lam', sun_of; destruct dt; ring).
  clearbody lam'. rewrite rz_sky, <- LE.
  set (p := rx (- ep) (sky lam' beta)). assert (U : v3dot p p = 1) by (apply rotation_unit, rx_rotation).
  destruct (from_xyz_unit p U) as [c [A [B [C D]]]]. exists c.
  split; [|auto]. rewrite <- A. unfold p. cbv [rx sky]. rewrite cos_neg, sin_neg. f_equal; ring.
Qed.

(** ** Precession *)
Definition prec (abc : R * R * R) (p : v3) : v3 := let '(a, b, c) := abc in rz (- b) (rx (PI / 2) (rz c (rx (- (PI / 2)) (rz (- a) p)))).
Lemma prec_rot : forall abc p, precess_rot abc p = prec abc p.
Proof.
  intros [[a b] c] [[x y] z]. unfold precess_rot, prec. cbv [rz rx]. rewrite !cos_neg, !sin_neg, cos_PI2, sin_PI2.
  apply f_equal2; [apply f_equal2|]; ring.
Qed.
Lemma prec_rotation : forall abc, rotation (prec abc).
Proof.
  intros [[a b] c]. unfold prec.
  apply (rotation_comp (rz _)); [apply rz_rotation|]. apply (rotation_comp (rx _)); [apply rx_rotation|].
  apply (rotation_comp (rz _)); [apply rz_rotation|]. apply (rotation_comp (rx _)); [apply rx_rotation | apply rz_rotation].
Qed.
Lemma lieske_back : forall f t, let '(a, b, c) := lieske f t in lieske t f = (- b, - a, - c).
Proof. intros. unfold lieske. cbv zeta. apply f_equal2; [apply f_equal2|]; literals; field. Qed.
Lemma prec_inv : forall a b c p, prec (- b, - a, - c) (prec (a, b, c) p) = p.
Proof.
  intros. unfold prec. rewrite !Ropp_involutive. now rewrite rz_inv', rx_inv, rz_inv, rx_inv', rz_inv'.
Qed.
Lemma precess_sky : forall c f t, f <> t -> exists c', precess c f t = Ok c' /\ latitude (cdec c') /\ 0 <= cra c' < 2 * PI
  /\ sky (cra c') (cdec c') = prec (lieske f t) (sky (cra c) (cdec c)).
Proof.
  intros c f t N. unfold precess. destruct (Reqb_spec f t) as [e|_]; [contradiction|].
  rewrite prec_rot, xyz_sky. set (p := prec (lieske f t) (sky (cra c) (cdec c))).
  assert (U : v3dot p p = 1) by (apply rotation_unit, prec_rotation).
  destruct (from_xyz_unit p U) as [c' [A [B [C D]]]]. destruct p as [[x y] z]. rewrite A. cbn [bind].
  eexists. split; [reflexivity|]. split; [exact B|]. split; [apply normal_range|]. now rewrite normal_sky.
Qed.
