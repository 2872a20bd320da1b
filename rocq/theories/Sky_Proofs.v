From Coq Require Import Reals Bool Lra ZArith.
From Verif Require Import Base Bounds_Model Bounds_Proofs Geo_Model Geo_Proofs Angle_Model Angle_Spec Angle_Proofs Sky_Model Sky_Spec.
Open Scope R_scope.

Ltac v3ring := cbv [v3dot v3add v3scale v3cross sky east north in_plane perp]; first [ring | f_equal; [f_equal|]; ring].

Lemma sc : forall x, sin x * sin x + cos x * cos x = 1.
Proof. intro x. pose proof (sin2_cos2 x) as E. unfold Rsqr in E. exact E. Qed.
Lemma sky_unit : forall l d, v3dot (sky l d) (sky l d) = 1.
Proof.
  intros. pose proof (sc l). pose proof (sc d). cbv [v3dot sky].
  transitivity ((cos d * cos d) * (sin l * sin l + cos l * cos l) + sin d * sin d); [ring|]. rewrite H. lra.
Qed.
Lemma east_unit : forall l, v3dot (east l) (east l) = 1.
Proof. intros. pose proof (sc l). cbv [v3dot east]. lra. Qed.
Lemma north_unit : forall l d, v3dot (north l d) (north l d) = 1.
Proof.
  intros. pose proof (sc l). pose proof (sc d). cbv [v3dot north].
  transitivity ((sin d * sin d) * (sin l * sin l + cos l * cos l) + cos d * cos d); [ring|]. rewrite H. lra.
Qed.
Lemma sky_east : forall l d, v3dot (sky l d) (east l) = 0. Proof. intros. v3ring. Qed.
Lemma north_east : forall l d, v3dot (north l d) (east l) = 0. Proof. intros. v3ring. Qed.
Lemma sky_north : forall l d, v3dot (sky l d) (north l d) = 0.
Proof.
  intros. pose proof (sc l). cbv [v3dot sky north].
  transitivity (sin d * cos d * (1 - (sin l * sin l + cos l * cos l))); [ring|]. rewrite H. ring.
Qed.
(** the three directions are a basis *)
Lemma frame : forall l d p, p = v3add (v3scale (v3dot p (sky l d)) (sky l d))
  (v3add (v3scale (v3dot p (east l)) (east l)) (v3scale (v3dot p (north l d)) (north l d))).
Proof.
  intros l d [[x y] z]. pose proof (sc l) as L. pose proof (sc d) as D.
  assert (L' : cos l * cos l = 1 - sin l * sin l) by lra. assert (D' : cos d * cos d = 1 - sin d * sin d) by lra.
  cbv [v3dot v3add v3scale sky east north].
  f_equal; [f_equal|].
  - transitivity (x * ((cos d * cos d + sin d * sin d) * (cos l * cos l) + sin l * sin l)
                 + y * (cos l * sin l * (cos d * cos d + sin d * sin d - 1))).
    + rewrite (Rplus_comm (cos d * cos d)), D. replace (1 * (cos l * cos l) + sin l * sin l) with 1 by lra. ring.
    + ring.
  - transitivity (y * ((cos d * cos d + sin d * sin d) * (sin l * sin l) + cos l * cos l)
                 + x * (cos l * sin l * (cos d * cos d + sin d * sin d - 1))).
    + rewrite (Rplus_comm (cos d * cos d)), D. replace (1 * (sin l * sin l) + cos l * cos l) with 1 by lra. ring.
    + ring.
  - transitivity (z * (sin d * sin d + cos d * cos d)); [rewrite D; ring | ring].
Qed.
Lemma dot_add : forall p q w, v3dot (v3add p q) w = v3dot p w + v3dot q w.
Proof. intros [[a b] c] [[d e] f] [[g h] i]. v3ring. Qed.
Lemma dot_scale : forall k p w, v3dot (v3scale k p) w = k * v3dot p w.
Proof. intros k [[a b] c] [[g h] i]. v3ring. Qed.
Lemma dot_sym : forall p q, v3dot p q = v3dot q p.
Proof. intros [[a b] c] [[g h] i]. v3ring. Qed.
Lemma dot_pos : forall p, 0 <= v3dot p p.
Proof.
  intros [[a b] c]. cbv [v3dot]. pose proof (Rle_0_sqr a). pose proof (Rle_0_sqr b). pose proof (Rle_0_sqr c).
  unfold Rsqr in *. lra.
Qed.
Lemma dot_zero : forall p, v3dot p p = 0 -> p = (0, 0, 0).
Proof.
  intros [[a b] c]. cbv [v3dot]. pose proof (Rle_0_sqr a). pose proof (Rle_0_sqr b). pose proof (Rle_0_sqr c).
  unfold Rsqr in *. intro E. repeat f_equal; apply Rsqr_0_uniq; unfold Rsqr; lra.
Qed.
Lemma cauchy : forall p q, (v3dot p q) ^ 2 <= v3dot p p * v3dot q q.
Proof.
  intros p q. pose proof (dot_pos (v3cross p q)) as H.
  replace (v3dot p p * v3dot q q) with ((v3dot p q) ^ 2 + v3dot (v3cross p q) (v3cross p q)); [lra|].
  destruct p as [[a b] c], q as [[x y] z]. v3ring.
Qed.
Lemma unit_dot : forall p q, v3dot p p = 1 -> v3dot q q = 1 -> -1 <= v3dot p q <= 1.
Proof.
  intros p q P Q. pose proof (cauchy p q) as H. rewrite P, Q in H. split.
  - destruct (Rle_or_lt (-1) (v3dot p q)) as [L|L]; [exact L|]. exfalso.
    assert (1 < (- v3dot p q) * (- v3dot p q)); [|lra].
    pose proof (Rmult_lt_0_compat (- v3dot p q - 1) (- v3dot p q) ltac:(lra) ltac:(lra)). lra.
  - destruct (Rle_or_lt (v3dot p q) 1) as [L|L]; [exact L|]. exfalso.
    pose proof (Rmult_lt_0_compat (v3dot p q - 1) (v3dot p q) ltac:(lra) ltac:(lra)). lra.
Qed.
Lemma comb_norm : forall l d a b c,
  let w := v3add (v3scale a (sky l d)) (v3add (v3scale b (east l)) (v3scale c (north l d))) in
  v3dot w (sky l d) = a /\ v3dot w (east l) = b /\ v3dot w (north l d) = c /\ v3dot w w = a * a + b * b + c * c.
Proof.
  intros l d a b c w.
  assert (A : v3dot w (sky l d) = a).
  { unfold w. rewrite !dot_add, !dot_scale, sky_unit, (dot_sym (east l)), (dot_sym (north l d)), sky_east, sky_north. ring. }
  assert (B : v3dot w (east l) = b).
  { unfold w. rewrite !dot_add, !dot_scale, east_unit, sky_east, north_east. ring. }
  assert (C : v3dot w (north l d) = c).
  { unfold w. rewrite !dot_add, !dot_scale, north_unit, sky_north, (dot_sym (east l)), north_east. ring. }
  repeat split; auto. unfold w at 1. rewrite !dot_add, !dot_scale, !(dot_sym _ w), A, B, C. ring.
Qed.
Lemma frame_norm : forall l d p,
  v3dot p p = v3dot p (sky l d) * v3dot p (sky l d) + v3dot p (east l) * v3dot p (east l) + v3dot p (north l d) * v3dot p (north l d).
Proof.
  intros l d p. destruct (comb_norm l d (v3dot p (sky l d)) (v3dot p (east l)) (v3dot p (north l d))) as [_ [_ [_ E]]].
  cbv zeta in E. rewrite <- (frame l d p) in E. exact E.
Qed.

(** * from_xyz and angles *)
Lemma same_angle : forall x y, cos x = cos y -> sin x = sin y -> same_direction x y.
Proof.
  intros x y A B. destruct (wrap_ok (x - y) None) as [[k E] W]. unfold centre in W.
  set (w := wrap (x - y) None) in *. clearbody w.
  assert (cw : cos w = 1).
  { rewrite E. destruct (cos_sin_period (x - y + IZR k * (2 * PI)) (x - y)) as [H _]; [exists k; ring|].
    rewrite H, cos_minus, A, B. pose proof (sc y). lra. }
  assert (w = 0).
  { pose proof PI_RGT_0.
    destruct (Rle_or_lt 0 w) as [L|L].
    - apply cos_inj; try lra. rewrite cos_0. exact cw.
    - assert (- w = 0); [|lra]. apply cos_inj; try lra. rewrite cos_0, cos_neg. exact cw. }
  exists (- k)%Z. rewrite opp_IZR. lra.
Qed.
Lemma same_refl : forall x, same_direction x x.
Proof. intro x. exists 0%Z. ring. Qed.

Lemma cos_lat : forall d, latitude d -> 0 <= cos d.
Proof. intros d [A B]. apply cos_ge_0; lra. Qed.
Lemma cos_lat_pos : forall d, - PI / 2 < d < PI / 2 -> 0 < cos d.
Proof. intros d [A B]. apply cos_gt_0; lra. Qed.
Lemma sky_inj : forall l d l' d', latitude d -> latitude d' -> sky l d = sky l' d' ->
  d = d' /\ (- PI / 2 < d < PI / 2 -> same_direction l l').
Proof.
  intros l d l' d' H H' E. unfold sky in E. injection E as E1 E2 E3.
  assert (D : d = d').
  { destruct H, H'. rewrite <- (asin_sin d), <- (asin_sin d') by lra. now rewrite E3. }
  split; [exact D|]. intro S. subst d'. pose proof (cos_lat_pos d S) as C.
  apply same_angle; apply (Rmult_eq_reg_l (cos d)); auto; lra.
Qed.

(** any point of the unit sphere in polar form: what atan2 and asin give *)
Lemma polar_sphere : forall x y z, x * x + y * y + z * z = 1 ->
  sky (atan2 y x) (asin z) = (x, y, z) /\ latitude (asin z).
Proof.
  intros x y z E.
  assert (Z : -1 <= z <= 1).
  { pose proof (unit_dot (x, y, z) (0, 0, 1)) as H. cbv [v3dot] in H.
    assert (-1 <= x * 0 + y * 0 + z * 1 <= 1) by (apply H; lra). lra. }
  destruct (atan2_polar y x) as [A B].
  assert (C : cos (asin z) = hypot x y).
  { rewrite cos_asin by exact Z. unfold hypot, Rsqr. f_equal. lra. }
  split.
  - unfold sky. rewrite C, A, B, sin_asin by exact Z. reflexivity.
  - pose proof (asin_bound z). unfold latitude. lra.
Qed.
Lemma hypot_pos : forall x y, 0 <= hypot x y. Proof. intros. apply sqrt_pos. Qed.
Lemma sq2_pos : forall x y, 0 <= x * x + y * y.
Proof. intros. pose proof (Rle_0_sqr x). pose proof (Rle_0_sqr y). unfold Rsqr in *. lra. Qed.
Lemma unit_atan2 : forall s c, s * s + c * c = 1 -> cos (atan2 s c) = c /\ sin (atan2 s c) = s.
Proof.
  intros s c E. destruct (atan2_polar s c) as [A B]. assert (H : hypot c s = 1).
  { unfold hypot. rewrite Rplus_comm, E. apply sqrt_1. }
  rewrite H in A, B. lra.
Qed.
Lemma atan2_lat : forall s c, s * s + c * c = 1 -> 0 <= c -> latitude (atan2 s c).
Proof.
  intros s c E C. destruct (unit_atan2 s c E) as [A B]. pose proof (atan2_range s c) as R. pose proof PI_RGT_0.
  unfold latitude. split.
  - destruct (Rle_or_lt (- PI / 2) (atan2 s c)) as [L|L]; [exact L|]. exfalso.
    assert (cos (- atan2 s c) < 0) by (apply cos_lt_0; lra). rewrite cos_neg in H0. lra.
  - destruct (Rle_or_lt (atan2 s c) (PI / 2)) as [L|L]; [exact L|]. exfalso.
    assert (cos (atan2 s c) < 0) by (apply cos_lt_0; lra). lra.
Qed.
Lemma sqrt_zero : forall x, 0 <= x -> sqrt x = 0 -> x = 0.
Proof. intros x H E. apply sqrt_eq_0; auto. Qed.
Lemma from_xyz_ok : forall x y z, x * x + y * y + z * z <> 0 ->
  exists c, from_xyz x y z = Ok c /\ latitude (cdec c) /\ 0 <= cra c < 2 * PI
            /\ (x, y, z) = v3scale (sqrt (x * x + y * y + z * z)) (sky (cra c) (cdec c)).
Proof.
  intros x y z H. pose proof (dot_pos (x, y, z)) as P. cbv [v3dot] in P.
  set (n := sqrt (x * x + y * y + z * z)).
  assert (N : 0 < n) by (apply sqrt_lt_R0; lra).
  assert (NN : n * n = x * x + y * y + z * z) by (apply sqrt_sqrt; lra).
  unfold from_xyz. fold n. destruct (Reqb_spec n 0) as [e|e]; [lra|]. clear e.
  set (x' := x / n). set (y' := y / n). set (z' := z / n).
  assert (U : x' * x' + y' * y' + z' * z' = 1).
  { unfold x', y', z'. transitivity ((x * x + y * y + z * z) / (n * n)); [field; lra|]. rewrite NN. field. lra. }
  pose proof (sq2_pos x' y') as S2.
  set (cd := sqrt (x' * x' + y' * y')).
  assert (CD : cd * cd = x' * x' + y' * y') by (apply sqrt_sqrt; exact S2).
  assert (CD0 : 0 <= cd) by apply sqrt_pos.
  set (sr := if Reqb cd 0 then 0 else y' / cd). set (cr := if Reqb cd 0 then 1 else x' / cd).
  assert (SR : sr * sr + cr * cr = 1 /\ cd * sr = y' /\ cd * cr = x').
  { unfold sr, cr. destruct (Reqb_spec cd 0) as [e|e].
    - rewrite e in CD. assert (x' * x' = 0 /\ y' * y' = 0) as [X Y].
      { pose proof (Rle_0_sqr x'). pose proof (Rle_0_sqr y'). unfold Rsqr in *. lra. }
      assert (x' = 0) by (apply Rsqr_0_uniq; exact X). assert (y' = 0) by (apply Rsqr_0_uniq; exact Y). lra.
    - repeat split; try (field; lra). transitivity ((x' * x' + y' * y') / (cd * cd)); [field; lra|]. rewrite <- CD. field. lra. }
  destruct SR as [SR [SY SX]].
  eexists. split; [reflexivity|]. cbn [cra cdec].
  assert (DL : z' * z' + cd * cd = 1) by lra.
  split; [apply atan2_lat; auto|].
  destruct (wrap_ok (atan2 sr cr) (Some PI)) as [W1 W2]. unfold centre in W2.
  split; [lra|].
  destruct (cos_sin_period _ _ W1) as [W3 W4]. destruct (unit_atan2 _ _ SR) as [A B]. destruct (unit_atan2 _ _ DL) as [A' B'].
  unfold sky. rewrite W3, W4, A, B, A', B', SX, SY. unfold v3scale, x', y', z'. repeat f_equal; field; lra.
Qed.
Lemma from_xyz_unit : forall p, v3dot p p = 1 ->
  exists c, (let '(x, y, z) := p in from_xyz x y z) = Ok c /\ latitude (cdec c) /\ 0 <= cra c < 2 * PI /\ sky (cra c) (cdec c) = p.
Proof.
  intros [[x y] z] U. cbv [v3dot] in U. destruct (from_xyz_ok x y z) as [c [A [B [C D]]]]; [lra|].
  exists c. split; [exact A|]. split; [exact B|]. split; [exact C|]. rewrite U, sqrt_1 in D. symmetry. refine (eq_trans D _). destruct (sky (cra c) (cdec c)) as [[a b] e].
  cbv [v3scale]. repeat f_equal; ring.
Qed.
Lemma xyz_sky : forall c, get_xyz c = sky (cra c) (cdec c).
Proof. reflexivity. Qed.

(** * Distances *)
Definition dpt (a : aux) : v3 := (ax a, ay a, az a).
Lemma dpt_sky : forall c, dpt (get_aux c) = sky (cra c) (cdec c).
Proof. reflexivity. Qed.
Lemma dsq_dot : forall a b, v3dot (dpt a) (dpt a) = 1 -> v3dot (dpt b) (dpt b) = 1 ->
  raw_dsq a b = 2 - 2 * v3dot (dpt a) (dpt b).
Proof. intros a b A B. cbv [v3dot dpt] in *. unfold raw_dsq. lra. Qed.
Lemma near_ok : forall a b, v3dot (dpt a) (dpt a) = 1 -> v3dot (dpt b) (dpt b) = 1 -> angle_of (dpt a) (dpt b) (dist_near a b).
Proof.
  intros a b A B. unfold dist_near. rewrite (dsq_dot a b A B). pose proof (unit_dot _ _ A B) as H.
  set (D := v3dot (dpt a) (dpt b)) in *. pose proof (acos_bound D) as T. pose proof (cos_acos D H) as E. set (t := acos D) in *.
  assert (S : / 2 * sqrt (2 - 2 * D) = sin (t / 2)).
  { rewrite <- E. replace t with (2 * (t / 2)) at 1 by field. rewrite cos_2a_sin.
    replace (2 - 2 * (1 - 2 * sin (t / 2) * sin (t / 2))) with (Rsqr (2 * sin (t / 2))) by (unfold Rsqr; ring).
    rewrite sqrt_Rsqr; [field|]. assert (0 <= sin (t / 2)) by (apply sin_ge_0; lra). lra. }
  rewrite S, asin_sin by lra. replace (2 * (t / 2)) with t by field. split; auto.
Qed.
Lemma far_ok : forall a b, v3dot (dpt a) (dpt a) = 1 -> v3dot (dpt b) (dpt b) = 1 -> v3dot (dpt a) (dpt b) <= 0 ->
  angle_of (dpt a) (dpt b) (dist_far a b).
Proof.
  intros a b A B N. unfold dist_far, raw_cross. pose proof (unit_dot _ _ A B) as H.
  set (D := v3dot (dpt a) (dpt b)) in *.
  match goal with |- context [sqrt ?x] => replace x with (1 - D * D) end.
  2:{ unfold D. rewrite <- (Rmult_1_l 1), <- A at 1. rewrite <- B at 1. cbv [v3dot dpt]. ring. }
  pose proof (acos_bound D) as T. pose proof (cos_acos D H) as E. set (t := acos D) in *.
  assert (HT : PI / 2 <= t).
  { destruct (Rle_or_lt (PI / 2) t) as [L|L]; [exact L|]. exfalso. assert (0 < cos t) by (apply cos_gt_0; lra). lra. }
  assert (S : sqrt (1 - D * D) = sin (PI - t)).
  { rewrite <- E. replace (1 - cos t * cos t) with (Rsqr (sin t)) by (unfold Rsqr; pose proof (sc t); lra).
    rewrite sqrt_Rsqr by (apply sin_ge_0; lra). rewrite sin_minus, sin_PI, cos_PI. ring. }
  rewrite S, asin_sin by lra. replace (PI - (PI - t)) with t by ring. split; auto.
Qed.
Lemma angle_unique : forall p q t t', angle_of p q t -> angle_of p q t' -> t = t'.
Proof. intros p q t t' [A B] [C D]. apply cos_inj; auto; lra. Qed.
Lemma distance_ok : forall c1 c2, angle_of (sky (cra c1) (cdec c1)) (sky (cra c2) (cdec c2)) (distanceTo c1 c2).
Proof.
  intros. pose proof (sky_unit (cra c1) (cdec c1)) as A. pose proof (sky_unit (cra c2) (cdec c2)) as B.
  rewrite <- dpt_sky in *. rewrite <- dpt_sky in *. unfold distanceTo.
  destruct (Rltb_spec (raw_dsq (get_aux c1) (get_aux c2)) 3.99) as [L|L].
  - apply near_ok; auto.
  - apply far_ok; auto. rewrite dsq_dot in L by auto. lra.
Qed.
(** triangle inequality for angles *)
Lemma gram : forall p q w, v3dot p p = 1 -> v3dot q q = 1 -> v3dot w w = 1 ->
  (v3dot p w - v3dot p q * v3dot q w) ^ 2 <= (1 - v3dot p q * v3dot p q) * (1 - v3dot q w * v3dot q w).
Proof.
  intros p q w P Q W. pose proof (cauchy (perp q p) (perp q w)) as H.
  unfold perp in H. rewrite !dot_add, !dot_scale, !(dot_sym _ (v3add _ _)), !dot_add, !dot_scale in H.
  rewrite P, Q, W, (dot_sym q p), (dot_sym w q), (dot_sym w p) in H.
  match goal with |- ?l <= ?r => match type of H with ?l' <= ?r' => replace l with l' by ring; replace r with r' by ring; exact H end end.
Qed.
Lemma angle_triangle : forall p q w a b c, v3dot p p = 1 -> v3dot q q = 1 -> v3dot w w = 1 ->
  angle_of p q a -> angle_of q w b -> angle_of p w c -> c <= a + b.
Proof.
  intros p q w a b c P Q W [A EA] [B EB] [C EC].
  destruct (Rle_or_lt PI (a + b)) as [L|L]; [lra|].
  destruct (Rle_or_lt c (a + b)) as [G|G]; [exact G|]. exfalso.
  assert (H : cos c < cos (a + b)) by (apply cos_decreasing_1; lra).
  pose proof (gram p q w P Q W) as K. rewrite <- EA, <- EB, <- EC in K.
  assert (SA : 0 <= sin a) by (apply sin_ge_0; lra). assert (SB : 0 <= sin b) by (apply sin_ge_0; lra).
  pose proof (sc a) as CA. pose proof (sc b) as CB.
  replace ((1 - cos a * cos a) * (1 - cos b * cos b)) with ((sin a * sin b) * (sin a * sin b)) in K.
  2:{ replace (1 - cos a * cos a) with (sin a * sin a) by lra. replace (1 - cos b * cos b) with (sin b * sin b) by lra. ring. }
  rewrite cos_plus in H. set (s := sin a * sin b) in *. set (k := cos a * cos b) in *.
  assert (S0 : 0 <= s) by (apply Rmult_le_pos; auto).
  assert (s * s < (k - cos c) * (k - cos c)) by (apply Rmult_le_0_lt_compat; lra). lra.
Qed.
