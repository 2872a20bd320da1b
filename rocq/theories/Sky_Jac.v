(** jac_deproject is the derivative of deproject. *)
From Coq Require Import Reals Bool Lra.
From Coquelicot Require Import Coquelicot.
From Verif Require Import Base Bounds_Model Bounds_Proofs Geo_Model Geo_Proofs Angle_Model Sky_Model Sky_Spec Sky_Proofs Sky_Proj.
Open Scope R_scope.

(** sin x / x near zero *)
Lemma cos_ge : forall x, 1 - x * x / 2 <= cos x.
Proof.
  assert (S : forall y, sin y * sin y <= y * y).
  { assert (P : forall y, 0 <= y -> sin y * sin y <= y * y).
    { intros y H. destruct (Req_dec y 0) as [->|N]; [rewrite sin_0; lra|].
      pose proof (sin_lt_x y ltac:(lra)) as L. pose proof (SIN_bound y) as [B1 B2].
      destruct (Rle_or_lt 0 (sin y)) as [G|G].
      - apply Rmult_le_compat; lra.
      - destruct (Rle_or_lt y PI) as [Q|Q]; [pose proof (sin_ge_0 y H Q); lra|].
        pose proof PI2_3_2. pose proof (Rmult_le_compat 1 y 1 y). assert (1 <= y) by lra.
        assert (1 * 1 <= y * y) by (apply Rmult_le_compat; lra).
        assert (- sin y * - sin y <= 1 * 1) by (apply Rmult_le_compat; lra). lra. }
    intro y. destruct (Rle_or_lt 0 y) as [G|G]; [apply P, G|].
    pose proof (P (- y) ltac:(lra)) as H. rewrite sin_neg in H. lra. }
  intro x. pose proof (S (x / 2)) as H. replace (cos x) with (cos (2 * (x / 2))) by (f_equal; field). rewrite cos_2a_sin. lra.
Qed.
Lemma sin_ge_xcos : forall x, 0 <= x <= PI -> x * cos x <= sin x.
Proof.
  intros x H. destruct (Req_dec x 0) as [->|N]; [rewrite sin_0; lra|].
  destruct (MVT_gen (fun t => sin t - t * cos t) 0 x (fun t => t * sin t)) as [c [R E]].
  - intros t T. auto_derive; [trivial|]. ring.
  - intros t T. apply derivable_continuous_pt. exists (t * sin t). apply is_derive_Reals. auto_derive; [trivial | ring].
  - rewrite Rmin_left, Rmax_right in R by lra. rewrite sin_0 in E.
    assert (0 <= c * sin c * (x - 0)).
    { apply Rmult_le_pos; [|lra]. apply Rmult_le_pos; [lra|]. apply sin_ge_0; lra. }
    lra.
Qed.
Lemma sinc_near : forall x, 0 < x <= PI -> Rabs (sin x / x - 1) <= x * x / 2.
Proof.
  intros x H. pose proof (sin_lt_x x ltac:(lra)) as L. pose proof (sin_ge_xcos x ltac:(lra)) as G. pose proof (cos_ge x) as C.
  assert (U : sin x / x <= 1) by (apply (Rmult_le_reg_r x); [lra|]; unfold Rdiv; rewrite Rmult_assoc, Rinv_l by lra; lra).
  assert (D : cos x <= sin x / x) by (apply (Rmult_le_reg_r x); [lra|]; unfold Rdiv; rewrite Rmult_assoc, Rinv_l by lra; lra).
  rewrite Rabs_left1 by lra. lra.
Qed.

(** * The two radial factors *)
Definition csf (p : proj) (v t : R) : R := fst (deproj_cs p (t * t + v * v)).
Definition csg (p : proj) (v t : R) : R := snd (deproj_cs p (t * t + v * v)).
Lemma jac_cs_val : forall p u v, j_c (jac_cs p u v) = csf p v u /\ j_s (jac_cs p u v) = csg p v u
  /\ j_dcdv (jac_cs p u v) = j_dcdu (jac_cs p v u) /\ j_dsdv (jac_cs p u v) = j_dsdu (jac_cs p v u)
  /\ csf p v u = csf p u v /\ csg p v u = csg p u v.
Proof.
  intros p u v. unfold csf, csg. rewrite (Rplus_comm (v * v) (u * u)).
  assert (P : forall x, 0 <= x -> sinc (sqrt x / PI) = if Reqb (sqrt x) 0 then 1 else sin (sqrt x) / sqrt x)
    by (intros; apply sinc_over, sqrt_pos).
  destruct p; unfold jac_cs; rewrite ?(Rplus_comm (v * v) (u * u)); cbn [j_c j_s j_dcdv j_dcdu j_dsdv j_dsdu deproj_cs fst snd]; repeat split; try reflexivity.
  - pose proof (sq2_pos u v). field. lra.
  - destruct (Reqb_spec (sqrt (u * u + v * v)) 0) as [e|e]; [rewrite e, cos_0|]; reflexivity.
  - symmetry. apply P, sq2_pos.
Qed.

(** derivative of the factors along the first variable *)
Lemma postel_zero : forall g, (forall t, g t = csg Postel 0 t) -> is_derive g 0 0.
Proof.
  intros g E. apply is_derive_Reals. intros eps He. pose proof PI2_3_2 as P3.
  assert (HD : 0 < Rmin eps 1) by (apply Rmin_pos; lra).
  exists (mkposreal _ HD). intros h Hh Hl. cbn in Hl.
  assert (L1 : Rabs h < eps) by (eapply Rlt_le_trans; [exact Hl | apply Rmin_l]).
  assert (L2 : Rabs h < 1) by (eapply Rlt_le_trans; [exact Hl | apply Rmin_r]).
  rewrite !E. unfold csg. cbn [deproj_cs snd].
  replace ((0 + h) * (0 + h) + 0 * 0) with (Rsqr h) by (unfold Rsqr; ring). replace (0 * 0 + 0 * 0) with 0 by ring.
  rewrite sqrt_Rsqr_abs, sqrt_0, (sinc_over (Rabs h)) by apply Rabs_pos. rewrite (sinc_over 0) by lra.
  destruct (Reqb_spec 0 0) as [_|n]; [|lra]. destruct (Reqb_spec (Rabs h) 0) as [e|_]; [apply Rabs_eq_0 in e; contradiction|].
  assert (HP : 0 < Rabs h) by (apply Rabs_pos_lt; exact Hh).
  pose proof (sinc_near (Rabs h) ltac:(lra)) as S.
  set (k := sin (Rabs h) / Rabs h - 1) in *. replace (k / h - 0) with (k * / h) by (unfold Rdiv; ring).
  rewrite Rabs_mult, Rabs_inv. apply (Rmult_lt_reg_r (Rabs h)); [exact HP|]. rewrite Rmult_assoc, Rinv_l by lra.
  assert (Rabs h * Rabs h < eps * Rabs h) by (apply Rmult_lt_compat_r; lra).
  assert (0 < Rabs h * Rabs h) by (apply Rmult_lt_0_compat; lra). lra.
Qed.
Lemma cs_derive : forall p u v, plane_ok p (u * u + v * v) ->
  is_derive (csf p v) u (j_dcdu (jac_cs p u v)) /\ is_derive (csg p v) u (j_dsdu (jac_cs p u v)).
Proof.
  intros p u v H. pose proof (sq2_pos u v) as R0. destruct p; cbn [plane_ok] in H.
  - assert (D : is_derive (fun t => 1 / sqrt (1 + (t * t + v * v))) u (j_dcdu (jac_cs Gnomonic u v))).
    { cbn [jac_cs j_dcdu]. auto_derive.
      - split; [lra|]. split; [|trivial]. apply Rgt_not_eq, sqrt_lt_R0. lra.
      - assert (Q : 0 < 1 + (u * u + v * v)) by lra. pose proof (sqrt_lt_R0 _ Q) as S.
        set (q := sqrt (1 + (u * u + v * v))) in *. field. lra. }
    split; exact D.
  - split; unfold csf, csg; cbn [deproj_cs fst snd jac_cs j_dcdu j_dsdu].
    + auto_derive; [lra|]. field. lra.
    + auto_derive; [lra|]. field. lra.
  - split; unfold csf, csg; cbn [deproj_cs fst snd jac_cs j_dcdu j_dsdu].
    + auto_derive; [trivial|]. field.
    + auto_derive; [lra|]. assert (Q : 0 < 4 - (u * u + v * v)) by lra. pose proof (sqrt_lt_R0 _ Q) as S.
      change (4 + - (u * u + v * v)) with (4 - (u * u + v * v)). set (q := sqrt (4 - (u * u + v * v))) in *. field. lra.
  - destruct (Req_dec (u * u + v * v) 0) as [Z|Z].
    + assert (U0 : u = 0 /\ v = 0).
      { pose proof (Rle_0_sqr u). pose proof (Rle_0_sqr v). unfold Rsqr in *. split; apply Rsqr_0_uniq; unfold Rsqr; lra. }
      destruct U0 as [-> ->]. unfold jac_cs. cbn [j_dcdu j_dsdu]. rewrite Z, sqrt_0. destruct (Reqb_spec 0 0) as [_|n]; [|lra].
      split.
      * apply (is_derive_ext cos).
        { intro t. unfold csf. cbn [deproj_cs fst]. replace (t * t + 0 * 0) with (Rsqr t) by (unfold Rsqr; ring).
          rewrite sqrt_Rsqr_abs. unfold Rabs. destruct (Rcase_abs t); [symmetry; apply cos_neg | reflexivity]. }
        auto_derive; [trivial|]. rewrite sin_0. ring.
      * apply postel_zero. reflexivity.
    + assert (RP : 0 < u * u + v * v) by lra. pose proof (sqrt_lt_R0 _ RP) as S. pose proof (sqrt_sqrt _ R0) as SS.
      unfold jac_cs. cbn [j_dcdu j_dsdu]. destruct (Reqb_spec (sqrt (u * u + v * v)) 0) as [e|_]; [lra|].
      assert (CT : continuous (fun t => t * t + v * v) u) by (apply (ex_derive_continuous (fun t => t * t + v * v)); auto_derive; trivial).
      assert (LP : locally u (fun t => 0 < t * t + v * v)) by (apply (CT (fun y => 0 < y)); apply (open_gt 0); exact RP).
      split.
      * unfold csf. cbn [deproj_cs fst]. auto_derive; [exact RP|].
        set (q := sqrt (u * u + v * v)) in *. field. lra.
      * apply (is_derive_ext_loc (fun t => sin (sqrt (t * t + v * v)) / sqrt (t * t + v * v))).
        { revert LP. apply filter_imp. intros t T. unfold csg. cbn [deproj_cs snd]. pose proof (sqrt_lt_R0 _ T).
          rewrite sinc_over by lra. destruct (Reqb_spec (sqrt (t * t + v * v)) 0) as [e|_]; [lra | reflexivity]. }
        auto_derive; [repeat split; try exact RP; lra|].
        set (q := sqrt (u * u + v * v)) in *. rewrite <- SS. field. lra.
Qed.

(** * The image point *)
Definition comb (c : coord) (x a b : R) : v3 := v3add (v3scale x (cT c)) (v3add (v3scale (- a) (cE c)) (v3scale b (cN c))).
Lemma plane_open : forall p u v, plane_ok p (u * u + v * v) -> locally u (fun t => plane_ok p (t * t + v * v)).
Proof.
  intros p u v H.
  assert (CT : continuous (fun t => t * t + v * v) u) by (apply (ex_derive_continuous (fun t => t * t + v * v)); auto_derive; trivial).
  destruct p; cbn [plane_ok] in *.
  - apply filter_forall. trivial.
  - apply filter_forall. trivial.
  - apply (CT (fun y => y < 4)). apply (open_lt 4). exact H.
  - apply (CT (fun y => y < PI * PI)). apply (open_lt (PI * PI)). exact H.
Qed.
Lemma sky_comb : forall c p u v, plane_ok p (u * u + v * v) ->
  let '(ra, dec) := deproject_ c p u v in sky ra dec = comb c (csf p v u) (u * csg p v u) (v * csg p v u) /\ latitude dec.
Proof.
  intros c p u v H. pose proof (cs_unit p (u * u + v * v) (sq2_pos u v) H) as K. pose proof (deproject_frame c p u v) as D.
  unfold csf, csg. destruct (deproj_cs p (u * u + v * v)) as [k s]. destruct K as [K1 _]. specialize (D K1).
  destruct (deproject_ c p u v) as [ra dec]. destruct D as [L D]. cbn [fst snd]. split; [exact D | exact L].
Qed.
(** a velocity of the point in terms of the tangents there *)
Lemma velocity : forall c x a b dx da db ra dec,
  sky ra dec = comb c x a b -> latitude dec -> cos dec <> 0 -> x * dx + a * da + b * db = 0 ->
  let s0 := sin (cdec c) in let c0 := cos (cdec c) in
  let z := x * s0 + b * c0 in let den := x * c0 - b * s0 in
  let cosdec := sqrt (1 - z * z) in
  cosdec = cos dec /\
  comb c dx da db = v3add (v3scale (- ((da * den - a * (dx * c0 - db * s0)) / (den ^ 2 + a ^ 2) * cosdec)) (east ra))
                          (v3scale ((s0 * dx + db * c0) / cosdec) (north ra dec)).
Proof.
  intros c x a b dx da db ra dec E L NC O s0 c0 z den cosdec.
  pose proof (sc (cdec c)) as S0. fold s0 c0 in S0. pose proof (sc (cra c)) as SR.
  assert (Z : sin dec = z).
  { unfold sky, comb, cT, cE, cN, sky, east, north in E. cbv [v3add v3scale] in E. injection E as _ _ E3.
    rewrite E3. unfold z, s0, c0. ring. }
  pose proof (sc dec) as SD. pose proof (cos_lat dec L) as CP.
  assert (CD : cosdec = cos dec).
  { unfold cosdec. rewrite <- Z. replace (1 - sin dec * sin dec) with (cos dec * cos dec) by lra. apply sqrt_square, CP. }
  split; [exact CD|]. rewrite CD.
  destruct (comb_norm (cra c) (cdec c) dx (- da) db) as [DT [DE [DN _]]]. cbv zeta in DT, DE, DN.
  fold (cT c) (cE c) (cN c) in DT, DE, DN. fold (comb c dx da db) in DT, DE, DN. set (V := comb c dx da db) in *.
  (* perpendicular to the point *)
  assert (VP : v3dot V (sky ra dec) = 0).
  { rewrite E. unfold comb at 1. rewrite dot_sym, !dot_add, !dot_scale, ?(dot_sym _ V), DT, DE, DN. lra. }
  (* east part *)
  assert (PE : v3scale (cos dec) (east ra) = v3add (v3scale (c0 * a) (cT c)) (v3add (v3scale den (cE c)) (v3scale (- (s0 * a)) (cN c)))).
  { assert (Q : v3scale (cos dec) (east ra) = (- snd (fst (sky ra dec)), fst (fst (sky ra dec)), 0)).
    { cbv [v3scale east sky fst snd]. apply f_equal2; [apply f_equal2|]; ring. }
    rewrite Q, E. unfold comb, cT, cE, cN. cbv [v3add v3scale sky east north fst snd]. fold s0 c0.
    apply f_equal2; [apply f_equal2|].
    - unfold den. transitivity (a * cos (cra c) * (s0 * s0 + c0 * c0) - (x * c0 - b * s0) * sin (cra c)); [rewrite S0; ring | ring].
    - unfold den. transitivity (a * sin (cra c) * (s0 * s0 + c0 * c0) + (x * c0 - b * s0) * cos (cra c)); [rewrite S0; ring | ring].
    - ring. }
  assert (VE : cos dec * v3dot V (east ra) = - (da * den - a * (dx * c0 - db * s0))).
  { transitivity (v3dot (v3scale (cos dec) (east ra)) V); [rewrite dot_scale, dot_sym; reflexivity|].
    rewrite PE, !dot_add, !dot_scale, ?(dot_sym _ V), DT, DE, DN. ring. }
  assert (A2 : den ^ 2 + a ^ 2 = cos dec * cos dec).
  { pose proof (sky_unit ra dec) as U. pose proof E as E'. 
    destruct (comb_norm (cra c) (cdec c) x (- a) b) as [_ [_ [_ N]]]. cbv zeta in N. fold (cT c) (cE c) (cN c) in N.
    fold (comb c x a b) in N. rewrite <- E, U in N.
    replace (cos dec * cos dec) with (1 - z * z) by (rewrite <- Z; lra). rewrite N. unfold den, z.
    transitivity ((x * x + b * b) * (s0 * s0 + c0 * c0) - (x * s0 + b * c0) * (x * s0 + b * c0) + a * a); [ring|]. rewrite S0. ring. }
  (* north part *)
  assert (PN : v3scale (cos dec) (north ra dec) = v3add (v3add (v3scale s0 (cT c)) (v3scale c0 (cN c))) (v3scale (- z) (sky ra dec))).
  { assert (ZZ : v3add (v3scale s0 (cT c)) (v3scale c0 (cN c)) = (0, 0, 1)).
    { unfold cT, cN. cbv [v3add v3scale sky north]. fold s0 c0. apply f_equal2; [apply f_equal2|]; lra. }
    rewrite ZZ, <- Z. cbv [v3add v3scale sky north]. apply f_equal2; [apply f_equal2|]; try ring. lra. }
  assert (VN : cos dec * v3dot V (north ra dec) = s0 * dx + db * c0).
  { transitivity (v3dot (v3scale (cos dec) (north ra dec)) V); [rewrite dot_scale, dot_sym; reflexivity|].
    rewrite PN, !dot_add, !dot_scale, ?(dot_sym _ V), DT, DN, VP. ring. }
  rewrite (frame ra dec V), VP.
  assert (VE' : v3dot V (east ra) = - ((da * den - a * (dx * c0 - db * s0)) / (den ^ 2 + a ^ 2) * cos dec)).
  { rewrite A2. apply (Rmult_eq_reg_l (cos dec)); [|exact NC]. rewrite VE. field. exact NC. }
  assert (VN' : v3dot V (north ra dec) = (s0 * dx + db * c0) / cos dec).
  { apply (Rmult_eq_reg_l (cos dec)); [|exact NC]. rewrite VN. field. exact NC. }
  rewrite <- VE', <- VN'. destruct (v3scale (v3dot V (east ra)) (east ra)) as [[e1 e2] e3], (v3scale (v3dot V (north ra dec)) (north ra dec)) as [[n1 n2] n3].
  cbv [v3add v3scale sky]. apply f_equal2; [apply f_equal2|]; ring.
Qed.
Lemma cs_orth : forall p u v, plane_ok p (u * u + v * v) -> let j := jac_cs p u v in
  j_c j * j_dcdu j + u * j_s j * (j_s j + u * j_dsdu j) + v * j_s j * (v * j_dsdu j) = 0.
Proof.
  intros p u v H j. pose proof (cs_unit p (u * u + v * v) (sq2_pos u v) H) as K. pose proof (sq2_pos u v) as R0.
  unfold j. destruct p; cbn [plane_ok deproj_cs] in *; unfold jac_cs; cbn [j_c j_s j_dcdu j_dsdu]; cbv zeta in *; destruct K as [K [K2 _]].
  - set (s := 1 / sqrt (1 + (u * u + v * v))) in *. transitivity (u * (s * s) * (1 - (s * s + s * s * (u * u + v * v)))); [ring | rewrite K; ring].
  - field. lra.
  - pose proof (sqrt_sqrt (4 - (u * u + v * v)) ltac:(lra)) as SS. set (q := sqrt (4 - (u * u + v * v))) in *.
    transitivity (u * (-1 + (u * u + v * v) / 4 + (q * q) / 4)); [field; lra | rewrite SS; field].
  - destruct (Reqb_spec (sqrt (u * u + v * v)) 0) as [e|e].
    + apply sqrt_zero in e; [|exact R0].
      assert (u = 0) by (pose proof (Rle_0_sqr u); pose proof (Rle_0_sqr v); unfold Rsqr in *; apply Rsqr_0_uniq; unfold Rsqr; lra). subst u. ring.
    + assert (NZ : u * u + v * v <> 0) by (intro Z; apply e; rewrite Z; apply sqrt_0). field. split; assumption.
Qed.
Lemma derive_dot : forall (x a b : R -> R) t dx da db w1 w2 w3,
  is_derive x t dx -> is_derive a t da -> is_derive b t db ->
  is_derive (fun s => w1 * x s + w2 * a s + w3 * b s) t (w1 * dx + w2 * da + w3 * db).
Proof.
  intros x a b t dx da db w1 w2 w3 X A B.
  assert (S : forall f d w, is_derive f t d -> is_derive (fun s => w * f s) t (w * d)).
  { intros f d w D. apply (is_derive_scal f t w d D). }
  apply (is_derive_plus (fun s => w1 * x s + w2 * a s) (fun s => w3 * b s)); [|apply S, B].
  apply (is_derive_plus (fun s => w1 * x s) (fun s => w2 * a s)); apply S; assumption.
Qed.
Lemma dot_comb : forall w c x a b, v3dot w (comb c x a b) = v3dot w (cT c) * x + (- v3dot w (cE c)) * a + v3dot w (cN c) * b.
Proof. intros. unfold comb. rewrite dot_sym, !dot_add, !dot_scale, !(dot_sym _ w). ring. Qed.
Lemma derive_mul_id : forall (g : R -> R) t d, is_derive g t d -> is_derive (fun s => s * g s) t (g t + t * d).
Proof.
  intros g t d D. pose proof (is_derive_mult (fun s => s) g t 1 d (is_derive_id t) D Rmult_comm) as M.
  replace (g t + t * d) with (plus (mult 1 (g t)) (mult t d)); [exact M|]. unfold plus, mult; cbn. ring.
Qed.
Theorem jac_is_derivative : forall c p u v, plane_ok p (u * u + v * v) -> cos (snd (deproject_ c p u v)) <> 0 ->
  let J := jac_deproject_ c p u v in
  moves (fun t => deproject_ c p t v) u (- m00 J) (m10 J) /\ moves (fun t => deproject_ c p u t) v (- m01 J) (m11 J).
Proof.
  intros c p u v H NC J. unfold moves.
  destruct (jac_cs_val p u v) as [JC [JS [DCV [DSV [FS GS]]]]].
  pose proof (sky_comb c p u v H) as P. destruct (deproject_ c p u v) as [ra dec] eqn:DE. cbn [snd] in NC. destruct P as [P L].
  assert (H' : plane_ok p (v * v + u * u)) by (rewrite Rplus_comm; exact H).
  destruct (cs_derive p u v H) as [CU SU]. destruct (cs_derive p v u H') as [CV SV]. rewrite <- DCV in CV. rewrite <- DSV in SV.
  pose proof (cs_orth p u v H) as OU. pose proof (cs_orth p v u H') as OV. cbv zeta in OU, OV.
  destruct (jac_cs_val p v u) as [JC' [JS' _]].
  rewrite JC, JS in OU. rewrite JC', JS', <- DCV, <- DSV, <- FS, <- GS in OV.
  split; intro w; apply is_derive_Reals.
  - destruct (velocity c (csf p v u) (u * csg p v u) (v * csg p v u) (j_dcdu (jac_cs p u v)) (csg p v u + u * j_dsdu (jac_cs p u v))
      (v * j_dsdu (jac_cs p u v)) ra dec P L NC) as [_ V]; [lra|].
    match goal with |- is_derive _ _ (v3dot w ?x) => replace x with (comb c (j_dcdu (jac_cs p u v)) (csg p v u + u * j_dsdu (jac_cs p u v)) (v * j_dsdu (jac_cs p u v))) end.
    2:{ rewrite V. unfold J, jac_deproject_. cbn [m00 m10 get_aux a_sindec a_cosdec]. rewrite JC, JS.
        replace (csf p v u * sin (cdec c) + v * csg p v u * cos (cdec c)) with (csf p v u * sin (cdec c) + (v * csg p v u) * cos (cdec c)) by ring.
        f_equal; f_equal; f_equal; repeat (first [reflexivity | ring | f_equal]). }
    rewrite dot_comb.
    apply (is_derive_ext_loc (fun t => v3dot w (cT c) * csf p v t + (- v3dot w (cE c)) * (t * csg p v t) + v3dot w (cN c) * (v * csg p v t))).
    { generalize (plane_open p u v H). apply filter_imp. intros t T. pose proof (sky_comb c p t v T) as Q.
      destruct (deproject_ c p t v) as [ra' dec']. destruct Q as [Q _]. cbn [fst snd]. rewrite Q, dot_comb. reflexivity. }
    apply derive_dot; [exact CU | apply derive_mul_id, SU | apply is_derive_scal, SU].
  - destruct (velocity c (csf p v u) (u * csg p v u) (v * csg p v u) (j_dcdv (jac_cs p u v)) (u * j_dsdv (jac_cs p u v))
      (csg p v u + v * j_dsdv (jac_cs p u v)) ra dec P L NC) as [_ V]; [lra|].
    match goal with |- is_derive _ _ (v3dot w ?x) => replace x with (comb c (j_dcdv (jac_cs p u v)) (u * j_dsdv (jac_cs p u v)) (csg p v u + v * j_dsdv (jac_cs p u v))) end.
    2:{ rewrite V. unfold J, jac_deproject_. cbn [m01 m11 get_aux a_sindec a_cosdec]. rewrite JC, JS.
        f_equal; f_equal; f_equal; repeat (first [reflexivity | ring | f_equal]). }
    rewrite dot_comb. rewrite GS.
    apply (is_derive_ext_loc (fun t => v3dot w (cT c) * csf p u t + (- v3dot w (cE c)) * (u * csg p u t) + v3dot w (cN c) * (t * csg p u t))).
    { generalize (plane_open p v u H'). apply filter_imp. intros t T.
      assert (T' : plane_ok p (u * u + t * t)) by (rewrite Rplus_comm; exact T). pose proof (sky_comb c p u t T') as Q.
      destruct (jac_cs_val p u t) as [_ [_ [_ [_ [F1 G1]]]]].
      destruct (deproject_ c p u t) as [ra' dec']. destruct Q as [Q _]. cbn [fst snd]. rewrite Q, dot_comb, F1, G1. reflexivity. }
    apply derive_dot; [exact CV | apply is_derive_scal, SV | apply derive_mul_id, SV].
Qed.
