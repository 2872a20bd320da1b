From Coq Require Import ZArith Reals Bool String List Lra Lia Psatz.
From Coquelicot Require Import Complex.
From Verif Require Import Base Bounds_Model Bounds_Proofs Geo_Model Geo_Proofs Shear_Model Shear_Spec Shear_Proofs Shear_Conv
  Prof_Model Prof_Spec Prof_Proofs WCS_Model WCS_Spec.
Import ListNotations.
Open Scope R_scope.

(** * The linear part *)
Lemma gsq_sn : forall g : C, gsq g = Re g * Re g + Im g * Im g.
Proof. intros. unfold gsq. ring. Qed.
Lemma sn_neg : forall a b, sn (- a) (- b) = sn a b.
Proof. intros. unfold sn. f_equal. ring. Qed.
Lemma gfactor_sn : forall a b : R, gfactor (a, b) = / sn a b.
Proof. intros a b. unfold gfactor, gsq, sn. cbn [Re Im fst snd]. unfold Rdiv. rewrite Rmult_1_l. do 2 f_equal. ring. Qed.
Lemma disc_sn : forall a b, Cmod (a, b) < 1 -> 0 < sn a b.
Proof. intros a b H. apply sn_pos. apply Cmod_lt_1; auto. Qed.

Lemma linear_jac : forall l, regular_l l -> l_jac l = linear l.
Proof.
  intros [s|s [a b]|m] H; cbn in H; unfold l_jac, linear.
  - vring.
  - destruct H as [H1 H2]. pose proof (disc_sn a b H2). unfold sh_neg, Copp. cbn [fst snd].
    rewrite getMatrix_coord, sn_neg, gfactor_sn. unfold mscale. cbn [Re Im fst snd m00 m01 m10 m11].
    apply mat_eq; unfold Rdiv; ring.
  - reflexivity.
Qed.
Lemma linear_det : forall l, regular_l l -> mdet (linear l) <> 0 /\ Rabs (mdet (linear l)) = l_area l.
Proof.
  intros [s|s g|m] H; cbn in H; unfold linear, l_area.
  - assert (E : mdet (mscale mI s) = s ^ 2) by vring. rewrite E. split; [nra|]. apply Rabs_right. nra.
  - destruct H as [H1 H2]. assert (E : mdet (mscale (getMatrix (sh_neg g)) s) = s ^ 2).
    { transitivity (mdet (getMatrix (sh_neg g)) * s ^ 2); [vring|]. rewrite getMatrix_det; [ring|]. unfold sh_neg. rewrite Cmod_opp. auto. }
    rewrite E. split; [nra|]. apply Rabs_right. nra.
  - auto.
Qed.
Lemma l_world : forall l x y, regular_l l -> (l_u l x y, l_v l x y) = mapp (linear l) (x, y).
Proof.
  intros l x y H. rewrite <- linear_jac by auto. destruct l as [s|s g|m]; unfold l_u, l_v, l_jac, mapp; cbn [m00 m01 m10 m11 fst snd];
  apply vec_eq; ring.
Qed.
Lemma l_image : forall l u v, regular_l l -> (l_x l u v, l_y l u v) = mapp (minv (linear l)) (u, v).
Proof.
  intros l u v H. pose proof (linear_det l H) as [D _]. rewrite <- linear_jac in * by auto.
  destruct l as [s|s [a b]|m]; cbn in H; unfold l_x, l_y, l_jac, minv, mapp in *; cbn [m00 m01 m10 m11 fst snd] in *.
  - unfold mdet; cbn [m00 m01 m10 m11]. apply vec_eq; field; auto.
  - destruct H as [H1 H2]. assert (S : 0 < sn a b) by (apply disc_sn; auto).
    assert (Q : sn a b * sn a b = 1 - (a * a + b * b)) by (apply sn_sqr, Cmod_lt_1; auto).
    assert (E : mdet (Mat ((1 - Re (a, b)) * s * gfactor (a, b)) (- Im (a, b) * s * gfactor (a, b)) (- Im (a, b) * s * gfactor (a, b))
               ((1 + Re (a, b)) * s * gfactor (a, b))) = s * s).
    { unfold mdet. cbn [m00 m01 m10 m11 Re Im fst snd]. rewrite gfactor_sn.
      replace ((1 - a) * s * / sn a b * ((1 + a) * s * / sn a b) - - b * s * / sn a b * (- b * s * / sn a b))
        with (s * s * (1 - (a * a + b * b)) * (/ sn a b * / sn a b)) by ring. rewrite <- Q. field. lra. }
    rewrite E. cbn [Re Im fst snd]. rewrite gfactor_sn. apply vec_eq; field; split; auto; lra.
  - apply vec_eq; field; auto.
Qed.

Lemma regular_local : forall w, regular w -> regular_l (local_wcs w).
Proof. intros [l|s o w|s g o w|m o w] H; exact H. Qed.
Lemma linear_part_local : forall w, linear_part w = linear (local_wcs w).
Proof. intros [l|s o w|s g o w|m o w]; reflexivity. Qed.
Lemma origins_eq : forall w, origins w = (origin w, world_origin w).
Proof. intros [l|s o w|s g o w|m o w]; reflexivity. Qed.
Lemma vsub_diag_0 : forall p : vec, vadd p (0, 0) = p.
Proof. intros [x y]. vring. Qed.

Lemma world_meaning : forall w p, regular w -> posToWorld w p = meaning w p.
Proof.
  intros w [x y] H. apply regular_local in H. unfold meaning. rewrite linear_part_local, origins_eq. cbn [fst snd].
  destruct w as [l|s o w|s g o w|m o w]; unfold posToWorld; rewrite l_world by exact H; try reflexivity.
  cbn [origin world_origin local_wcs]. rewrite vsub_0, vsub_diag_0. reflexivity.
Qed.
Lemma image_meaning : forall w p, regular w ->
  posToImage w p = vadd (mapp (minv (linear_part w)) (vsub p (snd (origins w)))) (fst (origins w)).
Proof.
  intros w [x y] H. apply regular_local in H. rewrite linear_part_local, origins_eq. cbn [fst snd].
  destruct w as [l|s o w|s g o w|m o w]; unfold posToImage; rewrite l_image by exact H; try reflexivity.
  cbn [origin world_origin local_wcs]. rewrite vsub_0, vsub_diag_0. reflexivity.
Qed.
Lemma linear_part_det : forall w, regular w -> mdet (linear_part w) <> 0.
Proof. intros w H. rewrite linear_part_local. apply linear_det, regular_local, H. Qed.
Lemma vsub_vadd_id : forall a b : vec, vsub (vadd a b) b = a.
Proof. intros [] []. vring. Qed.
Lemma vadd_vsub_id : forall a b : vec, vadd (vsub a b) b = a.
Proof. intros [] []. vring. Qed.

Lemma round_trips : forall w p, regular w ->
  posToImage w (posToWorld w p) = p /\ posToWorld w (posToImage w p) = p.
Proof.
  intros w p H. pose proof (linear_part_det w H) as D. rewrite !world_meaning, !image_meaning by auto. unfold meaning.
  rewrite !vsub_vadd_id, minv_l, minv_r by auto. rewrite !vadd_vsub_id. auto.
Qed.
Lemma xy_uv : forall w x y, xyTouv w x y = posToWorld w (x, y) /\ uvToxy w x y = posToImage w (x, y).
Proof. intros [l|s o w|s g o w|m o w] x y; split; reflexivity. Qed.

Lemma inverse_linear : forall l, regular_l l -> regular_l (l_inverse l) /\ linear (l_inverse l) = minv (linear l).
Proof.
  intros [s|s g|m] H; cbn in H.
  - split; [cbn; intros E; apply (Rinv_neq_0_compat s H); unfold Rdiv in E; lra|]. unfold l_inverse, linear, minv, mscale, mI, mdet. cbn [m00 m01 m10 m11].
    apply mat_eq; field; auto.
  - destruct H as [H1 H2]. assert (H3 : Cmod (sh_neg g) < 1) by (unfold sh_neg; rewrite Cmod_opp; auto).
    split. { cbn. split; auto. intros E. apply (Rinv_neq_0_compat s H1). unfold Rdiv in E. lra. }
    unfold l_inverse, linear. assert (E : sh_neg (sh_neg g) = g) by (unfold sh_neg; destruct g; unfold Copp; cbn [fst snd]; apply vec_eq; ring).
    rewrite E. destruct (getMatrix_neg g H2) as [G1 G2]. pose proof (getMatrix_det _ H3) as D3.
    assert (X : getMatrix g = minv (getMatrix (sh_neg g))).
    { rewrite <- (mdot_I_r (minv (getMatrix (sh_neg g)))). rewrite <- G1. rewrite <- mdot_assoc, minv_mdot_l by lra. rewrite mdot_I_l. reflexivity. }
    rewrite X. unfold minv. set (M := getMatrix (sh_neg g)) in *. 
    assert (Ds : mdet (mscale M s) = s * s) by (transitivity (mdet M * (s * s)); [vring|rewrite D3; ring]).
    rewrite Ds, D3. unfold mscale. cbn [m00 m01 m10 m11]. apply mat_eq; field; auto.
  - split; [|reflexivity]. cbn. unfold mdet at 1. cbn [m00 m01 m10 m11]. 
    replace (m11 m / mdet m * (m00 m / mdet m) - - m01 m / mdet m * (- m10 m / mdet m)) with (/ mdet m) by (unfold mdet; field; exact H).
    apply Rinv_neq_0_compat; auto.
Qed.
Lemma inverse_parts : forall w, regular w -> regular (inverse w) /\ linear_part (inverse w) = minv (linear_part w) /\
  origins (inverse w) = (snd (origins w), fst (origins w)).
Proof.
  intros w H. pose proof (inverse_linear _ (regular_local w H)) as [A B]. rewrite linear_part_local.
  destruct w as [l|s o w|s g o w|m o w]; cbn [local_wcs] in *; split; try exact A; split; try exact B; reflexivity.
Qed.
Lemma minv_minv : forall m, mdet m <> 0 -> minv (minv m) = m.
Proof.
  intros [a b c d] H. unfold minv, mdet in *. cbn [m00 m01 m10 m11] in *. 
  assert (E : d / (a * d - b * c) * (a / (a * d - b * c)) - - b / (a * d - b * c) * (- c / (a * d - b * c)) = / (a * d - b * c)) by (field; exact H).
  rewrite E. apply mat_eq; field; auto.
Qed.
Lemma inverse_swaps : forall w p, regular w -> regular (inverse w) /\ posToWorld (inverse w) p = posToImage w p /\ posToImage (inverse w) p = posToWorld w p.
Proof.
  intros w p H. destruct (inverse_parts w H) as [A [B E]]. pose proof (linear_part_det w H). split; auto.
  rewrite !world_meaning, !image_meaning by auto. unfold meaning. rewrite B, E. cbn [fst snd]. rewrite minv_minv by auto. auto.
Qed.

(** * Shifting the origin *)
Lemma newOrigin_parts : forall w o wo, linear_part (newOrigin w o wo) = linear_part w /\ local_wcs (newOrigin w o wo) = local_wcs w /\
  origins (newOrigin w o wo) = (o, match wo with None => (0, 0) | Some v => v end).
Proof. intros [[]|s o' w|s g o' w|m o' w] o wo; auto. Qed.
Lemma posToWorld_origin : forall w, regular w -> posToWorld w (origin w) = world_origin w.
Proof.
  intros w H. rewrite world_meaning by auto. unfold meaning. rewrite origins_eq. cbn [fst snd].
  replace (vsub (origin w) (origin w)) with ((0, 0) : vec) by (destruct (origin w); vring).
  destruct (world_origin w). vring.
Qed.
Lemma shift_parts : forall isl w o wo, regular w -> local_wcs (shiftOrigin isl w o wo) = local_wcs w /\
  linear_part (shiftOrigin isl w o wo) = linear_part w /\ regular (shiftOrigin isl w o wo) /\
  origins (shiftOrigin isl w o wo) = match wo with None => (vadd o (fst (origins w)), snd (origins w)) | Some v => (o, v) end.
Proof.
  intros isl w o wo H.
  assert (X : local_wcs (shiftOrigin isl w o wo) = local_wcs w /\ linear_part (shiftOrigin isl w o wo) = linear_part w).
  { unfold shiftOrigin. destruct wo; [|destruct (negb _)]; edestruct newOrigin_parts as [? [? ?]]; eauto. }
  destruct X as [X1 X2]. split; auto. split; auto. split.
  - apply regular_local in H. rewrite <- X1 in H. destruct (shiftOrigin isl w o wo); exact H.
  - unfold shiftOrigin. rewrite (origins_eq w). cbn [fst snd].
    destruct wo as [v|]; [|destruct w as [l|s o' w|s g o' w|m o' w]; [destruct isl|..]; cbn [negb]];
      rewrite ?(proj2 (proj2 (newOrigin_parts _ _ _))); cbn [origin world_origin]; try reflexivity.
    + rewrite posToWorld_origin by auto.
      assert (Z : vadd v (vsub (world_origin w) (world_origin w)) = v) by (destruct v; destruct (world_origin w); vring).
      rewrite Z. destruct (negb _); reflexivity.
    + rewrite vsub_diag_0. reflexivity.
Qed.
Lemma shift_none : forall isl w o p, regular w -> posToWorld (shiftOrigin isl w o None) (vadd p o) = posToWorld w p.
Proof.
  intros isl w o p H. destruct (shift_parts isl w o None H) as [A [B [E F]]]. rewrite !world_meaning by auto. unfold meaning.
  rewrite B, F. cbn [fst snd]. f_equal. f_equal. destruct p, o, (fst (origins w)). vring.
Qed.
Lemma shift_some : forall isl w o v p, regular w ->
  posToWorld (shiftOrigin isl w o (Some v)) o = v /\
  vsub (posToWorld (shiftOrigin isl w o (Some v)) (vadd p o)) v = vsub (posToWorld w (vadd p (origin w))) (world_origin w).
Proof.
  intros isl w o v p H. destruct (shift_parts isl w o (Some v) H) as [A [B [E F]]]. rewrite !world_meaning by auto. unfold meaning.
  rewrite B, F, origins_eq. cbn [fst snd]. rewrite !vsub_vadd_id. split; auto.
  replace (vsub o o) with ((0, 0) : vec) by (destruct o; vring). destruct v. vring.
Qed.
Lemma shifts : forall isl l w p, regular w ->
  posToWorld (fold_left (fun w o => shiftOrigin isl w o None) l w) (vadd p (vsum l)) = posToWorld w p /\
  local_wcs (fold_left (fun w o => shiftOrigin isl w o None) l w) = local_wcs w.
Proof.
  intros isl l. induction l as [|o t IH]; intros w p H; cbn [fold_left vsum].
  - rewrite vsub_diag_0. auto.
  - destruct (shift_parts isl w o None H) as [A [B [E F]]].
    replace (vadd p (vadd o (vsum t))) with (vadd (vadd p o) (vsum t)) by (destruct p, o, (vsum t); vring).
    destruct (IH _ (vadd p o) E) as [I1 I2]. rewrite I1, I2, A. split; auto. apply shift_none; auto.
Qed.

(** * Decomposition *)
Lemma det_h : forall a b c d : R, (a + d) * (a + d) + (c - b) * (c - b) - ((a - d) * (a - d) + (b + c) * (b + c)) = 4 * (a * d - b * c).
Proof. intros. ring. Qed.


Lemma decomp_pos : forall a b c d, 0 < a * d - b * c ->
  let h := (a + d) * (a + d) + (c - b) * (c - b) in
  let g1 := (a + d) / h * (a - d) - (c - b) / h * (b + c) in
  let g2 := (c - b) / h * (a - d) + (a + d) / h * (b + c) in
  Cmod (g1, g2) < 1 /\
  Mat a b c d = mscale (mdot (getMatrix (g1, g2)) (rotm (atan2 (c - b) (a + d)))) (sqrt (a * d - b * c)).
Proof.
  intros a b c d D h g1 g2. pose proof (det_h a b c d) as I. fold h in I.
  assert (Hp : 0 < h) by (pose proof (Rle_0_sqr (a - d)); pose proof (Rle_0_sqr (b + c)); unfold Rsqr in *; lra).
  set (k := (a - d) * (a - d) + (b + c) * (b + c)) in *.
  assert (G : g1 * g1 + g2 * g2 = k / h).
  { unfold g1, g2, k. replace (((a + d) / h * (a - d) - (c - b) / h * (b + c)) * ((a + d) / h * (a - d) - (c - b) / h * (b + c)) +
      ((c - b) / h * (a - d) + (a + d) / h * (b + c)) * ((c - b) / h * (a - d) + (a + d) / h * (b + c)))
      with (((a + d) * (a + d) + (c - b) * (c - b)) * ((a - d) * (a - d) + (b + c) * (b + c)) / (h * h)) by (field; lra).
    fold h. field. lra. }
  assert (K0 : 0 <= k) by (unfold k; pose proof (Rle_0_sqr (a - d)); pose proof (Rle_0_sqr (b + c)); unfold Rsqr in *; lra).
  assert (G1 : g1 * g1 + g2 * g2 < 1). { rewrite G. apply Rmult_lt_reg_r with h; auto. unfold Rdiv. rewrite Rmult_assoc, Rinv_l by lra. lra. }
  split; [apply Cmod_lt_1; auto|].
  rewrite getMatrix_coord. set (n := sn g1 g2). assert (Np : 0 < n) by (apply sn_pos; auto).
  assert (N2 : n * n = 1 - (g1 * g1 + g2 * g2)) by (apply sn_sqr; auto).
  set (s := sqrt (a * d - b * c)). assert (Sp : 0 < s) by (apply sqrt_lt_R0; auto).
  assert (S2 : s * s = a * d - b * c) by (apply sqrt_sqrt; lra).
  set (r := hypot (a + d) (c - b)). assert (R2 : r * r = h) by (apply hypot_sqr). assert (R0 : 0 <= r) by apply hypot_pos.
  assert (Rp : 0 < r) by nra.
  assert (Kn : 2 * s = r * n). { assert ((2 * s) * (2 * s) = (r * n) * (r * n)).
    { replace (2 * s * (2 * s)) with (4 * (s * s)) by ring. replace (r * n * (r * n)) with (r * r * (n * n)) by ring.
      rewrite S2, R2, N2, G. unfold Rdiv. replace (h * (1 - k * / h)) with (h - k) by (field; lra). lra. }
    assert (0 < r * n) by (apply Rmult_lt_0_compat; auto). apply Rsqr_inj; unfold Rsqr; lra. }
  destruct (atan2_polar (c - b) (a + d)) as [P1 P2]. fold r in P1, P2. set (t := atan2 (c - b) (a + d)) in *. clearbody t.
  assert (Ec : cos t = (a + d) / r) by (rewrite <- P1; field; lra).
  assert (Es : sin t = (c - b) / r) by (rewrite <- P2; field; lra).
  assert (Sn : s / n = r / 2) by (apply Rmult_eq_reg_r with n; [|lra]; replace (s / n * n) with s by (field; lra); lra).
  assert (r0 : r <> 0) by lra.
  assert (U : forall x y z w : R, (x / n * (y / r) + z / n * (w / r)) * s = / 2 * (x * y + z * w)).
  { intros. replace ((x / n * (y / r) + z / n * (w / r)) * s) with ((x * y + z * w) / r * (s / n)) by (field; split; lra). rewrite Sn. field. lra. }
  assert (IH : ((a + d) * (a + d) + (c - b) * (c - b)) * / h = 1) by (fold h; apply Rinv_r; lra).
  unfold rotm, mdot, mscale. cbn [m00 m01 m10 m11]. rewrite Ec, Es.
  assert (En : - ((c - b) / r) = (- (c - b)) / r) by (field; lra). rewrite En, !U.
  unfold g1, g2, Rdiv. set (i := / h) in *. clearbody i.
  apply mat_eq.
  - transitivity (/ 2 * ((a + d) + (a - d) * (((a + d) * (a + d) + (c - b) * (c - b)) * i))); [rewrite IH; field|ring].
  - transitivity (/ 2 * (- (c - b) + (b + c) * (((a + d) * (a + d) + (c - b) * (c - b)) * i))); [rewrite IH; field|ring].
  - transitivity (/ 2 * ((c - b) + (b + c) * (((a + d) * (a + d) + (c - b) * (c - b)) * i))); [rewrite IH; field|ring].
  - transitivity (/ 2 * ((a + d) - (a - d) * (((a + d) * (a + d) + (c - b) * (c - b)) * i))); [rewrite IH; field|ring].
Qed.
Lemma mscale_mdot : forall a b s, mdot (mscale a s) b = mscale (mdot a b) s.
Proof. intros. vring. Qed.
Lemma decomposition : forall m, mdet m <> 0 -> exists s g t f, getDecomposition m = Ok (s, g, t, f) /\ 0 < s /\ s * s = Rabs (mdet m) /\ Cmod g < 1 /\ - PI < t <= PI /\ (f = true <-> mdet m < 0) /\ m = mscale (mdot (mdot (getMatrix g) (rotm t)) (if f then swap else mI)) s.
Proof.
  intros [a b c d] H. unfold getDecomposition. cbn [m00 m01 m10 m11]. set (D := mdet (Mat a b c d)) in *.
  assert (P : 0 < Rabs D) by (apply Rabs_pos_lt; auto).
  assert (S0 : 0 < sqrt (Rabs D)) by (apply sqrt_lt_R0; auto).
  assert (S2 : sqrt (Rabs D) * sqrt (Rabs D) = Rabs D) by (apply sqrt_sqrt; lra).
  destruct (Rltb_spec D 0) as [l|l].
  - assert (X : 0 < b * c - a * d) by (unfold D, mdet in l; cbn [m00 m01 m10 m11] in l; lra).
    assert (Q : b * c - a * d = Rabs D) by (unfold D, mdet in *; cbn [m00 m01 m10 m11] in *; rewrite Rabs_left by lra; ring).
    destruct (decomp_pos b a d c X) as [A B]. rewrite Q in B.
    set (g1 := (b + c) / ((b + c) * (b + c) + (d - a) * (d - a)) * (b - c) - (d - a) / ((b + c) * (b + c) + (d - a) * (d - a)) * (a + d)) in *.
    set (g2 := (d - a) / ((b + c) * (b + c) + (d - a) * (d - a)) * (b - c) + (b + c) / ((b + c) * (b + c) + (d - a) * (d - a)) * (a + d)) in *.
    rewrite (mk_g g1 g2) by constructor. destruct (Rltb_spec 1 (Cmod (g1, g2))) as [k|k]; [lra|]. cbn [bind].
    do 4 eexists. split; [reflexivity|]. split; auto. split; auto. split; auto. split; [apply atan2_range|]. split; [split; auto|].
    transitivity (mdot (Mat b a d c) swap); [unfold swap; vring|]. rewrite B at 1. rewrite mscale_mdot. reflexivity.
  - assert (X : 0 < a * d - b * c) by (unfold D, mdet in l, H; cbn [m00 m01 m10 m11] in l, H; lra).
    assert (Q : a * d - b * c = Rabs D) by (unfold D, mdet in *; cbn [m00 m01 m10 m11] in *; rewrite Rabs_right by lra; ring).
    destruct (decomp_pos a b c d X) as [A B]. rewrite Q in B.
    set (g1 := (a + d) / ((a + d) * (a + d) + (c - b) * (c - b)) * (a - d) - (c - b) / ((a + d) * (a + d) + (c - b) * (c - b)) * (b + c)) in *.
    set (g2 := (c - b) / ((a + d) * (a + d) + (c - b) * (c - b)) * (a - d) + (a + d) / ((a + d) * (a + d) + (c - b) * (c - b)) * (b + c)) in *.
    rewrite (mk_g g1 g2) by constructor. destruct (Rltb_spec 1 (Cmod (g1, g2))) as [k|k]; [lra|]. cbn [bind].
    do 4 eexists. split; [reflexivity|]. split; auto. split; auto. split; auto. split; [apply atan2_range|]. split; [split; [discriminate|lra]|].
    rewrite mdot_I_r. exact B.
Qed.

(** * Singular values *)
Lemma mm_h : forall m, l_max (LJac m) = fst (major_minor m) /\ l_min (LJac m) = snd (major_minor m).
Proof.
  intros m. unfold l_max, l_min, major_minor, hypot. cbn [fst snd].
  replace ((m00 m + m11 m) ^ 2) with ((m00 m + m11 m) * (m00 m + m11 m)) by ring.
  replace ((m01 m - m10 m) ^ 2) with ((m01 m - m10 m) * (m01 m - m10 m)) by ring.
  replace ((m00 m - m11 m) ^ 2) with ((m00 m - m11 m) * (m00 m - m11 m)) by ring.
  replace ((m01 m + m10 m) ^ 2) with ((m01 m + m10 m) * (m01 m + m10 m)) by ring.
  split; auto. f_equal. symmetry. apply Rabs_right.
  pose proof (sqrt_pos ((m00 m + m11 m) * (m00 m + m11 m) + (m01 m - m10 m) * (m01 m - m10 m))).
  pose proof (sqrt_pos ((m00 m - m11 m) * (m00 m - m11 m) + (m01 m + m10 m) * (m01 m + m10 m))). lra.
Qed.
Lemma kernel : forall a b c d, a * d - b * c = 0 -> exists v : vec, v <> (0, 0) /\ a * fst v + b * snd v = 0 /\ c * fst v + d * snd v = 0.
Proof.
  intros a b c d H. destruct (Req_dec a 0) as [A|A]; [destruct (Req_dec b 0) as [B|B]|].
  - destruct (Req_dec d 0) as [D|D].
    + exists (0, 1). split; [intros E; injection E; lra|]. cbn [fst snd]. rewrite A, B, D. lra.
    + exists (d, - c). split; [intros E; injection E; lra|]. cbn [fst snd]. rewrite A, B. lra.
  - exists (b, - a). split; [intros E; injection E; lra|]. cbn [fst snd]. lra.
  - exists (b, - a). split; [intros E; injection E; lra|]. cbn [fst snd]. lra.
Qed.
Lemma sv : forall m s, 0 <= s -> (s * s) * (s * s) - (m00 m * m00 m + m01 m * m01 m + m10 m * m10 m + m11 m * m11 m) * (s * s) + mdet m * mdet m = 0 -> singular_value m s.
Proof.
  intros m s S0 E. split; auto. set (q := mdot (mT m) m).
  destruct (kernel (m00 q - s * s) (m01 q) (m10 q) (m11 q - s * s)) as [v [V1 [V2 V3]]].
  { unfold q, mdot, mT, mdet in *. cbn [m00 m01 m10 m11] in *. nra. }
  exists v. split; auto. unfold mapp. apply vec_eq; lra.
Qed.
Lemma scales_are_singular : forall m, singular_value m (l_max (LJac m)) /\ singular_value m (l_min (LJac m)) /\ 0 <= l_min (LJac m) <= l_max (LJac m) /\ l_min (LJac m) * l_max (LJac m) = Rabs (mdet m).
Proof.
  intros m. destruct (mm_h m) as [E1 E2]. rewrite E1, E2. pose proof (major_minor_det m) as D. pose proof (major_minor_pos m) as [P1 P2].
  assert (T : fst (major_minor m) * fst (major_minor m) + snd (major_minor m) * snd (major_minor m) = m00 m * m00 m + m01 m * m01 m + m10 m * m10 m + m11 m * m11 m).
  { unfold major_minor. cbn [fst snd]. set (h1 := hypot (m00 m + m11 m) (m01 m - m10 m)). set (h2 := hypot (m00 m - m11 m) (m01 m + m10 m)).
    assert (A : forall x, Rabs x * Rabs x = x * x) by (intros; rewrite <- Rabs_mult; apply Rabs_right; nra).
    pose proof (hypot_sqr (m00 m + m11 m) (m01 m - m10 m)) as Q1. pose proof (hypot_sqr (m00 m - m11 m) (m01 m + m10 m)) as Q2. fold h1 in Q1. fold h2 in Q2.
    replace (/ 2 * Rabs (h1 + h2) * (/ 2 * Rabs (h1 + h2)) + / 2 * Rabs (h1 - h2) * (/ 2 * Rabs (h1 - h2)))
      with (/ 4 * (Rabs (h1 + h2) * Rabs (h1 + h2) + Rabs (h1 - h2) * Rabs (h1 - h2))) by field.
    rewrite !A. replace ((h1 + h2) * (h1 + h2) + (h1 - h2) * (h1 - h2)) with (2 * (h1 * h1 + h2 * h2)) by ring. rewrite Q1, Q2. field. }
  assert (D2 : fst (major_minor m) * snd (major_minor m) * (fst (major_minor m) * snd (major_minor m)) = mdet m * mdet m).
  { rewrite D, <- Rabs_mult. apply Rabs_right. nra. }
  assert (L : snd (major_minor m) <= fst (major_minor m)).
  { unfold major_minor. cbn [fst snd]. set (h1 := hypot (m00 m + m11 m) (m01 m - m10 m)). set (h2 := hypot (m00 m - m11 m) (m01 m + m10 m)).
    assert (0 <= h1) by apply hypot_pos. assert (0 <= h2) by apply hypot_pos. rewrite (Rabs_right (h1 + h2)) by lra.
    destruct (Rcase_abs (h1 - h2)); [rewrite Rabs_left by auto|rewrite Rabs_right by auto]; lra. }
  set (x := fst (major_minor m)) in *. set (y := snd (major_minor m)) in *.
  split; [|split; [|split; [split; auto|]]].
  - apply sv; auto. rewrite <- T, <- D2. ring.
  - apply sv; auto. rewrite <- T, <- D2. ring.
  - rewrite Rmult_comm. exact D.
Qed.
(** The classes agree on their linear scales. *)
Lemma scales_agree : forall l, positive_l l -> l_min l = l_min (LJac (l_jac l)) /\ l_max l = l_max (LJac (l_jac l)).
Proof.
  intros [s|s [a b]|m] H; cbn in H; [| |auto].
  - unfold l_min, l_max, l_jac. cbn [m00 m01 m10 m11].
    replace ((s + s) ^ 2 + (0 - 0) ^ 2) with ((2 * s) * (2 * s)) by ring. replace ((s - s) ^ 2 + (0 + 0) ^ 2) with 0 by ring.
    rewrite sqrt_square, sqrt_0 by lra. rewrite Rabs_right by lra. split; field.
  - destruct H as [S0 H]. pose proof (disc_sn a b H) as N. apply Cmod_lt_1 in H.
    unfold l_min, l_max, l_jac. cbn [m00 m01 m10 m11 Re Im fst snd]. unfold gsq. cbn [Re Im fst snd]. rewrite gfactor_sn. set (n := sn a b) in *.
    set (q := sqrt (a ^ 2 + b ^ 2)). assert (Q0 : 0 <= q) by apply sqrt_pos. assert (Q2 : q * q = a ^ 2 + b ^ 2) by (apply sqrt_sqrt; nra).
    assert (Q1 : q < 1) by nra. set (f := s * / n). assert (F0 : 0 < f) by (apply Rmult_lt_0_compat; auto; apply Rinv_0_lt_compat; auto).
    replace (((1 - a) * s * / n + (1 + a) * s * / n) ^ 2 + (- b * s * / n - - b * s * / n) ^ 2) with ((2 * f) * (2 * f)) by (unfold f; ring).
    replace (((1 - a) * s * / n - (1 + a) * s * / n) ^ 2 + (- b * s * / n + - b * s * / n) ^ 2) with ((2 * (q * f)) * (2 * (q * f))).
    2:{ replace (2 * (q * f) * (2 * (q * f))) with (4 * (q * q) * (f * f)) by ring. rewrite Q2. unfold f. ring. }
    assert (0 <= q * f) by nra.
    rewrite !sqrt_square by nra. rewrite Rabs_right by nra. unfold f. split; field; lra.
Qed.
