(** Profiles and shears under a WCS. *)
From Coq Require Import ZArith Reals Bool String List Lra Lia Psatz.
From Coquelicot Require Import Complex.
From Verif Require Import Base Bounds_Model Bounds_Proofs Geo_Model Geo_Proofs Shear_Model Shear_Spec Shear_Proofs Shear_Conv
  GSP_Model Prof_Model Prof_Spec Prof_Proofs WCS_Model WCS_Spec WCS_Proofs.
Import ListNotations.
Open Scope R_scope.

(** * Two transformations are one *)
Lemma tr_tr : forall o J off fr J' off' fr',
  mkTransform (mkTransform o J off fr None true) J' off' fr' None true =
  mkTransform o (mdot J' J) (vadd off' (mapp J' off)) (fr' * fr) None true.
Proof.
  intros o J off fr J' off' fr'. rewrite !(mkTransform_default o). 
  destruct o as [own fam fl g|o J1 off1 fr1 g pg|l g pg|l g pg|o g pg]; rewrite mkTransform_default; cbn [gsparams]; try reflexivity.
  f_equal; [rewrite mdot_assoc; reflexivity|destruct off, off', off1; vring|ring].
Qed.
Lemma major_minor_I : major_minor mI = (1, 1).
Proof.
  unfold major_minor, mI, hypot. cbn [m00 m01 m10 m11]. replace ((1 + 1) * (1 + 1) + (0 - 0) * (0 - 0)) with (2 * 2) by ring.
  replace ((1 - 1) * (1 - 1) + (0 + 0) * (0 + 0)) with 0 by ring. rewrite sqrt_square, sqrt_0 by lra.
  rewrite !Rabs_right by lra. apply vec_eq; lra.
Qed.
Lemma kfactor_I : forall k, kfactor mI (0, 0) 1 k = RtoC 1.
Proof.
  intros k. unfold kfactor. rewrite mdet_I. cbn [fst snd]. replace (- (fst k * 0) + - (snd k * 0)) with 0 by ring.
  rewrite expi_0, Rabs_R1, Rmult_1_l. unfold Cmult, RtoC. cbn [fst snd]. apply vec_eq; ring.
Qed.
Lemma mT_I : mT mI = mI.
Proof. reflexivity. Qed.
Lemma minv_I : minv mI = mI.
Proof. unfold minv. rewrite mdet_I. unfold mI. cbn [m00 m01 m10 m11]. apply mat_eq; field. Qed.
Lemma id_alike : forall p, nonsingular p -> 0 < stepk p -> alike (mkTransform p mI (0, 0) 1 None true) p.
Proof.
  intros p N St. 
  assert (F : flux (mkTransform p mI (0, 0) 1 None true) = flux p) by (rewrite tr_flux, mdet_I, Rabs_R1; ring).
  assert (Ce : centroid (mkTransform p mI (0, 0) 1 None true) = centroid p) by (rewrite tr_centroid, mapp_I; apply vsub_diag_0).
  assert (Pn : pnflux (mkTransform p mI (0, 0) 1 None true) = pnflux p) by (rewrite tr_pn, mdet_I, Rabs_R1; destruct (pnflux p); cbn [fst snd]; apply vec_eq; ring).
  assert (K : forall k, kValue (mkTransform p mI (0, 0) 1 None true) k = kValue p k) by (intros k; rewrite tr_k, kfactor_I, mT_I, mapp_I; ring).
  assert (X : forall x, agree (xValue (mkTransform p mI (0, 0) 1 None true) x) (xValue p x)).
  { intros x. rewrite tr_x by (auto; rewrite mdet_I; lra). rewrite minv_I, mapp_I, vsub_0, scale_1. destruct (xValue p x); cbn; auto. }
  assert (MM : fst (major_minor mI) = 1 /\ snd (major_minor mI) = 1) by (rewrite major_minor_I; auto). destruct MM as [M1 M2].
  assert (Rr : forall x, Reqb x x = true) by (intros x; destruct (Reqb_spec x x); auto).
  assert (Q1 : forall g, maxk (PTr p mI (0, 0) 1 g true) = maxk p).
  { intros g. change (maxk p / snd (major_minor mI) = maxk p). rewrite M2. field. }
  assert (Q2 : forall g, stepk (PTr p mI (0, 0) 1 g true) = stepk p).
  { intros g. change (PI / (PI / (stepk p / fst (major_minor mI)) + hypot 0 0) = stepk p). rewrite M1. unfold hypot.
    replace (0 * 0 + 0 * 0) with 0 by ring. rewrite sqrt_0. pose proof PI_RGT_0. field. split; lra. }
  assert (Q3 : forall g, max_sb (PTr p mI (0, 0) 1 g true) = max_sb p).
  { intros g. change (1 * max_sb p = max_sb p). ring. }
  assert (Q4 : forall g, is_axisymmetric (PTr p mI (0, 0) 1 g true) = is_axisymmetric p).
  { intros g. change (is_axisymmetric p && Reqb 1 1 && Reqb 0 (- 0) && Reqb 0 0 && Reqb 0 0 = is_axisymmetric p).
    rewrite Ropp_0, !Rr, !andb_true_r. reflexivity. }
  rewrite mkTransform_default in *.
  assert (V : forall v : vec, vadd (0, 0) (mapp mI v) = v) by (intros v; rewrite mapp_I; destruct v; vring).
  destruct p as [own fam fl g|o J1 off1 fr1 g pg|l g pg|l g pg|o g pg];
    try (constructor; auto; reflexivity).
  constructor; auto; cbn [maxk stepk max_sb is_axisymmetric is_analytic_k is_analytic_x has_hard_edges gsparams fst snd]; rewrite ?V, ?mdot_I_l; try reflexivity. ring.
Qed.

(** * What _profileToWorld and _profileToImage amount to *)
Lemma apply_seq : forall p s g off fr, fold_left apply [Dilate s; ShearBy g; Shift (fst off) (snd off); ScaleFlux fr] p =
  mkTransform p (mscale (getMatrix g) s) off (fr * / (s ^ 2)) None true.
Proof.
  intros p s g [dx dy] fr. cbn [fold_left apply fst snd]. rewrite !tr_tr. f_equal.
  - unfold mI. destruct (getMatrix g). vring.
  - unfold mI. vring.
  - ring.
Qed.
Lemma toWorld_tr : forall l p fr off, regular_l l ->
  l_profileToWorld l p fr off = mkTransform p (linear l) off (fr / l_area l) None true.
Proof.
  intros [s|s g|m] p fr off H; cbn in H; unfold l_profileToWorld, linear, l_area.
  - f_equal; [vring|field; auto].
  - rewrite apply_seq. reflexivity.
  - f_equal. destruct m; reflexivity.
Qed.
Lemma toImage_tr : forall l p fr off, regular_l l ->
  l_profileToImage l p fr off = mkTransform p (minv (linear l)) off (fr * l_area l) None true.
Proof.
  intros l p fr off H. destruct (inverse_linear l H) as [H' E]. rewrite <- E. destruct l as [s|s g|m]; cbn in H.
  - unfold l_profileToImage, l_inverse, linear, l_area. f_equal; [vring|ring].
  - unfold l_profileToImage, l_inverse, linear, l_area. rewrite apply_seq. f_equal.
    + do 2 f_equal. unfold sh_neg. destruct g; unfold Copp; cbn [fst snd]; apply vec_eq; ring.
    + field. apply H.
  - unfold l_profileToImage, l_inverse, linear, l_area. reflexivity.
Qed.
Lemma area_pos : forall l, regular_l l -> 0 < l_area l.
Proof. intros l H. destruct (linear_det l H) as [D A]. rewrite <- A. apply Rabs_pos_lt; auto. Qed.
Lemma inv_area : forall l, regular_l l -> Rabs (mdet (minv (linear l))) = / l_area l.
Proof. intros l H. destruct (linear_det l H) as [D A]. rewrite mdet_minv by auto. rewrite Rabs_inv. rewrite A. reflexivity. Qed.

Lemma profile_flux : forall l p fr off, regular_l l ->
  flux (l_profileToWorld l p fr off) = fr * flux p /\ flux (l_profileToImage l p fr off) = fr * flux p.
Proof.
  intros l p fr off H. rewrite toWorld_tr, toImage_tr, !tr_flux, inv_area by auto. destruct (linear_det l H) as [D A]. rewrite A.
  pose proof (area_pos l H). split; field; lra.
Qed.
Lemma profile_value : forall l p x, regular_l l -> nonsingular p ->
  xValue (l_profileToWorld l p 1 (0, 0)) (mapp (linear l) x) = scale_res (/ l_area l) (xValue p x) /\
  xValue (l_profileToImage l p 1 (0, 0)) x = scale_res (l_area l) (xValue p (mapp (linear l) x)).
Proof.
  intros l p x H N. destruct (linear_det l H) as [D A]. pose proof (area_pos l H).
  assert (Di : mdet (minv (linear l)) <> 0) by (rewrite mdet_minv by auto; apply Rinv_neq_0_compat; auto).
  rewrite toWorld_tr, toImage_tr, !tr_x by auto. rewrite !vsub_0, minv_l by auto.
  rewrite (minv_minv (linear l)) by auto. unfold Rdiv. rewrite !Rmult_1_l. auto.
Qed.
Lemma profile_round_trip : forall l p fr off, regular_l l -> nonsingular p -> 0 < stepk p -> fr <> 0 ->
  alike (l_profileToImage l (l_profileToWorld l p fr off) (/ fr) (vneg (mapp (minv (linear l)) off))) p /\
  alike (l_profileToWorld l (l_profileToImage l p fr off) (/ fr) (vneg (mapp (linear l) off))) p.
Proof.
  intros l p fr off H N St F. destruct (linear_det l H) as [D A]. pose proof (area_pos l H).
  rewrite !toWorld_tr, !toImage_tr by auto. rewrite !tr_tr, minv_mdot_l, minv_mdot_r by auto.
  assert (V : forall v : vec, vadd (vneg v) v = (0, 0)) by (intros []; vring). rewrite !V.
  replace (/ fr * l_area l * (fr / l_area l)) with 1 by (field; lra). replace (/ fr / l_area l * (fr * l_area l)) with 1 by (field; lra).
  split; apply id_alike; auto.
Qed.

(** * Shears *)
Definition esq (e : vec) : R := fst e * fst e + snd e * snd e.
Lemma shape_sh : forall g : C, shape g = (sh_e1 g, sh_e2 g).
Proof. intros g. unfold shape, sh_e1, sh_e2, g2e. rewrite Re2Im2. apply vec_eq; unfold Rdiv; ring. Qed.
Definition unshape (e : vec) : C := (fst e / (1 + sqrt (1 - esq e)), snd e / (1 + sqrt (1 - esq e))).
Lemma esq_pos : forall e, 0 <= esq e.
Proof. intros e. unfold esq. pose proof (Rle_0_sqr (fst e)). pose proof (Rle_0_sqr (snd e)). unfold Rsqr in *. lra. Qed.
Lemma esq_shape : forall g : C, Cmod g < 1 -> let q := Re g ^ 2 + Im g ^ 2 in
  0 <= q < 1 /\ esq (shape g) < 1 /\ sqrt (1 - esq (shape g)) = (1 - q) / (1 + q).
Proof.
  intros [a b] H q. apply Cmod_lt_1 in H. assert (Q : q = a * a + b * b) by (unfold q; cbn [Re Im fst snd]; ring).
  assert (Q0 : 0 <= q) by (rewrite Q; nra). assert (Q1 : q < 1) by lra. split; auto.
  assert (E : 1 - esq (shape (a, b)) = (1 - q) / (1 + q) * ((1 - q) / (1 + q))).
  { unfold esq, shape. fold q. cbn [fst snd Re Im]. apply Rmult_eq_reg_r with ((1 + q) * (1 + q)); [|nra].
    replace ((1 - (2 * a / (1 + q) * (2 * a / (1 + q)) + 2 * b / (1 + q) * (2 * b / (1 + q)))) * ((1 + q) * (1 + q)))
      with ((1 + q) * (1 + q) - 4 * (a * a + b * b)) by (field; lra).
    replace ((1 - q) / (1 + q) * ((1 - q) / (1 + q)) * ((1 + q) * (1 + q))) with ((1 - q) * (1 - q)) by (field; lra).
    rewrite <- Q. ring. }
  assert (P : 0 < (1 - q) / (1 + q)) by (apply Rdiv_lt_0_compat; lra).
  split; [nra|]. rewrite E. apply sqrt_square. lra.
Qed.
Lemma unshape_shape : forall g : C, Cmod g < 1 -> unshape (shape g) = g.
Proof.
  intros g H. destruct (esq_shape g H) as [Q [E S]]. unfold unshape. rewrite S. unfold shape at 1 2. cbn [fst snd].
  set (q := Re g ^ 2 + Im g ^ 2) in *. destruct g as [a b]. cbn [Re Im fst snd]. apply vec_eq; field; lra.
Qed.
Lemma shape_unshape : forall e, esq e < 1 -> Cmod (unshape e) < 1 /\ shape (unshape e) = e.
Proof.
  intros [e1 e2] H. set (s := sqrt (1 - esq (e1, e2))). assert (S0 : 0 < s) by (apply sqrt_lt_R0; lra).
  assert (S2 : s * s = 1 - (e1 * e1 + e2 * e2)) by (unfold s; rewrite sqrt_sqrt; unfold esq in *; cbn [fst snd] in *; lra).
  assert (Q : e1 / (1 + s) * (e1 / (1 + s)) + e2 / (1 + s) * (e2 / (1 + s)) = (1 - s) / (1 + s)).
  { replace (e1 / (1 + s) * (e1 / (1 + s)) + e2 / (1 + s) * (e2 / (1 + s))) with ((e1 * e1 + e2 * e2) / ((1 + s) * (1 + s))) by (field; lra).
    replace (e1 * e1 + e2 * e2) with ((1 - s) * (1 + s)) by lra. field. lra. }
  assert (L : (1 - s) / (1 + s) < 1). { apply Rmult_lt_reg_r with (1 + s); [lra|]. replace ((1 - s) / (1 + s) * (1 + s)) with (1 - s) by (field; lra). lra. }
  unfold unshape. fold s. cbn [fst snd]. split. { apply Cmod_lt_1. lra. }
  unfold shape. cbn [Re Im fst snd].
  replace ((e1 / (1 + s)) ^ 2 + (e2 / (1 + s)) ^ 2) with ((1 - s) / (1 + s)) by (rewrite <- Q; ring).
  apply vec_eq; field; lra.
Qed.

(** Second moments under a linear map. *)
Lemma sym_shape : forall M, m01 M = m10 M -> m00 M + m11 M <> 0 -> M = mscale (moments (shape_of M)) ((m00 M + m11 M) / 2).
Proof.
  intros [a b c d] E T. cbn [m00 m01 m10 m11] in *. subst c. unfold shape_of, moments, mscale. cbn [fst snd m00 m01 m10 m11].
  apply mat_eq; field; auto.
Qed.
Lemma moments_map : forall J e, mdet J <> 0 -> esq e < 1 -> let M := mdot (mdot J (moments e)) (mT J) in let t := m00 M + m11 M in
  0 < t /\ M = mscale (moments (shape_map J e)) (t / 2) /\ esq (shape_map J e) < 1 /\ m01 M = m10 M.
Proof.
  intros J [e1 e2] D E M t.
  assert (Sy : m01 M = m10 M) by (unfold M, mdot, mT, moments; cbn [m00 m01 m10 m11 fst snd]; ring).
  assert (Dm : mdet M = mdet J * mdet J * (1 - esq (e1, e2))).
  { unfold M. rewrite !mdet_mdot. unfold esq, moments, mdet, mT; cbn [m00 m01 m10 m11 fst snd]; ring. }
  assert (Dp : 0 < mdet M). { rewrite Dm. apply Rmult_lt_0_compat; [|lra]. nra. }
  assert (T0 : 0 <= m00 M /\ 0 <= m11 M).
  { assert (G : forall x y, 0 <= x * x * (1 + e1) + 2 * x * y * e2 + y * y * (1 - e1)).
    { intros x y. unfold esq in E. cbn [fst snd] in E.
      assert (P1 : -1 <= e1 <= 1) by nra.
      destruct (Req_dec e1 (-1)) as [q|q]; [assert (e2 = 0) by nra; subst; nra|].
      assert (P : 0 < 1 + e1) by lra.
      assert (0 <= (1 + e1) * (x * x * (1 + e1) + 2 * x * y * e2 + y * y * (1 - e1))).
      { replace ((1 + e1) * (x * x * (1 + e1) + 2 * x * y * e2 + y * y * (1 - e1)))
          with (((1 + e1) * x + e2 * y) * ((1 + e1) * x + e2 * y) + y * y * (1 - (e1 * e1 + e2 * e2))) by ring. 
        assert (0 <= y * y * (1 - (e1 * e1 + e2 * e2))) by (apply Rmult_le_pos; [apply Rle_0_sqr|lra]).
        pose proof (Rle_0_sqr ((1 + e1) * x + e2 * y)) as sq. unfold Rsqr in sq. lra. }
      apply Rmult_le_reg_l with (1 + e1); lra. }
    split; unfold M, mdot, mT, moments; cbn [m00 m01 m10 m11 fst snd].
    - eapply Rle_trans; [apply (G (m00 J) (m01 J))|]. right. ring.
    - eapply Rle_trans; [apply (G (m10 J) (m11 J))|]. right. ring. }
  assert (T : 0 < t). { unfold t. unfold mdet in Dp. rewrite Sy in Dp. nra. }
  split; auto. split; [|split; auto].
  - apply sym_shape; auto. fold t. lra.
  - unfold shape_map, shape_of, esq. fold M. fold t. cbn [fst snd].
    assert (X : 1 - ((m00 M - m11 M) / t * ((m00 M - m11 M) / t) + 2 * m01 M / t * (2 * m01 M / t)) = 4 * mdet M / (t * t)).
    { unfold mdet. rewrite <- Sy. unfold t. field. unfold t in T. lra. }
    assert (0 < 4 * mdet M / (t * t)) by (apply Rdiv_lt_0_compat; nra). lra.
Qed.
Lemma shape_of_scale : forall e c, c <> 0 -> shape_of (mscale (moments e) c) = e.
Proof. intros [e1 e2] c H. unfold shape_of, mscale, moments. cbn [fst snd m00 m01 m10 m11]. apply vec_eq; field; intro; apply H; lra. Qed.
Lemma mscale_mdot_r : forall a b s, mdot a (mscale b s) = mscale (mdot a b) s.
Proof. intros. vring. Qed.
Lemma mscale_mscale : forall a s t, mscale (mscale a s) t = mscale a (s * t).
Proof. intros [a b c d] s t. vring. Qed.
Lemma shape_map_comp : forall J J' e, mdet J <> 0 -> esq e < 1 -> shape_map J' (shape_map J e) = shape_map (mdot J' J) e.
Proof.
  intros J J' e D E. destruct (moments_map J e D E) as [T [M [E' _]]]. set (t := m00 _ + m11 _) in *. clearbody t.
  unfold shape_map at 3. rewrite mT_mdot.
  assert (X : mdot (mdot (mdot J' J) (moments e)) (mdot (mT J) (mT J')) = mdot (mdot J' (mdot (mdot J (moments e)) (mT J))) (mT J')) by (rewrite !mdot_assoc; reflexivity).
  rewrite X, M, mscale_mdot_r, mscale_mdot. unfold shape_map at 1. set (N := mdot (mdot J' (moments (shape_map J e))) (mT J')).
  unfold shape_of, mscale. cbn [m00 m01 m10 m11]. 
  destruct (Req_dec (m00 N + m11 N) 0) as [z|z].
  - replace (m00 N * (t / 2) + m11 N * (t / 2)) with 0 by (replace (m00 N * (t / 2) + m11 N * (t / 2)) with ((m00 N + m11 N) * (t / 2)) by ring; rewrite z; ring).
    rewrite z. unfold Rdiv. rewrite Rinv_0. apply vec_eq; ring.
  - replace (m00 N * (t / 2) + m11 N * (t / 2)) with ((m00 N + m11 N) * (t / 2)) by ring.
    apply vec_eq; field; repeat split; auto; lra.
Qed.
Lemma mT_I' : mT mI = mI. Proof. reflexivity. Qed.
Lemma shape_map_inv : forall J e, mdet J <> 0 -> esq e < 1 -> shape_map (minv J) (shape_map J e) = e.
Proof.
  intros J e D E. rewrite shape_map_comp, minv_mdot_l by auto. unfold shape_map. rewrite mdot_I_l, mT_I', mdot_I_r.
  rewrite <- (shape_of_scale e 1) at 2 by lra. f_equal. destruct e. unfold moments. vring.
Qed.

Lemma jac_shear_value : forall J g, mdet J <> 0 -> Cmod g < 1 -> let e := shape_map J (shape g) in
  exists s, jac_shear J g = Ok s /\ Cmod s <= 1 /\ close (sh_e1 s) (fst e) /\ close (sh_e2 s) (snd e) /\
    ((1 / 10000 < esq e \/ esq e = 0) -> s = unshape e).
Proof.
  intros J g D H e. destruct (esq_shape g H) as [_ [E _]].
  destruct (moments_map J (shape g) D E) as [_ [_ [E' _]]]. fold e in E'.
  assert (X : jac_shear J g = mk_shear [] [("e1"%string, KNum (fst e)); ("e2"%string, KNum (snd e))]).
  { unfold e. rewrite shape_sh. reflexivity. }
  destruct (e_components (fst e) (snd e) _ ltac:(unfold esq in E'; lra) (both12 "e1" "e2" (fst e) (snd e))) as [s [S1 [S2 [S3 [S4 S5]]]]].
  exists s. rewrite X, S1. clear X. clearbody e. split; auto. split; auto. split; auto. split; auto. intros C.
  rewrite (mk_e (fst e) (snd e) _ (both12 "e1" "e2" (fst e) (snd e))) in S1. 
  assert (Q : fst e ^ 2 + snd e ^ 2 = esq e) by (unfold esq; ring). rewrite Q in S1.
  destruct (Rltb_spec 1 (esq e)) as [l|l]; [lra|]. injection S1 as <-. rewrite mult_R. unfold unshape.
  destruct C as [C|C].
  - unfold e2g. destruct (Rltb_spec (1 / 10000) (esq e)) as [k|k]; [|lra]. apply vec_eq; unfold Rdiv; ring.
  - pose proof (Rle_0_sqr (fst e)). pose proof (Rle_0_sqr (snd e)). unfold esq, Rsqr in *.
    assert (fst e = 0) by nra. assert (snd e = 0) by nra. rewrite H2, H3. apply vec_eq; unfold Rdiv; ring.
Qed.

(** * Round profiles *)
Lemma getMatrix_moments : forall g, Cmod g < 1 -> exists c, 0 < c /\ mdot (getMatrix g) (getMatrix g) = mscale (moments (shape g)) c.
Proof.
  intros [a b] H. pose proof (disc_sn a b H) as N. assert (N2 : sn a b * sn a b = 1 - (a * a + b * b)) by (apply sn_sqr, Cmod_lt_1; auto).
  apply Cmod_lt_1 in H. assert (H0 : 0 <= a * a + b * b) by nra. rewrite getMatrix_coord. set (n := sn a b) in *.
  assert (ni : / n * / n = / (1 - (a * a + b * b))) by (rewrite <- N2; field; lra).
  exists ((1 + (a * a + b * b)) / (1 - (a * a + b * b))). split; [apply Rdiv_lt_0_compat; lra|].
  unfold mdot, mscale, moments, shape. cbn [m00 m01 m10 m11 fst snd Re Im]. 
  replace (a ^ 2 + b ^ 2) with (a * a + b * b) by ring.
  assert (U : forall x y z w, x / n * (y / n) + z / n * (w / n) = (x * y + z * w) * (/ n * / n)) by (intros; unfold Rdiv; ring).
  rewrite !U, ni. apply mat_eq; field; lra.
Qed.
Lemma same_gram : forall A B : mat, mdet A <> 0 -> mdet B <> 0 -> mdot A (mT A) = mdot B (mT B) ->
  forall x, (fst (mapp (minv A) x) ^ 2 + snd (mapp (minv A) x) ^ 2 = fst (mapp (minv B) x) ^ 2 + snd (mapp (minv B) x) ^ 2) /\
            (fst (mapp (mT A) x) ^ 2 + snd (mapp (mT A) x) ^ 2 = fst (mapp (mT B) x) ^ 2 + snd (mapp (mT B) x) ^ 2).
Proof.
  intros A B DA DB E x. set (G := mdot A (mT A)).
  assert (KK : forall M, mdot M (mT M) = G -> fst (mapp (mT M) x) ^ 2 + snd (mapp (mT M) x) ^ 2 = dotp x (mapp G x)).
  { intros M <-. destruct x as [x1 x2], M as [a1 b1 c1 d1]. unfold mapp, mT, mdot, dotp. cbn [fst snd m00 m01 m10 m11]. ring. }
  assert (DG : forall M, mdot M (mT M) = G -> mdet G = mdet M * mdet M) by (intros M <-; rewrite mdet_mdot; f_equal; unfold mT, mdet; cbn [m00 m01 m10 m11]; ring).
  assert (II : forall M, mdet M <> 0 -> mdot M (mT M) = G -> fst (mapp (minv M) x) ^ 2 + snd (mapp (minv M) x) ^ 2 = dotp x (mapp (minv G) x)).
  { intros M DM HM. pose proof (DG M HM) as Dg. unfold minv at 3. rewrite Dg. rewrite <- HM. destruct x as [x1 x2], M as [a1 b1 c1 d1]. unfold mapp, mT, mdot, dotp, minv, mdet in *. cbn [fst snd m00 m01 m10 m11] in *. field. exact DM. }
  split; [rewrite (II A DA eq_refl), (II B DB (eq_sym E))|rewrite (KK A eq_refl), (KK B (eq_sym E))]; reflexivity.
Qed.
Lemma moments_det : forall e c, mdet (mscale (moments e) c) = c * c * (1 - esq e).
Proof. intros [] c. unfold moments, esq. vring. Qed.
Lemma gram_of_shear : forall J g, mdet J <> 0 -> Cmod g < 1 -> let A := mdot J (getMatrix g) in
  let B := mscale (getMatrix (unshape (shape_map J (shape g)))) (sqrt (Rabs (mdet J))) in
  Rabs (mdet A) = Rabs (mdet B) /\ mdet A <> 0 /\ mdet B <> 0 /\ mdot A (mT A) = mdot B (mT B).
Proof.
  intros J g D H A B. destruct (esq_shape g H) as [_ [E _]].
  destruct (moments_map J (shape g) D E) as [T [M [E' _]]]. set (t := m00 _ + m11 _) in *. clearbody t.
  set (e' := shape_map J (shape g)) in *. destruct (shape_unshape e' E') as [G1 G2]. set (g' := unshape e') in *.
  set (k := sqrt (Rabs (mdet J))) in *. assert (P : 0 < Rabs (mdet J)) by (apply Rabs_pos_lt; auto).
  assert (K0 : 0 < k) by (apply sqrt_lt_R0; auto). assert (K2 : k * k = Rabs (mdet J)) by (apply sqrt_sqrt; lra).
  assert (DA : mdet A = mdet J) by (unfold A; rewrite mdet_mdot, getMatrix_det by auto; ring).
  assert (DB : mdet B = k * k) by (unfold B; transitivity (mdet (getMatrix g') * (k * k)); [vring|rewrite getMatrix_det by auto; ring]).
  assert (K3 : 0 < k * k) by nra.
  split; [rewrite DA, DB, <- K2; symmetry; apply Rabs_right; lra|]. split; [rewrite DA; auto|]. split; [rewrite DB; lra|].
  destruct (getMatrix_moments g H) as [c [C0 C1]]. destruct (getMatrix_moments g' G1) as [c' [C0' C1']]. rewrite G2 in C1'.
  assert (XA : mdot A (mT A) = mscale (moments e') (t / 2 * c)).
  { unfold A. rewrite mT_mdot, getMatrix_sym.
    transitivity (mdot (mdot J (mdot (getMatrix g) (getMatrix g))) (mT J)); [rewrite !mdot_assoc; reflexivity|].
    rewrite C1, mscale_mdot_r, mscale_mdot, M, mscale_mscale. reflexivity. }
  assert (XB : mdot B (mT B) = mscale (moments e') (c' * (k * k))).
  { unfold B. transitivity (mscale (mdot (getMatrix g') (mT (getMatrix g'))) (k * k)); [vring|]. rewrite getMatrix_sym, C1', mscale_mscale. reflexivity. }
  rewrite XA, XB. f_equal.
  assert (DD : mdet (mdot A (mT A)) = mdet (mdot B (mT B))).
  { rewrite !mdet_mdot. assert (Dt : forall m, mdet (mT m) = mdet m) by (intros m; unfold mT, mdet; cbn [m00 m01 m10 m11]; ring). rewrite !Dt, DA, DB.
    rewrite K2. rewrite <- Rabs_mult. symmetry. apply Rabs_right. nra. }
  rewrite XA, XB, !moments_det in DD. apply Rmult_eq_reg_r in DD; [|lra].
  assert (0 < t / 2 * c) by (apply Rmult_lt_0_compat; lra). assert (0 < c' * (k * k)) by (apply Rmult_lt_0_compat; lra).
  apply Rsqr_inj; unfold Rsqr; lra.
Qed.
Lemma round_profile : forall l g p, regular_l l -> Cmod g < 1 -> nonsingular p -> radial (xValue p) -> radial (kValue p) ->
  let g' := unshape (shape_map (linear l) (shape g)) in
  let world := l_profileToWorld l (apply p (ShearBy g)) 1 (0, 0) in
  let direct := apply (apply p (Dilate (sqrt (l_area l)))) (ShearBy g') in
  Cmod g' < 1 /\ (forall x, xValue world x = xValue direct x) /\ (forall k, kValue world k = kValue direct k) /\ flux world = flux direct.
Proof.
  intros l g p H G N RX RK g' world direct. destruct (linear_det l H) as [D A]. pose proof (area_pos l H) as P.
  destruct (gram_of_shear (linear l) g D G) as [Q1 [Q2 [Q3 Q4]]]. rewrite A in *. fold g' in Q1, Q3, Q4.
  destruct (esq_shape g G) as [_ [E _]]. destruct (moments_map (linear l) (shape g) D E) as [_ [_ [E' _]]].
  destruct (shape_unshape _ E') as [G1 _]. fold g' in G1. split; auto.
  assert (W : world = mkTransform p (mdot (linear l) (getMatrix g)) (0, 0) (/ l_area l) None true).
  { unfold world. rewrite toWorld_tr by auto. cbn [apply]. rewrite tr_tr. f_equal; [vring|field; lra]. }
  assert (X : direct = mkTransform p (mscale (getMatrix g') (sqrt (l_area l))) (0, 0) (/ l_area l) None true).
  { unfold direct. cbn [apply]. rewrite tr_tr. f_equal; [destruct (getMatrix g'); vring|vring|].
    replace (sqrt (l_area l) ^ 2) with (sqrt (l_area l) * sqrt (l_area l)) by ring. rewrite sqrt_sqrt by lra. ring. }
  rewrite W, X. split; [|split].
  - intros x. rewrite !tr_x by auto. rewrite !vsub_0. f_equal. apply RX. apply (same_gram _ _ Q2 Q3 Q4 x).
  - intros k. rewrite !tr_k. unfold kfactor. rewrite Q1. f_equal. apply RK. apply (same_gram _ _ Q2 Q3 Q4 k).
  - rewrite !tr_flux. rewrite Q1. reflexivity.
Qed.

(** * Shears under any local WCS *)
Lemma shape_map_I : forall s e, s <> 0 -> shape_map (mscale mI s) e = e.
Proof.
  intros s e H. unfold shape_map. rewrite <- (shape_of_scale e (s * s)) at 2 by nra. f_equal.
  destruct e. unfold moments, mscale, mI. vring.
Qed.
Lemma close_refl : forall x, close x x.
Proof. intros x. unfold close. rewrite Rminus_diag_eq by auto. rewrite Rabs_R0. pose proof (Rabs_pos x). nra. Qed.
Lemma close_of : forall g e, shape g = e -> close (sh_e1 g) (fst e) /\ close (sh_e2 g) (snd e).
Proof. intros g e <-. rewrite shape_sh. cbn [fst snd]. split; apply close_refl. Qed.
Lemma exact_esq : forall e, exact_range e -> 1 / 10000 < esq e \/ esq e = 0.
Proof. intros e [H| ->]; [left; exact H|right; unfold esq; cbn; ring]. Qed.
Lemma jac_shear_exact : forall J g, mdet J <> 0 -> Cmod g < 1 -> let e := shape_map J (shape g) in
  exists s, jac_shear J g = Ok s /\ Cmod s <= 1 /\ close (sh_e1 s) (fst e) /\ close (sh_e2 s) (snd e) /\
    (exact_range e -> Cmod s < 1 /\ shape s = e).
Proof.
  intros J g D H e. destruct (jac_shear_value J g D H) as [s [A [B [C0 [C1 X]]]]]. exists s. repeat (split; auto).
  - intros. rewrite (X (exact_esq _ H0)). destruct (esq_shape g H) as [_ [E _]].
    destruct (moments_map J (shape g) D E) as [_ [_ [E' _]]]. apply shape_unshape; auto.
  - rewrite (X (exact_esq _ H0)). destruct (esq_shape g H) as [_ [E _]].
    destruct (moments_map J (shape g) D E) as [_ [_ [E' _]]]. apply shape_unshape; auto.
Qed.
Lemma shears : forall l g, regular_l l -> Cmod g < 1 ->
  (let e := shape_map (linear l) (shape g) in
   exists s, l_shearToWorld l g = Ok s /\ Cmod s <= 1 /\ close (sh_e1 s) (fst e) /\ close (sh_e2 s) (snd e) /\
    (exact_range e -> Cmod s < 1 /\ shape s = e)) /\
  (let e := shape_map (minv (linear l)) (shape g) in
   exists s, l_shearToImage l g = Ok s /\ Cmod s <= 1 /\ close (sh_e1 s) (fst e) /\ close (sh_e2 s) (snd e) /\
    (exact_range e -> Cmod s < 1 /\ shape s = e)).
Proof.
  intros l g H G. destruct (linear_det l H) as [D _]. 
  assert (Di : mdet (minv (linear l)) <> 0) by (rewrite mdet_minv by auto; apply Rinv_neq_0_compat; auto).
  assert (W : forall s g, l = LShear s g \/ (exists m, l = LJac m) -> l_shearToImage l = jac_shear (minv (linear l)) /\ l_shearToWorld l = jac_shear (linear l)).
  { intros s0 g0 K. rewrite <- linear_jac by auto. rewrite <- linear_jac in Di by auto.
    assert (E : l_jac (l_inverse (LJac (l_jac l))) = minv (l_jac l)) by reflexivity.
    rewrite <- E. destruct K as [K|[m K]]; rewrite K; split; reflexivity. }
  destruct l as [s|s g0|m].
  - assert (E1 : shape_map (linear (LPix s)) (shape g) = shape g) by (apply shape_map_I; auto).
    assert (E2 : shape_map (minv (linear (LPix s))) (shape g) = shape g).
    { rewrite <- E1 at 1. apply shape_map_inv; auto. apply (esq_shape g G). }
    split; [set (e := shape_map (linear (LPix s)) (shape g))|set (e := shape_map (minv (linear (LPix s))) (shape g))];
      exists g; split; try reflexivity; split; try lra;
      destruct (close_of g e) as [c1 c2]; auto.
  - destruct (W s g0 (or_introl eq_refl)) as [-> ->]. split; apply jac_shear_exact; auto.
  - destruct (W 0 (RtoC 0) (or_intror (ex_intro _ m eq_refl))) as [-> ->]. split; apply jac_shear_exact; auto.
Qed.
Lemma shape_inj : forall g h, Cmod g < 1 -> Cmod h < 1 -> shape g = shape h -> g = h.
Proof. intros g h G H E. rewrite <- (unshape_shape g G), <- (unshape_shape h H), E. reflexivity. Qed.
Lemma shear_round_trip : forall l g, regular_l l -> Cmod g < 1 -> exact_range (shape g) ->
  (exact_range (shape_map (linear l) (shape g)) -> bind (l_shearToWorld l g) (l_shearToImage l) = Ok g) /\
  (exact_range (shape_map (minv (linear l)) (shape g)) -> bind (l_shearToImage l g) (l_shearToWorld l) = Ok g).
Proof.
  intros l g H G X. destruct (linear_det l H) as [D _]. destruct (esq_shape g G) as [_ [E _]].
  assert (Di : mdet (minv (linear l)) <> 0) by (rewrite mdet_minv by auto; apply Rinv_neq_0_compat; auto).
  destruct (shears l g H G) as [[s [S1 [_ [_ [_ S2]]]]] [t [T1 [_ [_ [_ T2]]]]]]. split; intros Y.
  - destruct (S2 Y) as [S3 S4]. rewrite S1. cbn [bind]. destruct (shears l s H S3) as [_ [u [U1 [_ [_ [_ U2]]]]]]. rewrite U1. f_equal.
    rewrite S4, shape_map_inv in U2 by auto. destruct (U2 X) as [U3 U4]. apply shape_inj; auto.
  - destruct (T2 Y) as [S3 S4]. rewrite T1. cbn [bind]. destruct (shears l t H S3) as [[u [U1 [_ [_ [_ U2]]]]] _]. rewrite U1. f_equal.
    rewrite S4 in U2.
    assert (V : shape_map (linear l) (shape_map (minv (linear l)) (shape g)) = shape g).
    { rewrite <- (minv_minv (linear l)) at 1 by auto. apply shape_map_inv; auto. }
    rewrite V in U2. destruct (U2 X) as [U3 U4]. apply shape_inj; auto.
Qed.
Lemma sheared_round : forall l g s p, regular_l l -> Cmod g < 1 -> Cmod s < 1 -> shape s = shape_map (linear l) (shape g) ->
  nonsingular p -> radial (xValue p) -> radial (kValue p) ->
  let world := l_profileToWorld l (apply p (ShearBy g)) 1 (0, 0) in
  let direct := apply (apply p (Dilate (sqrt (l_area l)))) (ShearBy s) in
  (forall x, xValue world x = xValue direct x) /\ (forall k, kValue world k = kValue direct k) /\ flux world = flux direct.
Proof.
  intros l g s p H G S E N RX RK. destruct (round_profile l g p H G N RX RK) as [G' K].
  assert (X : unshape (shape_map (linear l) (shape g)) = s) by (rewrite <- E; apply unshape_shape; auto).
  rewrite X in K. exact K.
Qed.
