(** Proofs about the text of transformed profiles. *)
From Coq Require Import Reals Bool List Lra Lia Psatz.
From Coquelicot Require Import Complex.
From Verif Require Import Base Bounds_Model Bounds_Proofs Geo_Model Geo_Proofs Shear_Model Shear_Spec Shear_Proofs Shear_Conv
  Prof_Model Prof_Spec Prof_Proofs WCS_Model WCS_Spec WCS_Proofs Str_Model Str_Spec.
Import ListNotations.
Open Scope R_scope.

Definition sq (m : mat) : R := m00 m * m00 m + m01 m * m01 m + m10 m * m10 m + m11 m * m11 m.
Lemma frob_sq : forall m, frob m = sqrt (sq m).
Proof. intro m. unfold frob, sq. f_equal. ring. Qed.
Lemma sq_pos : forall m, 0 <= sq m.
Proof. intro m. unfold sq. nra. Qed.
Definition mdiff (a b : mat) : mat := Mat (m00 a - m00 b) (m01 a - m01 b) (m10 a - m10 b) (m11 a - m11 b).
Lemma mapp_bound : forall d x, norm (mapp d x) <= frob d * norm x.
Proof.
  intros [a b c d] [x y]. rewrite frob_sq. unfold norm, hypot, mapp, sq. cbn [m00 m01 m10 m11 fst snd].
  rewrite <- sqrt_mult by nra. apply sqrt_le_1_alt.
  pose proof (Rle_0_sqr (a * y - b * x)). pose proof (Rle_0_sqr (c * y - d * x)). unfold Rsqr in *. nra.
Qed.
Lemma close_tells : forall M J off x, sq (mdiff M J) <= (4 * tiny) * (4 * tiny) * sq J ->
  norm (vsub (vadd (mapp M x) off) (vadd (mapp J x) off)) <= 4 * tiny * (frob J * norm x).
Proof.
  intros M J off x H.
  replace (vsub (vadd (mapp M x) off) (vadd (mapp J x) off)) with (mapp (mdiff M J) x).
  2:{ destruct M as [a b c d], J as [a2 b2 c2 d2], off as [o1 o2], x as [x y]. unfold vsub, vadd, mapp, mdiff. cbn [m00 m01 m10 m11 fst snd]. f_equal; ring. }
  eapply Rle_trans; [apply mapp_bound|]. rewrite <- Rmult_assoc. apply Rmult_le_compat_r; [apply hypot_pos|].
  rewrite !frob_sq. assert (T : 0 <= 4 * tiny) by (unfold tiny; lra).
  rewrite <- (sqrt_Rsqr (4 * tiny)) at 1 by exact T. unfold Rsqr. rewrite <- sqrt_mult; [|nra|apply sq_pos].
  apply sqrt_le_1_alt. lra.
Qed.

(** The three parts and their sizes *)
Lemma sq_J : forall a b t s n, 0 < n -> sq (mscale (mdot (Mat ((1 + a) / n) (b / n) (b / n) ((1 - a) / n)) (rotm t)) s) =
  2 * s * s * (1 + (a * a + b * b)) / (n * n).
Proof.
  intros a b t s n Hn. unfold sq, mscale, mdot, rotm. cbn [m00 m01 m10 m11]. pose proof (sin2_cos2 t) as E. unfold Rsqr in E.
  replace (2 * s * s * (1 + (a * a + b * b)) / (n * n)) with (2 * s * s * (1 + (a * a + b * b)) / (n * n) * (sin t * sin t + cos t * cos t)) by (rewrite E; ring).
  field. lra.
Qed.
Lemma sq_rot : forall a b t s n, 0 < n -> sq (mdiff (rotm t) (mscale (mdot (Mat ((1 + a) / n) (b / n) (b / n) ((1 - a) / n)) (rotm t)) s)) =
  2 * ((s - n) * (s - n) + s * s * (a * a + b * b)) / (n * n).
Proof.
  intros a b t s n Hn. unfold sq, mdiff, mscale, mdot, rotm. cbn [m00 m01 m10 m11]. pose proof (sin2_cos2 t) as E. unfold Rsqr in E.
  replace (2 * ((s - n) * (s - n) + s * s * (a * a + b * b)) / (n * n)) with
    (2 * ((s - n) * (s - n) + s * s * (a * a + b * b)) / (n * n) * (sin t * sin t + cos t * cos t)) by (rewrite E; ring).
  field. lra.
Qed.
Lemma sq_shear : forall a b t s n, 0 < n ->
  sq (mdiff (Mat ((1 + a) / n) (b / n) (b / n) ((1 - a) / n)) (mscale (mdot (Mat ((1 + a) / n) (b / n) (b / n) ((1 - a) / n)) (rotm t)) s)) =
  2 * (1 + (a * a + b * b)) / (n * n) * (1 - 2 * s * cos t + s * s).
Proof.
  intros a b t s n Hn. unfold sq, mdiff, mscale, mdot, rotm. cbn [m00 m01 m10 m11]. pose proof (sin2_cos2 t) as E. unfold Rsqr in E.
  replace (1 - 2 * s * cos t + s * s) with (1 - 2 * s * cos t + s * s * (sin t * sin t + cos t * cos t)) by (rewrite E; ring).
  field. lra.
Qed.
Lemma sq_expand : forall a b t s n, 0 < n ->
  sq (mdiff (Mat s 0 0 s) (mscale (mdot (Mat ((1 + a) / n) (b / n) (b / n) ((1 - a) / n)) (rotm t)) s)) =
  2 * s * s * (n * n + 1 + (a * a + b * b) - 2 * n * cos t) / (n * n).
Proof.
  intros a b t s n Hn. unfold sq, mdiff, mscale, mdot, rotm. cbn [m00 m01 m10 m11]. pose proof (sin2_cos2 t) as E. unfold Rsqr in E.
  replace (2 * s * s * (n * n + 1 + (a * a + b * b) - 2 * n * cos t) / (n * n)) with
    (2 * s * s * (n * n + (1 + (a * a + b * b)) * (sin t * sin t + cos t * cos t) - 2 * n * cos t) / (n * n)) by (rewrite E; field; lra).
  field. lra.
Qed.
Lemma cos_lower : forall t, 1 - t * t / 2 <= cos t.
Proof.
  intro t. replace t with (2 * (t / 2)) at 3 by field. rewrite cos_2a_sin.
  assert (A : sin (t / 2) * sin (t / 2) <= (t / 2) * (t / 2)).
  { assert (B : Rabs (sin (t / 2)) <= Rabs (t / 2)).
    { destruct (Rle_dec 0 (t / 2)) as [P|P].
      - rewrite (Rabs_right (t / 2)) by lra. destruct (Req_dec (t / 2) 0) as [Z|Z]; [rewrite Z, sin_0, Rabs_R0; lra|].
        apply Rabs_le. pose proof (SIN_bound (t / 2)). pose proof (sin_lt_x (t / 2)). pose proof PI_RGT_0.
        split; [|lra]. destruct (Rle_dec (t / 2) PI) as [Q|Q]; [pose proof (sin_ge_0 (t / 2)); lra|]. pose proof PI_4. pose proof (PI2_1). unfold PI2 in *. lra.
      - rewrite (Rabs_left (t / 2)) by lra. rewrite <- Rabs_Ropp, <- sin_neg.
        apply Rabs_le. pose proof (SIN_bound (- (t / 2))). pose proof (sin_lt_x (- (t / 2))). pose proof PI_RGT_0.
        split; [|lra]. destruct (Rle_dec (- (t / 2)) PI) as [Q|Q]; [pose proof (sin_ge_0 (- (t / 2))); lra|]. pose proof PI2_1. unfold PI2 in *. lra. }
    pose proof (Rsqr_le_abs_1 _ _ B) as C. unfold Rsqr in C. exact C. }
  nra.
Qed.

Lemma Rabs_bnd : forall x e, Rabs x <= e -> - e <= x <= e.
Proof. intros x e H. unfold Rabs in H. destruct (Rcase_abs x); lra. Qed.
(** Each of the three calls is close when the other two parts are tiny *)
Lemma n_close : forall g2 n, 0 < n -> n * n = 1 - g2 -> 0 <= g2 -> g2 <= tiny * tiny -> 1 - tiny * tiny <= n <= 1.
Proof. intros g2 n Hn En H0 H. assert (tiny * tiny < 1) by (unfold tiny; lra). split; nra. Qed.
Lemma rot_close : forall g2 s n, 0 < n -> n * n = 1 - g2 -> 0 <= g2 -> g2 <= tiny * tiny -> Rabs (s - 1) <= tiny ->
  2 * ((s - n) * (s - n) + s * s * g2) / (n * n) <= 4 * tiny * (4 * tiny) * (2 * s * s * (1 + g2) / (n * n)).
Proof.
  intros g2 s n Hn En H0 Hg Hs. pose proof (n_close g2 n Hn En H0 Hg) as [N1 N2].
  apply Rabs_bnd in Hs. assert (T : 0 < tiny < / 1000) by (unfold tiny; lra).
  unfold Rdiv. rewrite <- Rmult_assoc. apply Rmult_le_compat_r; [left; apply Rinv_0_lt_compat; nra|].
  assert (A : (s - n) * (s - n) <= (2 * tiny) * (2 * tiny)) by nra.
  assert (B : s * s * g2 <= s * s * (tiny * tiny)) by (apply Rmult_le_compat_l; nra).
  assert (C : / 2 <= s * s) by nra. assert (D : 0 < tiny * tiny) by nra. nra.
Qed.
Lemma shear_close : forall q t s, 0 <= q -> Rabs t <= tiny -> Rabs (s - 1) <= tiny ->
  q * (1 - 2 * s * cos t + s * s) <= 4 * tiny * (4 * tiny) * (q * (s * s)).
Proof.
  intros q t s Hq Ht Hs. pose proof (cos_lower t) as C. assert (T : 0 < tiny < / 1000) by (unfold tiny; lra).
  assert (T2 : t * t <= tiny * tiny). { apply Rsqr_le_abs_1. rewrite (Rabs_right tiny) by lra. exact Ht. }
  apply Rabs_bnd in Hs.
  replace (4 * tiny * (4 * tiny) * (q * (s * s))) with (q * (4 * tiny * (4 * tiny) * (s * s))) by ring.
  apply Rmult_le_compat_l; [exact Hq|].
  assert (A : 1 - 2 * s * cos t + s * s <= (s - 1) * (s - 1) + s * (tiny * tiny)) by nra.
  assert (B : (s - 1) * (s - 1) <= tiny * tiny) by nra. assert (D : / 2 <= s * s) by nra. assert (E : 0 < tiny * tiny) by nra. nra.
Qed.
Lemma expand_close : forall g2 t s n, 0 < n -> n * n = 1 - g2 -> 0 <= g2 -> g2 <= tiny * tiny -> Rabs t <= tiny ->
  2 * s * s * (n * n + 1 + g2 - 2 * n * cos t) / (n * n) <= 4 * tiny * (4 * tiny) * (2 * s * s * (1 + g2) / (n * n)).
Proof.
  intros g2 t s n Hn En H0 Hg Ht. pose proof (n_close g2 n Hn En H0 Hg) as [N1 N2].
  pose proof (cos_lower t) as C. assert (T : 0 < tiny < / 1000) by (unfold tiny; lra).
  assert (T2 : t * t <= tiny * tiny). { apply Rsqr_le_abs_1. rewrite (Rabs_right tiny) by lra. exact Ht. }
  unfold Rdiv. rewrite <- Rmult_assoc. apply Rmult_le_compat_r; [left; apply Rinv_0_lt_compat; nra|].
  replace (4 * tiny * (4 * tiny) * (2 * s * s * (1 + g2))) with (2 * s * s * (4 * tiny * (4 * tiny) * (1 + g2))) by ring.
  apply Rmult_le_compat_l; [nra|].
  assert (D : 0 < tiny * tiny) by nra.
  assert (A : 2 * n * cos t >= 2 * n * (1 - t * t / 2)) by nra.
  assert (B : n * (t * t) <= tiny * tiny) by nra. nra.
Qed.

Lemma path_full : forall J x, path [TransformBy (m00 J) (m01 J) (m10 J) (m11 J)] x = mapp J x.
Proof. intros J x. reflexivity. Qed.

(** What _str_from_jac can give *)
Inductive told (J : mat) : list op -> Prop :=
  | told_nothing : J = mI -> told J []
  | told_full : told J [TransformBy (m00 J) (m01 J) (m10 J) (m11 J)]
  | told_rot : forall s g t, Cmod g < 1 -> 0 < s -> J = mscale (mdot (getMatrix g) (rotm t)) s -> Cmod g <= tiny -> Rabs (s - 1) <= tiny -> told J [Rotate t]
  | told_shear : forall s g t, Cmod g < 1 -> 0 < s -> J = mscale (mdot (getMatrix g) (rotm t)) s -> Rabs t <= tiny -> Rabs (s - 1) <= tiny -> told J [ShearBy g]
  | told_expand : forall s g t, Cmod g < 1 -> 0 < s -> J = mscale (mdot (getMatrix g) (rotm t)) s -> Rabs t <= tiny -> Cmod g <= tiny -> told J [Expand s].
Lemma str_told : forall J, mdet J <> 0 -> exists ops, str_from_jac J = Ok ops /\ told J ops.
Proof.
  intros J H. unfold str_from_jac.
  destruct (negb (Reqb (m00 J) 1) || negb (Reqb (m01 J) 0) || negb (Reqb (m10 J) 0) || negb (Reqb (m11 J) 1)) eqn:E.
  - destruct (decomposition J H) as (s & g & t & f & Ed & Hs & _ & Hg & _ & _ & EJ). rewrite Ed. cbn [bind]. unfold sh_g.
    destruct f.
    + exists [TransformBy (m00 J) (m01 J) (m10 J) (m11 J)]. split; [|constructor].
      destruct (Rltb tiny (Rabs t)), (Rltb tiny (Cmod g)), (Rltb tiny (Rabs (s - 1))); reflexivity.
    + rewrite mdot_I_r in EJ.
      destruct (Rltb_spec tiny (Rabs t)) as [a|a], (Rltb_spec tiny (Cmod g)) as [b|b], (Rltb_spec tiny (Rabs (s - 1))) as [c|c];
        cbn [note]; eexists; (split; [reflexivity|]); try apply told_full.
      * apply (told_rot J s g t); auto; lra.
      * apply (told_shear J s g t); auto; lra.
      * apply (told_expand J s g t); auto; lra.
  - apply orb_false_iff in E. destruct E as [E E4]. apply orb_false_iff in E. destruct E as [E E3]. apply orb_false_iff in E. destruct E as [E1 E2].
    apply negb_false_iff in E1, E2, E3, E4.
    destruct (Reqb_spec (m00 J) 1) as [F1|]; [|discriminate]. destruct (Reqb_spec (m01 J) 0) as [F2|]; [|discriminate].
    destruct (Reqb_spec (m10 J) 0) as [F3|]; [|discriminate]. destruct (Reqb_spec (m11 J) 1) as [F4|]; [|discriminate].
    exists []. split; [reflexivity|]. constructor. destruct J as [a b c d]. cbn [m00 m01 m10 m11] in *. subst. reflexivity.
Qed.

Lemma g2_tiny : forall g : C, Cmod g <= tiny -> Re g * Re g + Im g * Im g <= tiny * tiny.
Proof.
  intros [a b] H. pose proof (Cmod_sqr a b) as E. pose proof (Cmod_ge_0 (a, b)) as P. cbn [Re Im fst snd] in *.
  assert (Cmod (a, b) * Cmod (a, b) <= tiny * tiny) by nra. nra.
Qed.
Lemma told_linear : forall J h, told J h -> exists M, (forall x, path h x = mapp M x) /\ sq (mdiff M J) <= (4 * tiny) * (4 * tiny) * sq J.
Proof.
  intros J h T. assert (T0 : 0 < tiny) by (unfold tiny; lra).
  assert (Z : forall m, sq (mdiff m m) <= (4 * tiny) * (4 * tiny) * sq m).
  { intro m. replace (sq (mdiff m m)) with 0 by (unfold sq, mdiff; cbn [m00 m01 m10 m11]; ring). pose proof (sq_pos m). nra. }
  destruct T as [E| |s [a b] t Hg Hs E Cg Cs|s [a b] t Hg Hs E Ct Cs|s [a b] t Hg Hs E Ct Cg].
  - exists J. split; [|apply Z]. intros [x y]. subst J. unfold path, mapp, mI. cbn [fold_left m00 m01 m10 m11 fst snd]. f_equal; ring.
  - exists J. split; [|apply Z]. intros x. apply path_full.
  - exists (rotm t). split.
    { intros [x y]. unfold path, mapp, rotm. cbn [fold_left moves m00 m01 m10 m11 fst snd]. f_equal; ring. }
    apply Cmod_lt_1 in Hg as Hg'. subst J. rewrite getMatrix_coord, sq_rot, sq_J by (apply sn_pos; auto).
    apply rot_close; auto; [apply sn_pos; auto|rewrite sn_sqr by auto; ring|nra|exact (g2_tiny (a, b) Cg)].
  - exists (getMatrix (a, b)). apply Cmod_lt_1 in Hg as Hg'. split.
    { intros [x y]. rewrite getMatrix_coord. unfold path, mapp, sn. cbn [fold_left moves m00 m01 m10 m11 fst snd Re Im].
      replace (a ^ 2 + b ^ 2) with (a * a + b * b) by ring.
      assert (0 < sqrt (1 - (a * a + b * b))) by (apply sqrt_lt_R0; lra). f_equal; field; lra. }
    subst J. rewrite getMatrix_coord, sq_shear, sq_J by (apply sn_pos; auto). pose proof (sn_pos a b Hg') as Np.
    replace (2 * s * s * (1 + (a * a + b * b)) / (sn a b * sn a b)) with (2 * (1 + (a * a + b * b)) / (sn a b * sn a b) * (s * s)) by (field; lra).
    apply shear_close; auto. apply Rmult_le_pos; [nra|]. left. apply Rinv_0_lt_compat. nra.
  - exists (Mat s 0 0 s). split.
    { intros [x y]. unfold path, mapp. cbn [fold_left moves m00 m01 m10 m11 fst snd]. f_equal; ring. }
    apply Cmod_lt_1 in Hg as Hg'. subst J. rewrite getMatrix_coord, sq_expand, sq_J by (apply sn_pos; auto).
    replace (sn a b * sn a b + 1 + (a * a + b * b) - 2 * sn a b * cos t) with (sn a b * sn a b + 1 + (a * a + b * b) - 2 * sn a b * cos t) by ring.
    apply expand_close; auto; [apply sn_pos; auto|rewrite sn_sqr by auto; ring|nra|exact (g2_tiny (a, b) Cg)].
Qed.
Lemma det_parts : forall g t s, Cmod g < 1 -> mdet (mscale (mdot (getMatrix g) (rotm t)) s) = s * s.
Proof.
  intros g t s H. replace (mdet (mscale (mdot (getMatrix g) (rotm t)) s)) with (s * s * (mdet (mdot (getMatrix g) (rotm t))))
    by (unfold mdet, mscale; cbn [m00 m01 m10 m11]; ring).
  rewrite mdet_mdot, getMatrix_det by exact H. unfold mdet, rotm. cbn [m00 m01 m10 m11]. pose proof (sin2_cos2 t) as E. unfold Rsqr in E.
  replace (cos t * cos t - - sin t * sin t) with (sin t * sin t + cos t * cos t) by ring. rewrite E. ring.
Qed.
Lemma told_effect : forall J h, told J h -> exists m, (forall F, effect F h = (1, F * m)) /\ Rabs (m - Rabs (mdet J)) <= 3 * tiny * Rabs (mdet J).
Proof.
  intros J h T. assert (T0 : 0 < tiny < / 1000) by (unfold tiny; lra).
  assert (N : forall s, Rabs (s - 1) <= tiny -> Rabs (1 - Rabs (s * s)) <= 3 * tiny * Rabs (s * s)).
  { intros s H. apply Rabs_bnd in H. rewrite (Rabs_right (s * s)) by nra.
    assert (A : 1 - 2 * tiny <= s * s <= 1 + 2 * tiny + tiny * tiny) by (split; nra). apply Rabs_le. split; nra. }
  assert (Z : forall d, Rabs (d - d) <= 3 * tiny * Rabs d).
  { intro d. replace (d - d) with 0 by ring. rewrite Rabs_R0. pose proof (Rabs_pos d). nra. }
  destruct T as [E| |s g t Hg Hs E Cg Cs|s g t Hg Hs E Ct Cs|s g t Hg Hs E Ct Cg].
  - exists 1. split. { intro F. cbn [effect]. rewrite Rmult_1_r. reflexivity. }
    subst J. replace (mdet mI) with 1 by (unfold mdet, mI; cbn [m00 m01 m10 m11]; ring). rewrite Rabs_R1. pose proof (Z 1) as Q. rewrite Rabs_R1 in Q. exact Q.
  - exists (Rabs (mdet J)). split.
    { intro F. cbn [effect brightens magnifies]. unfold mdet. f_equal; ring. }
    rewrite <- (Rabs_Rabsolu (mdet J)) at 3. apply Z.
  - exists 1. subst J. rewrite det_parts by exact Hg. split; [|apply N; exact Cs]. intro F. cbn [effect brightens magnifies]. f_equal; ring.
  - exists 1. subst J. rewrite det_parts by exact Hg. split; [|apply N; exact Cs]. intro F. cbn [effect brightens magnifies]. f_equal; ring.
  - exists (s * s). subst J. rewrite det_parts by exact Hg. split. { intro F. cbn [effect brightens magnifies]. f_equal; ring. }
    rewrite (Rabs_right (s * s)) by nra. pose proof (Z (s * s)) as Q. rewrite (Rabs_right (s * s)) in Q by nra. exact Q.
Qed.
Definition tail (off : vec) (fr : R) (h : list op) : list op :=
  let s := if negb (Reqb (fst off) 0) || negb (Reqb (snd off) 0) then h ++ [Shift (fst off) (snd off)] else h in
  if negb (Reqb fr 1) then s ++ [ScaleFlux fr] else s.
Lemma path_app : forall a b x, path (a ++ b) x = path b (path a x).
Proof. intros. unfold path. apply fold_left_app. Qed.
Lemma path_tail : forall off fr h x, path (tail off fr h) x = vadd (path h x) off.
Proof.
  intros off fr h x. unfold tail.
  assert (A : path (if negb (Reqb (fst off) 0) || negb (Reqb (snd off) 0) then h ++ [Shift (fst off) (snd off)] else h) x = vadd (path h x) off).
  { destruct (Reqb_spec (fst off) 0) as [a|a], (Reqb_spec (snd off) 0) as [b|b]; cbn [negb orb]; try (rewrite path_app; reflexivity).
    destruct off as [o1 o2]. cbn [fst snd] in *. subst. destruct (path h x). unfold vadd. cbn [fst snd]. f_equal; ring. }
  destruct (Reqb_spec fr 1) as [c|c]; cbn [negb]; [exact A|]. rewrite path_app, A. reflexivity.
Qed.
Lemma effect_app : forall a b F, effect F (a ++ b) = (fst (effect F a) * fst (effect (snd (effect F a)) b), snd (effect (snd (effect F a)) b)).
Proof.
  induction a as [|o a IH]; intros b F.
  - cbn [app effect fst snd]. rewrite Rmult_1_l. destruct (effect F b); reflexivity.
  - cbn [app effect]. rewrite IH. destruct (effect (F * brightens F o * magnifies o) a) as [u v]. cbn [fst snd]. f_equal. ring.
Qed.
Lemma effect_tail : forall off fr h F, effect F (tail off fr h) = (fst (effect F h) * fr, snd (effect F h) * fr).
Proof.
  intros off fr h F. unfold tail.
  assert (A : effect F (if negb (Reqb (fst off) 0) || negb (Reqb (snd off) 0) then h ++ [Shift (fst off) (snd off)] else h) = effect F h).
  { destruct (negb (Reqb (fst off) 0) || negb (Reqb (snd off) 0)); [|reflexivity]. rewrite effect_app. cbn [effect brightens magnifies fst snd].
    destruct (effect F h) as [u v]. cbn [fst snd]. f_equal; ring. }
  destruct (Reqb_spec fr 1) as [c|c]; cbn [negb].
  - rewrite A, c, !Rmult_1_r. apply surjective_pairing.
  - rewrite effect_app, A. cbn [effect brightens magnifies fst snd]. f_equal; ring.
Qed.
Lemma str_of_tail : forall J off fr h, str_from_jac J = Ok h -> str_of J off fr = Ok (tail off fr h).
Proof. intros J off fr h E. unfold str_of. rewrite E. reflexivity. Qed.

Lemma str_tells : forall J off fr, mdet J <> 0 -> exists ops, str_of J off fr = Ok ops /\ tells (4 * tiny) ops J off /\
  forall F, fst (effect F ops) = fr /\ Rabs (snd (effect F ops) - Rabs (mdet J) * fr * F) <= 3 * tiny * Rabs (Rabs (mdet J) * fr * F).
Proof.
  intros J off fr H. destruct (str_told J H) as (h & E & T). exists (tail off fr h). split; [exact (str_of_tail J off fr h E)|]. split.
  - intro x. destruct (told_linear J h T) as (M & EM & C). rewrite path_tail, EM. apply close_tells. exact C.
  - intro F. destruct (told_effect J h T) as (m & Em & C). rewrite effect_tail, Em. cbn [fst snd]. split; [ring|].
    replace (F * m * fr - Rabs (mdet J) * fr * F) with ((m - Rabs (mdet J)) * (fr * F)) by ring.
    replace (Rabs (mdet J) * fr * F) with (Rabs (mdet J) * (fr * F)) by ring. rewrite !Rabs_mult, Rabs_Rabsolu.
    replace (3 * tiny * (Rabs (mdet J) * (Rabs fr * Rabs F))) with (3 * tiny * Rabs (mdet J) * (Rabs fr * Rabs F)) by ring.
    apply Rmult_le_compat_r; [|exact C]. apply Rmult_le_pos; apply Rabs_pos.
Qed.

(** * The text and what was done *)
Definition frame (p : prof) : mat * vec := match p with PTr _ J off _ _ _ => (J, off) | _ => (mI, (0, 0)) end.
Lemma mI_app : forall v, mapp mI v = v.
Proof. intros [x y]. unfold mapp, mI. cbn [m00 m01 m10 m11 fst snd]. f_equal; ring. Qed.
Lemma frame_tr : forall p J off fr, mdet (fst (frame p)) <> 0 -> mdet J <> 0 ->
  mdet (fst (frame (mkTransform p J off fr None true))) <> 0 /\
  forall x, vadd (mapp J (vadd (mapp (fst (frame p)) x) (snd (frame p)))) off =
            vadd (mapp (fst (frame (mkTransform p J off fr None true))) x) (snd (frame (mkTransform p J off fr None true))).
Proof.
  intros p J off fr H0 H. rewrite mkTransform_default.
  destruct p as [own fam fl g|o J' off' fr' g pg|l g pg|l g pg|o g pg]; cbn [frame fst snd] in *;
    try (split; [exact H|]; intro x; rewrite mI_app; f_equal; f_equal; destruct x; unfold vadd; cbn [fst snd]; f_equal; ring).
  split; [rewrite mdet_mdot; apply Rmult_integral_contrapositive_currified; assumption|].
  intros [x y]. destruct J as [a b c d], J' as [a2 b2 c2 d2], off as [o1 o2], off' as [p1 p2].
  unfold vadd, mapp, mdot. cbn [m00 m01 m10 m11 fst snd]. f_equal; ring.
Qed.
Lemma frame_run : forall ops p, nonsingular p -> flux_linear p -> all_sensible (flux p) ops -> mdet (fst (frame p)) <> 0 ->
  mdet (fst (frame (fold_left apply ops p))) <> 0 /\
  forall x, path ops (vadd (mapp (fst (frame p)) x) (snd (frame p))) =
            vadd (mapp (fst (frame (fold_left apply ops p))) x) (snd (frame (fold_left apply ops p))).
Proof.
  induction ops as [|o ops IH]; intros p N L A H0; [split; [exact H0|reflexivity]|].
  destruct A as [So A]. destruct (apply_props p o N L So) as (_ & _ & Ef & _ & N' & L'). rewrite <- Ef in A.
  assert (G : mdet (fst (frame (apply p o))) <> 0 /\ forall x, moves o (vadd (mapp (fst (frame p)) x) (snd (frame p))) =
    vadd (mapp (fst (frame (apply p o))) x) (snd (frame (apply p o)))).
  { assert (G : apply p o = (let '(J, off, fr) := op_parts (flux p) o in mkTransform p J off fr None true) ->
      mdet (fst (frame (apply p o))) <> 0 /\ forall x, moves o (vadd (mapp (fst (frame p)) x) (snd (frame p))) =
      vadd (mapp (fst (frame (apply p o))) x) (snd (frame (apply p o)))).
    { intros ->. destruct (op_parts (flux p) o) as [[J off] fr] eqn:E. destruct (op_parts_area _ _ _ _ _ E So) as [_ D].
      destruct (frame_tr p J off fr H0 D) as [D' M]. split; [exact D'|]. intro x. rewrite (op_parts_moves _ _ _ _ _ _ E So). apply M. }
    pose proof (apply_parts p o) as AP. destruct o; try (apply G; destruct p as [[]| | | |]; exact AP).
    destruct p as [[]| | | |]; try (apply G; exact AP). rewrite AP. split; [exact H0|]. reflexivity. }
  destruct G as [D M]. destruct (IH (apply p o) N' L' A D) as [D2 M2]. cbn [fold_left]. split; [exact D2|].
  intro x. rewrite <- M2, <- M. reflexivity.
Qed.
Lemma str_history : forall p ops o J off fr g pg, nonsingular p -> flux_linear p -> all_sensible (flux p) ops ->
  (forall o J off fr g pg, p <> PTr o J off fr g pg) -> fold_left apply ops p = PTr o J off fr g pg ->
  exists said, str_of J off fr = Ok said /\ forall x, norm (vsub (path said x) (path ops x)) <= 4 * tiny * (frob J * norm x).
Proof.
  intros p ops o J off fr g pg N L A NT E.
  assert (Fr : frame p = (mI, (0, 0))). { destruct p; try reflexivity. exfalso. eapply NT; reflexivity. }
  destruct (frame_run ops p N L A) as [D M]. { rewrite Fr. cbn [fst]. unfold mdet, mI. cbn [m00 m01 m10 m11]. lra. }
  rewrite E in D, M. cbn [frame fst snd] in D, M. destruct (str_tells J off fr D) as (said & Es & T & _).
  exists said. split; [exact Es|]. intro x. specialize (M x). rewrite Fr in M. cbn [fst snd] in M. rewrite mI_app in M.
  replace (vadd x (0, 0)) with x in M by (destruct x; unfold vadd; cbn [fst snd]; f_equal; ring).
  rewrite M. apply T.
Qed.

(** * One step is told as that step *)
Lemma negb_false : forall x y, Reqb x y = true <-> x = y.
Proof. intros x y. destruct (Reqb_spec x y); split; intros; auto; congruence. Qed.
Lemma not_identity : forall J, J <> mI ->
  negb (Reqb (m00 J) 1) || negb (Reqb (m01 J) 0) || negb (Reqb (m10 J) 0) || negb (Reqb (m11 J) 1) = true.
Proof.
  intros [a b c d] H. cbn [m00 m01 m10 m11]. destruct (Reqb_spec a 1), (Reqb_spec b 0), (Reqb_spec c 0), (Reqb_spec d 1); cbn; auto.
  subst. contradiction H. reflexivity.
Qed.
Lemma decomposition_unique : forall s a b t, 0 < s -> Cmod (a, b) < 1 -> - PI < t <= PI ->
  getDecomposition (mscale (mdot (getMatrix (a, b)) (rotm t)) s) = Ok (s, (a, b), t, false).
Proof.
  intros s a b t Hs Hg Ht. unfold getDecomposition. rewrite (det_parts (a, b) t s Hg).
  destruct (Rltb_spec (s * s) 0) as [l|l]; [nra|]. apply Cmod_lt_1 in Hg as Hg'. pose proof (sn_pos a b Hg') as Np. pose proof (sn_sqr a b Hg') as N2.
  rewrite getMatrix_coord. set (n := sn a b) in *. unfold mscale, mdot, rotm. cbn [m00 m01 m10 m11].
  pose proof (sin2_cos2 t) as E. unfold Rsqr in E.
  set (cs := ((1 + a) / n * cos t + b / n * sin t) * s + (b / n * - sin t + (1 - a) / n * cos t) * s).
  set (si := (b / n * cos t + (1 - a) / n * sin t) * s - ((1 + a) / n * - sin t + b / n * cos t) * s).
  assert (Ec : cs = 2 * s / n * cos t) by (unfold cs; field; lra). assert (Es : si = 2 * s / n * sin t) by (unfold si; field; lra).
  assert (Rp : 0 < 2 * s / n) by (apply Rmult_lt_0_compat; [lra|apply Rinv_0_lt_compat; lra]).
  assert (Ef : cs * cs + si * si = (2 * s / n) * (2 * s / n)).
  { rewrite Ec, Es. replace (2 * s / n * cos t * (2 * s / n * cos t) + 2 * s / n * sin t * (2 * s / n * sin t)) with
      ((2 * s / n) * (2 * s / n) * (sin t * sin t + cos t * cos t)) by ring. rewrite E. ring. }
  rewrite Ef. rewrite (Rabs_right (s * s)) by lra. rewrite sqrt_square by lra. rewrite Es, Ec.
  replace (atan2 (2 * s / n * sin t) (2 * s / n * cos t)) with t by (symmetry; apply atan2_unique; auto).
  match goal with |- bind (mk_shear [] [(_, KNum ?u); (_, KNum ?v)]) _ = _ => set (g1 := u); set (g2 := v) end.
  assert (G1 : g1 = a).
  { unfold g1. transitivity (a * (sin t * sin t + cos t * cos t)); [field; split; lra|rewrite E; ring]. }
  assert (G2 : g2 = b).
  { unfold g2. transitivity (b * (sin t * sin t + cos t * cos t)); [field; split; lra|rewrite E; ring]. }
  rewrite G1, G2, (mk_g a b) by constructor. destruct (Rltb_spec 1 (Cmod (a, b))) as [k|k]; [lra|]. reflexivity.
Qed.
Lemma parts_I : mscale (mdot (getMatrix (0, 0)) (rotm 0)) 1 = mI.
Proof.
  change (0, 0) with (RtoC 0). rewrite getMatrix_0. unfold mscale, mdot, rotm, mI. cbn [m00 m01 m10 m11]. rewrite sin_0, cos_0. f_equal; ring.
Qed.
Lemma Cmod_00 : Cmod (0, 0) = 0.
Proof. exact Cmod_0. Qed.
Lemma str_parts : forall s a b t, 0 < s -> Cmod (a, b) < 1 -> - PI < t <= PI -> s <> 1 \/ (a, b) <> (0, 0) \/ t <> 0 ->
  str_from_jac (mscale (mdot (getMatrix (a, b)) (rotm t)) s) =
  let J := mscale (mdot (getMatrix (a, b)) (rotm t)) s in
  match (if Rltb tiny (Rabs (s - 1)) then note (if Rltb tiny (Cmod (a, b)) then note (if Rltb tiny (Rabs t) then SText (Rotate t) else SNone) (ShearBy (a, b))
           else (if Rltb tiny (Rabs t) then SText (Rotate t) else SNone)) (Expand s)
         else if Rltb tiny (Cmod (a, b)) then note (if Rltb tiny (Rabs t) then SText (Rotate t) else SNone) (ShearBy (a, b))
           else (if Rltb tiny (Rabs t) then SText (Rotate t) else SNone)) with
  | SText o => Ok [o] | _ => Ok [TransformBy (m00 J) (m01 J) (m10 J) (m11 J)] end.
Proof.
  intros s a b t Hs Hg Ht NI. cbv zeta. set (J := mscale (mdot (getMatrix (a, b)) (rotm t)) s).
  assert (Ed : getDecomposition J = Ok (s, (a, b), t, false)) by (apply decomposition_unique; assumption).
  assert (NJ : J <> mI).
  { intro K. pose proof (decomposition_unique 1 0 0 0) as U. rewrite parts_I, <- K, Ed in U. pose proof PI_RGT_0.
    assert (V : @Ok (R * C * R * bool) (s, (a, b), t, false) = Ok (1, (0, 0), 0, false)) by (apply U; [lra|rewrite Cmod_00; lra|lra]).
    injection V as V1 V2 V3 V4. destruct NI as [Q|[Q|Q]]; [exact (Q V1)| |exact (Q V4)]. apply Q. congruence. }
  unfold str_from_jac. rewrite (not_identity J NJ), Ed. cbn [bind]. unfold sh_g.
  destruct (Rltb tiny (Rabs t)), (Rltb tiny (Cmod (a, b))), (Rltb tiny (Rabs (s - 1))); reflexivity.
Qed.
Lemma tiny_0 : Rltb tiny 0 = false.
Proof. destruct (Rltb_spec tiny 0) as [l|l]; [unfold tiny in l; lra|reflexivity]. Qed.
Lemma big : forall x, tiny < x -> Rltb tiny x = true.
Proof. intros x H. destruct (Rltb_spec tiny x); [reflexivity|lra]. Qed.
Lemma single_rotate : forall t, - PI < t <= PI -> tiny < Rabs t -> str_from_jac (rotm t) = Ok [Rotate t].
Proof.
  intros t Ht H. assert (E : rotm t = mscale (mdot (getMatrix (0, 0)) (rotm t)) 1).
  { change (0, 0) with (RtoC 0). rewrite getMatrix_0, mdot_I_l. unfold mscale, rotm. cbn [m00 m01 m10 m11]. f_equal; ring. }
  rewrite E, str_parts; [|lra|rewrite Cmod_00; lra|exact Ht|].
  2:{ right. right. intro Z. rewrite Z, Rabs_R0 in H. unfold tiny in H. lra. }
  cbv zeta. rewrite Cmod_00, tiny_0, (big _ H). replace (1 - 1) with 0 by ring. rewrite Rabs_R0, tiny_0. reflexivity.
Qed.
Lemma single_shear : forall g, Cmod g < 1 -> tiny < Cmod g -> str_from_jac (getMatrix g) = Ok [ShearBy g].
Proof.
  intros [a b] Hg H. pose proof PI_RGT_0. assert (E : getMatrix (a, b) = mscale (mdot (getMatrix (a, b)) (rotm 0)) 1).
  { unfold mscale, mdot, rotm. rewrite sin_0, cos_0. destruct (getMatrix (a, b)) as [p q r u]. cbn [m00 m01 m10 m11]. f_equal; ring. }
  rewrite E, str_parts; [|lra|exact Hg|lra|].
  2:{ right. left. intro Z. rewrite Z, Cmod_00 in H. unfold tiny in H. lra. }
  cbv zeta. rewrite (big _ H), Rabs_R0, tiny_0. replace (1 - 1) with 0 by ring. rewrite Rabs_R0, tiny_0. reflexivity.
Qed.
Lemma single_expand : forall s, 0 < s -> tiny < Rabs (s - 1) -> str_from_jac (Mat s 0 0 s) = Ok [Expand s].
Proof.
  intros s Hs H. pose proof PI_RGT_0. assert (E : Mat s 0 0 s = mscale (mdot (getMatrix (0, 0)) (rotm 0)) s).
  { change (0, 0) with (RtoC 0). rewrite getMatrix_0, mdot_I_l. unfold mscale, rotm. rewrite sin_0, cos_0. cbn [m00 m01 m10 m11]. f_equal; ring. }
  rewrite E, str_parts; [|lra|rewrite Cmod_00; lra|lra|].
  2:{ left. intro Z. rewrite Z in H. replace (1 - 1) with 0 in H by ring. rewrite Rabs_R0 in H. unfold tiny in H. lra. }
  cbv zeta. rewrite (big _ H), Cmod_00, Rabs_R0, tiny_0. reflexivity.
Qed.
(** Mirrored profiles, and profiles of two parts, are told in full and exactly *)
Lemma mirrored_full : forall J, mdet J < 0 -> str_from_jac J = Ok [TransformBy (m00 J) (m01 J) (m10 J) (m11 J)].
Proof.
  intros J H. unfold str_from_jac. rewrite not_identity. 2:{ intro K. rewrite K in H. unfold mdet, mI in H. cbn [m00 m01 m10 m11] in H. lra. }
  destruct (decomposition J) as (s & g & t & f & Ed & _ & _ & _ & _ & Hf & _); [lra|]. rewrite Ed. cbn [bind]. rewrite (proj2 Hf H).
  destruct (Rltb tiny (Rabs t)), (Rltb tiny (sh_g g)), (Rltb tiny (Rabs (s - 1))); reflexivity.
Qed.
Lemma exact_text : forall J h, mdet J <> 0 -> str_from_jac J = Ok h -> ~ Exists one_step h -> forall x, path h x = mapp J x.
Proof.
  intros J h H E NE x. destruct (str_told J H) as (h' & E' & T). rewrite E in E'. injection E' as <-.
  destruct T as [EJ| |s g t|s g t|s g t]; try (exfalso; apply NE; constructor; exact Logic.I).
  - subst J. symmetry. apply mI_app.
  - apply path_full.
Qed.
Lemma one_call : forall J h, mdet J <> 0 -> str_from_jac J = Ok h -> (h = [] /\ J = mI) \/ exists o, h = [o] /\ (one_step o \/ in_full o).
Proof.
  intros J h H E. destruct (str_told J H) as (h' & E' & T). rewrite E in E'. injection E' as <-.
  destruct T as [EJ| |s g t|s g t|s g t]; [left; auto| | | |]; right; eexists; (split; [reflexivity|]); cbn; auto.
Qed.
