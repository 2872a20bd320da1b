(** Celestial coordinate systems: units, origins, and the sky image. *)
From Coq Require Import ZArith Reals Bool List String Lra Lia.
From Coquelicot Require Import Coquelicot.
From Verif Require Import Base Bounds_Model Bounds_Proofs Geo_Model Geo_Proofs Angle_Model Sky_Model Sky_Spec Sky_Proofs Sky_Proj Sky_Jac FITS_Model FITS_Proofs Draw_Model Noise_Model Cel_Model Cel_Spec.
Open Scope R_scope.

(** ** Central differences *)
Lemma grow (G B g b : R -> R) : G 0 = 0 -> B 0 = 0 ->
  (forall h, 0 <= h <= 1 -> is_derive G h (g h) /\ is_derive B h (b h) /\ Rabs (g h) <= b h) -> forall h, 0 <= h <= 1 -> Rabs (G h) <= B h.
Proof.
  intros G0 B0 H.
  assert (M : forall F f, F 0 = 0 -> (forall h, 0 <= h <= 1 -> is_derive F h (f h) /\ 0 <= f h) -> forall h, 0 <= h <= 1 -> 0 <= F h).
  { intros F f F0 D h Hh. destruct (MVT_gen F 0 h f) as (c & Hc & E).
    - intros x Hx. rewrite Rmin_left, Rmax_right in Hx by lra. apply D. lra.
    - intros x Hx. rewrite Rmin_left, Rmax_right in Hx by lra. apply continuity_pt_filterlim, (ex_derive_continuous F). exists (f x). apply D. lra.
    - rewrite Rmin_left, Rmax_right in Hc by lra. pose proof (proj2 (D c ltac:(lra))) as P.
      pose proof (Rmult_le_pos (f c) (h - 0) P ltac:(lra)). lra. }
  intros h Hh. apply Rabs_le. split.
  - pose proof (M (fun h => G h + B h) (fun h => g h + b h)) as K. cbv beta in K.
    assert (0 <= G h + B h); [|lra]. apply K; [lra| |exact Hh]. intros k Hk. destruct (H k Hk) as (D1 & D2 & L). split.
    + apply (is_derive_plus G B k _ _ D1 D2).
    + apply Rabs_le_between in L. lra.
  - pose proof (M (fun h => B h - G h) (fun h => b h - g h)) as K. cbv beta in K.
    assert (0 <= B h - G h); [|lra]. apply K; [lra| |exact Hh]. intros k Hk. destruct (H k Hk) as (D1 & D2 & L). split.
    + apply (is_derive_minus B G k _ _ D2 D1).
    + apply Rabs_le_between in L. lra.
Qed.
Lemma derive_right (f : R -> R) t h l : is_derive f (t + h) l -> is_derive (fun h => f (t + h)) h l.
Proof.
  intro D. replace l with (1 * l) by ring. apply (is_derive_comp f (fun h => t + h)); [exact D|]. auto_derive; [exact Logic.I|ring].
Qed.
Lemma derive_left (f : R -> R) t h l : is_derive f (t - h) l -> is_derive (fun h => f (t - h)) h (- l).
Proof.
  intro D. replace (- l) with ((- 1) * l) by ring. apply (is_derive_comp f (fun h => t - h)); [exact D|]. auto_derive; [exact Logic.I|ring].
Qed.
Lemma central f t M : smooth f t M -> exists l, is_derive f t l /\ Rabs (/ 2 * (f (t + 1) - f (t - 1)) - l) <= M / 6.
Proof.
  intros (f1 & f2 & f3 & H). exists (f1 t). split; [apply H; lra|].
  assert (P2 : forall h, 0 <= h <= 1 -> Rabs (f2 (t + h) - f2 (t - h)) <= 2 * M * h).
  { apply (grow (fun h => f2 (t + h) - f2 (t - h)) (fun h => 2 * M * h) (fun h => f3 (t + h) - - f3 (t - h)) (fun _ => 2 * M)).
    - rewrite Rplus_0_r, Rminus_0_r. ring.
    - ring.
    - intros h Hh. destruct (H (t + h) ltac:(lra)) as (_ & _ & D & L). destruct (H (t - h) ltac:(lra)) as (_ & _ & D' & L'). split; [|split].
      + apply (is_derive_minus (fun h => f2 (t + h)) (fun h => f2 (t - h)) h); [apply derive_right, D|apply derive_left, D'].
      + auto_derive; [exact Logic.I|ring].
      + apply Rabs_le_between in L. apply Rabs_le_between in L'. apply Rabs_le. lra. }
  assert (P1 : forall h, 0 <= h <= 1 -> Rabs (f1 (t + h) + f1 (t - h) - 2 * f1 t) <= M * h ^ 2).
  { apply (grow (fun h => f1 (t + h) + f1 (t - h) - 2 * f1 t) (fun h => M * h ^ 2) (fun h => f2 (t + h) - f2 (t - h)) (fun h => 2 * M * h)).
    - rewrite Rplus_0_r, Rminus_0_r. ring.
    - ring.
    - intros h Hh. destruct (H (t + h) ltac:(lra)) as (_ & D & _ & _). destruct (H (t - h) ltac:(lra)) as (_ & D' & _ & _). split; [|split].
      + replace (f2 (t + h) - f2 (t - h)) with (f2 (t + h) + - f2 (t - h) - 0) by ring.
        apply (is_derive_minus (fun h => f1 (t + h) + f1 (t - h)) (fun _ => 2 * f1 t) h); [|apply @is_derive_const].
        apply (is_derive_plus (fun h => f1 (t + h)) (fun h => f1 (t - h)) h); [apply derive_right, D|apply derive_left, D'].
      + auto_derive; [exact Logic.I|ring].
      + apply P2, Hh. }
  assert (P0 : forall h, 0 <= h <= 1 -> Rabs (f (t + h) - f (t - h) - 2 * h * f1 t) <= M / 3 * h ^ 3).
  { apply (grow (fun h => f (t + h) - f (t - h) - 2 * h * f1 t) (fun h => M / 3 * h ^ 3) (fun h => f1 (t + h) - - f1 (t - h) - 2 * f1 t) (fun h => M * h ^ 2)).
    - rewrite Rplus_0_r, Rminus_0_r. ring.
    - ring.
    - intros h Hh. destruct (H (t + h) ltac:(lra)) as (D & _). destruct (H (t - h) ltac:(lra)) as (D' & _). split; [|split].
      + apply (is_derive_minus (fun h => f (t + h) - f (t - h)) (fun h => 2 * h * f1 t) h).
        * apply (is_derive_minus (fun h => f (t + h)) (fun h => f (t - h)) h); [apply derive_right, D|apply derive_left, D'].
        * auto_derive; [exact Logic.I|ring].
      + auto_derive; [exact Logic.I|field].
      + replace (f1 (t + h) - - f1 (t - h) - 2 * f1 t) with (f1 (t + h) + f1 (t - h) - 2 * f1 t) by ring. apply P1, Hh. }
  specialize (P0 1 ltac:(lra)). replace (/ 2 * (f (t + 1) - f (t - 1)) - f1 t) with (/ 2 * (f (t + 1) - f (t - 1) - 2 * 1 * f1 t)) by field.
  rewrite Rabs_mult, (Rabs_right (/ 2)) by lra. lra.
Qed.

(** ** Jumps *)
Lemma unjump_ok d e : Rabs e <= 1 -> (exists k, d = e + PI * IZR k) -> Rabs d < PI -> unjump d = e.
Proof.
  intros He [k K] Hd. pose proof PI2_3_2 as P3. pose proof PI_RGT_0. apply Rabs_le_between in He. apply Rabs_def2 in Hd. unfold unjump.
  assert (k = -1 \/ k = 0 \/ k = 1)%Z as [->|[->| ->]].
  { assert (-2 < IZR k < 2). { split; apply (Rmult_lt_reg_l PI); lra. }
    destruct H0 as [A B]. apply (lt_IZR (-2)) in A. apply (lt_IZR k 2) in B. lia. }
  - destruct (Rltb_spec 1 d); [lra|]. destruct (Rltb_spec d (-1)); lra.
  - destruct (Rltb_spec 1 d); [lra|]. destruct (Rltb_spec d (-1)); lra.
  - destruct (Rltb_spec 1 d); [|lra]. destruct (Rltb_spec (d - PI) (-1)); lra.
Qed.

Lemma det_close a b c d a' b' c' d' E : Rabs (a - a') <= E -> Rabs (b - b') <= E -> Rabs (c - c') <= E -> Rabs (d - d') <= E ->
  Rabs (Rabs (a * d - c * b) - Rabs (a' * d' - c' * b')) <= E * (Rabs a' + Rabs b' + Rabs c' + Rabs d') + 2 * E ^ 2.
Proof.
  intros A B C D. eapply Rle_trans; [apply Rabs_triang_inv2|].
  replace (a * d - c * b - (a' * d' - c' * b')) with ((a - a') * d' + a' * (d - d') + (a - a') * (d - d') - ((c - c') * b' + c' * (b - b') + (c - c') * (b - b'))) by ring.
  assert (P : 0 <= E) by (pose proof (Rabs_pos (a - a')); lra).
  assert (M : forall x y X Y, Rabs x <= X -> Rabs y <= Y -> Rabs (x * y) <= X * Y).
  { intros x y X Y HX HY. rewrite Rabs_mult. apply Rmult_le_compat; auto using Rabs_pos. }
  pose proof (M _ _ _ _ A (Rle_refl (Rabs d'))) as K1. pose proof (M _ _ _ _ (Rle_refl (Rabs a')) D) as K2. pose proof (M _ _ _ _ A D) as K3.
  pose proof (M _ _ _ _ C (Rle_refl (Rabs b'))) as K4. pose proof (M _ _ _ _ (Rle_refl (Rabs c')) B) as K5. pose proof (M _ _ _ _ C B) as K6.
  apply Rabs_le_between in K1. apply Rabs_le_between in K2. apply Rabs_le_between in K3. apply Rabs_le_between in K4. apply Rabs_le_between in K5. apply Rabs_le_between in K6.
  apply Rabs_le. split; nra.
Qed.

(** ** Velocities on the sphere *)
Lemma full_turns k l : cos (l + 2 * PI * IZR k) = cos l /\ sin (l + 2 * PI * IZR k) = sin l.
Proof.
  assert (S : sin (2 * PI * IZR k) = 0) by (apply sin_eq_0_1; exists (2 * k)%Z; rewrite mult_IZR; ring).
  assert (C : cos (2 * PI * IZR k) = 1).
  { replace (2 * PI * IZR k) with (2 * (PI * IZR k)) by ring. rewrite cos_2a_sin. replace (sin (PI * IZR k)) with 0; [ring|]. symmetry. apply sin_eq_0_1. exists k. ring. }
  rewrite cos_plus, sin_plus, S, C. split; ring.
Qed.
Lemma sky_turns k l d : sky (l + 2 * PI * IZR k) d = sky l d.
Proof. unfold sky. destruct (full_turns k l) as [-> ->]. reflexivity. Qed.
Lemma sky_velocity lon lat t a b : is_derive lon t a -> is_derive lat t b ->
  velocity_of (fun s => sky (lon s) (lat s)) t (v3add (v3scale (a * cos (lat t)) (east (lon t))) (v3scale b (north (lon t) (lat t)))).
Proof.
  intros A B [[n1 n2] n3]. apply is_derive_Reals. cbv [v3dot sky v3add v3scale east north].
  assert (CL : is_derive (fun s => cos (lon s)) t (- sin (lon t) * a)).
  { replace (- sin (lon t) * a) with (a * - sin (lon t)) by ring. apply (is_derive_comp cos lon); [apply is_derive_Reals, derivable_pt_lim_cos|exact A]. }
  assert (SL : is_derive (fun s => sin (lon s)) t (cos (lon t) * a)).
  { replace (cos (lon t) * a) with (a * cos (lon t)) by ring. apply (is_derive_comp sin lon); [apply is_derive_Reals, derivable_pt_lim_sin|exact A]. }
  assert (CB : is_derive (fun s => cos (lat s)) t (- sin (lat t) * b)).
  { replace (- sin (lat t) * b) with (b * - sin (lat t)) by ring. apply (is_derive_comp cos lat); [apply is_derive_Reals, derivable_pt_lim_cos|exact B]. }
  assert (SB : is_derive (fun s => sin (lat s)) t (cos (lat t) * b)).
  { replace (cos (lat t) * b) with (b * cos (lat t)) by ring. apply (is_derive_comp sin lat); [apply is_derive_Reals, derivable_pt_lim_sin|exact B]. }
  pose proof (is_derive_mult _ _ t _ _ CB CL Rmult_comm) as D1. pose proof (is_derive_mult _ _ t _ _ CB SL Rmult_comm) as D2.
  pose proof (is_derive_scal _ t n1 _ D1) as E1. pose proof (is_derive_scal _ t n2 _ D2) as E2. pose proof (is_derive_scal _ t n3 _ SB) as E3.
  pose proof (is_derive_plus _ _ t _ _ (is_derive_plus _ _ t _ _ E1 E2) E3) as D.
  match type of D with is_derive _ _ ?l => match goal with |- is_derive _ _ ?m => replace m with l end end; [exact D|].
  unfold plus, mult; simpl. ring.
Qed.
Lemma velocity_unique f t d d' : velocity_of f t d -> velocity_of f t d' -> d = d'.
Proof.
  intros H H'. destruct d as [[d1 d2] d3], d' as [[e1 e2] e3].
  assert (K : forall n, v3dot n (d1, d2, d3) = v3dot n (e1, e2, e3)).
  { intro n. exact (uniqueness_limite _ _ _ _ (H n) (H' n)). }
  pose proof (K (1, 0, 0)) as K1. pose proof (K (0, 1, 0)) as K2. pose proof (K (0, 0, 1)) as K3. cbv [v3dot] in K1, K2, K3.
  f_equal; [f_equal|]; lra.
Qed.
Lemma velocity_ext f g t d : (forall s, t - 1 <= s <= t + 1 -> f s = g s) -> velocity_of f t d -> velocity_of g t d.
Proof.
  intros E H n. apply is_derive_Reals. apply (is_derive_ext_loc (fun s => v3dot n (f s))).
  - exists (mkposreal 1 Rlt_0_1). intros s Hs. rewrite E; [reflexivity|]. apply Rabs_def2 in Hs. unfold minus, plus, opp in Hs; simpl in Hs. lra.
  - apply is_derive_Reals, H.
Qed.
Lemma cross_norm lon lat a b c d :
  v3norm (v3cross (v3add (v3scale a (east lon)) (v3scale b (north lon lat))) (v3add (v3scale c (east lon)) (v3scale d (north lon lat)))) = Rabs (a * d - b * c).
Proof.
  unfold v3norm. rewrite <- sqrt_Rsqr_abs. f_equal. cbv [v3dot v3cross v3add v3scale east north Rsqr].
  pose proof (sin2_cos2 lon) as S. pose proof (sin2_cos2 lat) as S'. unfold Rsqr in *.
  replace (cos lat) with (cos lat) by reflexivity. set (x := sin lon) in *. set (y := cos lon) in *. set (z := sin lat) in *. set (w := cos lat) in *.
  transitivity ((a * d - b * c) * (a * d - b * c) * (w * w * (x * x + y * y) + z * z * (x * x + y * y) ^ 2)); [ring|].
  rewrite S. replace (w * w * 1 + z * z * 1 ^ 2) with (z * z + w * w) by ring. rewrite S'. ring.
Qed.

(** ** The sky image *)
Lemma comp_norm l d e n : Rabs e + Rabs n <= 3 / 2 * v3norm (v3add (v3scale e (east l)) (v3scale n (north l d))).
Proof.
  assert (N : v3norm (v3add (v3scale e (east l)) (v3scale n (north l d))) = sqrt (e * e + n * n)).
  { unfold v3norm. f_equal. cbv [v3dot v3add v3scale east north]. pose proof (sin2_cos2 l) as S. pose proof (sin2_cos2 d) as S'. unfold Rsqr in *.
    set (x := sin l) in *. set (y := cos l) in *. set (z := sin d) in *. set (w := cos d) in *.
    transitivity (e * e * (x * x + y * y) + n * n * (z * z * (x * x + y * y) + w * w)); [ring|]. rewrite S. replace (z * z * 1 + w * w) with 1 by lra. ring. }
  rewrite N. pose proof (Rabs_pos e). pose proof (Rabs_pos n).
  assert (Q : (Rabs e + Rabs n) * (Rabs e + Rabs n) <= 9 / 4 * (e * e + n * n)).
  { assert (T : forall r, Rabs r * Rabs r = r * r) by (intro r; rewrite <- Rabs_mult; apply Rabs_right; nra).
    pose proof (T e). pose proof (T n). pose proof (Rle_0_sqr (Rabs e - Rabs n)). unfold Rsqr in *. nra. }
  rewrite <- (sqrt_square (Rabs e + Rabs n)) by lra. replace (3 / 2) with (sqrt (9 / 4)).
  - rewrite <- sqrt_mult by nra. apply sqrt_le_1; nra.
  - replace (9 / 4) with (3 / 2 * (3 / 2)) by field. apply sqrt_square. lra.
Qed.

Section SkyImage.
  Context {W : Type}.
  Variable O : celops W.
  Lemma sky_close (w : W) sky i j M lon lat : let x := IZR i - fst (c_origin O w) in let y := IZR j - snd (c_origin O w) in
    smooth_at (c_radec O w) x y M lon lat ->
    exists a b, velocity_of (fun s => direction O w (s, IZR j)) (IZR i) a /\ velocity_of (fun s => direction O w (IZR i, s)) (IZR j) b /\
      Rabs (sky_area O w sky i j - sky * v3norm (v3cross a b) * (radians / arcsec) ^ 2) <=
      Rabs sky * (radians / arcsec) ^ 2 * (M / 4 * (v3norm a + v3norm b) + M ^ 2 / 18).
  Proof.
    intros x y (L1 & L2 & B1 & B2 & J1 & J2 & R1 & R2 & X & Y).
    destruct (central _ _ _ L1) as (p & Dp & Ep). destruct (central _ _ _ L2) as (q & Dq & Eq).
    destruct (central _ _ _ B1) as (r & Dr & Er). destruct (central _ _ _ B2) as (s & Ds & Es). cbv beta in *.
    exists (v3add (v3scale (p * cos (lat x y)) (east (lon x y))) (v3scale r (north (lon x y) (lat x y)))).
    exists (v3add (v3scale (q * cos (lat x y)) (east (lon x y))) (v3scale s (north (lon x y) (lat x y)))).
    split; [|split].
    - apply (velocity_ext (fun t => Sky_Spec.sky (lon (t - fst (c_origin O w)) y) (lat (t - fst (c_origin O w)) y))).
      + intros t Ht. unfold direction. cbv [vsub fst snd]. fold y. change (let (x, _) := c_origin O w in x) with (fst (c_origin O w)).
        change (let (_, y) := c_origin O w in y) with (snd (c_origin O w)). fold y.
        destruct (X (t - fst (c_origin O w)) ltac:(unfold x; lra)) as (E1 & k & E2).
        destruct (c_radec O w (t - fst (c_origin O w), y)) as [ra dec]. cbn [fst snd] in E1, E2. subst ra dec. symmetry. apply sky_turns.
      + apply (sky_velocity (fun t => lon (t - fst (c_origin O w)) y) (fun t => lat (t - fst (c_origin O w)) y) (IZR i)).
        * replace p with (1 * p) by ring. apply (is_derive_comp (fun s => lon s y) (fun t => t - fst (c_origin O w))); [exact Dp|auto_derive; [exact Logic.I|ring]].
        * replace r with (1 * r) by ring. apply (is_derive_comp (fun s => lat s y) (fun t => t - fst (c_origin O w))); [exact Dr|auto_derive; [exact Logic.I|ring]].
    - apply (velocity_ext (fun t => Sky_Spec.sky (lon x (t - snd (c_origin O w))) (lat x (t - snd (c_origin O w))))).
      + intros t Ht. unfold direction. cbv [vsub fst snd]. change (let (x, _) := c_origin O w in x) with (fst (c_origin O w)).
        change (let (_, y) := c_origin O w in y) with (snd (c_origin O w)). fold x.
        destruct (Y (t - snd (c_origin O w)) ltac:(unfold y; lra)) as (E1 & k & E2).
        destruct (c_radec O w (x, t - snd (c_origin O w))) as [ra dec]. cbn [fst snd] in E1, E2. subst ra dec. symmetry. apply sky_turns.
      + apply (sky_velocity (fun t => lon x (t - snd (c_origin O w))) (fun t => lat x (t - snd (c_origin O w))) (IZR j)).
        * replace q with (1 * q) by ring. apply (is_derive_comp (fun s => lon x s) (fun t => t - snd (c_origin O w))); [exact Dq|auto_derive; [exact Logic.I|ring]].
        * replace s with (1 * s) by ring. apply (is_derive_comp (fun s => lat x s) (fun t => t - snd (c_origin O w))); [exact Ds|auto_derive; [exact Logic.I|ring]].
    - rewrite cross_norm. set (c := cos (lat x y)) in *.
      assert (Hc : Rabs c <= 1) by (apply Rabs_le; pose proof (COS_bound (lat x y)); unfold c; lra).
      unfold sky_area. rewrite !plus_IZR, !minus_IZR. fold x y.
      replace (IZR i + 1 - fst (c_origin O w)) with (x + 1) by (unfold x; ring). replace (IZR i - 1 - fst (c_origin O w)) with (x - 1) by (unfold x; ring).
      replace (IZR j + 1 - snd (c_origin O w)) with (y + 1) by (unfold y; ring). replace (IZR j - 1 - snd (c_origin O w)) with (y - 1) by (unfold y; ring).
      destruct (X x ltac:(lra)) as (C0 & _). rewrite C0. fold c.
      assert (U1 : unjump (- / 2 * (fst (c_radec O w (x + 1, y)) - fst (c_radec O w (x - 1, y)))) = - / 2 * (lon (x + 1) y - lon (x - 1) y)).
      { apply unjump_ok.
        - rewrite Rabs_mult, Rabs_Ropp, (Rabs_right (/ 2)) by lra. lra.
        - destruct (X (x + 1) ltac:(lra)) as (_ & k1 & E1). destruct (X (x - 1) ltac:(lra)) as (_ & k2 & E2). exists (k2 - k1)%Z. rewrite E1, E2, minus_IZR. lra.
        - rewrite Rabs_mult, Rabs_Ropp, (Rabs_right (/ 2)) by lra. lra. }
      assert (U2 : unjump (- / 2 * (fst (c_radec O w (x, y + 1)) - fst (c_radec O w (x, y - 1)))) = - / 2 * (lon x (y + 1) - lon x (y - 1))).
      { apply unjump_ok.
        - rewrite Rabs_mult, Rabs_Ropp, (Rabs_right (/ 2)) by lra. lra.
        - destruct (Y (y + 1) ltac:(lra)) as (_ & k1 & E1). destruct (Y (y - 1) ltac:(lra)) as (_ & k2 & E2). exists (k2 - k1)%Z. rewrite E1, E2, minus_IZR. lra.
        - rewrite Rabs_mult, Rabs_Ropp, (Rabs_right (/ 2)) by lra. lra. }
      rewrite U1, U2. destruct (X (x + 1) ltac:(lra)) as (-> & _). destruct (X (x - 1) ltac:(lra)) as (-> & _).
      destruct (Y (y + 1) ltac:(lra)) as (-> & _). destruct (Y (y - 1) ltac:(lra)) as (-> & _).
      set (F := (radians / arcsec) ^ 2). assert (HF : 0 <= F) by (unfold F; apply pow2_ge_0).
      assert (SC : forall u v, Rabs (u - v) <= M / 6 -> Rabs (- u * c - - v * c) <= M / 6).
      { intros u v H. replace (- u * c - - v * c) with (- ((u - v) * c)) by ring. rewrite Rabs_Ropp, Rabs_mult. pose proof (Rabs_pos (u - v)). pose proof (Rabs_pos c). nra. }
      match goal with |- Rabs (Rabs ?d * sky * F - _) <= _ => set (D := d) end.
      assert (K : Rabs (Rabs D - Rabs ((- p * c) * s - r * (- q * c))) <= M / 6 * (Rabs (- p * c) + Rabs (- q * c) + Rabs r + Rabs s) + 2 * (M / 6) ^ 2).
      { unfold D. replace (- / 2 * (lon (x + 1) y - lon (x - 1) y) * c) with (- (/ 2 * (lon (x + 1) y - lon (x - 1) y)) * c) by ring.
        replace (- / 2 * (lon x (y + 1) - lon x (y - 1)) * c) with (- (/ 2 * (lon x (y + 1) - lon x (y - 1))) * c) by ring.
        apply det_close; [apply SC, Ep|apply SC, Eq|exact Er|exact Es]. }
      replace (Rabs (p * c * s - r * (q * c))) with (Rabs (- p * c * s - r * (- q * c))) by (rewrite <- Rabs_Ropp; f_equal; ring).
      replace (Rabs D * sky * F - sky * Rabs (- p * c * s - r * (- q * c)) * F) with (sky * F * (Rabs D - Rabs (- p * c * s - r * (- q * c)))) by ring.
      rewrite 2!Rabs_mult, (Rabs_right F) by lra. apply Rmult_le_compat_l; [apply Rmult_le_pos; [apply Rabs_pos|exact HF]|].
      eapply Rle_trans; [exact K|]. pose proof (comp_norm (lon x y) (lat x y) (p * c) r) as N1. pose proof (comp_norm (lon x y) (lat x y) (q * c) s) as N2.
      replace (- p * c) with (- (p * c)) by ring. replace (- q * c) with (- (q * c)) by ring. rewrite !Rabs_Ropp.
      assert (HM : 0 <= M). { pose proof (Rabs_pos (/ 2 * (lon (x + 1) y - lon (x - 1) y) - p)). lra. }
      nra.
  Qed.
End SkyImage.

(** For GSFitsWCS the solid angle is the area of _local. *)
Lemma moves_velocity f t e n : moves f t e n ->
  velocity_of (fun s => sky (fst (f s)) (snd (f s))) t (v3add (v3scale e (east (fst (f t)))) (v3scale n (north (fst (f t)) (snd (f t))))).
Proof. unfold moves. destruct (f t) as [lon lat]. cbn [fst snd]. intros H w. exact (H w). Qed.
Lemma fits_direction w p : direction fits_ops w p = sky (fst (f_radec w p)) (snd (f_radec w p)).
Proof.
  unfold direction, fits_ops. cbn [c_radec c_origin]. replace (vsub p (0, 0)) with p by (destruct p; cbv [vsub fst snd]; f_equal; ring).
  destruct (f_radec w p); reflexivity.
Qed.
Lemma fits_area w x y : good (f_pv w) -> good (f_ab w) -> let uv := f_uv w (x, y) in plane_ok (f_proj w) (fst uv * fst uv + snd uv * snd uv) ->
  cos (snd (f_radec w (x, y))) <> 0 -> let J := f_local w (x, y) in
  forall a b, velocity_of (fun s => direction fits_ops w (s, y)) x a -> velocity_of (fun s => direction fits_ops w (x, s)) y b ->
  v3norm (v3cross a b) * (radians / arcsec) ^ 2 = Rabs (m00 J * m11 J - m10 J * m01 J).
Proof.
  intros GP GA uv H NC J a b Ha Hb.
  pose proof (moves_velocity _ _ _ _ (local_is_derivative w (fun s => s) (fun _ => y) x 1 0 GP GA (is_derive_id x) (is_derive_const y x) H NC)) as D1.
  pose proof (moves_velocity _ _ _ _ (local_is_derivative w (fun _ => x) (fun s => s) y 0 1 GP GA (is_derive_const x y) (is_derive_id y) H NC)) as D2.
  cbv beta in D1, D2. fold J in D1, D2.
  apply (velocity_ext _ (fun s => direction fits_ops w (s, y))) in D1; [|intros; symmetry; apply fits_direction].
  apply (velocity_ext _ (fun s => direction fits_ops w (x, s))) in D2; [|intros; symmetry; apply fits_direction].
  rewrite (velocity_unique _ _ _ _ Ha D1), (velocity_unique _ _ _ _ Hb D2).
  rewrite cross_norm. pose proof arcsec_pos as P. unfold radians.
  repeat match goal with |- context [f_local w ?p] => change (f_local w p) with J end. clearbody J.
  match goal with |- Rabs ?e * _ = _ => replace e with (- (m00 J * m11 J - m10 J * m01 J) * arcsec ^ 2) by ring end.
  rewrite Rabs_mult, Rabs_Ropp, (Rabs_right (arcsec ^ 2)) by (apply Rle_ge, pow2_ge_0). field. lra.
Qed.
