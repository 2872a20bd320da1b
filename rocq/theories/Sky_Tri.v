(** Great circles, angles and areas of spherical triangles. *)
From Coq Require Import Reals Bool Lra ZArith Lia.
From Verif Require Import Base Bounds_Model Bounds_Proofs Geo_Model Geo_Proofs Angle_Model Angle_Spec Angle_Proofs Sky_Model Sky_Spec Sky_Proofs.
Open Scope R_scope.

(** * atan2 in the upper half plane *)
Lemma hypot_sq : forall x y, hypot x y * hypot x y = x * x + y * y.
Proof. intros. unfold hypot. apply sqrt_sqrt, sq2_pos. Qed.
Lemma hypot_gt : forall x y, y <> 0 -> 0 < hypot x y.
Proof.
  intros x y H. unfold hypot. apply sqrt_lt_R0. pose proof (Rle_0_sqr x). pose proof (Rsqr_pos_lt y H). unfold Rsqr in *. lra.
Qed.
Lemma atan2_upper : forall y x, 0 < y -> 0 < atan2 y x < PI.
Proof.
  intros y x H. destruct (atan2_polar y x) as [A B]. pose proof (hypot_gt x y ltac:(lra)) as P. pose proof (atan2_range y x) as R.
  assert (S : 0 < sin (atan2 y x)).
  { apply (Rmult_lt_reg_l (hypot x y)); [exact P|]. rewrite B. lra. }
  destruct (Rle_or_lt (atan2 y x) 0) as [L|L].
  - exfalso. assert (0 <= sin (- atan2 y x)) by (apply sin_ge_0; lra). rewrite sin_neg in H0. lra.
  - split; [exact L|]. destruct (Req_dec (atan2 y x) PI) as [e|e]; [|lra]. rewrite e, sin_PI in S. lra.
Qed.
Lemma atan2_flip : forall y x, y < 0 -> atan2 y x = - atan2 (- y) x.
Proof.
  intros y x H. pose proof (atan2_upper (- y) x ltac:(lra)) as R. destruct (atan2_polar (- y) x) as [A B].
  pose proof (hypot_gt x (- y) ltac:(lra)) as P. set (t := atan2 (- y) x) in *. set (h := hypot x (- y)) in *.
  replace y with (h * sin (- t)) by (rewrite sin_neg; lra). replace x with (h * cos (- t)) by (rewrite cos_neg; exact A).
  apply atan2_unique; lra.
Qed.
Lemma atan2_abs : forall y x, y <> 0 -> Rabs (atan2 y x) = atan2 (Rabs y) x.
Proof.
  intros y x H. destruct (Rlt_or_le y 0) as [L|L].
  - rewrite atan2_flip by exact L. rewrite (Rabs_left y) by exact L. rewrite Rabs_Ropp.
    apply Rabs_right. pose proof (atan2_upper (- y) x ltac:(lra)). lra.
  - rewrite (Rabs_right y) by lra. apply Rabs_right. pose proof (atan2_upper y x ltac:(lra)). lra.
Qed.

(** * Great circles *)
Lemma great_circle : forall c1 c2 theta,
  let u := sky (cra c1) (cdec c1) in
  let v := sky (cra c2) (cdec c2) in
  let d := distanceTo c1 c2 in
  (sin d = 0 -> greatCirclePoint c1 c2 theta = Err RuntimeError) /\
  (sin d <> 0 -> exists c, greatCirclePoint c1 c2 theta = Ok c /\ latitude (cdec c) /\ 0 <= cra c < 2 * PI
     /\ v3scale (sin d) (sky (cra c) (cdec c)) = v3add (v3scale (sin (d - theta)) u) (v3scale (sin theta) v)).
Proof.
  intros c1 c2 theta u v d. pose proof (sky_unit (cra c1) (cdec c1)) as U. pose proof (sky_unit (cra c2) (cdec c2)) as V.
  fold u in U. fold v in V. destruct (distance_ok c1 c2) as [DR DC]. fold u v d in DR, DC.
  pose proof (dsq_dot (get_aux c1) (get_aux c2) U V) as DS.
  change (v3dot (dpt (get_aux c1)) (dpt (get_aux c2))) with (v3dot u v) in DS. rewrite <- DC in DS.
  unfold greatCirclePoint. rewrite DS.
  change (ax (get_aux c1)) with (fst (fst u)). change (ay (get_aux c1)) with (snd (fst u)). change (az (get_aux c1)) with (snd u).
  change (ax (get_aux c2)) with (fst (fst v)). change (ay (get_aux c2)) with (snd (fst v)). change (az (get_aux c2)) with (snd v).
  clearbody u v d. destruct u as [[u1 u2] u3], v as [[y1 y2] y3]. cbn [fst snd]. cbv [v3dot] in U, V, DC.
  set (w1 := y1 - u1 + u1 * (2 - 2 * cos d) / 2). set (w2 := y2 - u2 + u2 * (2 - 2 * cos d) / 2).
  set (w3 := y3 - u3 + u3 * (2 - 2 * cos d) / 2). cbv zeta.
  assert (S0 : 0 <= sin d) by (apply sin_ge_0; lra).
  assert (W : w1 ^ 2 + w2 ^ 2 + w3 ^ 2 = Rsqr (sin d)).
  { unfold Rsqr. replace (sin d * sin d) with (1 - cos d * cos d) by (pose proof (sc d); lra).
    transitivity ((y1 * y1 + y2 * y2 + y3 * y3) - 2 * cos d * (u1 * y1 + u2 * y2 + u3 * y3) + cos d * cos d * (u1 * u1 + u2 * u2 + u3 * u3)).
    - unfold w1, w2, w3. field.
    - rewrite U, V, <- DC. ring. }
  rewrite W, sqrt_Rsqr by exact S0.
  split; intro H; destruct (Reqb_spec (sin d) 0) as [e|e]; try contradiction; [reflexivity|].
  set (p := (u1 * cos theta + w1 / sin d * sin theta, u2 * cos theta + w2 / sin d * sin theta, u3 * cos theta + w3 / sin d * sin theta) : v3).
  assert (SP : v3scale (sin d) p = v3add (v3scale (sin (d - theta)) (u1, u2, u3)) (v3scale (sin theta) (y1, y2, y3))).
  { cbv [v3scale v3add p]. rewrite sin_minus. unfold w1, w2, w3. apply f_equal2; [apply f_equal2|]; field; exact e. }
  assert (WW : w1 * w1 + w2 * w2 + w3 * w3 = sin d * sin d) by (unfold Rsqr in W; lra).
  assert (UW : u1 * w1 + u2 * w2 + u3 * w3 = 0).
  { transitivity ((u1 * y1 + u2 * y2 + u3 * y3) - cos d * (u1 * u1 + u2 * u2 + u3 * u3)); [unfold w1, w2, w3; field|].
    rewrite U, <- DC. ring. }
  assert (PU : v3dot p p = 1).
  { cbv [v3dot p].
    transitivity (cos theta * cos theta * (u1 * u1 + u2 * u2 + u3 * u3) + 2 * cos theta * sin theta / sin d * (u1 * w1 + u2 * w2 + u3 * w3)
                  + sin theta * sin theta / (sin d * sin d) * (w1 * w1 + w2 * w2 + w3 * w3)); [field; exact e|].
    rewrite U, UW, WW. transitivity (sin theta * sin theta + cos theta * cos theta); [field; exact e | apply sc]. }
  destruct (from_xyz_unit p PU) as [c [A [B [C D]]]]. exists c. split; [exact A|]. split; [exact B|]. split; [exact C|].
  rewrite D. exact SP.
Qed.

(** * Three unit vectors *)
Lemma cross_norm : forall X Y, v3dot (v3cross X Y) (v3cross X Y) = v3dot X X * v3dot Y Y - v3dot X Y * v3dot X Y.
Proof. intros [[a b] c] [[x y] z]. v3ring. Qed.
Lemma cross_cross : forall X Y Z W, v3dot (v3cross X Y) (v3cross Z W) = v3dot X Z * v3dot Y W - v3dot X W * v3dot Y Z.
Proof. intros [[a b] c] [[x y] z] [[d e] f] [[g h] i]. v3ring. Qed.
Lemma gramG : forall A B C, let F := v3dot A (v3cross B C) in
  F * F = v3dot A A * v3dot B B * v3dot C C + 2 * v3dot B C * v3dot C A * v3dot A B - v3dot A A * (v3dot B C * v3dot B C)
          - v3dot B B * (v3dot C A * v3dot C A) - v3dot C C * (v3dot A B * v3dot A B).
Proof. intros [[a1 a2] a3] [[b1 b2] b3] [[c1 c2] c3]. cbv [v3dot v3cross]. ring. Qed.
Lemma gram3 : forall A B C, v3dot A A = 1 -> v3dot B B = 1 -> v3dot C C = 1 ->
  let p := v3dot B C in let q := v3dot C A in let r := v3dot A B in let F := v3dot A (v3cross B C) in
  F * F = 1 + 2 * p * q * r - p * p - q * q - r * r.
Proof.
  intros A B C UA UB UC p q r F.
  pose proof (gramG A B C) as G. cbv zeta in G. fold F p q r in G.
  rewrite G, UA, UB, UC. ring.
Qed.
Lemma polar_of : forall F x, 0 < F -> let t := atan2 F x in let n := hypot x F in
  0 < n /\ n * cos t = x /\ n * sin t = F /\ 0 < t < PI /\ n * n = x * x + F * F.
Proof.
  intros F x AF t n. destruct (atan2_polar F x) as [X Y].
  split; [apply hypot_gt; lra|]. split; [exact X|]. split; [exact Y|]. split; [apply atan2_upper; exact AF|]. apply hypot_sq.
Qed.
Lemma girard_direction : forall p q r F, 0 < F -> F * F = 1 + 2 * p * q * r - p * p - q * q - r * r ->
  -1 < p < 1 -> -1 < q < 1 -> -1 < r < 1 ->
  same_direction (atan2 F (p - q * r) + atan2 F (q - r * p) + atan2 F (r - p * q)) (PI + 2 * atan2 F (1 + p + q + r)).
Proof.
  intros p q r F HF G Hp Hq Hr.
  destruct (polar_of F (p - q * r) HF) as [N1 [C1 [S1 [_ M1]]]]. destruct (polar_of F (q - r * p) HF) as [N2 [C2 [S2 [_ M2]]]].
  destruct (polar_of F (r - p * q) HF) as [N3 [C3 [S3 [_ M3]]]]. destruct (polar_of F (1 + p + q + r) HF) as [N4 [C4 [S4 [_ M4]]]].
  cbv zeta in *.
  set (a := atan2 F (p - q * r)) in *. set (b := atan2 F (q - r * p)) in *. set (c := atan2 F (r - p * q)) in *.
  set (h := atan2 F (1 + p + q + r)) in *.
  set (n1 := hypot (p - q * r) F) in *. set (n2 := hypot (q - r * p) F) in *. set (n3 := hypot (r - p * q) F) in *.
  set (m := hypot (1 + p + q + r) F) in *. clearbody a b c h n1 n2 n3 m.
  set (K := (1 - p) * (1 - q) * (1 - r) / 2).
  assert (KP : 0 < K).
  { unfold K. assert (0 < (1 - p) * (1 - q)) by (apply Rmult_lt_0_compat; lra).
    assert (0 < (1 - p) * (1 - q) * (1 - r)) by (apply Rmult_lt_0_compat; lra). lra. }
  assert (NN : n1 * n2 * n3 = K * (m * m)).
  { apply Rsqr_inj.
    - apply Rmult_le_pos; [apply Rmult_le_pos|]; lra.
    - apply Rmult_le_pos; [lra|]. apply Rmult_le_pos; lra.
    - unfold Rsqr. transitivity ((n1 * n1) * (n2 * n2) * (n3 * n3)); [ring|].
      transitivity (K * K * (m * m) * (m * m)); [|ring]. rewrite M1, M2, M3, M4, G. unfold K. field. }
  assert (CS : n1 * n2 * n3 * cos (a + b + c) = - (K * (m * m)) * cos (2 * h)).
  { rewrite !cos_plus, sin_plus, cos_2a.
    transitivity ((n1 * cos a) * (n2 * cos b) * (n3 * cos c) - (n1 * sin a) * (n2 * sin b) * (n3 * cos c)
                  - ((n1 * sin a) * (n2 * cos b) + (n1 * cos a) * (n2 * sin b)) * (n3 * sin c)); [ring|].
    rewrite C1, C2, C3, S1, S2, S3.
    transitivity (- K * ((m * cos h) * (m * cos h) - (m * sin h) * (m * sin h))); [|ring]. rewrite C4, S4.
    transitivity ((p - q * r) * (q - r * p) * (r - p * q) - (F * F) * (p - q * r + (q - r * p) + (r - p * q))); [ring|].
    transitivity (- K * ((1 + p + q + r) * (1 + p + q + r) - F * F)); [|ring]. rewrite G. unfold K. field. }
  assert (SN : n1 * n2 * n3 * sin (a + b + c) = - (K * (m * m)) * sin (2 * h)).
  { rewrite !sin_plus, cos_plus, sin_2a.
    transitivity (((n1 * sin a) * (n2 * cos b) + (n1 * cos a) * (n2 * sin b)) * (n3 * cos c)
                  + ((n1 * cos a) * (n2 * cos b) - (n1 * sin a) * (n2 * sin b)) * (n3 * sin c)); [ring|].
    rewrite C1, C2, C3, S1, S2, S3.
    transitivity (- K * (2 * (m * sin h) * (m * cos h))); [|ring]. rewrite C4, S4.
    transitivity (F * ((q - r * p) * (r - p * q) + (p - q * r) * (r - p * q) + (p - q * r) * (q - r * p) - F * F)); [ring|].
    transitivity (F * (- K * (2 * (1 + p + q + r)))); [|ring]. f_equal. rewrite G. unfold K. field. }
  assert (KM : 0 < K * (m * m)) by (apply Rmult_lt_0_compat; [exact KP | apply Rmult_lt_0_compat; exact N4]).
  rewrite NN in CS, SN. apply same_angle; apply (Rmult_eq_reg_l (K * (m * m))); try lra.
  - rewrite CS, cos_plus, cos_PI, sin_PI. ring.
  - rewrite SN, sin_plus, cos_PI, sin_PI. ring.
Qed.
(** the angles of a spherical triangle sum to at least two right angles *)
Lemma scale_unit : forall X n, 0 < n -> v3dot X X = n * n -> v3dot (v3scale (/ n) X) (v3scale (/ n) X) = 1.
Proof. intros X n N E. rewrite dot_scale, (dot_sym X), dot_scale, E. field. lra. Qed.
Lemma angles_sum : forall A B C, v3dot A A = 1 -> v3dot B B = 1 -> v3dot C C = 1 ->
  let p := v3dot B C in let q := v3dot C A in let r := v3dot A B in let F := Rabs (v3dot A (v3cross B C)) in
  v3dot A (v3cross B C) <> 0 ->
  PI <= atan2 F (p - q * r) + atan2 F (q - r * p) + atan2 F (r - p * q) /\ -1 < p < 1 /\ -1 < q < 1 /\ -1 < r < 1.
Proof.
  intros A B C UA UB UC p q r F NF.
  assert (FP : 0 < F) by (apply Rabs_pos_lt, NF).
  assert (G : F * F = 1 + 2 * p * q * r - p * p - q * q - r * r).
  { unfold F. rewrite <- Rabs_mult, Rabs_right by (apply Rle_ge; exact (Rle_0_sqr _)). apply gram3; auto. }
  assert (GP : 0 < F * F) by (apply Rmult_lt_0_compat; lra).
  assert (B1 : forall x y z, F * F = 1 + 2 * x * y * z - x * x - y * y - z * z -> y * y <= 1 -> x * x < 1).
  { intros x y z E Y. destruct (Rlt_or_le (x * x) 1) as [L|L]; [exact L|]. exfalso.
    pose proof (Rle_0_sqr (z - x * y)) as S. unfold Rsqr in S.
    assert (0 <= (x * x - 1) * (1 - y * y)) by (apply Rmult_le_pos; lra). lra. }
  assert (SQ : forall x, x * x < 1 -> -1 < x < 1).
  { intros x X. split.
    - destruct (Rlt_or_le (-1) x) as [L|L]; [exact L|]. exfalso. assert (1 * 1 <= (- x) * (- x)) by (apply Rmult_le_compat; lra). lra.
    - destruct (Rlt_or_le x 1) as [L|L]; [exact L|]. exfalso. assert (1 * 1 <= x * x) by (apply Rmult_le_compat; lra). lra. }
  assert (LE : forall X Y, v3dot X X = 1 -> v3dot Y Y = 1 -> v3dot X Y * v3dot X Y <= 1).
  { intros X Y HX HY. pose proof (cauchy X Y) as H. rewrite HX, HY in H. lra. }
  assert (p2 : p * p < 1) by (apply (B1 p q r); [lra | apply LE; auto]).
  assert (q2 : q * q < 1) by (apply (B1 q r p); [lra | apply LE; auto]).
  assert (r2 : r * r < 1) by (apply (B1 r p q); [lra | apply LE; auto]).
  split; [|split; [apply SQ; exact p2 | split; [apply SQ; exact q2 | apply SQ; exact r2]]].
  (* the polar triangle *)
  set (na := sqrt (1 - p * p)). set (nb := sqrt (1 - q * q)). set (nc := sqrt (1 - r * r)).
  assert (Na : 0 < na /\ na * na = 1 - p * p) by (split; [apply sqrt_lt_R0; lra | apply sqrt_sqrt; lra]).
  assert (Nb : 0 < nb /\ nb * nb = 1 - q * q) by (split; [apply sqrt_lt_R0; lra | apply sqrt_sqrt; lra]).
  assert (Nc : 0 < nc /\ nc * nc = 1 - r * r) by (split; [apply sqrt_lt_R0; lra | apply sqrt_sqrt; lra]).
  destruct Na as [Na Na2], Nb as [Nb Nb2], Nc as [Nc Nc2].
  set (A' := v3scale (/ na) (v3cross B C)). set (B' := v3scale (/ nb) (v3cross C A)). set (C' := v3scale (/ nc) (v3cross B A)).
  assert (UA' : v3dot A' A' = 1) by (apply scale_unit; [exact Na | rewrite cross_norm, UB, UC; fold p; lra]).
  assert (UB' : v3dot B' B' = 1) by (apply scale_unit; [exact Nb | rewrite cross_norm, UA, UC; fold q; lra]).
  assert (UC' : v3dot C' C' = 1) by (apply scale_unit; [exact Nc | rewrite cross_norm, UB, UA, (dot_sym B A); fold r; lra]).
  assert (HY : forall x n1 n2, 0 < n1 -> 0 < n2 -> n1 * n1 * (n2 * n2) = x * x + F * F ->
               cos (atan2 F x) = x / (n1 * n2) /\ 0 <= atan2 F x <= PI).
  { intros x n1 n2 P1 P2 E. destruct (polar_of F x FP) as [H1 [H2 [_ [H3 H4]]]]. cbv zeta in *.
    assert (hypot x F = n1 * n2).
    { apply Rsqr_inj; [lra | apply Rlt_le, Rmult_lt_0_compat; auto|]. unfold Rsqr. rewrite H4, <- E. ring. }
    split; [|lra]. assert (0 < n1 * n2) by (apply Rmult_lt_0_compat; auto). rewrite H in H2.
    apply (Rmult_eq_reg_l (n1 * n2)); [|lra]. rewrite H2. field. lra. }
  destruct (HY (p - q * r) nb nc Nb Nc) as [c1 r1]. { rewrite Nb2, Nc2, G. ring. }
  destruct (HY (q - r * p) nc na Nc Na) as [c2 r2']. { rewrite Na2, Nc2, G. ring. }
  destruct (HY (r - p * q) na nb Na Nb) as [c3 r3]. { rewrite Na2, Nb2, G. ring. }
  set (al := atan2 F (p - q * r)) in *. set (be := atan2 F (q - r * p)) in *. set (ga := atan2 F (r - p * q)) in *.
  assert (T1 : angle_of A' B' (PI - ga)).
  { split; [lra|]. rewrite cos_minus, cos_PI, sin_PI, c3. unfold A', B'. rewrite dot_scale, (dot_sym _ (v3scale _ _)), dot_scale, cross_cross.
    rewrite UC, ?(dot_sym C B), ?(dot_sym A C), ?(dot_sym B A). fold p q r. field. lra. }
  assert (T2 : angle_of A' C' be).
  { split; [lra|]. rewrite c2. unfold A', C'. rewrite dot_scale, (dot_sym _ (v3scale _ _)), dot_scale, cross_cross.
    rewrite UB, ?(dot_sym C B), ?(dot_sym A C), ?(dot_sym B A). fold p q r. field. lra. }
  assert (T3 : angle_of C' B' al).
  { split; [lra|]. rewrite c1. unfold B', C'. rewrite dot_scale, (dot_sym _ (v3scale _ _)), dot_scale, cross_cross.
    rewrite UA, ?(dot_sym C B), ?(dot_sym A C), ?(dot_sym B A). fold p q r. field. lra. }
  pose proof (angle_triangle _ _ _ _ _ _ UA' UC' UB' T2 T3 T1). lra.
Qed.
Lemma girard : forall A B C, v3dot A A = 1 -> v3dot B B = 1 -> v3dot C C = 1 ->
  let p := v3dot B C in let q := v3dot C A in let r := v3dot A B in let F := Rabs (v3dot A (v3cross B C)) in
  v3dot A (v3cross B C) <> 0 ->
  atan2 F (p - q * r) + atan2 F (q - r * p) + atan2 F (r - p * q) = PI + 2 * atan2 F (1 + p + q + r).
Proof.
  intros A B C UA UB UC p q r F NF. destruct (angles_sum A B C UA UB UC NF) as [S [Hp [Hq Hr]]].
  cbv zeta in S, Hp, Hq, Hr. fold p in S, Hp. fold q in S, Hq. fold r in S, Hr. fold F in S.
  assert (FP : 0 < F) by (apply Rabs_pos_lt, NF).
  assert (G : F * F = 1 + 2 * p * q * r - p * p - q * q - r * r).
  { unfold F. rewrite <- Rabs_mult, Rabs_right by (apply Rle_ge; exact (Rle_0_sqr _)). apply gram3; auto. }
  destruct (girard_direction p q r F FP G Hp Hq Hr) as [k E].
  pose proof (atan2_upper F (p - q * r) FP). pose proof (atan2_upper F (q - r * p) FP). pose proof (atan2_upper F (r - p * q) FP).
  pose proof (atan2_upper F (1 + p + q + r) FP). pose proof PI_RGT_0.
  assert (k = 0%Z).
  { assert (-1 < IZR k < 1); [|destruct H4; apply lt_IZR in H4; apply lt_IZR in H5; lia].
    split; apply (Rmult_lt_reg_r (2 * PI)); lra. }
  subst k. lra.
Qed.

(** * angleBetween and area *)
Lemma triple_det : forall c1 c2 c3,
  triple (get_aux c1) (get_aux c2) (get_aux c3)
  = v3dot (sky (cra c1) (cdec c1)) (v3cross (sky (cra c3) (cdec c3)) (sky (cra c2) (cdec c2))).
Proof. intros. rewrite <- !dpt_sky. cbv [v3dot v3cross dpt triple]. ring. Qed.
Lemma alt_dot : forall c1 c2 c3,
  let A := sky (cra c2) (cdec c2) in let B := sky (cra c3) (cdec c3) in let C := sky (cra c1) (cdec c1) in
  alt_triple (get_aux c1) (get_aux c2) (get_aux c3) = v3dot A B - v3dot C A * v3dot C B.
Proof.
  intros. unfold alt_triple. rewrite !dsq_dot by apply sky_unit. rewrite !dpt_sky. fold A B C. field.
Qed.
Lemma perp_dot : forall C X Y, v3dot C C = 1 -> v3dot (perp C X) (perp C Y) = v3dot X Y - v3dot C X * v3dot C Y.
Proof.
  intros C X Y U. unfold perp. rewrite !dot_add, !dot_scale, !(dot_sym _ (v3add _ _)), !dot_add, !dot_scale.
  rewrite U, ?(dot_sym X C), ?(dot_sym Y C), ?(dot_sym Y X). ring.
Qed.
Lemma perp_cross : forall C X Y, v3dot C C = 1 -> v3dot C (v3cross (perp C X) (perp C Y)) = v3dot C (v3cross X Y).
Proof. intros [[a b] c] [[x y] z] [[d e] f] _. v3ring. Qed.
(** the tangents at the vertex make this angle, measured from c2 towards c3 clockwise seen from outside *)
Lemma angle_between : forall c1 c2 c3,
  let C := sky (cra c1) (cdec c1) in
  let a := perp C (sky (cra c2) (cdec c2)) in
  let b := perp C (sky (cra c3) (cdec c3)) in
  let t := angleBetween c1 c2 c3 in
  - PI < t <= PI /\ v3norm a * v3norm b * cos t = v3dot a b /\ v3norm a * v3norm b * sin t = v3dot C (v3cross b a).
Proof.
  intros c1 c2 c3 C a b t. unfold t, angleBetween. split; [apply atan2_range|].
  set (y := triple _ _ _). set (x := alt_triple _ _ _).
  pose proof (sky_unit (cra c1) (cdec c1)) as U. fold C in U.
  assert (X : x = v3dot a b).
  { unfold x. rewrite alt_dot. unfold a, b. rewrite perp_dot by exact U. reflexivity. }
  assert (Y : y = v3dot C (v3cross b a)).
  { unfold y. rewrite triple_det. unfold a, b. rewrite perp_cross by exact U. reflexivity. }
  destruct (atan2_polar y x) as [P Q].
  assert (Hh : hypot x y = v3norm a * v3norm b).
  { unfold hypot, v3norm. rewrite <- sqrt_mult by apply dot_pos. f_equal. rewrite X, Y.
    assert (OA : v3dot C a = 0) by (unfold a, perp; rewrite dot_sym, dot_add, dot_scale, U; ring).
    assert (OB : v3dot C b = 0) by (unfold b, perp; rewrite dot_sym, dot_add, dot_scale, U; ring).
    rewrite gramG, U, OB, (dot_sym a C), OA, (dot_sym b a). ring. }
  rewrite <- Hh, <- X, <- Y. auto.
Qed.

Lemma angle_abs : forall c1 c2 c3, triple (get_aux c1) (get_aux c2) (get_aux c3) <> 0 ->
  Rabs (angleBetween c1 c2 c3) = atan2 (Rabs (triple (get_aux c1) (get_aux c2) (get_aux c3))) (alt_triple (get_aux c1) (get_aux c2) (get_aux c3)).
Proof. intros. unfold angleBetween. now apply atan2_abs. Qed.
Lemma triple_cycle : forall a b c, triple b c a = triple a b c.
Proof. intros. unfold triple. ring. Qed.
(** Girard: the three angles and the half angle [area] works with *)
Lemma excess : forall c1 c2 c3,
  let A := sky (cra c1) (cdec c1) in let B := sky (cra c2) (cdec c2) in let C := sky (cra c3) (cdec c3) in
  let F := triple (get_aux c1) (get_aux c2) (get_aux c3) in F <> 0 ->
  Rabs (angleBetween c1 c2 c3) + Rabs (angleBetween c2 c3 c1) + Rabs (angleBetween c3 c1 c2) - PI
  = 2 * atan2 (Rabs F) (1 + v3dot B C + v3dot C A + v3dot A B).
Proof.
  intros c1 c2 c3 A B C F NF.
  rewrite !angle_abs; rewrite ?(triple_cycle (get_aux c2) (get_aux c3) (get_aux c1)), ?(triple_cycle (get_aux c1) (get_aux c2) (get_aux c3)); try exact NF.
  fold F. rewrite !alt_dot. fold A B C.
  pose proof (sky_unit (cra c1) (cdec c1)) as UA. pose proof (sky_unit (cra c2) (cdec c2)) as UB. pose proof (sky_unit (cra c3) (cdec c3)) as UC.
  fold A in UA. fold B in UB. fold C in UC.
  assert (E : F = - v3dot A (v3cross B C)).
  { unfold F. rewrite triple_det. fold A B C. clearbody A B C. clear. destruct A as [[a1 a2] a3], B as [[b1 b2] b3], C as [[d1 d2] d3]. cbv [v3dot v3cross]. ring. }
  pose proof (girard A B C UA UB UC) as G. cbv zeta in G.
  replace (Rabs F) with (Rabs (v3dot A (v3cross B C))) by (rewrite E; symmetry; apply Rabs_Ropp).
  assert (NF' : v3dot A (v3cross B C) <> 0) by lra. specialize (G NF').
  rewrite (dot_sym A C), (dot_sym B A), (dot_sym C B).
  match goal with |- ?l = ?r => assert (H : l + PI = r + PI); [|lra] end.
  rewrite (Rplus_comm (2 * _) PI), <- G. clear.
  match goal with |- ?a + ?b + ?c - PI + PI = _ => replace (a + b + c - PI + PI) with (a + b + c) by ring end.
  rewrite (Rmult_comm (v3dot C A) (v3dot A B)), (Rmult_comm (v3dot B C) (v3dot C A)), ?(Rmult_comm (v3dot B C) (v3dot A B)). reflexivity.
Qed.
Lemma half_atan : forall F x, 0 < F -> 
  (0 < x -> atan2 F x = atan (F / x)) /\ (x = 0 -> atan2 F x = PI / 2) /\ (x < 0 -> atan2 F x = PI - atan (F / - x)).
Proof.
  intros F x HF. unfold atan2. repeat split; intro H.
  - destruct (Rltb_spec 0 x) as [l|l]; [reflexivity | lra].
  - destruct (Rltb_spec 0 x) as [l|l]; [lra|]. destruct (Rltb_spec x 0) as [k|k]; [lra|].
    destruct (Rltb_spec 0 F) as [k'|k']; [reflexivity | lra].
  - destruct (Rltb_spec 0 x) as [l|l]; [lra|]. destruct (Rltb_spec x 0) as [k|k]; [|lra].
    replace (F / - x) with (- (F / x)) by (field; lra). rewrite atan_opp.
    destruct (Rltb_spec F 0) as [m|m]; [lra|]. ring.
Qed.
Lemma area_ok : forall c1 c2 c3,
  triple (get_aux c1) (get_aux c2) (get_aux c3) <> 0 ->
  let E := Rabs (angleBetween c1 c2 c3) + Rabs (angleBetween c2 c3 c1) + Rabs (angleBetween c3 c1 c2) - PI in
  0 < E < 2 * PI /\ (E <= PI -> area c1 c2 c3 = Some E) /\ (PI < E -> area c1 c2 c3 = Some (2 * PI - E)).
Proof.
  intros c1 c2 c3 NF. pose proof (excess c1 c2 c3 NF) as X. cbv zeta in *.
  set (E := _ + _ + _ - PI) in *. clearbody E. unfold area.
  set (F := triple _ _ _) in *.
  assert (FP : 0 < Rabs F) by (apply Rabs_pos_lt, NF).
  rewrite alt_dot, !dsq_dot by apply sky_unit. rewrite !dpt_sky.
  set (A := sky (cra c1) (cdec c1)) in *. set (B := sky (cra c2) (cdec c2)) in *. set (C := sky (cra c3) (cdec c3)) in *.
  set (D := 1 + v3dot B C + v3dot C A + v3dot A B) in *.
  replace (/ 4 * (4 - (2 - 2 * v3dot A B)) * (4 - (2 - 2 * v3dot A C)) + (v3dot B C - v3dot A B * v3dot A C)) with D
    by (unfold D; rewrite (dot_sym A C); field).
  pose proof (atan2_upper (Rabs F) D FP) as R. clearbody D. clear A B C.
  destruct (half_atan (Rabs F) D FP) as [P [Z N]].
  split; [lra|].
  destruct (Reqb_spec D 0) as [e|e].
  - specialize (Z e). destruct (Reqb_spec F 0) as [f|_]; [contradiction|]. split; intro H; f_equal; lra.
  - destruct (Rlt_or_le 0 D) as [L|L].
    + specialize (P L). assert (S : Rabs (F / D) = Rabs F / D) by (unfold Rdiv; rewrite Rabs_mult, Rabs_inv, (Rabs_right D) by lra; reflexivity).
      rewrite S, <- P. pose proof (atan_bound (Rabs F / D)). split; intro H0; f_equal; lra.
    + assert (L' : D < 0) by lra. specialize (N L').
      assert (S : Rabs (F / D) = Rabs F / - D) by (unfold Rdiv; rewrite Rabs_mult, Rabs_inv, (Rabs_left D) by lra; reflexivity).
      rewrite S. pose proof (atan_bound (Rabs F / - D)).
      assert (0 < atan (Rabs F / - D)) by (rewrite <- atan_0; apply atan_increasing, Rdiv_lt_0_compat; lra).
      split; intro H1; f_equal; lra.
Qed.
