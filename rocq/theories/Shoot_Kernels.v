(** Cubic and Quintic: slopes, zeros and curvatures of the pieces; the tables of positions for shooting. *)
From Coq Require Import ZArith Reals Bool List Lra Lia.
From Coquelicot Require Import Coquelicot.
From Verif Require Import Base Bounds_Model Bounds_Proofs Size_Model Size_Spec Interp_Model Interp_Spec Interp_Kernels Interp_Smooth Interp_Proofs Shoot_Model Shoot_Spec Shoot_Table.
Import ListNotations.
Open Scope R_scope.

Definition piece (K : R -> R) (L M a b : R) : Prop :=
  exists f f1 f2, (forall x, a <= x <= b -> K x = f x) /\ (forall x, is_derive f x (f1 x)) /\ (forall x, is_derive f1 x (f2 x)) /\ forall x, a <= x <= b -> Rabs (f1 x) <= L /\ Rabs (f2 x) <= M.
Lemma piece_mirror : forall K L M a b, even K -> piece K L M a b -> piece K L M (- b) (- a).
Proof.
  intros K L M a b E (f & f1 & f2 & H & D1 & D2 & B). exists (fun x => f (- x)), (fun x => - f1 (- x)), (fun x => f2 (- x)). split; [|split; [|split]].
  - intros x X. rewrite <- (E x). apply H. lra.
  - intro x. auto_derive; [eexists; apply D1|]. replace (Derive (fun x0 : R => f x0) (- x)) with (f1 (- x)) by (symmetry; apply is_derive_unique, D1). ring.
  - intro x. auto_derive; [eexists; apply D2|]. replace (Derive (fun x0 : R => f1 x0) (- x)) with (f2 (- x)) by (symmetry; apply is_derive_unique, D2). ring.
  - intros x X. rewrite Rabs_Ropp. apply B. lra.
Qed.
Definition lip (K : R -> R) (L a b : R) : Prop := forall x y, a <= x <= b -> a <= y <= b -> Rabs (K x - K y) <= L * Rabs (x - y).
Lemma piece_lip : forall K L M a b, piece K L M a b -> lip K L a b.
Proof.
  intros K L M a b (f & f1 & f2 & H & D1 & D2 & B) x y X Y. rewrite !H by assumption. destruct (MVT_gen f y x f1) as (c & C1 & C2).
  - intros z _. apply D1.
  - intros z _. apply derivable_continuous_pt. exists (f1 z). apply is_derive_Reals, D1.
  - rewrite C2, Rabs_mult. apply Rmult_le_compat_r; [apply Rabs_pos|]. apply B. destruct (Rle_dec y x); [rewrite Rmin_left, Rmax_right in C1 by lra|rewrite Rmin_right, Rmax_left in C1 by lra]; lra.
Qed.
Lemma lip_glue : forall K L a b c, lip K L a b -> lip K L b c -> lip K L a c.
Proof.
  assert (G : forall K L a b c, lip K L a b -> lip K L b c -> forall x y, a <= x <= c -> a <= y <= c -> x <= y -> Rabs (K x - K y) <= L * Rabs (x - y)).
  { intros K L a b c H1 H2 x y X Y XY. destruct (Rle_dec y b) as [l|l]; [apply H1; lra|]. destruct (Rle_dec b x) as [m|m]; [apply H2; lra|].
    pose proof (H1 x b ltac:(lra) ltac:(lra)) as A. pose proof (H2 b y ltac:(lra) ltac:(lra)) as B. replace (K x - K y) with ((K x - K b) + (K b - K y)) by ring.
    pose proof (Rabs_triang (K x - K b) (K b - K y)). rewrite (Rabs_left1 (x - b)) in A by lra. rewrite (Rabs_left1 (b - y)) in B by lra. rewrite (Rabs_left1 (x - y)) by lra. lra. }
  intros K L a b c H1 H2 x y X Y. destruct (Rle_dec x y); [apply (G K L a b c); assumption|]. rewrite (Rabs_minus_sym (K x)), (Rabs_minus_sym x). apply (G K L a b c); auto. lra.
Qed.
Lemma lip_even : forall K L X, even K -> 0 < X -> 0 <= L -> lip K L 0 X -> (forall x, X <= x -> K x = 0) -> forall x y, Rabs (K x - K y) <= L * Rabs (x - y).
Proof.
  intros K L X E XP LP H O. assert (P : forall x y, 0 <= x -> 0 <= y -> Rabs (K x - K y) <= L * Rabs (x - y)).
  { intros x y A B. apply (lip_glue K L 0 X (Rmax (Rmax x y) X)); [exact H| |split; [exact A|]|split; [exact B|]].
    - intros u v U V. rewrite !O by lra. rewrite Rminus_diag_eq, Rabs_R0 by reflexivity. apply Rmult_le_pos; [exact LP|apply Rabs_pos].
    - eapply Rle_trans; [apply (Rmax_l x y)|apply Rmax_l].
    - eapply Rle_trans; [apply (Rmax_r x y)|apply Rmax_l]. }
  assert (A : forall x, K x = K (Rabs x)). { intro x. unfold Rabs. destruct (Rcase_abs x); [rewrite E|]; reflexivity. }
  intros x y. rewrite (A x), (A y). eapply Rle_trans; [apply P; apply Rabs_pos|]. apply Rmult_le_compat_l; [exact LP|apply Rabs_triang_inv2].
Qed.
Lemma piece_within : forall K L M a b a' b', a <= a' -> b' <= b -> piece K L M a b ->
  exists f f1 f2, (forall x, a' <= x <= b' -> K x = f x) /\ (forall x, is_derive f x (f1 x)) /\ (forall x, is_derive f1 x (f2 x)) /\ forall x, a' <= x <= b' -> Rabs (f2 x) <= M.
Proof. intros K L M a b a' b' A B (f & f1 & f2 & H & D1 & D2 & BD). exists f, f1, f2. split; [intros; apply H; lra|]. split; [exact D1|]. split; [exact D2|]. intros. apply BD. lra. Qed.

Lemma quart_bound : forall t q0 q1 q2 q3 q4, -1 / 2 <= t <= 1 / 2 -> Rabs (q0 + q1 * t + q2 * t ^ 2 + q3 * t ^ 3 + q4 * t ^ 4) <= Rabs q0 + Rabs q1 / 2 + Rabs q2 / 4 + Rabs q3 / 8 + Rabs q4 / 16.
Proof.
  intros t q0 q1 q2 q3 q4 B. assert (T : Rabs t <= 1 / 2) by (apply Rabs_le; lra). pose proof (Rabs_pos t) as P.
  assert (PW : forall k, Rabs (t ^ k) <= (1 / 2) ^ k) by (intro k; rewrite <- RPow_abs; apply pow_incr; lra).
  assert (ST : forall q k, Rabs (q * t ^ k) <= Rabs q * (1 / 2) ^ k) by (intros; rewrite Rabs_mult; apply Rmult_le_compat_l; [apply Rabs_pos|apply PW]).
  pose proof (ST q2 2%nat) as S2. pose proof (ST q3 3%nat) as S3. pose proof (ST q4 4%nat) as S4. assert (S1 : Rabs (q1 * t) <= Rabs q1 * (1 / 2)) by (rewrite Rabs_mult; apply Rmult_le_compat_l; [apply Rabs_pos|exact T]).
  pose proof (Rabs_triang (q0 + q1 * t + q2 * t ^ 2 + q3 * t ^ 3) (q4 * t ^ 4)). pose proof (Rabs_triang (q0 + q1 * t + q2 * t ^ 2) (q3 * t ^ 3)). pose proof (Rabs_triang (q0 + q1 * t) (q2 * t ^ 2)). pose proof (Rabs_triang q0 (q1 * t)). lra.
Qed.
(** A polynomial piece between a and a + 1, with its derivatives about the middle *)
Lemma poly_piece : forall K L M a a0 a1 a2 a3 a4 a5 d0 d1 d2 d3 d4 e0 e1 e2 e3, (forall x, a <= x <= a + 1 -> K x = P5 a0 a1 a2 a3 a4 a5 x) ->
  (forall x, P5 a1 (2 * a2) (3 * a3) (4 * a4) (5 * a5) 0 x = d0 + d1 * (x - (a + 1 / 2)) + d2 * (x - (a + 1 / 2)) ^ 2 + d3 * (x - (a + 1 / 2)) ^ 3 + d4 * (x - (a + 1 / 2)) ^ 4) ->
  (forall x, P5 (2 * a2) (2 * (3 * a3)) (3 * (4 * a4)) (4 * (5 * a5)) (5 * 0) 0 x = e0 + e1 * (x - (a + 1 / 2)) + e2 * (x - (a + 1 / 2)) ^ 2 + e3 * (x - (a + 1 / 2)) ^ 3 + 0 * (x - (a + 1 / 2)) ^ 4) ->
  Rabs d0 + Rabs d1 / 2 + Rabs d2 / 4 + Rabs d3 / 8 + Rabs d4 / 16 <= L -> Rabs e0 + Rabs e1 / 2 + Rabs e2 / 4 + Rabs e3 / 8 + Rabs 0 / 16 <= M -> piece K L M a (a + 1).
Proof.
  intros K L M a a0 a1 a2 a3 a4 a5 d0 d1 d2 d3 d4 e0 e1 e2 e3 H D E BL BM. eexists. eexists. eexists. split; [exact H|]. split; [intro x; apply is_derive_Reals, P5_deriv|]. split; [intro x; apply is_derive_Reals, P5_deriv|].
  intros x X. rewrite D, E. split; (eapply Rle_trans; [apply quart_bound; lra|assumption]).
Qed.
Ltac rabs := repeat match goal with |- context [Rabs ?c] => first [rewrite (Rabs_pos_eq c) by lra | rewrite (Rabs_left c) by lra] end; lra.
Lemma cubic_piece1 : piece cubic_xval 3 5 0 1.
Proof.
  replace 1 with (0 + 1) at 1 by ring. apply (poly_piece _ 3 5 0 1 0 (- (5 / 2)) (3 / 2) 0 0 (- (11 / 8)) (- (1 / 2)) (9 / 2) 0 0 (- (1 / 2)) 9 0 0).
  - intros x X. rewrite cub_1 by lra. apply cubic_one_P.
  - intro x. unfold P5. field.
  - intro x. unfold P5. field.
  - rabs.
  - rabs.
Qed.
Lemma cubic_piece2 : piece cubic_xval 3 5 1 2.
Proof.
  replace 2 with (1 + 1) at 1 by ring. apply (poly_piece _ 3 5 1 2 (-4) (5 / 2) (- (1 / 2)) 0 0 (1 / 8) (1 / 2) (- (3 / 2)) 0 0 (1 / 2) (-3) 0 0).
  - intros x X. rewrite cub_2 by lra. apply cubic_two_P.
  - intro x. unfold P5. field.
  - intro x. unfold P5. field.
  - rabs.
  - rabs.
Qed.
Lemma cubic_tame : tame cubic_xval 2 3 5 [-2; -1; 1; 2] [-2; -1; 0; 1; 2].
Proof.
  constructor; try lra.
  - apply (lip_even cubic_xval 3 2 cub_even ltac:(lra) ltac:(lra)); [|exact cub_out]. apply (lip_glue _ _ _ 1); eapply piece_lip; [exact cubic_piece1|exact cubic_piece2].
  - intros z [<-|[<-|[<-|[<-|[]]]]]; try (change (-2) with (- (2)); rewrite cub_even; apply cub_out; lra); try (apply cub_out; lra).
    + change (-1) with (- (1)). rewrite cub_even, cub_1 by lra. unfold cubic_one. lra.
    + rewrite cub_1 by lra. unfold cubic_one. lra.
  - assert (P : forall x, 0 <= x <= 2 -> x <> 1 -> x <> 2 -> cubic_xval x <> 0).
    { intros x X N1 N2. destruct (Rle_dec x 1) as [l|l].
      - rewrite cub_1 by lra. unfold cubic_one. replace (1 + x * x * (3 / 2 * x - 5 / 2)) with ((1 - x) * (1 + x + - (3 / 2) * (x * x))) by field. apply Rmult_integral_contrapositive_currified; [lra|]. assert (x < 1) by lra. nra.
      - rewrite cub_2 by lra. unfold cubic_two. repeat apply Rmult_integral_contrapositive_currified; lra. }
    intros x X NI. destruct (Rle_dec 0 x) as [l|l].
    + apply P; [lra| |]; intros ->; apply NI; cbn; auto.
    + rewrite <- (cub_even x). apply P; [lra| |]; intro H; apply NI; cbn; [right; left; lra|left; lra].
  - intros z Z. cbn in *. tauto.
  - intros a b A AB B H. assert (H0 := H 0 ltac:(cbn; auto)). assert (H1 := H 1 ltac:(cbn; auto)). assert (Hm := H (-1) ltac:(cbn; auto)).
    destruct (Rle_dec b (-1)) as [l|l].
    { apply (piece_within _ 3 5 (- (2)) (- (1))); [lra|lra|]. apply piece_mirror; [exact cub_even|exact cubic_piece2]. }
    destruct (Rle_dec b 0) as [l0|l0].
    { apply (piece_within _ 3 5 (- (1)) (- 0)); [lra|lra|]. apply piece_mirror; [exact cub_even|exact cubic_piece1]. }
    destruct (Rle_dec b 1) as [l1|l1].
    { apply (piece_within _ 3 5 0 1); [lra|lra|exact cubic_piece1]. }
    apply (piece_within _ 3 5 1 2); [lra|lra|exact cubic_piece2].
Qed.
Lemma quintic_piece1 : piece quintic_xval 7 24 0 1.
Proof.
  replace 1 with (0 + 1) at 1 by ring. apply (poly_piece _ 7 24 0 1 0 0 (- (95 / 12)) (23 / 2) (- (55 / 12)) (- (311 / 192)) (- (17 / 24)) (87 / 8) (1 / 6) (- (275 / 12)) (- (17 / 24)) (87 / 4) (1 / 2) (- (275 / 3))).
  - intros x X. rewrite qui_1 by lra. apply quintic_one_P.
  - intro x. unfold P5. field.
  - intro x. unfold P5. field.
  - rabs.
  - rabs.
Qed.
Lemma quintic_piece2 : piece quintic_xval 7 24 1 2.
Proof.
  replace 2 with (1 + 1) at 1 by ring. apply (poly_piece _ 7 24 1 (- (23 / 2)) (185 / 4) (-70) (1205 / 24) (- (69 / 4)) (55 / 24) (37 / 128) (13 / 16) (- (83 / 16)) (- (1 / 4)) (275 / 24) (13 / 16) (- (83 / 8)) (- (3 / 4)) (275 / 6)).
  - intros x X. rewrite qui_2 by lra. apply quintic_two_P.
  - intro x. unfold P5. field.
  - intro x. unfold P5. field.
  - rabs.
  - rabs.
Qed.
Lemma quintic_piece3 : piece quintic_xval 7 24 2 3.
Proof.
  replace 3 with (2 + 1) at 1 by ring. apply (poly_piece _ 7 24 2 (81 / 2) (- (339 / 4)) 70 (- (685 / 24)) (23 / 4) (- (11 / 24)) (- (19 / 384)) (- (5 / 48)) (15 / 16) (1 / 12) (- (55 / 24)) (- (5 / 48)) (15 / 8) (1 / 4) (- (55 / 6))).
  - intros x X. rewrite qui_3 by lra. apply quintic_three_P.
  - intro x. unfold P5. field.
  - intro x. unfold P5. field.
  - rabs.
  - rabs.
Qed.
Lemma qui_nonzero : forall x, 0 <= x <= 3 -> x <> 1 -> x <> 2 -> x <> 3 -> x <> root -> quintic_xval x <> 0.
Proof.
  intros x X N1 N2 N3 NR. destruct (Rle_dec x 1) as [l|l]; [|destruct (Rle_dec x 2) as [l2|l2]].
  - rewrite qui_1 by lra. unfold quintic_one.
    replace (1 + x * x * x * (- (95 / 12) + x * (23 / 2 + x * - (55 / 12)))) with ((1 - x) * (1 + x + x * x + - (83 / 12) * (x * x * x) + 55 / 12 * (x * x * x * x))) by field. apply Rmult_integral_contrapositive_currified; [lra|].
    assert (0 < 1 + x + x * x + - (83 / 12) * (x * x * x) + 55 / 12 * (x * x * x * x)); [|lra].
    pose proof (Rle_0_sqr (x * x - 83 / 110 * x - 9 / 50)) as Q. unfold Rsqr in Q. nra.
  - rewrite qui_2 by lra. unfold quintic_two. apply Rmult_integral_contrapositive_currified; [apply Rmult_integral_contrapositive_currified; lra|].
    destruct (Rle_dec x (3 / 2)) as [m|m].
    + set (y := x - 1). assert (B : 0 <= y <= 1 / 2) by (unfold y; lra).
      replace (- (23 / 4) + x * (29 / 2 + x * (- (83 / 8) + x * (55 / 24)))) with (2 / 3 + 5 / 8 * y - 7 / 2 * (y * y) + 55 / 24 * (y * y * y)) by (unfold y; field). clearbody y.
      assert (0 <= y * (1 / 2 - y)) by (apply Rmult_le_pos; lra). assert (0 <= y * y * y) by (repeat apply Rmult_le_pos; lra). nra.
    + set (z := 2 - x). assert (B : 0 <= z <= 1 / 2) by (unfold z; lra).
      replace (- (23 / 4) + x * (29 / 2 + x * (- (83 / 8) + x * (55 / 24)))) with (1 / 12 - 1 / 2 * z + 27 / 8 * (z * z) - 55 / 24 * (z * z * z)) by (unfold z; field). clearbody z.
      assert (0 <= z * z * (1 / 2 - z)) by (repeat apply Rmult_le_pos; lra). pose proof (Rle_0_sqr (z - 1 / 8)) as Q. unfold Rsqr in Q. lra.
  - rewrite qui_3 by lra. unfold quintic_three. rewrite quad_factor. pose proof s31. repeat apply Rmult_integral_contrapositive_currified; lra.
Qed.
Definition qzs : list R := [-3; - root; -2; -1; 1; 2; root; 3].
Definition qks : list R := [-3; - root; -2; -1; 0; 1; 2; root; 3].
Lemma quintic_tame : tame quintic_xval 3 7 24 qzs qks.
Proof.
  pose proof root_in as RI. constructor; try lra.
  - apply (lip_even quintic_xval 7 3 qui_even ltac:(lra) ltac:(lra)); [|exact qui_out]. apply (lip_glue _ _ _ 1); [eapply piece_lip; exact quintic_piece1|]. apply (lip_glue _ _ _ 2); eapply piece_lip; [exact quintic_piece2|exact quintic_piece3].
  - assert (Z1 : quintic_xval 1 = 0) by (rewrite qui_1 by lra; unfold quintic_one; lra). assert (Z2 : quintic_xval 2 = 0) by (rewrite qui_2 by lra; unfold quintic_two; lra).
    assert (Z3 : quintic_xval 3 = 0) by (apply qui_out; lra). assert (ZR : quintic_xval root = 0) by (rewrite qui_3 by lra; unfold quintic_three; rewrite quad_factor; ring).
    intros z [<-|[<-|[<-|[<-|[<-|[<-|[<-|[<-|[]]]]]]]]]; auto; first [rewrite qui_even; exact ZR|rewrite <- qui_even; match goal with |- quintic_xval ?a = 0 => (replace a with 3 by lra; exact Z3) || (replace a with 2 by lra; exact Z2) || (replace a with 1 by lra; exact Z1) end].
  - intros x X NI. unfold qzs in NI. destruct (Rle_dec 0 x) as [l|l].
    + apply qui_nonzero; [lra| | | |]; intros ->; apply NI; cbn; tauto.
    + rewrite <- (qui_even x). apply qui_nonzero; [lra| | | |]; intro H; apply NI; cbn.
      * right; right; right; left. lra.
      * right; right; left. lra.
      * left. lra.
      * right; left. lra.
  - intros z Z. unfold qzs, qks in *. cbn in *. tauto.
  - intros a b A AB B H. unfold qks in H. assert (H0 := H 0 ltac:(cbn; tauto)). assert (H1 := H 1 ltac:(cbn; tauto)). assert (Hm := H (-1) ltac:(cbn; tauto)). assert (H2 := H 2 ltac:(cbn; tauto)). assert (Hm2 := H (-2) ltac:(cbn; tauto)).
    destruct (Rle_dec b (-2)) as [l|l].
    { apply (piece_within _ 7 24 (- (3)) (- (2))); [lra|lra|]. apply piece_mirror; [exact qui_even|exact quintic_piece3]. }
    destruct (Rle_dec b (-1)) as [l'|l'].
    { apply (piece_within _ 7 24 (- (2)) (- (1))); [lra|lra|]. apply piece_mirror; [exact qui_even|exact quintic_piece2]. }
    destruct (Rle_dec b 0) as [l0|l0].
    { apply (piece_within _ 7 24 (- (1)) (- 0)); [lra|lra|]. apply piece_mirror; [exact qui_even|exact quintic_piece1]. }
    destruct (Rle_dec b 1) as [l1|l1].
    { apply (piece_within _ 7 24 0 1); [lra|lra|exact quintic_piece1]. }
    destruct (Rle_dec b 2) as [l2|l2].
    { apply (piece_within _ 7 24 1 2); [lra|lra|exact quintic_piece2]. }
    apply (piece_within _ 7 24 2 3); [lra|lra|exact quintic_piece3].
Qed.
