(** Integrals, fluxes, ranges and names of interpolants. *)
From Coq Require Import ZArith Reals Bool List String Ascii Lra Lia.
From Coquelicot Require Import Coquelicot.
From Verif Require Import Base Bounds_Model Bounds_Proofs FFT_Model FFT_Proofs Sky_Model Interp_Model Interp_Spec Akima_Spline Interp_Kernels Interp_Smooth Interp_Lanczos.
Import ListNotations.
Open Scope R_scope.

(** * Unit integrals *)
Ltac ival := unfold AP; cbn [INR]; try field; try lra.
Lemma ui_nearest : unit_integral nearest_xval 0 1.
Proof. unfold unit_integral. cbn [INR]. eapply int_eq; [apply (poly_int 1 0 0 0 0 0); [lra|]|unfold AP; field]. intros x B. rewrite nea_in by lra. unfold P5. ring. Qed.
Lemma zero_minus : forall c, 0 - c = - c. Proof. intro; ring. Qed.
Lemma ui_linear0 : unit_integral linear_xval 0 (3 / 4).
Proof.
  unfold unit_integral. cbn [INR]. rewrite zero_minus, Rplus_0_l. eapply int_eq; [apply even_int; [apply lin_even|]; apply (poly_int 1 (-1) 0 0 0 0); [lra|]|unfold AP; field].
  intros x B. rewrite lin_in by lra. unfold P5. ring.
Qed.
Lemma zero_int : forall (f : R -> R) u v, u <= v -> (forall x, u < x < v -> f x = 0) -> is_RInt f u v 0.
Proof. intros f u v L H. eapply int_eq; [apply (poly_int 0 0 0 0 0 0 u v f L)|unfold AP; field]. intros x B. rewrite H by exact B. unfold P5. ring. Qed.
Lemma ui_linear1 : unit_integral linear_xval 1 (1 / 8).
Proof.
  unfold unit_integral. cbn [INR]. apply (chas _ _ 1 _ (1 / 8) 0); [|apply zero_int; [lra|intros; apply lin_out; lra]|ring].
  eapply int_eq; [apply (poly_int 1 (-1) 0 0 0 0); [lra|]|unfold AP; field]. intros x B. rewrite lin_in by lra. unfold P5. ring.
Qed.
Ltac cub1 := apply (poly_int 1 0 (- (5 / 2)) (3 / 2) 0 0); [lra|intros x B; rewrite cub_1, cubic_one_P by lra; reflexivity].
Ltac cub2 := apply (poly_int 2 (-4) (5 / 2) (- (1 / 2)) 0 0); [lra|intros x B; rewrite cub_2, cubic_two_P by lra; reflexivity].
Lemma ui_cubic0 : unit_integral cubic_xval 0 (161 / 192).
Proof. unfold unit_integral. cbn [INR]. rewrite zero_minus, Rplus_0_l. eapply int_eq; [apply even_int; [apply cub_even|]; cub1|unfold AP; field]. Qed.
Lemma ui_cubic1 : unit_integral cubic_xval 1 (3 / 32).
Proof. unfold unit_integral. cbn [INR]. eapply int_eq; [eapply (chas _ _ 1); [cub1|cub2|reflexivity]|unfold AP; field]. Qed.
Lemma ui_cubic2 : unit_integral cubic_xval 2 (- (5 / 384)).
Proof. unfold unit_integral. cbn [INR]. eapply int_eq; [eapply (chas _ _ 2); [cub2|apply zero_int; [lra|intros; apply cub_out; lra]|reflexivity]|unfold AP; field]. Qed.
Ltac qui1 := apply (poly_int 1 0 0 (- (95 / 12)) (23 / 2) (- (55 / 12))); [lra|intros x B; rewrite qui_1, quintic_one_P by lra; reflexivity].
Ltac qui2 := apply (poly_int (- (23 / 2)) (185 / 4) (-70) (1205 / 24) (- (69 / 4)) (55 / 24)); [lra|intros x B; rewrite qui_2, quintic_two_P by lra; reflexivity].
Ltac qui3 := apply (poly_int (81 / 2) (- (339 / 4)) 70 (- (685 / 24)) (23 / 4) (- (11 / 24))); [lra|intros x B; rewrite qui_3, quintic_three_P by lra; reflexivity].
Lemma ui_quintic0 : unit_integral quintic_xval 0 (10051 / 11520).
Proof. unfold unit_integral. cbn [INR]. rewrite zero_minus, Rplus_0_l. eapply int_eq; [apply even_int; [apply qui_even|]; qui1|unfold AP; field]. Qed.
Lemma ui_quintic1 : unit_integral quintic_xval 1 (3379 / 46080).
Proof. unfold unit_integral. cbn [INR]. eapply int_eq; [eapply (chas _ _ 1); [qui1|qui2|reflexivity]|unfold AP; field]. Qed.
Lemma ui_quintic2 : unit_integral quintic_xval 2 (- (251 / 23040)).
Proof. unfold unit_integral. cbn [INR]. eapply int_eq; [eapply (chas _ _ 2); [qui2|qui3|reflexivity]|unfold AP; field]. Qed.
Lemma ui_quintic3 : unit_integral quintic_xval 3 (61 / 46080).
Proof. unfold unit_integral. cbn [INR]. eapply int_eq; [eapply (chas _ _ 3); [qui3|apply zero_int; [lra|intros; apply qui_out; lra]|reflexivity]|unfold AP; field]. Qed.
Lemma ui_sinc : forall si i, Si_of si -> unit_integral sinc_xval i (sinc_unit_integral si i).
Proof.
  intros si i H. unfold unit_integral, sinc_unit_integral. replace (INR (S i) - 1 / 2) with (INR i + 1 / 2) by (rewrite S_INR; field).
  apply is_RInt_ext with (f := sincR); [intros; symmetry; apply sinc_is|]. now apply sinc_integral.
Qed.

(** * Positive and negative flux *)
Lemma pp_even : forall K, even K -> even (positive_part K). Proof. intros K E x. unfold positive_part. now rewrite E. Qed.
Lemma np_even : forall K, even K -> even (negative_part K). Proof. intros K E x. unfold negative_part. now rewrite E. Qed.
Lemma pp_pos : forall K x, 0 <= K x -> positive_part K x = K x. Proof. intros. unfold positive_part. apply Rmax_left. lra. Qed.
Lemma pp_neg : forall K x, K x <= 0 -> positive_part K x = 0. Proof. intros. unfold positive_part. apply Rmax_right. lra. Qed.
Lemma np_pos : forall K x, 0 <= K x -> negative_part K x = 0. Proof. intros. unfold negative_part. apply Rmax_right. lra. Qed.
Lemma np_neg : forall K x, K x <= 0 -> negative_part K x = - K x. Proof. intros. unfold negative_part. apply Rmax_left. lra. Qed.
Lemma lin_ge : forall x, 0 <= x <= 1 -> 0 <= linear_xval x. Proof. intros. rewrite lin_in; lra. Qed.
Lemma cub_ge : forall x, 0 <= x <= 1 -> 0 <= cubic_xval x.
Proof. intros x H. rewrite cub_1 by exact H. unfold cubic_one. replace (1 + x * x * (3 / 2 * x - 5 / 2)) with ((1 - x) * (1 + x + - (3 / 2) * (x * x))) by field. apply Rmult_le_pos; nra. Qed.
Lemma cub_le : forall x, 1 <= x <= 2 -> cubic_xval x <= 0.
Proof.
  intros x H. rewrite cub_2 by exact H. unfold cubic_two. assert (0 <= (x - 1) * ((x - 2) * (x - 2))) by (apply Rmult_le_pos; nra). lra.
Qed.
Lemma qui_ge1 : forall x, 0 <= x <= 1 -> 0 <= quintic_xval x.
Proof.
  intros x H. rewrite qui_1 by exact H. unfold quintic_one.
  replace (1 + x * x * x * (- (95 / 12) + x * (23 / 2 + x * - (55 / 12)))) with ((1 - x) * (1 + x + x * x + - (83 / 12) * (x * x * x) + 55 / 12 * (x * x * x * x))) by field.
  apply Rmult_le_pos; [lra|].
  assert (Q : 0 <= 1 + x + x * x - 83 / 12 * (x * x * x) + 55 / 12 * (x * x * x * x)).
  { replace (1 + x + x * x - 83 / 12 * (x * x * x) + 55 / 12 * (x * x * x * x)) with (55 / 12 * (x * x - 83 / 110 * x - 9 / 50) * (x * x - 83 / 110 * x - 9 / 50) + (1 + x + x * x - 55 / 12 * (83 / 110 * (83 / 110) * (x * x) + 81 / 2500 + 2 * (83 / 110) * (9 / 50) * x - 2 * (9 / 50) * (x * x)))) by field. nra. }
  lra.
Qed.
Lemma qui_le2 : forall x, 1 <= x <= 2 -> quintic_xval x <= 0.
Proof.
  intros x H. rewrite qui_2 by exact H. unfold quintic_two.
  assert (Q : 0 <= - (23 / 4) + x * (29 / 2 + x * (- (83 / 8) + x * (55 / 24)))).
  { destruct (Rle_dec x (3 / 2)) as [l|l].
    - set (y := x - 1). assert (B : 0 <= y <= 1 / 2) by (unfold y; lra).
      replace (- (23 / 4) + x * (29 / 2 + x * (- (83 / 8) + x * (55 / 24)))) with (2 / 3 + 5 / 8 * y - 7 / 2 * (y * y) + 55 / 24 * (y * y * y)) by (unfold y; field). clearbody y.
      assert (0 <= y * (1 / 2 - y)) by (apply Rmult_le_pos; lra). assert (0 <= y * y * y) by (repeat apply Rmult_le_pos; lra). lra.
    - set (z := 2 - x). assert (B : 0 <= z <= 1 / 2) by (unfold z; lra).
      replace (- (23 / 4) + x * (29 / 2 + x * (- (83 / 8) + x * (55 / 24)))) with (1 / 12 - 1 / 2 * z + 27 / 8 * (z * z) - 55 / 24 * (z * z * z)) by (unfold z; field). clearbody z.
      assert (0 <= z * z * (1 / 2 - z)) by (repeat apply Rmult_le_pos; lra). pose proof (Rle_0_sqr (z - 1 / 8)) as Q. unfold Rsqr in Q. lra. }
  assert (P : 0 <= (x - 1) * (2 - x)) by (apply Rmult_le_pos; lra). nra.
Qed.

(** The third piece changes sign at (25 + sqrt 31) / 11. *)
Definition root : R := (25 + sqrt 31) / 11.
Lemma s31 : 55677643628300219 / 10000000000000000 < sqrt 31 < 55677643628300220 / 10000000000000000.
Proof.
  assert (H : sqrt 31 * sqrt 31 = 31) by (apply sqrt_sqrt; lra). pose proof (sqrt_pos 31). split; nra.
Qed.
Lemma root_in : 2 < root < 3. Proof. pose proof s31. unfold root. lra. Qed.
Lemma quad_factor : forall x, - (9 / 4) + x * (25 / 12 + x * - (11 / 24)) = 11 / 24 * (x - (25 - sqrt 31) / 11) * (root - x).
Proof. intro x. assert (H : sqrt 31 * sqrt 31 = 31) by (apply sqrt_sqrt; lra). unfold root. field_simplify. replace (sqrt 31 ^ 2) with 31 by (rewrite <- H at 1; ring). field. Qed.
Lemma qui_sign3 : forall x, 2 <= x <= 3 -> (x <= root -> 0 <= quintic_xval x) /\ (root <= x -> quintic_xval x <= 0).
Proof.
  intros x H. rewrite qui_3 by exact H. unfold quintic_three. rewrite quad_factor. pose proof s31 as [Q1 Q2].
  assert (A : 0 <= (x - 2) * ((x - 3) * (x - 3)) * (11 / 24 * (x - (25 - sqrt 31) / 11))).
  { apply Rmult_le_pos; [apply Rmult_le_pos; [lra|apply Rle_0_sqr]|lra]. }
  replace ((x - 2) * (x - 3) * (x - 3) * (11 / 24 * (x - (25 - sqrt 31) / 11) * (root - x))) with ((x - 2) * ((x - 3) * (x - 3)) * (11 / 24 * (x - (25 - sqrt 31) / 11)) * (root - x)) by ring.
  set (a := (x - 2) * ((x - 3) * (x - 3)) * (11 / 24 * (x - (25 - sqrt 31) / 11))) in *. clearbody a. split; intro; nra.
Qed.
Lemma part_ext : forall (f g : R -> R) u v l, u <= v -> (forall x, u <= x <= v -> f x = g x) -> is_RInt g u v l -> is_RInt f u v l.
Proof. intros f g u v l L H. apply is_RInt_ext. rewrite Rmin_left, Rmax_right by exact L. intros x B. symmetry. apply H. lra. Qed.
Lemma opp_int : forall (f : R -> R) (u v l : R), is_RInt f u v l -> is_RInt (fun x => - f x) u v (- l).
Proof. intros f u v l H. apply (is_RInt_opp (V := R_NormedModule) f u v l H). Qed.

Lemma pos_nearest : is_RInt (positive_part nearest_xval) (- (1 / 2)) (1 / 2) 1 /\ is_RInt (negative_part nearest_xval) (- (1 / 2)) (1 / 2) 0.
Proof.
  split.
  - apply (part_ext _ nearest_xval); [lra|intros; apply pp_pos; rewrite nea_in; lra|]. eapply int_eq; [apply (poly_int 1 0 0 0 0 0); [lra|]|unfold AP; field].
    intros x B. rewrite nea_in by lra. unfold P5. ring.
  - apply zero_int; [lra|]. intros. apply np_pos. rewrite nea_in; lra.
Qed.
Lemma pos_linear : is_RInt (positive_part linear_xval) (- 1) 1 1 /\ is_RInt (negative_part linear_xval) (- 1) 1 0.
Proof.
  split.
  - eapply int_eq; [apply even_int; [apply pp_even, lin_even|]; apply (part_ext _ linear_xval); [lra|intros; apply pp_pos, lin_ge; lra|];
      apply (poly_int 1 (-1) 0 0 0 0); [lra|intros x B; rewrite lin_in by lra; unfold P5; ring]|unfold AP; field].
  - eapply int_eq; [apply even_int; [apply np_even, lin_even|]; apply zero_int; [lra|intros; apply np_pos, lin_ge; lra]|ring].
Qed.
Lemma pos_cubic : is_RInt (positive_part cubic_xval) (- 2) 2 (13 / 12) /\ is_RInt (negative_part cubic_xval) (- 2) 2 (1 / 12).
Proof.
  split.
  - eapply int_eq; [apply even_int; [apply pp_even, cub_even|]; eapply (chas _ _ 1);
      [apply (part_ext _ cubic_xval); [lra|intros; apply pp_pos, cub_ge; lra|cub1]|apply zero_int; [lra|intros; apply pp_neg, cub_le; lra]|reflexivity]|unfold AP; field].
  - eapply int_eq; [apply even_int; [apply np_even, cub_even|]; eapply (chas _ _ 1);
      [apply zero_int; [lra|intros; apply np_pos, cub_ge; lra]|apply (part_ext _ (fun x => - cubic_xval x)); [lra|intros; apply np_neg, cub_le; lra|apply opp_int; cub2]|reflexivity]|unfold AP; field].
Qed.
Definition quintic_flux : R := 13018561 / 11595672 + 17267 / 14494590 * sqrt 31.
Ltac rootp := let H := fresh in assert (H : sqrt 31 * sqrt 31 = 31) by (apply sqrt_sqrt; lra);
  assert (sqrt 31 ^ 2 = 31) by (cbn; lra); assert (sqrt 31 ^ 3 = 31 * sqrt 31) by (cbn; nra);
  assert (sqrt 31 ^ 4 = 961) by (cbn; nra); assert (sqrt 31 ^ 5 = 961 * sqrt 31) by (cbn; nra); assert (sqrt 31 ^ 6 = 29791) by (cbn; nra).
Lemma root_pow : root ^ 2 = (656 + 50 * sqrt 31) / 121 /\ root ^ 3 = (17950 + 1906 * sqrt 31) / 1331 /\ root ^ 4 = (507836 + 65600 * sqrt 31) / 14641 /\
  root ^ 5 = (14729500 + 2147836 * sqrt 31) / 161051 /\ root ^ 6 = (434820416 + 68425400 * sqrt 31) / 1771561.
Proof.
  assert (H : sqrt 31 * sqrt 31 = 31) by (apply sqrt_sqrt; lra). unfold root. set (s := sqrt 31) in *. clearbody s.
  assert (Q2 : ((25 + s) / 11) ^ 2 = (656 + 50 * s) / 121) by (cbn [pow]; lra).
  assert (Q3 : ((25 + s) / 11) ^ 3 = (17950 + 1906 * s) / 1331) by (change (((25 + s) / 11) ^ 3) with ((25 + s) / 11 * ((25 + s) / 11) ^ 2); rewrite Q2; lra).
  assert (Q4 : ((25 + s) / 11) ^ 4 = (507836 + 65600 * s) / 14641) by (change (((25 + s) / 11) ^ 4) with ((25 + s) / 11 * ((25 + s) / 11) ^ 3); rewrite Q3; lra).
  assert (Q5 : ((25 + s) / 11) ^ 5 = (14729500 + 2147836 * s) / 161051) by (change (((25 + s) / 11) ^ 5) with ((25 + s) / 11 * ((25 + s) / 11) ^ 4); rewrite Q4; lra).
  assert (Q6 : ((25 + s) / 11) ^ 6 = (434820416 + 68425400 * s) / 1771561) by (change (((25 + s) / 11) ^ 6) with ((25 + s) / 11 * ((25 + s) / 11) ^ 5); rewrite Q5; lra).
  auto.
Qed.
Lemma pos_quintic : is_RInt (positive_part quintic_xval) (- 3) 3 quintic_flux /\ is_RInt (negative_part quintic_xval) (- 3) 3 (quintic_flux - 1).
Proof.
  pose proof root_in as RI. destruct root_pow as [R2 [R3 [R4 [R5 R6]]]]. split.
  - eapply int_eq; [apply even_int; [apply pp_even, qui_even|]; eapply (chas _ _ root); [eapply (chas _ _ 2); [eapply (chas _ _ 1);
      [apply (part_ext _ quintic_xval); [lra|intros; apply pp_pos, qui_ge1; lra|qui1]|apply zero_int; [lra|intros; apply pp_neg, qui_le2; lra]|reflexivity]
      |apply (part_ext _ quintic_xval); [lra|intros; apply pp_pos, qui_sign3; lra|qui3]|reflexivity]
      |apply zero_int; [lra|intros; apply pp_neg, qui_sign3; lra]|reflexivity]|].
    unfold AP. rewrite R2, R3, R4, R5, R6. unfold quintic_flux, root. field.
  - eapply int_eq; [apply even_int; [apply np_even, qui_even|]; eapply (chas _ _ root); [eapply (chas _ _ 2); [eapply (chas _ _ 1);
      [apply zero_int; [lra|intros; apply np_pos, qui_ge1; lra]|apply (part_ext _ (fun x => - quintic_xval x)); [lra|intros; apply np_neg, qui_le2; lra|apply opp_int; qui2]|reflexivity]
      |apply zero_int; [lra|intros; apply np_pos, qui_sign3; lra]|reflexivity]
      |apply (part_ext _ (fun x => - quintic_xval x)); [lra|intros; apply np_neg, qui_sign3; lra|apply opp_int; qui3]|reflexivity]|].
    unfold AP. rewrite R2, R3, R4, R5, R6. unfold quintic_flux, root. field.
Qed.
Lemma flux_const : Rabs (11293413499280066555 / 10000000000000000000 - quintic_flux) < 1 / 1000000000000000000.
Proof. pose proof s31. unfold quintic_flux. apply Rabs_def1; lra. Qed.

(** * Ranges *)
Lemma sinc_bound : forall x, x <> 0 -> Rabs (sinc x) <= 1 / (PI * Rabs x).
Proof.
  intros x X. pose proof PI_RGT_0 as P. unfold sinc. destruct (Reqb_spec x 0); [contradiction|]. unfold Rdiv at 1. rewrite Rabs_mult, Rabs_inv.
  rewrite Rabs_mult, (Rabs_pos_eq PI) by lra. unfold Rdiv. apply Rmult_le_compat_r.
  - left. apply Rinv_0_lt_compat. apply Rmult_lt_0_compat; [exact P|now apply Rabs_pos_lt].
  - apply Rabs_le. apply SIN_bound.
Qed.
Lemma sinc_tail : forall kva x, 0 < kva -> 1 / (PI * kva) <= Rabs x -> Rabs (sinc x) <= kva.
Proof.
  intros kva x K H. pose proof PI_RGT_0 as P. assert (A : 0 < 1 / (PI * kva)) by (apply Rdiv_lt_0_compat; [lra|now apply Rmult_lt_0_compat]).
  assert (X : x <> 0) by (intro e; subst; rewrite Rabs_R0 in H; lra). apply (Rle_trans _ _ _ (sinc_bound x X)).
  apply (Rmult_le_reg_r (PI * Rabs x)); [apply Rmult_lt_0_compat; lra|]. unfold Rdiv. rewrite Rmult_assoc, Rinv_l by (apply Rmult_integral_contrapositive; split; [lra|now apply Rabs_no_R0]).
  apply (Rmult_le_compat_r (PI * kva)) in H; [|apply Rlt_le, Rmult_lt_0_compat; lra]. unfold Rdiv in H. rewrite Rmult_assoc, Rinv_l in H by (apply Rgt_not_eq, Rmult_lt_0_compat; lra). lra.
Qed.
Lemma linear_tail : forall kva u, 0 < kva -> 1 / sqrt kva / PI <= Rabs u -> Rabs (linear_uval u) <= kva.
Proof.
  intros kva u K H. pose proof PI_RGT_0 as P. assert (Q : 0 < sqrt kva) by (now apply sqrt_lt_R0).
  assert (A : Rabs (sinc u) <= sqrt kva) by (apply sinc_tail; [exact Q|]; replace (1 / (PI * sqrt kva)) with (1 / sqrt kva / PI) by (field; lra); exact H).
  unfold linear_uval. cbv zeta. rewrite Rabs_mult. rewrite <- (sqrt_sqrt kva) by lra. apply Rmult_le_compat; auto; apply Rabs_pos.
Qed.

(** The bound beyond the range of Cubic and Quintic *)
Lemma rpower_cube : forall X t, 0 < X -> Rpower X (1 / 3) <= t -> X <= t * t * t.
Proof.
  intros X t H B. assert (P : 0 < Rpower X (1 / 3)) by (unfold Rpower; apply exp_pos).
  assert (E : Rpower X (1 / 3) * Rpower X (1 / 3) * Rpower X (1 / 3) = X).
  { rewrite <- !Rpower_plus. replace (1 / 3 + 1 / 3 + 1 / 3) with 1 by field. now apply Rpower_1. }
  rewrite <- E at 1. set (c := Rpower X (1 / 3)) in *. clearbody c. apply Rmult_le_compat; [apply Rle_0_sqr|lra|apply Rmult_le_compat; lra|lra].
Qed.
Lemma s3c : forall t, Rabs (sin t * sin t * sin t * cos t) <= 3 * sqrt 3 / 16.
Proof.
  intro t. pose proof (sqrt_pos 3) as P. apply Rsqr_incr_0_var; [|lra]. rewrite <- Rsqr_abs. unfold Rsqr.
  replace (3 * sqrt 3 / 16 * (3 * sqrt 3 / 16)) with (9 * (sqrt 3 * sqrt 3) / 256) by field. rewrite sqrt_sqrt by lra.
  pose proof (sin2_cos2 t) as E. unfold Rsqr in E. set (y := sin t * sin t) in *. set (z := cos t * cos t) in *.
  replace (y * sin t * cos t * (y * sin t * cos t)) with (y * y * y * z) by (unfold y, z; ring).
  assert (Y : 0 <= y) by (unfold y; apply Rle_0_sqr). replace z with (1 - y) by lra. clearbody y z.
  assert (Q : 0 <= (y - 3 / 4) * (y - 3 / 4) * (y * y + y / 2 + 3 / 16)) by (apply Rmult_le_pos; [apply Rle_0_sqr|pose proof (Rle_0_sqr y) as Q'; unfold Rsqr in Q'; lra]). lra.
Qed.
Lemma s5c : forall t, Rabs (sin t * sin t * sin t * sin t * sin t * cos t) <= 25 * sqrt 5 / 216.
Proof.
  intro t. pose proof (sqrt_pos 5) as P. apply Rsqr_incr_0_var; [|lra]. rewrite <- Rsqr_abs. unfold Rsqr.
  replace (25 * sqrt 5 / 216 * (25 * sqrt 5 / 216)) with (625 * (sqrt 5 * sqrt 5) / 46656) by field. rewrite sqrt_sqrt by lra.
  pose proof (sin2_cos2 t) as E. unfold Rsqr in E. set (y := sin t * sin t) in *. set (z := cos t * cos t) in *.
  replace (y * sin t * sin t * sin t * cos t * (y * sin t * sin t * sin t * cos t)) with (y * y * y * y * y * z) by (unfold y, z; ring).
  assert (Y : 0 <= y) by (unfold y; apply Rle_0_sqr). replace z with (1 - y) by lra. clearbody y z.
  assert (Q : 0 <= (y - 5 / 6) * (y - 5 / 6) * (y * y * y * y + 2 / 3 * (y * y * y) + 5 / 12 * (y * y) + 25 / 108 * y + 125 / 1296)).
  { apply Rmult_le_pos; [apply Rle_0_sqr|]. assert (0 <= y * y) by (now apply Rmult_le_pos). assert (0 <= y * y * y) by (now apply Rmult_le_pos). assert (0 <= y * y * y * y) by (now apply Rmult_le_pos). lra. }
  lra.
Qed.
Lemma sinc_theta : forall t, 0 < t -> sinc (t / PI) = sin t / t.
Proof.
  intros t T. pose proof PI_RGT_0 as P. unfold sinc. destruct (Reqb_spec (t / PI) 0) as [e|e].
  - exfalso. apply (f_equal (Rmult PI)) in e. rewrite Rmult_0_r in e. replace (PI * (t / PI)) with t in e by (field; lra). lra.
  - replace (PI * (t / PI)) with t by (field; lra). reflexivity.
Qed.
Lemma theta_of : forall u, u <> 0 -> exists t, 0 < t /\ Rabs u = t / PI /\ t = PI * Rabs u.
Proof. intros u U. pose proof PI_RGT_0 as P. exists (PI * Rabs u). assert (0 < Rabs u) by (now apply Rabs_pos_lt). split; [apply Rmult_lt_0_compat; lra|split; [field; lra|reflexivity]]. Qed.
Lemma theta_pos : forall t, t <> 0 -> 0 < t * t * (t * t). Proof. intros t T. assert (0 < t * t) by nra. apply Rmult_lt_0_compat; assumption. Qed.
Lemma div_bound : forall a b d, 0 < d -> Rabs a <= b -> Rabs (a / d) <= b / d.
Proof. intros a b d D H. unfold Rdiv. rewrite Rabs_mult, (Rabs_pos_eq (/ d)) by (left; now apply Rinv_0_lt_compat). apply Rmult_le_compat_r; [left; now apply Rinv_0_lt_compat|exact H]. Qed.
Lemma sin_pow_bound : forall s, Rabs s <= 1 -> Rabs (s * s * s * s) <= 1 /\ Rabs (s * s * s * s * s * s) <= 1.
Proof. intros s H. pose proof (Rabs_pos s). rewrite !Rabs_mult. set (a := Rabs s) in *. clearbody a. assert (a * a <= 1) by nra. assert (0 <= a * a) by nra. assert (a * a * a * a <= 1) by nra. assert (0 <= a * a * a * a) by nra. split; nra. Qed.
Lemma cube_range : forall c kva t, 0 < c -> 0 < kva -> Rpower (c / kva) (1 / 3) <= t -> 0 < t /\ c / (t * t * t) <= kva.
Proof.
  intros c kva t C K H. assert (X : 0 < c / kva) by (now apply Rdiv_lt_0_compat). pose proof (rpower_cube _ _ X H) as Q.
  assert (T : 0 < t) by (assert (0 < Rpower (c / kva) (1 / 3)) by (unfold Rpower; apply exp_pos); lra). split; [exact T|].
  assert (T3 : 0 < t * t * t) by (repeat apply Rmult_lt_0_compat; exact T).
  apply (Rmult_le_reg_r (t * t * t)); [exact T3|]. unfold Rdiv at 1. rewrite Rmult_assoc, Rinv_l by lra. apply (Rmult_le_compat_l kva) in Q; [|lra].
  replace (kva * (c / kva)) with c in Q by (field; lra). lra.
Qed.
Lemma cubic_tail : forall kva u, 0 < kva -> Rpower (3 * sqrt 3 / 8 / kva) (1 / 3) / PI <= Rabs u -> Rabs (cubic_uval u) <= kva + 3 / (PI * Rabs u) ^ 4.
Proof.
  intros kva u K H. pose proof PI_RGT_0 as P. assert (C : 0 < 3 * sqrt 3 / 8) by (assert (0 < sqrt 3) by (apply sqrt_lt_R0; lra); lra).
  assert (B : Rpower (3 * sqrt 3 / 8 / kva) (1 / 3) <= PI * Rabs u).
  { apply (Rmult_le_compat_l PI) in H; [|lra]. replace (PI * (Rpower (3 * sqrt 3 / 8 / kva) (1 / 3) / PI)) with (Rpower (3 * sqrt 3 / 8 / kva) (1 / 3)) in H by (field; lra). exact H. }
  destruct (cube_range _ _ _ C K B) as [T Q]. unfold cubic_uval. cbv zeta. assert (E : Rabs u = PI * Rabs u / PI) by (field; lra).
  set (t := PI * Rabs u) in *. rewrite E. rewrite sinc_theta by exact T. replace (PI * (t / PI)) with t by (field; lra). clearbody t.
  replace (sin t / t * (sin t / t) * (sin t / t) * (3 * (sin t / t) - 2 * cos t)) with
    (3 * (sin t * sin t * sin t * sin t) / (t ^ 4) + - (2 * (sin t * sin t * sin t * cos t) / (t * t * t))) by (field; lra).
  apply (Rle_trans _ _ _ (Rabs_triang _ _)). rewrite Rabs_Ropp, Rplus_comm. assert (T3 : 0 < t * t * t) by (repeat apply Rmult_lt_0_compat; exact T). apply Rplus_le_compat.
  - apply Rle_trans with (3 * sqrt 3 / 8 / (t * t * t)); [|exact Q]. apply div_bound; [exact T3|]. rewrite Rabs_mult, (Rabs_pos_eq 2) by lra. pose proof (s3c t). lra.
  - apply div_bound; [apply pow_lt; exact T|]. rewrite Rabs_mult, (Rabs_pos_eq 3) by lra. destruct (sin_pow_bound (sin t)) as [S4 _]; [apply Rabs_le, SIN_bound|]. lra.
Qed.
Lemma quintic_tail : forall kva u, 0 < kva -> Rpower (25 * sqrt 5 / 108 / kva) (1 / 3) / PI <= Rabs u ->
  Rabs (quintic_uval u) <= kva + 19 / (PI * Rabs u) ^ 4 + 54 / (PI * Rabs u) ^ 5 + 55 / (PI * Rabs u) ^ 6.
Proof.
  intros kva u K H. pose proof PI_RGT_0 as P. assert (C : 0 < 25 * sqrt 5 / 108) by (assert (0 < sqrt 5) by (apply sqrt_lt_R0; lra); lra).
  assert (B : Rpower (25 * sqrt 5 / 108 / kva) (1 / 3) <= PI * Rabs u).
  { apply (Rmult_le_compat_l PI) in H; [|lra]. replace (PI * (Rpower (25 * sqrt 5 / 108 / kva) (1 / 3) / PI)) with (Rpower (25 * sqrt 5 / 108 / kva) (1 / 3)) in H by (field; lra). exact H. }
  destruct (cube_range _ _ _ C K B) as [T Q]. unfold quintic_uval. cbv zeta. assert (E : Rabs u = PI * Rabs u / PI) by (field; lra).
  set (t := PI * Rabs u) in *. rewrite E. rewrite sinc_theta by exact T. replace (PI * (t / PI)) with t by (field; lra). clearbody t.
  set (s := sin t). set (c := cos t).
  replace (s / t * (s / t * (s / t)) * (s / t * (s / t)) * (s / t * (55 - 19 * (t * t)) + 2 * c * (t * t - 27))) with
    (2 * (s * s * s * s * s * c) / (t * t * t) + (-19) * (s * s * s * s * s * s) / t ^ 4 + (-54) * (s * s * s * s * s * c) / t ^ 5 + 55 * (s * s * s * s * s * s) / t ^ 6) by (field; lra).
  assert (T3 : 0 < t * t * t) by (repeat apply Rmult_lt_0_compat; exact T). destruct (sin_pow_bound s) as [_ S6]; [apply Rabs_le, SIN_bound|].
  assert (SC : Rabs (s * s * s * s * s * c) <= 25 * sqrt 5 / 216) by apply s5c.
  assert (S5 : sqrt 5 <= 3) by (apply Rsqr_incr_0_var; [|lra]; unfold Rsqr; rewrite sqrt_sqrt; lra).
  assert (AB : forall k x, Rabs (k * x) = Rabs k * Rabs x) by apply Rabs_mult.
  apply (Rle_trans _ _ _ (Rabs_triang _ _)). apply Rplus_le_compat.
  - apply (Rle_trans _ _ _ (Rabs_triang _ _)). apply Rplus_le_compat.
    + apply (Rle_trans _ _ _ (Rabs_triang _ _)). apply Rplus_le_compat.
      * apply Rle_trans with (25 * sqrt 5 / 108 / (t * t * t)); [|exact Q]. apply div_bound; [exact T3|]. rewrite AB, (Rabs_pos_eq 2) by lra. lra.
      * apply div_bound; [apply pow_lt; exact T|]. rewrite AB, (Rabs_left (-19)) by lra. lra.
    + apply div_bound; [apply pow_lt; exact T|]. rewrite AB, (Rabs_left (-54)) by lra. lra.
  - apply div_bound; [apply pow_lt; exact T|]. rewrite AB, (Rabs_pos_eq 55) by lra. lra.
Qed.
Lemma nat_above : forall a, exists m, a < INR m.
Proof.
  intro a. destruct (archimed a) as [A _]. exists (Z.to_nat (up a)). destruct (Z_le_gt_dec 0 (up a)) as [l|l]; [rewrite INR_IZR_INZ, Z2Nat.id by exact l; lra|].
  assert (IZR (up a) < 0) by (apply IZR_lt; lia). pose proof (pos_INR (Z.to_nat (up a))). lra.
Qed.
(** At 2 pi / 3 + 2 pi m the transform of Cubic is above its asymptotic bound. *)
Lemma cubic_over : forall e, 0 < e -> exists kva u, 0 < kva < e /\ Rpower (3 * sqrt 3 / 8 / kva) (1 / 3) / PI <= u /\ kva < cubic_uval u.
Proof.
  intros e E. pose proof PI_RGT_0 as P. assert (C0 : 0 < sqrt 3) by (apply sqrt_lt_R0; lra). set (c := 3 * sqrt 3 / 8). assert (C : 0 < c) by (unfold c; lra).
  destruct (nat_above (1 + c / e)) as [m M]. set (t := 2 * (PI / 3) + 2 * INR m * PI).
  assert (M1 : 1 < INR m) by (assert (0 < c / e) by (now apply Rdiv_lt_0_compat); lra).
  assert (P2 : 2 < PI) by (pose proof PI2_1; lra). assert (T : INR m < t) by (unfold t; nra). assert (T1 : 1 < t) by lra.
  assert (T3 : t < t * t * t) by (assert (1 < t * t) by nra; nra). set (kva := c / (t * t * t)).
  assert (K : 0 < kva) by (apply Rdiv_lt_0_compat; lra).
  assert (KE : kva < e).
  { unfold kva. apply (Rmult_lt_reg_r (t * t * t)); [lra|]. unfold Rdiv. rewrite Rmult_assoc, Rinv_l by lra. rewrite Rmult_1_r.
    assert (A : c / e < t * t * t) by lra. apply (Rmult_lt_compat_l e) in A; [|exact E]. replace (e * (c / e)) with c in A by (field; lra). exact A. }
  exists kva, (t / PI). split; [split; assumption|]. fold c.
  assert (RP : Rpower (c / kva) (1 / 3) = t).
  { replace (c / kva) with (t * t * t) by (unfold kva; field; lra). unfold Rpower. rewrite !ln_mult by nra. replace (1 / 3 * (ln t + ln t + ln t)) with (ln t) by field. apply exp_ln. lra. }
  rewrite RP. split; [lra|]. unfold cubic_uval. cbv zeta. rewrite Rabs_pos_eq by (left; apply Rdiv_lt_0_compat; lra). rewrite sinc_theta by lra.
  replace (PI * (t / PI)) with t by (field; lra).
  assert (ST : sin t = sqrt 3 / 2) by (unfold t; rewrite sin_period; apply sin_2PI3).
  assert (CT : cos t = - (1 / 2)) by (unfold t; rewrite cos_period; rewrite cos_2PI3; lra).
  rewrite ST, CT. assert (S3 : sqrt 3 * sqrt 3 = 3) by (apply sqrt_sqrt; lra).
  replace (sqrt 3 / 2 / t * (sqrt 3 / 2 / t) * (sqrt 3 / 2 / t) * (3 * (sqrt 3 / 2 / t) - 2 * - (1 / 2))) with
    ((sqrt 3 * sqrt 3) * sqrt 3 / 8 / (t * t * t) + 3 * (sqrt 3 * sqrt 3) * (sqrt 3 * sqrt 3) / 16 / (t * t * t * t)) by (field; lra).
  rewrite S3. unfold kva, c. assert (0 < 3 * 3 * 3 / 16 / (t * t * t * t)) by (apply Rdiv_lt_0_compat; [lra|repeat apply Rmult_lt_0_compat; lra]). lra.
Qed.
(** Sinc is the transform of its own band. *)
Lemma sinc_band : forall x, is_RInt (fun u => sinc_uval u * cos (2 * PI * x * u)) (- (1 / 2)) (1 / 2) (sinc_xval x).
Proof.
  intro x. pose proof PI_RGT_0 as P. pose proof (nearest_transform (2 * PI * x)) as H. unfold transform, nearest_uval in H.
  replace (2 * PI * x / 2 / PI) with x in H by (field; lra). revert H. apply is_RInt_ext. rewrite Rmin_left, Rmax_right by lra. intros u B.
  rewrite nea_in by lra. unfold sinc_uval. cbv zeta. destruct (Rltb_spec (1 / 2) (Rabs u)) as [l|l].
  - exfalso. apply (Rlt_not_le _ _ l). apply Rabs_le. lra.
  - destruct (Rltb_spec (Rabs u) (1 / 2)) as [m|m]; [reflexivity|]. exfalso. apply m. apply Rabs_def1; lra.
Qed.
Lemma sinc_uval_out : forall u, 1 / 2 < Rabs u -> sinc_uval u = 0. Proof. intros u H. unfold sinc_uval. cbv zeta. destruct (Rltb_spec (1 / 2) (Rabs u)); [reflexivity|contradiction]. Qed.
