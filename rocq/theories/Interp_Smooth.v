(** Smoothness, Fourier transforms and integrals of the kernels. *)
From Coq Require Import ZArith Reals Bool List Lra Lia.
From Coquelicot Require Import Coquelicot.
From Verif Require Import Base Bounds_Model Bounds_Proofs FFT_Model FFT_Proofs Sky_Model Interp_Model Interp_Spec Akima_Spline Interp_Kernels.
Import ListNotations.
Open Scope R_scope.

(** * Smoothness of even piecewise functions *)
Section Pieces.
  Variables p1 p2 p3 d1 d2 d3 : R -> R.
  Variable K : R -> R.
  Hypothesis D1 : forall x, derivable_pt_lim p1 x (d1 x).
  Hypothesis D2 : forall x, derivable_pt_lim p2 x (d2 x).
  Hypothesis D3 : forall x, derivable_pt_lim p3 x (d3 x).
  Hypothesis N1 : forall x, continuity_pt d1 x.
  Hypothesis N2 : forall x, continuity_pt d2 x.
  Hypothesis N3 : forall x, continuity_pt d3 x.
  Hypothesis E : even K.
  Hypothesis K1 : forall x, 0 <= x <= 1 -> K x = p1 x.
  Hypothesis K2 : forall x, 1 <= x <= 2 -> K x = p2 x.
  Hypothesis K3 : forall x, 2 <= x <= 3 -> K x = p3 x.
  Hypothesis K4 : forall x, 3 <= x -> K x = 0.
  Hypothesis J0 : d1 0 = 0.
  Hypothesis J1 : d1 1 = d2 1.
  Hypothesis J2 : d2 2 = d3 2.
  Hypothesis J3 : d3 3 = 0.
  Definition dpos (a : R) : R := if Rle_dec a 1 then d1 a else if Rle_dec a 2 then d2 a else if Rle_dec a 3 then d3 a else 0.
  Definition dK (x : R) : R := if Rle_dec 0 x then dpos x else - dpos (- x).
  Lemma dpos1 : forall a, a <= 1 -> dpos a = d1 a. Proof. intros. unfold dpos. destruct (Rle_dec a 1); lra. Qed.
  Lemma dpos2 : forall a, 1 <= a <= 2 -> dpos a = d2 a.
  Proof. intros. unfold dpos. destruct (Rle_dec a 1) as [l|l]; [replace a with 1 by lra; exact J1|]. destruct (Rle_dec a 2); lra. Qed.
  Lemma dpos3 : forall a, 2 <= a <= 3 -> dpos a = d3 a.
  Proof. intros. unfold dpos. destruct (Rle_dec a 1); [lra|]. destruct (Rle_dec a 2) as [l'|l']; [replace a with 2 by lra; exact J2|]. destruct (Rle_dec a 3); lra. Qed.
  Lemma dpos4 : forall a, 3 <= a -> dpos a = 0.
  Proof. intros. unfold dpos. destruct (Rle_dec a 1); [lra|]. destruct (Rle_dec a 2); [lra|]. destruct (Rle_dec a 3) as [l'|l']; [replace a with 3 by lra; exact J3|reflexivity]. Qed.
  Lemma dK_pos : forall x, 0 <= x -> dK x = dpos x. Proof. intros. unfold dK. destruct (Rle_dec 0 x); lra. Qed.
  Lemma dK_neg : forall x, dK (- x) = - dK x.
  Proof.
    intro x. unfold dK. destruct (Rle_dec 0 x), (Rle_dec 0 (- x)); rewrite ?Ropp_involutive; try lra.
    replace x with 0 by lra. rewrite Ropp_0, dpos1, J0 by lra. ring.
  Qed.
  Lemma zero_deriv : forall x, derivable_pt_lim (fun _ => 0) x 0. Proof. intro. apply derivable_pt_lim_const. Qed.
  Lemma zero_cont : forall x, continuity_pt (fun _ => 0) x. Proof. intro. apply continuity_pt_const. intros ? ?; reflexivity. Qed.
  (** Near a point the function is one of the pieces on the left and another on the right. *)
  Lemma two_sided : forall x, 0 < x -> exists p q d d' e, 0 < e /\ (forall t, x - e < t <= x -> K t = p t /\ dK t = d t) /\
    (forall t, x <= t < x + e -> K t = q t /\ dK t = d' t) /\ derivable_pt_lim p x (dK x) /\ derivable_pt_lim q x (dK x) /\ continuity_pt d x /\ continuity_pt d' x.
  Proof.
    intros x X. destruct (Rtotal_order x 1) as [l|[l|l]].
    - pose proof (Rmin_l x (1 - x)). pose proof (Rmin_r x (1 - x)). exists p1, p1, d1, d1, (Rmin x (1 - x)).
      split; [apply Rmin_glb_lt; lra|]. rewrite (dK_pos x), (dpos1 x) by lra.
      split; [|split; [|auto]]; intros t B; (split; [apply K1; lra|rewrite dK_pos, dpos1 by lra; auto]).
    - subst x. exists p1, p2, d1, d2, 1. split; [lra|]. rewrite (dK_pos 1) by lra. split; [|split; [|split; [|split; [|auto]]]].
      + intros t B. split; [apply K1; lra|rewrite dK_pos, dpos1 by lra; auto].
      + intros t B. split; [apply K2; lra|rewrite dK_pos, dpos2 by lra; auto].
      + rewrite dpos1 by lra. auto.
      + rewrite dpos2 by lra. auto.
    - destruct (Rtotal_order x 2) as [m|[m|m]].
      + pose proof (Rmin_l (x - 1) (2 - x)). pose proof (Rmin_r (x - 1) (2 - x)). exists p2, p2, d2, d2, (Rmin (x - 1) (2 - x)).
        split; [apply Rmin_glb_lt; lra|]. rewrite (dK_pos x), (dpos2 x) by lra.
        split; [|split; [|auto]]; intros t B; (split; [apply K2; lra|rewrite dK_pos, dpos2 by lra; auto]).
      + subst x. exists p2, p3, d2, d3, 1. split; [lra|]. rewrite (dK_pos 2) by lra. split; [|split; [|split; [|split; [|auto]]]].
        * intros t B. split; [apply K2; lra|rewrite dK_pos, dpos2 by lra; auto].
        * intros t B. split; [apply K3; lra|rewrite dK_pos, dpos3 by lra; auto].
        * rewrite dpos2 by lra. auto.
        * rewrite dpos3 by lra. auto.
      + destruct (Rtotal_order x 3) as [n|[n|n]].
        * pose proof (Rmin_l (x - 2) (3 - x)). pose proof (Rmin_r (x - 2) (3 - x)). exists p3, p3, d3, d3, (Rmin (x - 2) (3 - x)).
          split; [apply Rmin_glb_lt; lra|]. rewrite (dK_pos x), (dpos3 x) by lra.
          split; [|split; [|auto]]; intros t B; (split; [apply K3; lra|rewrite dK_pos, dpos3 by lra; auto]).
        * subst x. exists p3, (fun _ => 0), d3, (fun _ => 0), 1. split; [lra|]. rewrite (dK_pos 3) by lra. split; [|split; [|split; [|split; [|split; [auto|apply zero_cont]]]]].
          -- intros t B. split; [apply K3; lra|rewrite dK_pos, dpos3 by lra; auto].
          -- intros t B. split; [apply K4; lra|rewrite dK_pos, dpos4 by lra; auto].
          -- rewrite dpos3 by lra. auto.
          -- rewrite dpos4 by lra. apply zero_deriv.
        * exists (fun _ => 0), (fun _ => 0), (fun _ => 0), (fun _ => 0), (x - 3).
          split; [lra|]. rewrite (dK_pos x), (dpos4 x) by lra.
          split; [|split; [|split; [apply zero_deriv|split; [apply zero_deriv|split; apply zero_cont]]]]; intros t B; (split; [apply K4; lra|rewrite dK_pos, dpos4 by lra; auto]).
  Qed.
  Lemma opp_deriv : forall f x l, derivable_pt_lim f (- x) l -> derivable_pt_lim (fun t => f (- t)) x (- l).
  Proof.
    intros f x l H. replace (- l) with (l * - 1) by ring. apply (derivable_pt_lim_comp Ropp f); [|exact H].
    apply derivable_pt_lim_opp. apply derivable_pt_lim_id.
  Qed.
  Lemma opp_cont : forall f x, continuity_pt f (- x) -> continuity_pt (fun t => f (- t)) x.
  Proof. intros f x H. apply (continuity_pt_comp Ropp f); auto. apply continuity_pt_opp. apply derivable_continuous_pt, derivable_pt_id. Qed.
  Lemma pieces_pos : forall x, 0 < x -> derivable_pt_lim K x (dK x) /\ continuity_pt dK x.
  Proof.
    intros x X. destruct (two_sided x X) as [p [q [d [d' [e [H [L [M [A [B [C D]]]]]]]]]]]. split.
    - apply (glue_deriv K p q x (dK x) e); auto; intros t T; [apply L|apply M]; auto.
    - apply (glue_cont dK d d' x e); auto; intros t T; [apply L|apply M]; auto.
  Qed.
  Lemma pieces_C1 : forall x, derivable_pt_lim K x (dK x) /\ continuity_pt dK x.
  Proof.
    intro x. destruct (Rtotal_order x 0) as [l|[l|l]]; [|subst x|now apply pieces_pos].
    - destruct (pieces_pos (- x) ltac:(lra)) as [A B]. apply opp_deriv in A. apply opp_cont in B. rewrite dK_neg, Ropp_involutive in A. split.
      + eapply (glue_deriv K (fun t => K (- t)) (fun t => K (- t)) x _ 1); auto; try lra; intros; symmetry; apply E.
      + apply continuity_pt_opp in B. apply (glue_cont dK (fun t => - dK (- t)) (fun t => - dK (- t)) x 1); auto; try lra; intros; rewrite dK_neg; ring.
    - assert (Z : dK 0 = 0) by (rewrite dK_pos, dpos1 by lra; exact J0). rewrite Z. split.
      + apply (glue_deriv K (fun t => p1 (- t)) p1 0 0 1); try lra.
        * intros t T. rewrite <- E. apply K1. lra.
        * intros t T. apply K1. lra.
        * replace 0 with (- d1 (- 0)) at 2 by (rewrite Ropp_0, J0; ring). apply opp_deriv, D1.
        * rewrite <- J0 at 2. apply D1.
      + apply (glue_cont dK (fun t => - d1 (- t)) d1 0 1); try lra; auto.
        * intros t T. rewrite <- (Ropp_involutive t) at 1. rewrite dK_neg, dK_pos, dpos1 by lra. reflexivity.
        * intros t T. rewrite dK_pos, dpos1 by lra. reflexivity.
        * apply (continuity_pt_opp (fun t => d1 (- t))), opp_cont, N1.
  Qed.
End Pieces.

(** Polynomials of degree five *)
Definition P5 (a0 a1 a2 a3 a4 a5 x : R) : R := a0 + a1 * x + a2 * x ^ 2 + a3 * x ^ 3 + a4 * x ^ 4 + a5 * x ^ 5.
Lemma P5_deriv : forall a0 a1 a2 a3 a4 a5 x, derivable_pt_lim (P5 a0 a1 a2 a3 a4 a5) x (P5 a1 (2 * a2) (3 * a3) (4 * a4) (5 * a5) 0 x).
Proof. intros. apply is_derive_Reals. unfold P5. auto_derive; [exact I|]. ring. Qed.
Lemma P5_cont : forall a0 a1 a2 a3 a4 a5 x, continuity_pt (P5 a0 a1 a2 a3 a4 a5) x.
Proof. intros. apply derivable_continuous_pt. eexists. apply P5_deriv. Qed.
Lemma deriv_ext : forall f g x l, (forall t, f t = g t) -> derivable_pt_lim g x l -> derivable_pt_lim f x l.
Proof. intros f g x l H D. apply (glue_deriv f g g x l 1); auto; lra. Qed.
Lemma cont_ext : forall f g x, (forall t, f t = g t) -> continuity_pt g x -> continuity_pt f x.
Proof. intros f g x H D. apply (glue_cont f g g x 1); auto; lra. Qed.

Lemma cubic_one_P : forall x, cubic_one x = P5 1 0 (- (5 / 2)) (3 / 2) 0 0 x. Proof. intro. unfold cubic_one, P5. field. Qed.
Lemma cubic_two_P : forall x, cubic_two x = P5 2 (-4) (5 / 2) (- (1 / 2)) 0 0 x. Proof. intro. unfold cubic_two, P5. field. Qed.
Lemma quintic_one_P : forall x, quintic_one x = P5 1 0 0 (- (95 / 12)) (23 / 2) (- (55 / 12)) x. Proof. intro. unfold quintic_one, P5. field. Qed.
Lemma quintic_two_P : forall x, quintic_two x = P5 (- (23 / 2)) (185 / 4) (-70) (1205 / 24) (- (69 / 4)) (55 / 24) x. Proof. intro. unfold quintic_two, P5. field. Qed.
Lemma quintic_three_P : forall x, quintic_three x = P5 (81 / 2) (- (339 / 4)) 70 (- (685 / 24)) (23 / 4) (- (11 / 24)) x. Proof. intro. unfold quintic_three, P5. field. Qed.

Lemma cubic_C1 : C1 cubic_xval.
Proof.
  eexists. apply (pieces_C1 cubic_one cubic_two (fun _ => 0) (P5 0 (2 * - (5 / 2)) (3 * (3 / 2)) (4 * 0) (5 * 0) 0)
    (P5 (-4) (2 * (5 / 2)) (3 * - (1 / 2)) (4 * 0) (5 * 0) 0) (fun _ => 0) cubic_xval).
  - intro x. apply (deriv_ext _ _ x _ cubic_one_P), P5_deriv.
  - intro x. apply (deriv_ext _ _ x _ cubic_two_P), P5_deriv.
  - apply zero_deriv.
  - intro. apply P5_cont.
  - intro. apply P5_cont.
  - apply zero_cont.
  - exact cub_even.
  - exact cub_1.
  - exact cub_2.
  - intros. apply cub_out. lra.
  - intros. apply cub_out. lra.
  - unfold P5; field.
  - unfold P5; field.
  - unfold P5; field.
  - reflexivity.
Qed.
Lemma quintic_C1 : C1 quintic_xval.
Proof.
  eexists. apply (pieces_C1 quintic_one quintic_two quintic_three (P5 0 (2 * 0) (3 * - (95 / 12)) (4 * (23 / 2)) (5 * - (55 / 12)) 0)
    (P5 (185 / 4) (2 * -70) (3 * (1205 / 24)) (4 * - (69 / 4)) (5 * (55 / 24)) 0) (P5 (- (339 / 4)) (2 * 70) (3 * - (685 / 24)) (4 * (23 / 4)) (5 * - (11 / 24)) 0) quintic_xval).
  - intro x. apply (deriv_ext _ _ x _ quintic_one_P), P5_deriv.
  - intro x. apply (deriv_ext _ _ x _ quintic_two_P), P5_deriv.
  - intro x. apply (deriv_ext _ _ x _ quintic_three_P), P5_deriv.
  - intro. apply P5_cont.
  - intro. apply P5_cont.
  - intro. apply P5_cont.
  - exact qui_even.
  - exact qui_1.
  - exact qui_2.
  - exact qui_3.
  - exact qui_out.
  - unfold P5; field.
  - unfold P5; field.
  - unfold P5; field.
  - unfold P5; field.
Qed.
Lemma linear_cont : forall x, continuity_pt linear_xval x.
Proof.
  assert (C : forall f x, derivable_pt f x -> continuity_pt f x) by (intros; now apply derivable_continuous_pt).
  assert (PC : forall x, 0 < x -> continuity_pt linear_xval x).
  { intros x X. assert (L1 : continuity_pt (fun t => 1 - t) x) by (apply continuity_pt_minus; [apply continuity_pt_const; intros ? ?; auto|apply C, derivable_pt_id]).
    destruct (Rtotal_order x 1) as [l|[l|l]].
    - pose proof (Rmin_l x (1 - x)). pose proof (Rmin_r x (1 - x)).
      apply (glue_cont _ (fun t => 1 - t) (fun t => 1 - t) x (Rmin x (1 - x))); auto; [apply Rmin_glb_lt; lra| |]; intros; apply lin_in; lra.
    - subst. apply (glue_cont _ (fun t => 1 - t) (fun t => 0) 1 1); auto; [intros; apply lin_in; lra|intros; apply lin_out; lra|apply zero_cont].
    - apply (glue_cont _ (fun t => 0) (fun t => 0) x (x - 1)); [lra| | |apply zero_cont|apply zero_cont]; intros; apply lin_out; lra. }
  intro x. destruct (Rtotal_order x 0) as [l|[l|l]]; auto.
  - pose proof (opp_cont _ x (PC (- x) ltac:(lra))) as B.
    apply (glue_cont _ (fun t => linear_xval (- t)) (fun t => linear_xval (- t)) x 1); auto; try lra; intros; symmetry; apply lin_even.
  - subst. assert (L1 : continuity_pt (fun t => 1 - t) 0) by (apply continuity_pt_minus; [apply continuity_pt_const; intros ? ?; auto|apply C, derivable_pt_id]).
    apply (glue_cont _ (fun t => 1 - - t) (fun t => 1 - t) 0 1); auto; [lra| | |].
    + intros. rewrite <- lin_even. apply lin_in. lra.
    + intros. apply lin_in. lra.
    + apply (opp_cont (fun t => 1 - t)). now rewrite Ropp_0.
Qed.

(** * Fourier transforms *)
Section Transforms.
  (** An antiderivative of a polynomial of degree five times a cosine *)
  Definition AD (k a0 a1 a2 a3 a4 a5 x : R) : R :=
    sin (k * x) * (P5 a0 a1 a2 a3 a4 a5 x / k - P5 (2 * a2) (6 * a3) (12 * a4) (20 * a5) 0 0 x / k ^ 3 + P5 (24 * a4) (120 * a5) 0 0 0 0 x / k ^ 5)
    + cos (k * x) * (P5 a1 (2 * a2) (3 * a3) (4 * a4) (5 * a5) 0 x / k ^ 2 - P5 (6 * a3) (24 * a4) (60 * a5) 0 0 0 x / k ^ 4 + 120 * a5 / k ^ 6).
  Lemma AD_deriv : forall k a0 a1 a2 a3 a4 a5 x, k <> 0 -> is_derive (AD k a0 a1 a2 a3 a4 a5) x (P5 a0 a1 a2 a3 a4 a5 x * cos (k * x)).
  Proof. intros k a0 a1 a2 a3 a4 a5 x K. unfold AD, P5. auto_derive; [exact I|]. field. exact K. Qed.
  Lemma Pcos_cont : forall k a0 a1 a2 a3 a4 a5 x, continuous (fun x => P5 a0 a1 a2 a3 a4 a5 x * cos (k * x)) x.
  Proof. intros. apply (ex_derive_continuous (V := R_NormedModule)). unfold P5. auto_derive. exact I. Qed.
  Lemma piece_int : forall k a0 a1 a2 a3 a4 a5 u v (f : R -> R), k <> 0 -> u <= v -> (forall x, u < x < v -> f x = P5 a0 a1 a2 a3 a4 a5 x * cos (k * x)) ->
    is_RInt f u v (AD k a0 a1 a2 a3 a4 a5 v - AD k a0 a1 a2 a3 a4 a5 u).
  Proof.
    intros k a0 a1 a2 a3 a4 a5 u v f K L H. apply is_RInt_ext with (f := fun x => P5 a0 a1 a2 a3 a4 a5 x * cos (k * x)).
    - intros x. rewrite Rmin_left, Rmax_right by exact L. intro B. symmetry. now apply H.
    - apply (is_RInt_derive (V := R_CompleteNormedModule) (AD k a0 a1 a2 a3 a4 a5)); intros; [now apply AD_deriv|apply Pcos_cont].
  Qed.
  Definition AP (a0 a1 a2 a3 a4 a5 x : R) : R := a0 * x + a1 / 2 * x ^ 2 + a2 / 3 * x ^ 3 + a3 / 4 * x ^ 4 + a4 / 5 * x ^ 5 + a5 / 6 * x ^ 6.
  Lemma poly_int : forall a0 a1 a2 a3 a4 a5 u v (f : R -> R), u <= v -> (forall x, u < x < v -> f x = P5 a0 a1 a2 a3 a4 a5 x) ->
    is_RInt f u v (AP a0 a1 a2 a3 a4 a5 v - AP a0 a1 a2 a3 a4 a5 u).
  Proof.
    intros a0 a1 a2 a3 a4 a5 u v f L H. apply is_RInt_ext with (f := P5 a0 a1 a2 a3 a4 a5).
    - intros x. rewrite Rmin_left, Rmax_right by exact L. intro B. symmetry. now apply H.
    - apply (is_RInt_derive (V := R_CompleteNormedModule) (AP a0 a1 a2 a3 a4 a5)); intros.
      + unfold AP, P5. auto_derive; [exact I|]. field.
      + apply (ex_derive_continuous (V := R_NormedModule)). unfold P5. auto_derive. exact I.
  Qed.
  (** The integral of an even function over a symmetric interval is twice that over the right half. *)
  Lemma even_int : forall (f : R -> R) (c v : R), even f -> is_RInt f 0 c v -> is_RInt f (- c) c (2 * v).
  Proof.
    intros f c v E H. replace (2 * v) with (plus v v) by (unfold plus; cbn; ring). apply (is_RInt_Chasles f (- c) 0 c v v); [|exact H].
    apply is_RInt_ext with (f := fun y => opp (opp (f (- y)))).
    { intros x _. change (- - f (- x) = f x). rewrite E. ring. }
    replace v with (opp (opp v)) by (apply opp_opp). apply (is_RInt_opp (fun y => opp (f (- y))) (- c) 0 (opp v)).
    apply (is_RInt_swap (V := R_NormedModule) (fun y => opp (f (- y)))). apply (is_RInt_comp_opp (V := R_NormedModule) f). rewrite Ropp_0, Ropp_involutive. exact H.
  Qed.
  Lemma chas : forall (f : R -> R) (a b c u v w : R), is_RInt f a b u -> is_RInt f b c v -> u + v = w -> is_RInt f a c w.
  Proof. intros f a b c u v w H J <-. apply (is_RInt_Chasles f a b c u v); auto. Qed.
  Lemma int_eq : forall (f : R -> R) (a b u v : R), is_RInt f a b u -> u = v -> is_RInt f a b v. Proof. intros; now subst. Qed.
  Lemma even_cos : forall K k, even K -> even (fun x => K x * cos (k * x)).
  Proof. intros K k E x. rewrite E. replace (k * - x) with (- (k * x)) by ring. now rewrite cos_neg. Qed.
  Lemma cos_zero : forall k x, k = 0 -> cos (k * x) = 1. Proof. intros k x ->. rewrite Rmult_0_l. apply cos_0. Qed.

  (** Multiple angles through the half angle *)
  Variable k : R.
  Let s := sin (k / 2).
  Let c := cos (k / 2).
  Lemma half_sq : c * c = 1 - s * s. Proof. unfold s, c. pose proof (sin2_cos2 (k / 2)) as H. unfold Rsqr in H. lra. Qed.
  Lemma sin_1k : sin (k * 1) = 2 * s * c. Proof. replace (k * 1) with (2 * (k / 2)) by field. now rewrite sin_2a. Qed.
  Lemma cos_1k : cos (k * 1) = 1 - 2 * (s * s). Proof. replace (k * 1) with (2 * (k / 2)) by field. rewrite cos_2a. fold s c. rewrite half_sq. ring. Qed.
  Lemma sin_2k : sin (k * 2) = 4 * s * c * (1 - 2 * (s * s)). Proof. replace (k * 2) with (2 * (k * 1)) by field. rewrite sin_2a, sin_1k, cos_1k. ring. Qed.
  Lemma cos_2k : cos (k * 2) = 2 * (1 - 2 * (s * s)) * (1 - 2 * (s * s)) - 1.
  Proof. replace (k * 2) with (2 * (k * 1)) by field. rewrite cos_2a, sin_1k, cos_1k. replace (2 * s * c * (2 * s * c)) with (4 * s * s * (c * c)) by ring. rewrite half_sq. ring. Qed.
  Lemma sin_3k : sin (k * 3) = 2 * s * c * (3 - 16 * (s * s) * (1 - s * s)).
  Proof.
    replace (k * 3) with (k * 2 + k * 1) by ring. rewrite sin_plus, sin_2k, cos_2k, sin_1k, cos_1k. ring.
  Qed.
  Lemma cos_3k : cos (k * 3) = (1 - 2 * (s * s)) * (4 * (1 - 2 * (s * s)) * (1 - 2 * (s * s)) - 3).
  Proof.
    replace (k * 3) with (k * 2 + k * 1) by ring. rewrite cos_plus, sin_2k, cos_2k, sin_1k, cos_1k.
    replace (4 * s * c * (1 - 2 * (s * s)) * (2 * s * c)) with (8 * s * s * (c * c) * (1 - 2 * (s * s))) by ring. rewrite half_sq. ring.
  Qed.
  Lemma sinc_half : k <> 0 -> sinc (k / 2 / PI) = s / (k / 2).
  Proof.
    intro H. pose proof PI_RGT_0. unfold sinc. destruct (Reqb_spec (k / 2 / PI) 0) as [e|e].
    - exfalso. apply H. apply (f_equal (fun t => 2 * PI * t)) in e. replace (2 * PI * (k / 2 / PI)) with k in e by (field; lra). lra.
    - replace (PI * (k / 2 / PI)) with (k / 2) by (field; lra). reflexivity.
  Qed.
End Transforms.
Ltac ad k := unfold AD, P5; rewrite ?(Rmult_0_r k), ?sin_0, ?cos_0, ?(sin_1k k), ?(cos_1k k), ?(sin_2k k), ?(cos_2k k), ?(sin_3k k), ?(cos_3k k).

Lemma kval_arg : forall k, PI * (k / 2 / PI) = k / 2. Proof. intro. pose proof PI_RGT_0. field. lra. Qed.
Lemma k_zero : forall k, k = 0 -> k / 2 / PI = 0. Proof. intros k ->. pose proof PI_RGT_0. field. lra. Qed.
Lemma abs_arg : forall k, Rabs (k / 2 / PI) = Rabs k / 2 / PI.
Proof. intro k. pose proof PI_RGT_0. unfold Rdiv. rewrite !Rabs_mult, (Rabs_inv 2), (Rabs_inv PI), (Rabs_pos_eq 2), (Rabs_pos_eq PI) by lra. reflexivity. Qed.

Lemma nearest_transform : forall k, transform nearest_xval (1 / 2) k (nearest_uval (k / 2 / PI)).
Proof.
  intro k. unfold transform. unfold nearest_uval. destruct (Req_dec k 0) as [e|e].
  - rewrite k_zero by exact e. apply int_eq with (u := 2 * (1 / 2)); [|rewrite sinc_0; field].
    apply even_int; [apply even_cos, nea_even|]. eapply int_eq; [apply (poly_int 1 0 0 0 0 0); [lra|]|unfold AP; field].
    intros x B. rewrite nea_in by lra. rewrite cos_zero by exact e. unfold P5. ring.
  - eapply int_eq; [apply even_int; [apply even_cos, nea_even|]; apply (piece_int k 1 0 0 0 0 0); [exact e|lra|]|].
    + intros x B. rewrite nea_in by lra. unfold P5. ring.
    + rewrite sinc_half by exact e. unfold AD, P5. rewrite (Rmult_0_r k), sin_0, cos_0. replace (k * (1 / 2)) with (k / 2) by field. field. exact e.
Qed.
Lemma linear_transform : forall k, transform linear_xval 1 k (linear_uval (k / 2 / PI)).
Proof.
  intro k. unfold transform, linear_uval. cbv zeta. destruct (Req_dec k 0) as [e|e].
  - rewrite k_zero by exact e. rewrite sinc_0.
    eapply int_eq; [apply even_int; [apply even_cos, lin_even|]; apply (poly_int 1 (-1) 0 0 0 0); [lra|]|unfold AP; field].
    intros x B. rewrite lin_in by lra. rewrite cos_zero by exact e. unfold P5. ring.
  - eapply int_eq; [apply even_int; [apply even_cos, lin_even|]; apply (piece_int k 1 (-1) 0 0 0 0); [exact e|lra|]|].
    + intros x B. rewrite lin_in by lra. unfold P5. ring.
    + rewrite sinc_half by exact e. ad k. field. exact e.
Qed.
Lemma abs_sinc : forall u, sinc (Rabs u) = sinc u. Proof. intro. symmetry. apply even_at, sinc_even. Qed.
Lemma cos_abs : forall u, cos (PI * Rabs u) = cos (PI * u).
Proof. intro u. unfold Rabs. destruct (Rcase_abs u); auto. replace (PI * - u) with (- (PI * u)) by ring. apply cos_neg. Qed.
Lemma cubic_transform : forall k, transform cubic_xval 2 k (cubic_uval (k / 2 / PI)).
Proof.
  intro k. unfold transform, cubic_uval. cbv zeta. rewrite abs_sinc, cos_abs. destruct (Req_dec k 0) as [e|e].
  - rewrite k_zero by exact e. rewrite sinc_0, Rmult_0_r, cos_0.
    eapply int_eq; [apply even_int; [apply even_cos, cub_even|]; eapply chas; [apply (poly_int 1 0 (- (5 / 2)) (3 / 2) 0 0 0 1)|apply (poly_int 2 (-4) (5 / 2) (- (1 / 2)) 0 0 1 2)|reflexivity]|unfold AP; field].
    + lra.
    + intros x B. rewrite cub_1, cubic_one_P, cos_zero by (exact e || lra). ring.
    + lra.
    + intros x B. rewrite cub_2, cubic_two_P, cos_zero by (exact e || lra). ring.
  - eapply int_eq; [apply even_int; [apply even_cos, cub_even|]; eapply chas;
      [apply (piece_int k 1 0 (- (5 / 2)) (3 / 2) 0 0 0 1)|apply (piece_int k 2 (-4) (5 / 2) (- (1 / 2)) 0 0 1 2)|reflexivity]|]; try exact e; try lra.
    + intros x B. rewrite cub_1, cubic_one_P by lra. ring.
    + intros x B. rewrite cub_2, cubic_two_P by lra. ring.
    + rewrite sinc_half, kval_arg by exact e. ad k. field. exact e.
Qed.
Lemma sq_arg : forall w, PI * Rabs w * (PI * Rabs w) = PI * w * (PI * w).
Proof. intro w. pose proof (Rsqr_abs w) as H. unfold Rsqr in H. transitivity (PI * PI * (w * w)); [rewrite H|]; ring. Qed.
Lemma quintic_transform : forall k, transform quintic_xval 3 k (quintic_uval (k / 2 / PI)).
Proof.
  intro k. unfold transform, quintic_uval. cbv zeta. rewrite abs_sinc, cos_abs. destruct (Req_dec k 0) as [e|e].
  - rewrite k_zero by exact e. rewrite Rabs_R0, sinc_0, !Rmult_0_r, cos_0.
    eapply int_eq; [apply even_int; [apply even_cos, qui_even|]; eapply chas; [eapply chas;
      [apply (poly_int 1 0 0 (- (95 / 12)) (23 / 2) (- (55 / 12)) 0 1)|apply (poly_int (- (23 / 2)) (185 / 4) (-70) (1205 / 24) (- (69 / 4)) (55 / 24) 1 2)|reflexivity]
      |apply (poly_int (81 / 2) (- (339 / 4)) 70 (- (685 / 24)) (23 / 4) (- (11 / 24)) 2 3)|reflexivity]|unfold AP; field]; try lra.
    + intros x B. rewrite qui_1, quintic_one_P, cos_zero by (exact e || lra). ring.
    + intros x B. rewrite qui_2, quintic_two_P, cos_zero by (exact e || lra). ring.
    + intros x B. rewrite qui_3, quintic_three_P, cos_zero by (exact e || lra). ring.
  - eapply int_eq; [apply even_int; [apply even_cos, qui_even|]; eapply chas; [eapply chas;
      [apply (piece_int k 1 0 0 (- (95 / 12)) (23 / 2) (- (55 / 12)) 0 1)|apply (piece_int k (- (23 / 2)) (185 / 4) (-70) (1205 / 24) (- (69 / 4)) (55 / 24) 1 2)|reflexivity]
      |apply (piece_int k (81 / 2) (- (339 / 4)) 70 (- (685 / 24)) (23 / 4) (- (11 / 24)) 2 3)|reflexivity]|]; try exact e; try lra.
    + intros x B. rewrite qui_1, quintic_one_P by lra. ring.
    + intros x B. rewrite qui_2, quintic_two_P by lra. ring.
    + intros x B. rewrite qui_3, quintic_three_P by lra. ring.
    + rewrite sq_arg.
      rewrite sinc_half, kval_arg by exact e. ad k. field. exact e.
Qed.
