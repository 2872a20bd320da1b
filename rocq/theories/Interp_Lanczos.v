(** The Lanczos kernels: closed forms, the DC factor and the transform. *)
From Coq Require Import ZArith Reals Bool List Lra Lia.
From Coquelicot Require Import Coquelicot.
From Verif Require Import Base Bounds_Model Bounds_Proofs FFT_Model FFT_Proofs Sky_Model Interp_Model Interp_Spec Akima_Spline Interp_Kernels Interp_Smooth.
From Verif Require Sky_Jac.
Import ListNotations.
Open Scope R_scope.

Lemma sinc_is : forall x, sinc x = sincR x.
Proof. intro x. unfold sinc, sincR. destruct (Reqb_spec x 0), (Req_EM_T x 0); auto; contradiction. Qed.
(** sin(n t) / (n t) from sin(t) / t *)
Lemma sinc_mult : forall n x, x <> 0 -> n <> 0 -> sinc (x / n) = sin (PI * x / n) * n / (PI * x).
Proof.
  intros n x X N. pose proof PI_RGT_0. unfold sinc. destruct (Reqb_spec (x / n) 0) as [e|e].
  - exfalso. apply X. apply (f_equal (Rmult n)) in e. rewrite Rmult_0_r in e. rewrite <- e. field. exact N.
  - replace (PI * (x / n)) with (PI * x / n) by (field; exact N). field. repeat split; auto; lra.
Qed.
Section Angles.
  Variable t : R.
  Let s := sin t.
  Let c := cos t.
  Lemma csq : c * c = 1 - s * s. Proof. unfold s, c. pose proof (sin2_cos2 t) as H. unfold Rsqr in H. lra. Qed.
  Lemma s2 : sin (2 * t) = 2 * s * c. Proof. apply sin_2a. Qed.
  Lemma c2 : cos (2 * t) = 1 - 2 * (s * s). Proof. rewrite cos_2a. fold s c. rewrite csq. ring. Qed.
  Lemma s3 : sin (3 * t) = s * (3 - 4 * (s * s)).
  Proof. replace (3 * t) with (2 * t + t) by ring. rewrite sin_plus, s2, c2. fold s c. replace (2 * s * c * c) with (2 * s * (c * c)) by ring. rewrite csq. ring. Qed.
  Lemma c3 : cos (3 * t) = c * (1 - 4 * (s * s)).
  Proof. replace (3 * t) with (2 * t + t) by ring. rewrite cos_plus, s2, c2. fold s c. ring. Qed.
  Lemma s4 : sin (4 * t) = 4 * s * c * (1 - 2 * (s * s)).
  Proof. replace (4 * t) with (3 * t + t) by ring. rewrite sin_plus, s3, c3. fold s c. ring. Qed.
  Lemma c4 : cos (4 * t) = 1 - 8 * (s * s) + 8 * (s * s) * (s * s).
  Proof. replace (4 * t) with (3 * t + t) by ring. rewrite cos_plus, s3, c3. fold s c. replace (c * (1 - 4 * (s * s)) * c) with (c * c * (1 - 4 * (s * s))) by ring. rewrite csq. ring. Qed.
  Lemma s5 : sin (5 * t) = s * (5 - 20 * (s * s) + 16 * (s * s) * (s * s)).
  Proof. replace (5 * t) with (4 * t + t) by ring. rewrite sin_plus, s4, c4. fold s c. replace (4 * s * c * (1 - 2 * (s * s)) * c) with (4 * s * (c * c) * (1 - 2 * (s * s))) by ring. rewrite csq. ring. Qed.
  Lemma c5 : cos (5 * t) = c * (1 - 12 * (s * s) + 16 * (s * s) * (s * s)).
  Proof. replace (5 * t) with (4 * t + t) by ring. rewrite cos_plus, s4, c4. fold s c. ring. Qed.
  Lemma s6 : sin (6 * t) = 2 * s * c * (3 - 16 * (s * s) + 16 * (s * s) * (s * s)).
  Proof. replace (6 * t) with (5 * t + t) by ring. rewrite sin_plus, s5, c5. fold s c. ring. Qed.
  Lemma c6 : cos (6 * t) = (1 - 2 * (s * s)) * (1 - 16 * (s * s) + 16 * (s * s) * (s * s)).
  Proof. replace (6 * t) with (5 * t + t) by ring. rewrite cos_plus, s5, c5. fold s c. replace (c * (1 - 12 * (s * s) + 16 * (s * s) * (s * s)) * c) with (c * c * (1 - 12 * (s * s) + 16 * (s * s) * (s * s))) by ring. rewrite csq. ring. Qed.
  Lemma s7 : sin (7 * t) = s * (7 - 56 * (s * s) + 112 * (s * s) * (s * s) - 64 * (s * s) * (s * s) * (s * s)).
  Proof. replace (7 * t) with (6 * t + t) by ring. rewrite sin_plus, s6, c6. fold s c. replace (2 * s * c * (3 - 16 * (s * s) + 16 * (s * s) * (s * s)) * c) with (2 * s * (c * c) * (3 - 16 * (s * s) + 16 * (s * s) * (s * s))) by ring. rewrite csq. ring. Qed.
  (** 1 - cos(2 j t) *)
  Lemma v1 : 1 - cos (2 * t) = 2 * (s * s). Proof. rewrite c2. ring. Qed.
  Lemma v2 : 1 - cos (4 * t) = 8 * (s * s) * (1 - s * s). Proof. rewrite c4. ring. Qed.
  Lemma v3' : 1 - cos (6 * t) = 2 * (s * s) * (9 - s * s * (24 - 16 * (s * s))). Proof. rewrite c6. ring. Qed.
End Angles.
Lemma v4 : forall t, 1 - cos (8 * t) = 32 * (sin t * sin t) * (1 - sin t * sin t * (5 - sin t * sin t * (8 - 4 * (sin t * sin t)))).
Proof. intro t. replace (8 * t) with (2 * (4 * t)) by ring. rewrite v1, s4.
  replace (2 * (4 * sin t * cos t * (1 - 2 * (sin t * sin t)) * (4 * sin t * cos t * (1 - 2 * (sin t * sin t))))) with
    (32 * (sin t * sin t) * (cos t * cos t) * ((1 - 2 * (sin t * sin t)) * (1 - 2 * (sin t * sin t)))) by ring. rewrite csq. ring. Qed.
Lemma v5 : forall t, 1 - cos (10 * t) = 2 * (sin t * sin t) * (25 - sin t * sin t * (200 - sin t * sin t * (560 - sin t * sin t * (640 - 256 * (sin t * sin t))))).
Proof. intro t. replace (10 * t) with (2 * (5 * t)) by ring. rewrite v1, s5. ring. Qed.

Lemma sincx_ok : forall n x, (1 <= n)%Z -> lanczos_sincx n x = sinc x.
Proof.
  intros n x N. pose proof PI_RGT_0 as P. destruct (Req_dec x 0) as [e|e].
  - subst x. assert (Z : forall m, 0 / m = 0) by (intro; unfold Rdiv; ring).
    unfold lanczos_sincx. rewrite !Z, !Rmult_0_r, !Z, sinc_0, cos_0.
    destruct n as [|p|p]; try lia; try reflexivity.
    do 3 (try (destruct p as [p|p|])); try reflexivity; lra.
  - assert (A : forall m : Z, (m <> 0)%Z -> PI * x = IZR m * (PI * x / IZR m)) by (intros; field; now apply IZR_neq).
    assert (S : sinc x = sin (PI * x) / (PI * x)) by (unfold sinc; destruct (Reqb_spec x 0); [contradiction|reflexivity]).
    assert (S' : forall m : Z, (m <> 0)%Z -> sinc x = sin (IZR m * (PI * x / IZR m)) / (PI * x)) by (intros m M; rewrite <- (A m M); exact S).
    assert (D : n = 1%Z \/ n = 2%Z \/ n = 3%Z \/ n = 4%Z \/ n = 5%Z \/ n = 6%Z \/ n = 7%Z \/ (8 <= n)%Z) by lia.
    destruct D as [->|[->|[->|[->|[->|[->|[->|D]]]]]]]; unfold lanczos_sincx; cbv zeta.
    + f_equal. field.
    + rewrite sinc_mult, (S' 2%Z) by (lra || lia). rewrite s2. field. split; lra.
    + rewrite sinc_mult, (S' 3%Z) by (lra || lia). rewrite s3. field. split; lra.
    + rewrite sinc_mult, (S' 4%Z) by (lra || lia). rewrite s4. field. split; lra.
    + rewrite sinc_mult, (S' 5%Z) by (lra || lia). rewrite s5. field. split; lra.
    + rewrite sinc_mult, (S' 6%Z) by (lra || lia). rewrite s6. field. split; lra.
    + rewrite sinc_mult, (S' 7%Z) by (lra || lia). rewrite s7. field. split; lra.
    + destruct n as [|p|p]; try lia. do 3 (try (destruct p as [p|p|]; try lia)); reflexivity.
Qed.

Lemma sin_of_sinc : forall x, sinc x * (PI * x) = sin (PI * x).
Proof.
  intro x. pose proof PI_RGT_0. unfold sinc. destruct (Reqb_spec x 0) as [e|e]; [subst; rewrite Rmult_0_r, sin_0; ring|]. field. split; lra.
Qed.
Lemma factor_ok : forall K x, lanczos_factor K (sinc x) x = dc K x.
Proof.
  intros K x. unfold lanczos_factor, dc. cbv zeta. rewrite sin_of_sinc. set (t := PI * x).
  replace (2 * PI * x) with (2 * t) by (unfold t; ring). replace (2 * PI * (2 * x)) with (4 * t) by (unfold t; ring).
  replace (2 * PI * (3 * x)) with (6 * t) by (unfold t; ring). replace (2 * PI * (4 * x)) with (8 * t) by (unfold t; ring).
  replace (2 * PI * (5 * x)) with (10 * t) by (unfold t; ring). rewrite v1, v2, v3', v4, v5. ring.
Qed.
Lemma lanczos_even : forall n, even (lanczos n).
Proof.
  intros n x. unfold lanczos. rewrite Rabs_Ropp. destruct (Rlt_dec (Rabs x) n); auto. replace (- x / n) with (- (x / n)) by (unfold Rdiv; ring).
  rewrite <- !sinc_is, !sinc_even. reflexivity.
Qed.
Lemma dc_even : forall K, even (dc K).
Proof.
  intros K x. unfold dc. replace (2 * PI * - x) with (- (2 * PI * x)) by ring. replace (2 * PI * (2 * - x)) with (- (2 * PI * (2 * x))) by ring.
  replace (2 * PI * (3 * - x)) with (- (2 * PI * (3 * x))) by ring. replace (2 * PI * (4 * - x)) with (- (2 * PI * (4 * x))) by ring.
  replace (2 * PI * (5 * - x)) with (- (2 * PI * (5 * x))) by ring. now rewrite !cos_neg.
Qed.
Lemma lanczos_xval_ok : forall n b K x, (1 <= n)%Z -> lanczos_xval n b K x = lanczos (IZR n) x / (if b then dc K x else 1).
Proof.
  intros n b K x N. rewrite (even_at (lanczos (IZR n)) (lanczos_even (IZR n)) x), (even_at (dc K) (dc_even K) x).
  unfold lanczos_xval, lanczos. cbv zeta. rewrite Rabs_Rabsolu. set (y := Rabs x). rewrite sincx_ok, factor_ok, !sinc_is by exact N.
  destruct (Rltb_spec y (IZR n)) as [l|l], (Rlt_dec y (IZR n)) as [m|m]; try lra; destruct b; unfold Rdiv; rewrite ?Rinv_1; ring.
Qed.
Lemma dc_int : forall K (m : Z), dc K (IZR m) = 1.
Proof.
  intros K m. assert (C : forall j : Z, cos (2 * PI * (IZR j * IZR m)) = 1).
  { intro j. replace (2 * PI * (IZR j * IZR m)) with (2 * (PI * IZR (j * m))) by (rewrite mult_IZR; ring). rewrite cos_2a_sin, sin_int. ring. }
  unfold dc. replace (2 * PI * IZR m) with (2 * PI * (1 * IZR m)) by ring. rewrite (C 1%Z), (C 2%Z), (C 3%Z), (C 4%Z), (C 5%Z). ring.
Qed.
Lemma lanczos_cardinal : forall n b K, (1 <= n)%Z -> cardinal (lanczos_xval n b K).
Proof.
  intros n b K N. assert (N' : 1 <= IZR n) by (now apply IZR_le). split.
  - rewrite lanczos_xval_ok by exact N. replace (if b then dc K 0 else 1) with 1 by (destruct b; [symmetry; apply (dc_int K 0)|reflexivity]).
    unfold lanczos. rewrite Rabs_R0. destruct (Rlt_dec 0 (IZR n)); [|lra]. replace (0 / IZR n) with 0 by (unfold Rdiv; ring). rewrite <- sinc_is, sinc_0. field.
  - intros m M. rewrite lanczos_xval_ok by exact N. unfold lanczos. destruct (Rlt_dec (Rabs (IZR m)) (IZR n)); [|unfold Rdiv; ring].
    rewrite <- (sinc_is (IZR m)), sinc_int by exact M. unfold Rdiv; ring.
Qed.
Lemma lanczos_xval_even : forall n b K, even (lanczos_xval n b K).
Proof. intros n b K x. unfold lanczos_xval. now rewrite Rabs_Ropp. Qed.
Lemma lanczos_supp : forall n b K, supported (lanczos_xval n b K) (IZR n).
Proof. intros n b K x H. unfold lanczos_xval. cbv zeta. destruct (Rltb_spec (Rabs x) (IZR n)); [lra|reflexivity]. Qed.

(** * The transform *)
Lemma sincR_cont : forall x, continuous sincR x.
Proof.
  intro x. pose proof PI_RGT_0 as P. apply continuity_pt_filterlim. destruct (Req_dec x 0) as [e|e].
  - subst x. intros eps H. pose proof (Rmin_l 1 (eps / 8)). pose proof (Rmin_r 1 (eps / 8)). pose proof PI_4.
    exists (Rmin 1 (eps / 8)). split; [apply Rmin_glb_lt; lra|]. intros y [[_ N] B]. cbn in B |- *. unfold R_dist in B |- *. rewrite Rminus_0_r in B.
    unfold sincR. destruct (Req_EM_T 0 0); [|lra]. destruct (Req_EM_T y 0) as [z|z]; [lra|].
    rewrite <- (Rabs_pos_eq 1) at 1 by lra.
    assert (A : sin (PI * y) / (PI * y) = sin (PI * Rabs y) / (PI * Rabs y)).
    { unfold Rabs. destruct (Rcase_abs y); auto. replace (PI * - y) with (- (PI * y)) by ring. rewrite sin_neg. field. split; lra. }
    rewrite (Rabs_pos_eq 1), A by lra. assert (Y : 0 < Rabs y) by (now apply Rabs_pos_lt). set (w := Rabs y) in *. clearbody w.
    assert (Q : Rabs (sin (PI * w) / (PI * w) - 1) <= (PI * w) * (PI * w) / 2) by (apply Sky_Jac.sinc_near; nra).
    apply (Rle_lt_trans _ _ _ Q). assert (W1 : w < 1) by lra. assert (W2 : w < eps / 8) by lra.
    assert (T1 : PI * w <= 4 * w) by (apply Rmult_le_compat_r; lra). assert (T2 : PI * w * (PI * w) <= 4 * w * (4 * w)) by (apply Rmult_le_compat; nra).
    assert (T3 : w * w <= 1 * w) by (apply Rmult_le_compat_r; lra). lra.
  - apply derivable_continuous_pt. apply ex_derive_Reals_0. apply ex_derive_ext_loc with (f := fun x => sin (PI * x) / (PI * x)).
    + assert (A : 0 < Rabs x) by (now apply Rabs_pos_lt). exists (mkposreal _ A). intros y B. unfold sincR. destruct (Req_EM_T y 0) as [z|z]; [|reflexivity].
      exfalso. subst y. change (Rabs (0 - x) < Rabs x) in B. rewrite Rminus_0_l, Rabs_Ropp in B. lra.
    + auto_derive. intuition; apply e; nra.
Qed.
Section LanczosTransform.
  Variable si : R -> R.
  Hypothesis SI : Si_of si.
  Lemma pi_ne : PI <> 0. Proof. pose proof PI_RGT_0. lra. Qed.
  Lemma scaled_cont : forall c x, continuous (fun t => sincR (t / c)) x.
  Proof. intros c x. apply (continuous_comp (fun t => t / c) sincR); [|apply sincR_cont]. apply (ex_derive_continuous (V := R_NormedModule)). unfold Rdiv. auto_derive. exact I. Qed.
  Lemma si_deriv : forall x, is_derive si x (sincR (x / PI)).
  Proof.
    intro x. apply (is_derive_RInt (fun t => sincR (t / PI)) si 0 x); [|apply scaled_cont].
    exists (mkposreal 1 Rlt_0_1). intros y _. apply SI.
  Qed.
  Lemma si_odd : forall x, si (- x) = - si x.
  Proof.
    intro x. assert (H : is_RInt (fun t => sincR (t / PI)) 0 (- x) (- si x)).
    { pose proof (SI x) as Q. assert (Q' : is_RInt (fun t => sincR (t / PI)) (- 0) (- (- x)) (si x)) by (rewrite Ropp_0, Ropp_involutive; exact Q).
      apply (is_RInt_comp_opp (V := R_NormedModule)) in Q'. apply (is_RInt_opp (V := R_NormedModule)) in Q'. revert Q'. apply is_RInt_ext.
      intros y _. change (- - sincR (- y / PI) = sincR (y / PI)). replace (- y / PI) with (- (y / PI)) by (unfold Rdiv; ring). rewrite <- !sinc_is, sinc_even. ring. }
    pose proof (SI (- x)) as Q. rewrite <- (is_RInt_unique _ _ _ _ H), <- (is_RInt_unique _ _ _ _ Q). reflexivity.
  Qed.
  Lemma si_even : forall a, - a * si (PI * - a) = a * si (PI * a).
  Proof. intro a. replace (PI * - a) with (- (PI * a)) by ring. rewrite si_odd. ring. Qed.
  Variable n : Z.
  Variable u : R.
  Hypothesis N : (1 <= n)%Z.
  Let m := IZR n.
  Lemma m_pos : 1 <= m. Proof. now apply IZR_le. Qed.
  Let w := 2 * PI * u.
  Let L (x : R) : R := sincR x * sincR (x / m).
  Let al1 := PI - PI / m - w.
  Let al2 := PI - PI / m + w.
  Let al3 := PI + PI / m - w.
  Let al4 := PI + PI / m + w.
  Let G (x : R) : R := - (x * (L x * cos (w * x))) - m / (4 * PI * PI) * (al1 * si (al1 * x) + al2 * si (al2 * x) - al3 * si (al3 * x) - al4 * si (al4 * x)).
  Lemma L_cont : forall x, continuous (fun x => L x * cos (w * x)) x.
  Proof.
    intro x. apply (continuous_mult (fun x => L x) (fun x => cos (w * x))).
    - apply (continuous_mult sincR (fun x => sincR (x / m))); [apply sincR_cont|apply scaled_cont].
    - apply (ex_derive_continuous (V := R_NormedModule)). auto_derive. exact I.
  Qed.
  Lemma si_scaled : forall a x, is_derive (fun x => a * si (a * x)) x (a * (a * sincR (a * x / PI))).
  Proof.
    intros a x. apply (is_derive_scal (fun x => si (a * x))). apply (is_derive_comp (V := R_NormedModule) si (fun x => a * x)); [apply si_deriv|].
    auto_derive; [exact I|ring].
  Qed.
  Lemma times_deriv : forall f, continuous f 0 -> is_derive (fun x => x * f x) 0 (f 0).
  Proof.
    intros f C. apply is_derive_Reals. apply continuity_pt_filterlim in C. intros eps H. destruct (C eps H) as [d [D Q]]. exists (mkposreal d D).
    intros h Z B. cbn in B. rewrite Rplus_0_l. replace ((h * f h - 0 * f 0) / h - f 0) with (f h - f 0) by (field; exact Z).
    apply (Q h). split; [split; [exact I|auto]|]. cbn. unfold R_dist. now rewrite Rminus_0_r.
  Qed.
  Lemma sinc_prod : forall a x, x <> 0 -> a * (a * sincR (a * x / PI)) = a * sin (a * x) / x.
  Proof.
    intros a x X. pose proof pi_ne as P. destruct (Req_dec a 0) as [e|e]; [subst; unfold Rdiv; ring|]. unfold sincR. destruct (Req_EM_T (a * x / PI) 0) as [z|z].
    - exfalso. apply (f_equal (Rmult PI)) in z. rewrite Rmult_0_r in z. replace (PI * (a * x / PI)) with (a * x) in z by (field; exact P). apply Rmult_integral in z. tauto.
    - replace (PI * (a * x / PI)) with (a * x) by (field; exact P). field. split; auto.
  Qed.
  Lemma L_away : forall x, x <> 0 -> L x = m * sin (PI * x) * sin (PI / m * x) / (PI * PI * (x * x)).
  Proof.
    intros x X. pose proof pi_ne as P. pose proof m_pos as M. unfold L, sincR. destruct (Req_EM_T x 0); [contradiction|]. destruct (Req_EM_T (x / m) 0) as [z|z].
    - exfalso. apply X. apply (f_equal (Rmult m)) in z. rewrite Rmult_0_r in z. rewrite <- z. field. lra.
    - replace (PI * (x / m)) with (PI / m * x) by (field; lra). field. repeat split; auto; lra.
  Qed.
  Lemma four : forall x, is_derive (fun x => m / (4 * PI * PI) * (al1 * si (al1 * x) + al2 * si (al2 * x) - al3 * si (al3 * x) - al4 * si (al4 * x))) x
    (m / (4 * PI * PI) * (al1 * (al1 * sincR (al1 * x / PI)) + al2 * (al2 * sincR (al2 * x / PI)) - al3 * (al3 * sincR (al3 * x / PI)) - al4 * (al4 * sincR (al4 * x / PI)))).
  Proof.
    intro x. apply (is_derive_scal (fun x => al1 * si (al1 * x) + al2 * si (al2 * x) - al3 * si (al3 * x) - al4 * si (al4 * x))).
    apply (is_derive_minus (V := R_NormedModule) (fun x => al1 * si (al1 * x) + al2 * si (al2 * x) - al3 * si (al3 * x)) (fun x => al4 * si (al4 * x))); [|apply si_scaled].
    apply (is_derive_minus (V := R_NormedModule) (fun x => al1 * si (al1 * x) + al2 * si (al2 * x)) (fun x => al3 * si (al3 * x))); [|apply si_scaled].
    apply (is_derive_plus (V := R_NormedModule) (fun x => al1 * si (al1 * x)) (fun x => al2 * si (al2 * x))); apply si_scaled.
  Qed.
  Lemma G_deriv : forall x, is_derive G x (L x * cos (w * x)).
  Proof.
    intro x. pose proof pi_ne as P. pose proof m_pos as M. destruct (Req_dec x 0) as [e|e].
    - subst x. replace (L 0 * cos (w * 0)) with (- (L 0 * cos (w * 0)) -
        m / (4 * PI * PI) * (al1 * (al1 * sincR (al1 * 0 / PI)) + al2 * (al2 * sincR (al2 * 0 / PI)) - al3 * (al3 * sincR (al3 * 0 / PI)) - al4 * (al4 * sincR (al4 * 0 / PI)))).
      + apply (is_derive_minus (V := R_NormedModule) (fun x => - (x * (L x * cos (w * x))))); [|apply four].
        apply (is_derive_opp (V := R_NormedModule) (fun x => x * (L x * cos (w * x)))). apply (times_deriv (fun x => L x * cos (w * x))), L_cont.
      + assert (Z : forall c d, c * 0 / d = 0) by (intros; unfold Rdiv; ring). rewrite !Z. unfold L. replace (0 / m) with 0 by (unfold Rdiv; ring).
        rewrite <- sinc_is, sinc_0, Rmult_0_r, cos_0. unfold al1, al2, al3, al4. field. split; lra.
    - replace (L x * cos (w * x)) with (- ((m * (PI * cos (PI * x)) * sin (PI / m * x) * cos (w * x) + m * sin (PI * x) * (PI / m * cos (PI / m * x)) * cos (w * x)
          - m * sin (PI * x) * sin (PI / m * x) * (w * sin (w * x))) / (PI * PI * x) - m * sin (PI * x) * sin (PI / m * x) * cos (w * x) / (PI * PI * (x * x))) -
        m / (4 * PI * PI) * (al1 * (al1 * sincR (al1 * x / PI)) + al2 * (al2 * sincR (al2 * x / PI)) - al3 * (al3 * sincR (al3 * x / PI)) - al4 * (al4 * sincR (al4 * x / PI)))).
      + apply (is_derive_minus (V := R_NormedModule) (fun x => - (x * (L x * cos (w * x))))); [|apply four].
        apply (is_derive_opp (V := R_NormedModule) (fun x => x * (L x * cos (w * x)))).
        apply is_derive_ext_loc with (f := fun x => m * sin (PI * x) * sin (PI / m * x) * cos (w * x) / (PI * PI * x)).
        * assert (A : 0 < Rabs x) by (now apply Rabs_pos_lt). exists (mkposreal _ A). intros y B. assert (Y : y <> 0).
          { intro z. subst y. change (Rabs (0 - x) < Rabs x) in B. rewrite Rminus_0_l, Rabs_Ropp in B. lra. }
          rewrite L_away by exact Y. match goal with |- ?a = ?b => change (@eq R a b) end. field. split; auto.
        * auto_derive.
          { intro z. apply Rmult_integral in z. destruct z as [z|z]; [apply Rmult_integral in z; tauto|contradiction]. }
          { field. repeat split; auto; lra. }
      + rewrite !sinc_prod, L_away by exact e.
        assert (E1 : al1 * x = PI * x - PI / m * x - w * x) by (unfold al1; ring). assert (E2 : al2 * x = PI * x - PI / m * x + w * x) by (unfold al2; ring).
        assert (E3 : al3 * x = PI * x + PI / m * x - w * x) by (unfold al3; ring). assert (E4 : al4 * x = PI * x + PI / m * x + w * x) by (unfold al4; ring).
        rewrite E1, E2, E3, E4. rewrite ?sin_minus, ?sin_plus, ?sin_minus, ?cos_minus, ?cos_plus.
        unfold al1, al2, al3, al4. set (sa := sin (PI * x)). set (ca := cos (PI * x)). set (sb := sin (PI / m * x)). set (cb := cos (PI / m * x)). set (sw := sin (w * x)). set (cw := cos (w * x)).
        clearbody sa ca sb cb sw cw. field. repeat split; auto; lra.
  Qed.
  Lemma lanczos_transform : transform (lanczos m) m w (gs_raw_uval si n u).
  Proof.
    pose proof m_pos as M. pose proof pi_ne as P. unfold transform.
    assert (H : is_RInt (fun x => L x * cos (w * x)) 0 m (G m - G 0)).
    { apply (is_RInt_derive (V := R_CompleteNormedModule) G); intros; [apply G_deriv|apply L_cont]. }
    apply int_eq with (u := 2 * (G m - G 0)).
    - apply even_int; [apply even_cos, lanczos_even|]. revert H. apply is_RInt_ext. rewrite Rmin_left, Rmax_right by lra. intros x B.
      unfold lanczos. rewrite Rabs_pos_eq by lra. destruct (Rlt_dec x m); [reflexivity|lra].
    - assert (S0 : si 0 = 0) by (pose proof (si_odd 0) as Q; rewrite Ropp_0 in Q; lra).
      assert (G0 : G 0 = 0) by (unfold G; rewrite !Rmult_0_r, !S0; ring).
      assert (LM : L m = 0) by (unfold L; rewrite <- sinc_is; unfold m; rewrite sinc_int by lia; ring).
      rewrite G0. unfold G. rewrite LM. unfold gs_raw_uval. cbv zeta. fold m.
      replace (m * (2 * u - 1) - 1) with (- (m * (1 - 2 * u) + 1)) by ring. replace (m * (2 * u - 1) + 1) with (- (m * (1 - 2 * u) - 1)) by ring.
      rewrite !si_even.
      replace (al1 * m) with (PI * (m * (1 - 2 * u) - 1)) by (unfold al1, w; field; lra). replace (al2 * m) with (PI * (m * (2 * u + 1) - 1)) by (unfold al2, w; field; lra).
      replace (al3 * m) with (PI * (m * (1 - 2 * u) + 1)) by (unfold al3, w; field; lra). replace (al4 * m) with (PI * (m * (2 * u + 1) + 1)) by (unfold al4, w; field; lra).
      unfold al1, al2, al3, al4, w. generalize (si (PI * (m * (1 - 2 * u) - 1))), (si (PI * (m * (2 * u + 1) - 1))), (si (PI * (m * (1 - 2 * u) + 1))), (si (PI * (m * (2 * u + 1) + 1))).
      intros. field. split; lra.
  Qed.
End LanczosTransform.
(** Integrals of sinc over unit intervals *)
Lemma sinc_integral : forall si a b, Si_of si -> is_RInt sincR a b ((si (PI * b) - si (PI * a)) / PI).
Proof.
  intros si a b SI. pose proof pi_ne as P.
  replace ((si (PI * b) - si (PI * a)) / PI) with (si (PI * b) / PI - si (PI * a) / PI) by (field; exact P).
  apply (is_RInt_derive (V := R_CompleteNormedModule) (fun x => si (PI * x) / PI)); [|intros; apply sincR_cont]. intros x _.
  apply is_derive_ext with (f := fun x => / PI * si (PI * x)); [intro t; exact (Rmult_comm (/ PI) (si (PI * t)))|].
  replace (sincR x) with (/ PI * (PI * sincR (PI * x / PI))).
  - apply (is_derive_scal (fun x => si (PI * x))). apply (is_derive_comp (V := R_NormedModule) si (fun x => PI * x)); [now apply si_deriv|]. auto_derive; [exact I|ring].
  - replace (PI * x / PI) with x by (field; exact P). field. exact P.
Qed.
