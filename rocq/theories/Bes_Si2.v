(** The sine integral: the small branch, the value at 4, the bound for all arguments. *)
From Coq Require Import ZArith QArith Qreals Reals List Bool Lra Lia.
From Coquelicot Require Import Coquelicot.
From Verif Require Import Base Bounds_Model Bounds_Proofs Num_Consts Poly_Check Poly_Q Interp_Spec Interp_Lanczos Bes_Model Bes_Si.
Import ListNotations.
Open Scope R_scope.

Lemma cosp_0 : forall n, qpe (cosp n) 0 = 1.
Proof. intros [|n]; [cbn [cosp qpe]; rewrite RMicromega.Q2R_1; ring|]. rewrite cosp_S, qint_0. ring. Qed.
Lemma sinp_tl : forall n x, qpe (sinp n) x = x * qpe (tl (sinp n)) x.
Proof. intros n x. unfold sinp, qint. cbn [qpe tl]. rewrite RMicromega.Q2R_0. ring. Qed.
Lemma sinp_tl0 : forall n, qpe (tl (sinp n)) 0 = 1.
Proof.
  intro n. rewrite <- (cosp_0 n). unfold sinp, qint. cbn [tl]. destruct (cosp n) as [|a p]; [reflexivity|]. cbn [qint_from qpe]. rewrite Q2R_red, Q2R_div by (intro E; discriminate E). replace (Q2R 1) with 1 by (symmetry; apply RMicromega.Q2R_1). field.
Qed.
Definition Sip (n : nat) : list Q := qint (tl (sinp n)).
Section Error.
Variable Si : R -> R.
Hypothesis SI : Si_of Si.
Lemma Si_0 : Si 0 = 0.
Proof. pose proof (SI 0) as H. apply (@is_RInt_unique R_CompleteNormedModule) in H. rewrite RInt_point in H. symmetry. exact H. Qed.
Lemma Si_taylor : forall n x, 0 <= x -> below (Nat.odd n) (Si x) (qpe (Sip n) x).
Proof.
  intros n x X. assert (E : Si 0 = qpe (Sip n) 0) by (unfold Sip; rewrite qint_0; apply Si_0).
  assert (B : forall t, 0 <= t -> below (Nat.odd n) (sincR (t / PI)) (qpe (tl (sinp n)) t)).
  { intros t T. pose proof PI_RGT_0. unfold sincR. destruct (Req_EM_T (t / PI) 0) as [e|e].
    - assert (Z : t = 0) by (apply (Rmult_eq_reg_r (/ PI)); [unfold Rdiv in e; lra|apply Rinv_neq_0_compat; lra]). subst t. rewrite sinp_tl0. destruct (Nat.odd n); cbn; lra.
    - replace (PI * (t / PI)) with t by (field; lra). assert (T0 : 0 < t). { destruct T as [T|T]; [exact T|]. elim e. rewrite <- T. unfold Rdiv. ring. } destruct (taylor n t T) as [_ K]. rewrite sinp_tl in K. destruct (Nat.odd n); cbn [below] in *; apply (Rmult_le_reg_l t); try lra; replace (t * (sin t / t)) with (sin t) by (field; lra); exact K. }
  destruct (Nat.odd n); cbn [below] in *.
  - apply (grows2 (qpe (Sip n)) Si (qpe (tl (sinp n))) (fun t => sincR (t / PI)) x X (eq_sym E)); [intro; apply qint_ok|intro; apply (si_deriv Si SI)|]. intros t T. apply B. lra.
  - apply (grows2 Si (qpe (Sip n)) (fun t => sincR (t / PI)) (qpe (tl (sinp n))) x X E); [intro; apply (si_deriv Si SI)|intro; apply qint_ok|]. intros t T. apply B. lra.
Qed.
End Error.
Definition den_of (p : list Q) : positive := fold_right (fun a w => Z.to_pos (Z.lcm (Zpos (Qden a)) (Zpos w))) 1%positive p.
(** 10^16 (W N - D T) <= W D and the other way round, T the Taylor polynomial divided by x *)
Definition hi_T := Eval vm_compute in tl (Sip 18). Definition lo_T := Eval vm_compute in tl (Sip 19).
Definition wh := Eval vm_compute in den_of hi_T. Definition wl := Eval vm_compute in den_of lo_T.
Definition check_hi : list Z := zadd (zscale (Zpos wh) (spread zSd)) (zscale 10000000000000000 (zadd (zopp (zmul (spread zSd) (clear wh hi_T))) (zscale (Zpos wh) (spread zS)))).
Definition check_lo : list Z := zadd (zscale (Zpos wl) (spread zSd)) (zscale 10000000000000000 (zadd (zmul (spread zSd) (clear wl lo_T)) (zopp (zscale (Zpos wl) (spread zS))))).
Lemma small_close : forall Si, Si_of Si -> forall x, 0 <= x <= 4 -> Rabs (si_small_pade x (x * x) - Si x) <= 1 / 10 ^ 16 * x.
Proof.
  intros Si SI x X. rewrite s_z. assert (Y : 0 <= x * x) by nra. pose proof (zSd_pos (x * x) Y) as D.
  pose proof (Si_taylor Si SI 18 x ltac:(lra)) as HI. pose proof (Si_taylor Si SI 19 x ltac:(lra)) as LO. cbn [Nat.odd Nat.even negb below] in HI, LO.
  assert (TH : qpe (Sip 18) x = x * qpe hi_T x) by (replace hi_T with (tl (Sip 18)) by (vm_compute; reflexivity); unfold Sip, qint; cbn [qpe tl]; rewrite RMicromega.Q2R_0; ring).
  assert (TL : qpe (Sip 19) x = x * qpe lo_T x) by (replace lo_T with (tl (Sip 19)) by (vm_compute; reflexivity); unfold Sip, qint; cbn [qpe tl]; rewrite RMicromega.Q2R_0; ring).
  assert (CH : 0 <= zpe check_hi x) by (apply (pieces_ok 8 2 0); [vm_cast_no_check (eq_refl true)|lia|change (IZR 0) with 0; rewrite INR_IZR_INZ; cbn [Z.of_nat Pos.of_succ_nat Pos.succ]; lra]).
  assert (CL : 0 <= zpe check_lo x) by (apply (pieces_ok 8 2 0); [vm_cast_no_check (eq_refl true)|lia|change (IZR 0) with 0; rewrite INR_IZR_INZ; cbn [Z.of_nat Pos.of_succ_nat Pos.succ]; lra]).
  unfold check_hi, zopp in CH. unfold check_lo, zopp in CL. repeat (rewrite zpe_add in CH || rewrite zpe_mul in CH || rewrite zpe_scale in CH). repeat (rewrite zpe_add in CL || rewrite zpe_mul in CL || rewrite zpe_scale in CL). rewrite !spread_ok in CH, CL. rewrite clear_ok in CH by (vm_cast_no_check (eq_refl true)). rewrite clear_ok in CL by (vm_cast_no_check (eq_refl true)).
  assert (W1 : 0 < IZR (Zpos wh)) by (apply IZR_lt; reflexivity). assert (W2 : 0 < IZR (Zpos wl)) by (apply IZR_lt; reflexivity).
  rewrite TH in HI. rewrite TL in LO. revert CH CL W1 W2 D HI LO. generalize (IZR (Zpos wh)) (IZR (Zpos wl)) (zpe zSd (x * x)) (zpe zS (x * x)) (qpe hi_T x) (qpe lo_T x) (Si x). intros w1 w2 d n h l s CH CL W1 W2 D HI LO. clear TH TL.
  assert (A1 : d * h - n <= 1 / 10 ^ 16 * d) by (apply (Rmult_le_reg_l w1); [exact W1|lra]). assert (A2 : n - d * l <= 1 / 10 ^ 16 * d) by (apply (Rmult_le_reg_l w2); [exact W2|lra]).
  assert (B1 : h - n / d <= 1 / 10 ^ 16) by (apply (Rmult_le_reg_l d); [exact D|]; replace (d * (h - n / d)) with (d * h - n) by (field; lra); lra). assert (B2 : n / d - l <= 1 / 10 ^ 16) by (apply (Rmult_le_reg_l d); [exact D|]; replace (d * (n / d - l)) with (n - d * l) by (field; lra); lra).
  unfold Rdiv in *. rewrite Rmult_assoc. set (r := n * / d) in *. apply Rabs_le. split; nra.
Qed.
(** * At 4 *)
Definition qof (p : list Z) : list Q := map inject_Z p.
Lemma qof_ok : forall p x, qpe (qof p) x = zpe p x.
Proof. induction p as [|a p IH]; intro x; cbn [qof map qpe zpe]; [reflexivity|]. unfold qof in IH. rewrite IH. f_equal. unfold Q2R, inject_Z. cbn [Qnum Qden]. field. Qed.
Definition F4 : Q := Eval vm_compute in Qred (qev (qof zN) (1 # 16) / (4 * qev (qof zD) (1 # 16))).
Definition G4 : Q := Eval vm_compute in Qred ((1 # 16) * qev (qof zNg) (1 # 16) / qev (qof zDg) (1 # 16)).
Definition S4 : Q := Eval vm_compute in Qred (4 * qev (qof zS) 16 / qev (qof zSd) 16).
Lemma q16 : Q2R (1 # 16) = 1 / (4 * 4). Proof. unfold Q2R. cbn. field. Qed.
Lemma F4_ok : Q2R F4 = f_pade 4 (4 * 4).
Proof.
  rewrite f_z, <- q16, <- !qof_ok, <- !qev_ok. replace 4 with (Q2R 4) by (unfold Q2R; cbn; field). rewrite <- Q2R_mult, <- Q2R_div by (intro E; vm_compute in E; discriminate E). apply Qeq_eqR. vm_compute. reflexivity.
Qed.
Lemma G4_ok : Q2R G4 = g_pade 4 (4 * 4).
Proof.
  rewrite g_z, <- q16, <- !qof_ok, <- !qev_ok, <- Q2R_mult, <- Q2R_div by (intro E; vm_compute in E; discriminate E). apply Qeq_eqR. vm_compute. reflexivity.
Qed.
Lemma S4_ok : Q2R S4 = si_small_pade 4 (4 * 4).
Proof.
  rewrite s_z. replace (4 * 4) with (Q2R 16) by (unfold Q2R; cbn; field). replace 4 with (Q2R 4) by (unfold Q2R; cbn; field). rewrite <- !qof_ok, <- !qev_ok, <- Q2R_mult, <- Q2R_div by (intro E; vm_compute in E; discriminate E). apply Qeq_eqR. vm_compute. reflexivity.
Qed.
Lemma at_4 : Rabs (large 4 - si_small_pade 4 (4 * 4)) <= 1 / 10 ^ 15.
Proof.
  unfold large. rewrite <- F4_ok, <- G4_ok, <- S4_ok. destruct (taylor 18 4 ltac:(lra)) as [C1 S1]. destruct (taylor 19 4 ltac:(lra)) as [C2 S2]. cbn [Nat.odd Nat.even negb below] in *. replace 4 with (Q2R 4) in C1, S1, C2, S2 by (unfold Q2R; cbn; field). rewrite <- qev_ok in C1, S1, C2, S2. replace (Q2R 4) with 4 in C1, S1, C2, S2 by (unfold Q2R; cbn; field).
  pose proof pi_bounds as [P1 P2]. set (c1 := qev (cosp 18) 4) in *. set (c2 := qev (cosp 19) 4) in *. set (s1 := qev (sinp 18) 4) in *. set (s2 := qev (sinp 19) 4) in *.
  assert (F0 : 0 <= Q2R F4) by (replace 0 with (Q2R 0) by apply RMicromega.Q2R_0; apply Qle_R; vm_compute; reflexivity). assert (G0 : 0 <= Q2R G4) by (replace 0 with (Q2R 0) by apply RMicromega.Q2R_0; apply Qle_R; vm_compute; reflexivity).
  assert (Fc : Q2R F4 * Q2R c2 <= Q2R F4 * cos 4 <= Q2R F4 * Q2R c1) by (split; apply Rmult_le_compat_l; assumption). assert (Gs : Q2R G4 * Q2R s2 <= Q2R G4 * sin 4 <= Q2R G4 * Q2R s1) by (split; apply Rmult_le_compat_l; assumption).
  assert (U : Q2R pi_hi * Q2R (1 # 2) - Q2R F4 * Q2R c2 - Q2R G4 * Q2R s2 - Q2R S4 <= Q2R (1 # 1000000000000000)) by (rewrite <- !Q2R_mult, <- !Q2R_minus; apply Qle_R; vm_compute; reflexivity).
  assert (L : Q2R (-1 # 1000000000000000) <= Q2R pi_lo * Q2R (1 # 2) - Q2R F4 * Q2R c1 - Q2R G4 * Q2R s1 - Q2R S4) by (rewrite <- !Q2R_mult, <- !Q2R_minus; apply Qle_R; vm_compute; reflexivity).
  replace (Q2R (1 # 2)) with (1 / 2) in U, L by (unfold Q2R; cbn; field). replace (Q2R (1 # 1000000000000000)) with (1 / 10 ^ 15) in U by (unfold Q2R; cbn [Qnum Qden]; lra). replace (Q2R (-1 # 1000000000000000)) with (- (1 / 10 ^ 15)) in L by (unfold Q2R; cbn [Qnum Qden]; lra).
  revert U L Fc Gs P1 P2. generalize (Q2R F4 * cos 4) (Q2R G4 * sin 4) (Q2R pi_lo) (Q2R pi_hi) (Q2R F4 * Q2R c1) (Q2R F4 * Q2R c2) (Q2R G4 * Q2R s1) (Q2R G4 * Q2R s2) (Q2R S4). intros. apply Rabs_le. lra.
Qed.
(** * All arguments *)
Lemma si_opp : forall x, si (- x) = - si x.
Proof.
  intro x. unfold si. replace (- x * - x) with (x * x) by ring. destruct (Rltb_spec 16 (x * x)) as [l|l].
  - assert (S : sign (- x) = - sign x). { unfold sign. destruct (Rltb_spec 0 (- x)), (Rltb_spec 0 x), (Rltb_spec (- x) 0), (Rltb_spec x 0); lra. } rewrite S, cos_neg, sin_neg. assert (F : f_pade (- x) (x * x) = - f_pade x (x * x)). { unfold f_pade. cbv zeta. generalize (horner f_num (1 / (x * x))) (horner f_den (1 / (x * x))). intros n d. unfold Rdiv. rewrite (Ropp_mult_distr_l_reverse x), Rinv_opp. ring. } rewrite F. unfold g_pade. ring.
  - unfold si_small_pade, Rdiv. ring.
Qed.
Lemma si_close : forall Si, Si_of Si -> forall x, Rabs (si x - Si x) <= 1 / 10 ^ 14.
Proof.
  intros Si SI. assert (P : forall x, 0 <= x -> Rabs (si x - Si x) <= 1 / 10 ^ 14).
  { intros x X. unfold si. destruct (Rltb_spec 16 (x * x)) as [l|l].
    - assert (X4 : 4 <= x) by nra. unfold sign. destruct (Rltb_spec 0 x) as [X0|X0]; [|lra]. rewrite Rmult_1_l. fold (large x). change (Rabs (gap Si x) <= 1 / 10 ^ 14).
      assert (A : Rabs (gap Si 4) <= 1 / 10 ^ 15 + 4 / 10 ^ 16). { pose proof at_4 as Q. pose proof (small_close Si SI 4 ltac:(lra)) as Q'. unfold gap. apply Rabs_le_between in Q. apply Rabs_le_between in Q'. apply Rabs_le. lra. }
      destruct (Rle_lt_dec x 100) as [h|h].
      + pose proof (gap_near Si SI x ltac:(lra)) as B. apply Rabs_le_between in A. apply Rabs_le_between in B. apply Rabs_le. lra.
      + pose proof (gap_near Si SI 100 ltac:(lra)) as B. pose proof (gap_far Si SI x ltac:(lra)) as B'. apply Rabs_le_between in A. apply Rabs_le_between in B. apply Rabs_le_between in B'. apply Rabs_le. lra.
    - assert (X4 : x <= 4) by nra. eapply Rle_trans; [apply small_close; [exact SI|lra]|]. lra. }
  intro x. destruct (Rle_lt_dec 0 x) as [h|h]; [apply P, h|]. rewrite <- (Ropp_involutive x), si_opp, (si_odd Si SI). replace (- si (- x) - - Si (- x)) with (- (si (- x) - Si (- x))) by ring. rewrite Rabs_Ropp. apply P. lra.
Qed.
Lemma si_close_small : forall Si, Si_of Si -> forall x, Rabs x <= 4 -> Rabs (si x - Si x) <= 1 / 10 ^ 16 * Rabs x.
Proof.
  intros Si SI. assert (P : forall x, 0 <= x <= 4 -> Rabs (si x - Si x) <= 1 / 10 ^ 16 * x). { intros x X. unfold si. destruct (Rltb_spec 16 (x * x)) as [l|l]; [nra|]. apply small_close; assumption. }
  intros x X. destruct (Rle_lt_dec 0 x) as [h|h]; [rewrite (Rabs_pos_eq x) in * by lra; apply P; lra|]. rewrite (Rabs_left x) in * by lra. rewrite <- (Ropp_involutive x) at 1 2. rewrite si_opp, (si_odd Si SI). replace (- si (- x) - - Si (- x)) with (- (si (- x) - Si (- x))) by ring. rewrite Rabs_Ropp. apply P. lra.
Qed.
