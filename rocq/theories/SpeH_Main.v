(** The half-light radius of a Spergel profile of half-integer index. *)
From Coq Require Import ZArith QArith Qreals Reals Lra Lia Arith.
From Coquelicot Require Import Coquelicot.
From Verif Require Import Base Bounds_Model Bounds_Proofs GSP_Model Size_Model Size_Spec Num_Consts Size_Proofs Size_Spergel Size_Neg Size_Pade Bes_Spec SpeH_Spec SpeH_Bessel.
Open Scope R_scope.

Section Half.
Variables (kv : R -> R -> R) (lgamma : R -> R) (inf : R).
Hypothesis HI : half_integers kv lgamma.
Variable n : nat.
Let nu := INR n + 1 / 2.
Lemma hi_pair : bessel_pair nu (gamma_half (S n)) (kv nu) (kv (nu + 1)).
Proof using HI.
  destruct HI as [H _]. apply (bessel_ext _ _ _ (K_half n) _ (K_half (S n))); [intros z Z; apply H; exact Z| |apply K_half_pair].
  intros z Z. unfold nu. replace (INR n + 1 / 2 + 1) with (INR (S n) + 1 / 2) by (rewrite S_INR; ring). apply H. exact Z.
Qed.
Lemma no_integer : forall k : Z, nu + 1 <> IZR k.
Proof. intros k E. unfold nu in E. rewrite INR_IZR_INZ in E. assert (F : 2 * IZR (Z.of_nat n) + 3 = 2 * IZR k) by lra. rewrite <- !mult_IZR, <- plus_IZR in F. apply eq_IZR in F. lia. Qed.
Lemma hi_gamma : gammap1 lgamma inf nu = gamma_half (S n).
Proof using HI.
  destruct HI as [_ H]. unfold gammap1, gamma_. destruct (Reqb_spec (nu + 1) 0) as [e|_]; [destruct (no_integer 0 e)|]. destruct (Reqb_spec (nu + 1) 1) as [e|_]; [destruct (no_integer 1 e)|].
  destruct (Reqb_spec (nu + 1) 2) as [e|_]; [destruct (no_integer 2 e)|]. destruct (Reqb_spec (nu + 1) 3) as [e|_]; [destruct (no_integer 3 e)|].
  destruct (Reqb_spec (nu + 1) 4) as [e|_]; [destruct (no_integer 4 e)|]. destruct (Reqb_spec (nu + 1) 5) as [e|_]; [destruct (no_integer 5 e)|].
  unfold gamma. rewrite <- H. rewrite Rmult_1_r. unfold nu. rewrite S_INR. f_equal. f_equal. ring.
Qed.
Lemma hi_frac : forall z, 1 / 10 ^ 10 < z -> fluxfraction kv lgamma inf z nu 0 = 1 - theta (S n) z * exp (- z) / odd_fact (S n).
Proof using HI.
  intros z Z. rewrite (frac_at kv lgamma inf nu (gamma_half (S n)) hi_gamma) by exact Z. destruct HI as [H _].
  replace (kv (nu + 1) z) with (K_half (S n) z).
  2:{ symmetry. unfold nu. replace (INR n + 1 / 2 + 1) with (INR (S n) + 1 / 2) by (rewrite S_INR; ring). apply H. lra. }
  unfold nu at 1. replace (INR n + 1 / 2 + 1) with (INR (S n) + 1 / 2) by (rewrite S_INR; ring). rewrite K_theta by lra. unfold nu. rewrite gamma_odd.
  pose proof q0_pos. pose proof (odd_fact_pos (S n)). field. lra.
Qed.
Lemma hi_beyond : forall p r, sp_nu p = nu -> 0 < sp_r0 p -> 1 / 10 ^ 10 * sp_r0 p < r ->
  flux_beyond (sp_xValue kv lgamma inf p) r (sp_flux p * (theta (S n) (r / sp_r0 p) * exp (- (r / sp_r0 p)) / odd_fact (S n))).
Proof using HI.
  intros p r N S0 R0.
  pose proof (sp_beyond kv lgamma inf nu (gamma_half (S n)) hi_pair hi_gamma p r N S0 R0) as B.
  rewrite hi_frac in B.
  - replace (theta (S n) (r / sp_r0 p) * exp (- (r / sp_r0 p)) / odd_fact (S n)) with (1 - (1 - theta (S n) (r / sp_r0 p) * exp (- (r / sp_r0 p)) / odd_fact (S n))) by ring. exact B.
  - apply (Rmult_lt_reg_r (sp_r0 p)); [exact S0|]. unfold Rdiv at 2. rewrite Rmult_assoc, Rinv_l, Rmult_1_r by lra. exact R0.
Qed.
End Half.

(** * The fit at 3/2, 5/2 and 7/2 *)
Lemma tail_down : forall n a b, 0 <= a -> a <= b -> theta (S n) b * exp (- b) <= theta (S n) a * exp (- a).
Proof.
  intros n a b A [L| ->]; [|lra]. destruct (MVT_gen (fun z => theta (S n) z * exp (- z)) a b (fun z => - (z * (theta n z * exp (- z))))) as [c [C E]].
  - intros z _. apply tail_derive.
  - intros z _. apply (proj2 (continuity_pt_filterlim (fun z => theta (S n) z * exp (- z)) z)). exact (ex_derive_continuous (fun z => theta (S n) z * exp (- z)) z (ex_intro _ _ (tail_derive n z))).
  - rewrite Rmin_left, Rmax_right in C by lra. cbv beta in E. pose proof (theta_pos n c ltac:(lra)). pose proof (exp_pos (- c)).
    assert (0 <= c * (theta n c * exp (- c))) by (apply Rmult_le_pos; [lra|apply Rmult_le_pos; lra]). set (w := c * (theta n c * exp (- c))) in *. nra.
Qed.
Lemma near_half : forall n h a b e, 0 <= a -> a <= h <= b -> theta (S n) a <= odd_fact (S n) * (1 / 2 + e) * exp a ->
  odd_fact (S n) * (1 / 2 - e) * exp b <= theta (S n) b -> Rabs (theta (S n) h * exp (- h) / odd_fact (S n) - 1 / 2) <= e.
Proof.
  intros n h a b e A H U L. pose proof (odd_fact_pos (S n)) as P. pose proof (tail_down n a h A ltac:(lra)) as D1. pose proof (tail_down n h b ltac:(lra) ltac:(lra)) as D2.
  assert (I : forall x, exp x * exp (- x) = 1) by (intros x; rewrite <- exp_plus, Rplus_opp_r; apply exp_0).
  pose proof (Rmult_le_compat_r _ _ _ (Rlt_le _ _ (exp_pos (- a))) U) as U'. rewrite Rmult_assoc, I, Rmult_1_r in U'.
  pose proof (Rmult_le_compat_r _ _ _ (Rlt_le _ _ (exp_pos (- b))) L) as L'. rewrite Rmult_assoc, I, Rmult_1_r in L'.
  set (t := theta (S n) h * exp (- h)) in *. set (f := odd_fact (S n)) in *. apply Rabs_le_between.
  assert (B1 : t / f <= 1 / 2 + e) by (apply (Rmult_le_reg_r f); [exact P|]; unfold Rdiv; rewrite Rmult_assoc, Rinv_l by lra; lra).
  assert (B2 : 1 / 2 - e <= t / f) by (apply (Rmult_le_reg_r f); [exact P|]; unfold Rdiv at 2; rewrite Rmult_assoc, Rinv_l by lra; lra). lra.
Qed.
(** bounds of exp from logarithms *)
Lemma exp_above : forall m x k a lo hi, Qle_bool 0 x = true -> Qle_bool x (9 # 10) = true -> Qle_bool lo (2 * odd_q 1 k x) = true -> Qle_bool (2 * odd_q 1 k x + 11 * qpow x (2 * k + 1)) hi = true ->
  INR m * Q2R ln2_hi + Q2R hi <= a -> 2 ^ m * ((1 + Q2R x) / (1 - Q2R x)) <= exp a.
Proof.
  intros m x k a lo hi X0 X1 L1 L2 B. destruct (log_q x k lo hi X0 X1 L1 L2) as [_ U]. destruct ln2_bounds as [_ T]. apply Qle_R in X0, X1.
  assert (Y : Q2R 0 = 0 /\ Q2R (9 # 10) = 9 / 10) by (split; unfold Q2R; cbn; lra). destruct Y as [Y1 Y2]. rewrite Y1 in X0. rewrite Y2 in X1.
  assert (P : 0 < (1 + Q2R x) / (1 - Q2R x)) by (apply Rdiv_lt_0_compat; lra).
  rewrite <- (exp_ln ((1 + Q2R x) / (1 - Q2R x))) by exact P. rewrite <- (exp_ln 2) at 1 by lra. rewrite <- Rpower_pow by apply exp_pos. unfold Rpower. rewrite ln_exp, <- exp_plus.
  pose proof (Rmult_le_compat_l (INR m) _ _ (pos_INR m) T). destruct (Req_dec (INR m * ln 2 + ln ((1 + Q2R x) / (1 - Q2R x))) a) as [->|]; [lra|]. left. apply exp_increasing. lra.
Qed.
Lemma exp_below : forall m x k b lo hi, Qle_bool 0 x = true -> Qle_bool x (9 # 10) = true -> Qle_bool lo (2 * odd_q 1 k x) = true -> Qle_bool (2 * odd_q 1 k x + 11 * qpow x (2 * k + 1)) hi = true ->
  b <= INR m * Q2R ln2_lo + Q2R lo -> exp b <= 2 ^ m * ((1 + Q2R x) / (1 - Q2R x)).
Proof.
  intros m x k b lo hi X0 X1 L1 L2 B. destruct (log_q x k lo hi X0 X1 L1 L2) as [U _]. destruct ln2_bounds as [T _]. apply Qle_R in X0, X1.
  assert (Y : Q2R 0 = 0 /\ Q2R (9 # 10) = 9 / 10) by (split; unfold Q2R; cbn; lra). destruct Y as [Y1 Y2]. rewrite Y1 in X0. rewrite Y2 in X1.
  assert (P : 0 < (1 + Q2R x) / (1 - Q2R x)) by (apply Rdiv_lt_0_compat; lra).
  rewrite <- (exp_ln ((1 + Q2R x) / (1 - Q2R x))) by exact P. rewrite <- (exp_ln 2) at 1 by lra. rewrite <- Rpower_pow by apply exp_pos. unfold Rpower. rewrite ln_exp, <- exp_plus.
  pose proof (Rmult_le_compat_l (INR m) _ _ (pos_INR m) T). destruct (Req_dec b (INR m * ln 2 + ln ((1 + Q2R x) / (1 - Q2R x)))) as [<-|]; [lra|]. left. apply exp_increasing. lra.
Qed.
Lemma th2 : forall z, theta 2 z = 3 + 3 * z + z ^ 2.
Proof. intros. rewrite theta_rec, theta_1, theta_0. change (INR 0) with 0. ring. Qed.
Lemma th3 : forall z, theta 3 z = 15 + 15 * z + 6 * z ^ 2 + z ^ 3.
Proof. intros. rewrite theta_rec, th2, theta_1. change (INR 1) with 1. ring. Qed.
Lemma th4 : forall z, theta 4 z = 105 + 105 * z + 45 * z ^ 2 + 10 * z ^ 3 + z ^ 4.
Proof. intros. rewrite theta_rec, th3, th2. replace (INR 2) with 2 by (cbn; lra). ring. Qed.
Lemma of2 : odd_fact 2 = 3.
Proof. cbn [odd_fact]. change (INR 0) with 0. change (INR 1) with 1. ring. Qed.
Lemma of3 : odd_fact 3 = 15.
Proof. change (odd_fact 3) with ((2 * INR 2 + 1) * odd_fact 2). rewrite of2. replace (INR 2) with 2 by (cbn; lra). ring. Qed.
Lemma of4 : odd_fact 4 = 105.
Proof. change (odd_fact 4) with ((2 * INR 3 + 1) * odd_fact 3). rewrite of3. replace (INR 3) with 3 by (cbn; lra). ring. Qed.
Definition eps8 : R := 1 / 10 ^ 8.

Lemma fit_at : forall n x a b, 0 <= Q2R a -> Q2R a <= hlr_pade (Q2R x) <= Q2R b ->
  forall m xa xb k loa hia lob hib, 
  Qle_bool 0 xa = true -> Qle_bool xa (9 # 10) = true -> Qle_bool loa (2 * odd_q 1 k xa) = true -> Qle_bool (2 * odd_q 1 k xa + 11 * qpow xa (2 * k + 1)) hia = true ->
  Qle_bool 0 xb = true -> Qle_bool xb (9 # 10) = true -> Qle_bool lob (2 * odd_q 1 k xb) = true -> Qle_bool (2 * odd_q 1 k xb + 11 * qpow xb (2 * k + 1)) hib = true ->
  INR m * Q2R ln2_hi + Q2R hia <= Q2R a -> Q2R b <= INR m * Q2R ln2_lo + Q2R lob ->
  theta (S n) (Q2R a) <= odd_fact (S n) * (1 / 2 + eps8) * (2 ^ m * ((1 + Q2R xa) / (1 - Q2R xa))) ->
  odd_fact (S n) * (1 / 2 - eps8) * (2 ^ m * ((1 + Q2R xb) / (1 - Q2R xb))) <= theta (S n) (Q2R b) ->
  Rabs (theta (S n) (hlr_pade (Q2R x)) * exp (- hlr_pade (Q2R x)) / odd_fact (S n) - 1 / 2) <= eps8.
Proof.
  intros n x a b A H m xa xb k loa hia lob hib A1 A2 A3 A4 B1 B2 B3 B4 EA EB TA TB. pose proof (odd_fact_pos (S n)) as P.
  assert (E8 : 0 < eps8 < 1 / 2) by (unfold eps8; lra).
  apply (near_half n _ (Q2R a) (Q2R b) eps8 A H).
  - eapply Rle_trans; [exact TA|]. apply Rmult_le_compat_l; [apply Rmult_le_pos; lra|]. exact (exp_above m xa k (Q2R a) loa hia A1 A2 A3 A4 EA).
  - eapply Rle_trans; [|exact TB]. apply Rmult_le_compat_l; [apply Rmult_le_pos; lra|]. exact (exp_below m xb k (Q2R b) lob hib B1 B2 B3 B4 EB).
Qed.
Lemma fit_1 : Rabs (theta 2 (hlr_pade (3 / 2)) * exp (- hlr_pade (3 / 2)) / odd_fact 2 - 1 / 2) <= eps8 /\ 2 < hlr_pade (3 / 2).
Proof.
  pose proof (pade_at (3 # 2) (233025618437 # 100000000000) (233025618438 # 100000000000) ltac:(vm_compute; reflexivity) ltac:(vm_compute; reflexivity) ltac:(vm_compute; reflexivity)) as P.
  assert (X : Q2R (3 # 2) = 3 / 2) by (unfold Q2R; cbn [Qnum Qden]; lra).
  split; [|rewrite X in P; unfold Q2R in P; cbn [Qnum Qden Pos.pow Pos.iter Pos.mul] in P; lra]. rewrite <- X.
  refine (fit_at 1 (3 # 2) (233025618437 # 100000000000) (233025618438 # 100000000000) _ P 3 (124754000143 # 1000000000000) (124754009991 # 1000000000000) 9 (2508146346 # 10000000000) (2508146347 # 10000000000) (2508146546 # 10000000000) (2508146547 # 10000000000) ltac:(vm_compute; reflexivity) ltac:(vm_compute; reflexivity) ltac:(vm_compute; reflexivity) ltac:(vm_compute; reflexivity) ltac:(vm_compute; reflexivity) ltac:(vm_compute; reflexivity) ltac:(vm_compute; reflexivity) ltac:(vm_compute; reflexivity) _ _ _ _).
  - unfold Q2R; cbn [Qnum Qden]; lra.
  - replace (INR 3) with 3 by (cbn; lra). unfold ln2_hi, Q2R; cbn [Qnum Qden Pos.pow Pos.iter Pos.mul]; lra.
  - replace (INR 3) with 3 by (cbn; lra). unfold ln2_lo, Q2R; cbn [Qnum Qden Pos.pow Pos.iter Pos.mul]; lra.
  - rewrite th2, of2. unfold eps8, Q2R; cbn [Qnum Qden Pos.pow Pos.iter Pos.mul]. lra.
  - rewrite th2, of2. unfold eps8, Q2R; cbn [Qnum Qden Pos.pow Pos.iter Pos.mul]. lra.
Qed.
Lemma fit_2 : Rabs (theta 3 (hlr_pade (5 / 2)) * exp (- hlr_pade (5 / 2)) / odd_fact 3 - 1 / 2) <= eps8 /\ 2 < hlr_pade (5 / 2).
Proof.
  pose proof (pade_at (5 # 2) (284956770669 # 100000000000) (284956770670 # 100000000000) ltac:(vm_compute; reflexivity) ltac:(vm_compute; reflexivity) ltac:(vm_compute; reflexivity)) as P.
  assert (X : Q2R (5 # 2) = 5 / 2) by (unfold Q2R; cbn [Qnum Qden]; lra).
  split; [|rewrite X in P; unfold Q2R in P; cbn [Qnum Qden Pos.pow Pos.iter Pos.mul] in P; lra]. rewrite <- X.
  refine (fit_at 2 (5 # 2) (284956770669 # 100000000000) (284956770670 # 100000000000) _ P 4 (38470490901 # 1000000000000) (38470500890 # 1000000000000) 9 (769789725 # 10000000000) (769789726 # 10000000000) (769789925 # 10000000000) (769789926 # 10000000000) ltac:(vm_compute; reflexivity) ltac:(vm_compute; reflexivity) ltac:(vm_compute; reflexivity) ltac:(vm_compute; reflexivity) ltac:(vm_compute; reflexivity) ltac:(vm_compute; reflexivity) ltac:(vm_compute; reflexivity) ltac:(vm_compute; reflexivity) _ _ _ _).
  - unfold Q2R; cbn [Qnum Qden]; lra.
  - replace (INR 4) with 4 by (cbn; lra). unfold ln2_hi, Q2R; cbn [Qnum Qden Pos.pow Pos.iter Pos.mul]; lra.
  - replace (INR 4) with 4 by (cbn; lra). unfold ln2_lo, Q2R; cbn [Qnum Qden Pos.pow Pos.iter Pos.mul]; lra.
  - rewrite th3, of3. unfold eps8, Q2R; cbn [Qnum Qden Pos.pow Pos.iter Pos.mul]. lra.
  - rewrite th3, of3. unfold eps8, Q2R; cbn [Qnum Qden Pos.pow Pos.iter Pos.mul]. lra.
Qed.
Lemma fit_3 : Rabs (theta 4 (hlr_pade (7 / 2)) * exp (- hlr_pade (7 / 2)) / odd_fact 4 - 1 / 2) <= eps8 /\ 2 < hlr_pade (7 / 2).
Proof.
  pose proof (pade_at (7 # 2) (329287272689 # 100000000000) (329287272690 # 100000000000) ltac:(vm_compute; reflexivity) ltac:(vm_compute; reflexivity) ltac:(vm_compute; reflexivity)) as P.
  assert (X : Q2R (7 # 2) = 7 / 2) by (unfold Q2R; cbn [Qnum Qden]; lra).
  split; [|rewrite X in P; unfold Q2R in P; cbn [Qnum Qden Pos.pow Pos.iter Pos.mul] in P; lra]. rewrite <- X.
  refine (fit_at 3 (7 # 2) (329287272689 # 100000000000) (329287272690 # 100000000000) _ P 4 (254428342174 # 1000000000000) (254428351531 # 1000000000000) 9 (5202839934 # 10000000000) (5202839936 # 10000000000) (5202840134 # 10000000000) (5202840136 # 10000000000) ltac:(vm_compute; reflexivity) ltac:(vm_compute; reflexivity) ltac:(vm_compute; reflexivity) ltac:(vm_compute; reflexivity) ltac:(vm_compute; reflexivity) ltac:(vm_compute; reflexivity) ltac:(vm_compute; reflexivity) ltac:(vm_compute; reflexivity) _ _ _ _).
  - unfold Q2R; cbn [Qnum Qden]; lra.
  - replace (INR 4) with 4 by (cbn; lra). unfold ln2_hi, Q2R; cbn [Qnum Qden Pos.pow Pos.iter Pos.mul]; lra.
  - replace (INR 4) with 4 by (cbn; lra). unfold ln2_lo, Q2R; cbn [Qnum Qden Pos.pow Pos.iter Pos.mul]; lra.
  - rewrite th4, of4. unfold eps8, Q2R; cbn [Qnum Qden Pos.pow Pos.iter Pos.mul]. lra.
  - rewrite th4, of4. unfold eps8, Q2R; cbn [Qnum Qden Pos.pow Pos.iter Pos.mul]. lra.
Qed.
(** The flux beyond the half-light radius is half of the flux. *)
Lemma spergel_half_integers : forall kv lgamma inf, half_integers kv lgamma -> forall n p f, (1 <= n <= 3)%nat -> sp_nu p = INR n + 1 / 2 -> 0 < sp_r0 p ->
  flux_beyond (sp_xValue kv lgamma inf p) (sp_half_light_radius p) f -> Rabs (f - sp_flux p * (1 / 2)) <= 1 / 10 ^ 8 * Rabs (sp_flux p).
Proof.
  intros kv lgamma inf HI n p f N E S0 F. unfold sp_half_light_radius in F. set (h := hlr_pade (sp_nu p)) in *.
  assert (K : Rabs (theta (S n) h * exp (- h) / odd_fact (S n) - 1 / 2) <= eps8 /\ 2 < h).
  { unfold h. rewrite E. assert (C : (n = 1 \/ n = 2 \/ n = 3)%nat) by lia. destruct C as [-> | [-> | ->]].
    - replace (INR 1 + 1 / 2) with (3 / 2) by (cbn; lra). exact fit_1.
    - replace (INR 2 + 1 / 2) with (5 / 2) by (cbn; lra). exact fit_2.
    - replace (INR 3 + 1 / 2) with (7 / 2) by (cbn; lra). exact fit_3. }
  destruct K as [K H2]. clearbody h. assert (L : 1 / 10 ^ 10 * sp_r0 p < sp_r0 p * h) by nra.
  pose proof (hi_beyond kv lgamma inf HI n p (sp_r0 p * h) E S0 L) as B. replace (sp_r0 p * h / sp_r0 p) with h in B by (field; lra).
  unfold flux_beyond in *. apply is_lim_unique in F. apply is_lim_unique in B. rewrite F in B. injection B as B. change ((2 * INR n + 1) * odd_fact n) with (odd_fact (S n)) in B. rewrite B.
  replace (sp_flux p * (theta (S n) h * exp (- h) / odd_fact (S n)) - sp_flux p * (1 / 2)) with ((theta (S n) h * exp (- h) / odd_fact (S n) - 1 / 2) * sp_flux p) by ring.
  rewrite Rabs_mult. apply Rmult_le_compat_r; [apply Rabs_pos|exact K].
Qed.
