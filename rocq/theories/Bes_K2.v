(** kv: what the code computes. *)
From Coq Require Import ZArith Reals List Bool Lra Lia.
From Coquelicot Require Import Coquelicot.
From Verif Require Import Base Bounds_Model Bounds_Proofs Bes_Model Bes_Spec Bes_K.
Open Scope R_scope.

Lemma Rleb_true : forall a b, a <= b -> Rleb a b = true.
Proof. intros a b H. unfold Rleb. destruct (Rltb_spec b a); [lra|reflexivity]. Qed.
Lemma Rleb_false : forall a b, b < a -> Rleb a b = false.
Proof. intros a b H. unfold Rleb. destruct (Rltb_spec b a); [reflexivity|lra]. Qed.
Lemma Rltb_true : forall a b, a < b -> Rltb a b = true.
Proof. intros a b H. destruct (Rltb_spec a b); [reflexivity|lra]. Qed.
Lemma Rltb_false : forall a b, b <= a -> Rltb a b = false.
Proof. intros a b H. destruct (Rltb_spec a b); [lra|reflexivity]. Qed.
Lemma eps_pos : 0 < eps.
Proof. unfold eps. apply Rinv_0_lt_compat, pow_lt. lra. Qed.

Lemma while_once : forall (A : Type) fuel (cond : A -> bool) body a, cond a = true -> cond (body a) = false -> while_loop (S fuel) cond body a = body a.
Proof. intros A fuel cond body a H K. cbn [while_loop]. rewrite H. destruct fuel; cbn [while_loop]; rewrite K; reflexivity. Qed.
(** * The continued fraction for v = 1/2 and v = -1/2 ends at once *)
Lemma cf_half : forall v z, v * v = 1 / 4 -> 2 < z -> continued_fraction_kve v z = (sqrt (PI / (2 * z)), exp (1 / 2 * ln (PI / (2 * z)) + ln (1 + 2 * (v + z)) - ln z - ln 2)).
Proof.
  intros v z V Z. unfold continued_fraction_kve, max_iterations. set (s0 := steed_init v z). set (s1 := steed_body s0).
  assert (S0 : s_stop s0 = false) by reflexivity. assert (Q0 : s_q s0 = 0 /\ s_c s0 = 0 /\ s_sum s0 = 1). { unfold s0, steed_init. cbn [s_q s_c s_sum]. rewrite V. repeat split; field. lra. }
  destruct Q0 as (Q0 & C0 & M0). assert (Q1 : s_q s1 = 0 /\ s_sum s1 = 1). { unfold s1, steed_body. rewrite S0. cbn [s_q s_sum]. rewrite Q0, C0, M0. unfold Rdiv. split; ring. } destruct Q1 as [Q1 M1].
  assert (ST : s_stop s1 = true). { pose proof eps_pos. assert (K : s_stop s1 = (Rltb (Rabs (s_q s1 * s_diff s1)) (Rabs (s_sum s1) * eps) || Rltb (INR 1000) (s_index s1))%bool) by reflexivity. rewrite K, Q1, M1, Rmult_0_l, Rabs_R0, Rabs_R1, Rltb_true by lra. reflexivity. }
  assert (R : while_loop 1000 (fun s => negb (s_stop s)) steed_body s0 = s1) by (apply (while_once _ 999); [rewrite S0|fold s1; rewrite ST]; reflexivity). rewrite R, M1, ln_1, V. pose proof PI_RGT_0 as P. assert (PZ : 0 < PI / (2 * z)) by (apply Rdiv_lt_0_compat; lra).
  replace (1 / 4 - 1 / 4) with 0 by ring. rewrite Rmult_0_l, Rplus_0_r, Rminus_0_r. f_equal. replace (1 / 2) with (/ 2) by field. rewrite <- (Rpower_sqrt _ PZ). reflexivity.
Qed.
Lemma cf_plus : forall z, 2 < z -> continued_fraction_kve (1 / 2) z = (exp z * K_half 0 z, exp z * K_half 1 z).
Proof.
  intros z Z. rewrite cf_half by (lra || field). pose proof PI_RGT_0 as P. assert (PZ : 0 < PI / (2 * z)) by (apply Rdiv_lt_0_compat; lra). rewrite !K_th, th_0, th_1 by lra. assert (EE : exp z * exp (- z) = 1) by (rewrite <- exp_plus, Rplus_opp_r; apply exp_0).
  set (s := sqrt (PI / (2 * z))). f_equal; [replace (exp z * (s * exp (- z) * 1)) with (exp z * exp (- z) * s) by ring; rewrite EE; ring|]. replace (exp z * (s * exp (- z) * (1 + 1 / z))) with (exp z * exp (- z) * (s * (1 + 1 / z))) by ring. rewrite EE, Rmult_1_l.
  replace (1 + 2 * (1 / 2 + z)) with (2 * (1 + z)) by field. rewrite ln_mult by lra. replace (1 / 2 * ln (PI / (2 * z)) + (ln 2 + ln (1 + z)) - ln z - ln 2) with (/ 2 * ln (PI / (2 * z)) + ln (1 + z) + - ln z) by field. rewrite !exp_plus, exp_Ropp, !exp_ln by lra. fold (Rpower (PI / (2 * z)) (/ 2)). rewrite (Rpower_sqrt _ PZ). fold s. field. lra.
Qed.
Lemma cf_minus : forall z, 2 < z -> continued_fraction_kve (- (1 / 2)) z = (exp z * K_half 0 z, exp z * K_half 0 z).
Proof.
  intros z Z. rewrite cf_half by (lra || field). pose proof PI_RGT_0 as P. assert (PZ : 0 < PI / (2 * z)) by (apply Rdiv_lt_0_compat; lra). rewrite !K_th, th_0 by lra. assert (EE : exp z * exp (- z) = 1) by (rewrite <- exp_plus, Rplus_opp_r; apply exp_0).
  set (s := sqrt (PI / (2 * z))). replace (exp z * (s * exp (- z) * 1)) with (exp z * exp (- z) * s) by ring. rewrite EE, Rmult_1_l. f_equal.
  replace (1 + 2 * (- (1 / 2) + z)) with (2 * z) by field. rewrite ln_mult by lra. replace (1 / 2 * ln (PI / (2 * z)) + (ln 2 + ln z) - ln z - ln 2) with (/ 2 * ln (PI / (2 * z))) by field. fold (Rpower (PI / (2 * z)) (/ 2)). rewrite (Rpower_sqrt _ PZ). reflexivity.
Qed.
(** * The recurrence *)
Fixpoint climb (m : nat) (u x i a b : R) : R * R := match m with O => (a, b) | S m => climb m u x (i + 1) b (2 * (u + i) * b / x + a) end.
Lemma loop_up : forall m n u x i a b, i + INR m = n + 1 -> let '(_, kve, _) := while_loop m (fun c => Rleb (fst (fst c)) n) (recurrence_body u x n) (i, a, b) in kve = fst (climb m u x i a b).
Proof.
  induction m as [|m IH]; intros n u x i a b E.
  - cbn [while_loop fst]. change (INR 0) with 0 in E. rewrite Rleb_false by lra. reflexivity.
  - cbn [while_loop fst climb]. rewrite S_INR in E. assert (0 <= INR m) by apply pos_INR. rewrite Rleb_true by lra. unfold recurrence_body at 2. rewrite Rltb_false by lra. apply IH. lra.
Qed.
(** values at v, one method for all orders with the same fraction *)
Definition start (u x : R) : R * R := if Rleb x 2 then temme_series_kve u x else continued_fraction_kve u x.
Lemma temme_up : forall v x n, 0 <= v -> round_even v = Z.of_nat n -> temme_kve v x = fst (climb n (v - INR n) x 1 (fst (start (v - INR n) x)) (snd (start (v - INR n) x))).
Proof.
  intros v x n V E. unfold temme_kve. rewrite Rabs_pos_eq, E, Nat2Z.id, <- INR_IZR_INZ by exact V. unfold start. set (u := v - INR n).
  assert (L : Rltb 2 x = negb (Rleb x 2)) by (unfold Rleb; rewrite negb_involutive; reflexivity). rewrite L. destruct (Rleb x 2); cbn [negb].
  - destruct (temme_series_kve u x) as [a b]. destruct (continued_fraction_kve u 1000) as [c d]. cbn [fst snd]. pose proof (loop_up n (INR n) u x 1 a b ltac:(ring)) as H. destruct (while_loop _ _ _ _) as [[i k] k1]. exact H.
  - destruct (temme_series_kve u (1 / 10)) as [a b]. destruct (continued_fraction_kve u x) as [c d]. cbn [fst snd]. pose proof (loop_up n (INR n) u x 1 c d ltac:(ring)) as H. destruct (while_loop _ _ _ _) as [[i k] k1]. exact H.
Qed.
Lemma Int_part_eq : forall n d, 0 <= d < 1 -> Int_part (IZR n + d) = n.
Proof. intros n d D. unfold Int_part. assert (H : up (IZR n + d) = (n + 1)%Z). { symmetry. apply tech_up; rewrite plus_IZR; lra. } rewrite H. lia. Qed.
Lemma round_half : forall n, round_even (INR n + 1 / 2) = Z.of_nat (if Nat.even n then n else S n).
Proof.
  intro n. unfold round_even. rewrite INR_IZR_INZ, Int_part_eq by lra. rewrite Rltb_false, Rltb_false by lra.
  assert (E : Z.even (Z.of_nat n) = Nat.even n). { destruct (Nat.even n) eqn:H; [apply Nat.even_spec in H; destruct H as [k ->]; rewrite Z.even_spec; exists (Z.of_nat k); lia|]. assert (O : Nat.odd n = true) by (rewrite <- Nat.negb_even, H; reflexivity). apply Nat.odd_spec in O. destruct O as [k ->]. rewrite <- Z.negb_odd. assert (OO : Z.odd (Z.of_nat (2 * k + 1)) = true) by (rewrite Z.odd_spec; exists (Z.of_nat k); lia). rewrite OO. reflexivity. }
  rewrite E. destruct (Nat.even n); lia.
Qed.
Lemma round_near : forall v n, - (1 / 2) < v - IZR n < 1 / 2 -> round_even v = n.
Proof.
  intros v n H. unfold round_even. destruct (Rle_lt_dec (IZR n) v) as [l|l].
  - replace v with (IZR n + (v - IZR n)) by ring. rewrite Int_part_eq by lra. rewrite Rltb_true by lra. reflexivity.
  - replace v with (IZR (n - 1) + (v - IZR n + 1)) by (rewrite minus_IZR; ring). rewrite Int_part_eq by lra. rewrite Rltb_false, Rltb_true by (rewrite ?minus_IZR; lra). lia.
Qed.
Lemma climb_K : forall m u x i E j, x <> 0 -> u + i = INR j + 1 / 2 -> climb m u x i (E * K_before j x) (E * K_half j x) = (E * K_before (j + m) x, E * K_half (j + m) x).
Proof.
  induction m as [|m IH]; intros u x i E j X H; cbn [climb]; [rewrite Nat.add_0_r; reflexivity|]. rewrite <- Nat.add_succ_comm.
  replace (2 * (u + i) * (E * K_half j x) / x + E * K_before j x) with (E * K_half (S j) x) by (rewrite K_step by exact X; rewrite H; field; exact X). change (E * K_half j x) with (E * K_before (S j) x). apply IH; [exact X|]. rewrite S_INR. lra.
Qed.
Lemma temme_half : forall n x, 2 < x -> temme_kve (INR n + 1 / 2) x = exp x * K_half n x.
Proof.
  intros n x X. assert (N : 0 <= INR n) by apply pos_INR. pose proof (round_half n) as RH. destruct (Nat.even n) eqn:E.
  - rewrite (temme_up (INR n + 1 / 2) x n ltac:(lra) RH). replace (INR n + 1 / 2 - INR n) with (1 / 2) by ring. unfold start. rewrite Rleb_false by lra. rewrite cf_plus by exact X. cbn [fst snd]. change (K_half 0 x) with (K_before 1 x). rewrite (climb_K n (1 / 2) x 1 (exp x) 1) by (lra || (change (INR 1) with 1; field)). reflexivity.
  - rewrite (temme_up (INR n + 1 / 2) x (S n) ltac:(lra) RH). rewrite S_INR. replace (INR n + 1 / 2 - (INR n + 1)) with (- (1 / 2)) by field. unfold start. rewrite Rleb_false by lra. rewrite cf_minus by exact X. cbn [fst snd]. change (K_half 0 x) with (K_before 0 x) at 1. rewrite (climb_K (S n) (- (1 / 2)) x 1 (exp x) 0) by (lra || (change (INR 0) with 0; field)). reflexivity.
Qed.
Definition val (f : fl) : R := match f with Num r => r | _ => 0 end.
Section KV.
Variable olver : R -> R -> R.
Lemma kv_num : forall nu x, 0 < x -> kv olver nu x = Num (kve_core olver nu x * exp (- x)).
Proof.
  intros nu x X. unfold kv. rewrite (Rltb_true 0 x) by lra. rewrite (Rltb_false x 0) by lra. destruct (Req_EM_T x 0); [lra|]. unfold kve_core. rewrite Rabs_Rabsolu. reflexivity.
Qed.
Lemma kv_even : forall nu x, kv olver (- nu) x = kv olver nu x.
Proof. intros nu x. unfold kv. rewrite Rabs_Ropp. reflexivity. Qed.
Lemma kv_zero : forall nu, kv olver nu 0 = Inf.
Proof. intro nu. unfold kv. rewrite (Rltb_false 0 0) by lra. destruct (Req_EM_T 0 0); [reflexivity|lra]. Qed.
Lemma kv_neg : forall nu x, x < 0 -> kv olver nu x = Nan.
Proof. intros nu x X. unfold kv. rewrite (Rltb_true x 0) by lra. reflexivity. Qed.
Lemma core_small : forall nu x, 0 <= nu < 50 -> kve_core olver nu x = temme_kve nu x.
Proof. intros nu x N. unfold kve_core. rewrite Rabs_pos_eq by lra. rewrite Rleb_false, Rltb_true by lra. reflexivity. Qed.
Lemma kv_half : forall n x, (n < 50)%nat -> 2 < x -> kv olver (INR n + 1 / 2) x = Num (K_half n x).
Proof.
  intros n x N X. assert (N0 : 0 <= INR n <= 49). { split; [apply pos_INR|]. replace 49 with (INR 49) by (rewrite INR_IZR_INZ; reflexivity). apply le_INR. lia. } rewrite kv_num, core_small, temme_half by lra. f_equal. replace (exp x * K_half n x * exp (- x)) with (exp x * exp (- x) * K_half n x) by ring. rewrite <- exp_plus, Rplus_opp_r, exp_0. ring.
Qed.
Lemma kv_before : forall n x, (n < 50)%nat -> 2 < x -> kv olver (INR n + 1 / 2 - 1) x = Num (K_before n x).
Proof.
  intros [|n] x N X; cbn [K_before].
  - change (INR 0) with 0. replace (0 + 1 / 2 - 1) with (- (INR 0 + 1 / 2)) by (change (INR 0) with 0; field). rewrite kv_even. apply kv_half; [lia|exact X].
  - rewrite S_INR. replace (INR n + 1 + 1 / 2 - 1) with (INR n + 1 / 2) by ring. apply kv_half; [lia|exact X].
Qed.
Lemma kv_gradient : forall n x g, (n < 49)%nat -> 2 < x -> exists d, kv_bwd olver (INR n + 1 / 2) x g = Some (0, d * g) /\ is_derive (fun t => val (kv olver (INR n + 1 / 2) t)) x d.
Proof.
  intros n x g N X. exists (- K_before n x - (INR n + 1 / 2) / x * K_half n x). split.
  - unfold kv_bwd. rewrite kv_before by (lia || exact X). replace (INR n + 1 / 2 + 1) with (INR (S n) + 1 / 2) by (rewrite S_INR; ring). rewrite kv_half by (lia || exact X). f_equal. f_equal. rewrite K_step by lra. field. lra.
  - apply (is_derive_ext_loc (K_half n)); [|apply K_derive; lra]. assert (P : 0 < x - 2) by lra. exists (mkposreal _ P). intros t T. change (Rabs (t - x) < x - 2) in T. apply Rabs_def2 in T. rewrite kv_half by (lia || lra). reflexivity.
Qed.
Lemma kv_nu_gradient : forall x, 2 < x -> ~ (forall nu, 1 / 2 <= nu <= 3 / 2 -> exists d, kv_bwd olver nu x 1 = Some d /\ is_derive (fun nu => val (kv olver nu x)) nu (fst d)).
Proof.
  intros x X H. assert (D : forall nu, 1 / 2 <= nu <= 3 / 2 -> is_derive (fun nu => val (kv olver nu x)) nu 0).
  { intros nu N. destruct (H nu N) as (d & B & K). unfold kv_bwd in B. destruct (kv olver (nu - 1) x); try discriminate B. destruct (kv olver (nu + 1) x); try discriminate B. injection B as <-. exact K. }
  destruct (MVT_gen (fun nu => val (kv olver nu x)) (1 / 2) (3 / 2) (fun _ => 0)) as (c & _ & E).
  - intros t T. apply D. rewrite Rmin_left, Rmax_right in T by lra. lra.
  - intros t T. apply continuity_pt_filterlim, @ex_derive_continuous. exists 0. apply D. rewrite Rmin_left, Rmax_right in T by lra. lra.
  - replace (3 / 2) with (INR 1 + 1 / 2) in E by (change (INR 1) with 1; field). replace (1 / 2) with (INR 0 + 1 / 2) in E at 2 by (change (INR 0) with 0; field). rewrite !kv_half in E by (lia || exact X). cbn [val] in E. rewrite K_1 in E by lra. pose proof (K_pos 0 x ltac:(lra)). assert (0 < 1 / x * K_half 0 x) by (apply Rmult_lt_0_compat; [apply Rdiv_lt_0_compat; lra|assumption]). lra.
Qed.
(** * Three orders *)
Lemma climb_last : forall m u x i a b, climb (S m) u x i a b = (snd (climb m u x i a b), 2 * (u + i + INR m) * snd (climb m u x i a b) / x + fst (climb m u x i a b)).
Proof.
  induction m as [|m IH]; intros u x i a b. { cbn [climb fst snd]. change (INR 0) with 0. rewrite Rplus_0_r. reflexivity. }
  change (climb (S (S m)) u x i a b) with (climb (S m) u x (i + 1) b (2 * (u + i) * b / x + a)). rewrite IH. cbn [climb]. rewrite S_INR. f_equal. f_equal. f_equal. ring.
Qed.
Lemma kv_three : forall n v x, - (1 / 2) < v - INR n < 1 / 2 -> 1 <= v -> v + 1 < 50 -> 0 < x -> val (kv olver (v + 1) x) = val (kv olver (v - 1) x) + 2 * v / x * val (kv olver v x).
Proof.
  intros n v x H V V2 X. assert (N1 : (1 <= n)%nat). { destruct n; [change (INR 0) with 0 in H; lra|lia]. } destruct n as [|m]; [lia|]. rewrite S_INR in H. rewrite !kv_num, !core_small by lra. cbn [val].
  rewrite (temme_up (v - 1) x m), (temme_up v x (S m)), (temme_up (v + 1) x (S (S m))); try lra; try (apply round_near; rewrite <- INR_IZR_INZ, ?S_INR; lra).
  rewrite !S_INR. replace (v - 1 - INR m) with (v - (INR m + 1)) by ring. replace (v + 1 - (INR m + 1 + 1)) with (v - (INR m + 1)) by ring. set (u := v - (INR m + 1)). set (a := fst (start u x)). set (b := snd (start u x)). rewrite (climb_last (S m)). cbn [fst]. rewrite (climb_last m). cbn [fst snd]. set (p := climb m u x 1 a b). unfold u. field. lra.
Qed.
End KV.
