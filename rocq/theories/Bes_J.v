(** The Bessel function j0: the two rational branches against the power series. *)
From Coq Require Import ZArith QArith Qreals Reals List Bool Lra Lia.
From Coquelicot Require Import Coquelicot.
From Verif Require Import Base Bounds_Model Bounds_Proofs Num_Consts Poly_Check Poly_Q Bes_Model Bes_Spec Bes_Si Bes_Si2 Poly_Trim.
Import ListNotations.
Open Scope R_scope.

(** * The power series *)
Lemma J0_next : forall x k, J0_term x (S k) = J0_term x k * (- (x * x) / (4 * (INR (S k) * INR (S k)))).
Proof.
  intros x k. unfold J0_term. replace (2 * S k)%nat with (S (S (2 * k))) by lia. rewrite fact_simpl, mult_INR. cbn [pow]. assert (A := INR_fact_neq_0 k). assert (B : INR (S k) <> 0) by (apply not_0_INR; lia). field. split; assumption.
Qed.
Lemma J0_first : forall x, J0_term x 0 = 1.
Proof. intro x. unfold J0_term. cbn. field. Qed.
Lemma J0_shrink : forall x k, Rabs x <= 8 -> (8 <= k)%nat -> Rabs (J0_term x (S k)) <= Rabs (J0_term x k) / 4.
Proof.
  intros x k X K. rewrite J0_next, Rabs_mult. apply Rmult_le_compat_l; [apply Rabs_pos|]. assert (N : 9 <= INR (S k)) by (replace 9 with (INR 9) by (rewrite INR_IZR_INZ; reflexivity); apply le_INR; lia). assert (X2 : 0 <= x * x <= 64) by (apply Rabs_le_between in X; split; nra).
  unfold Rdiv. rewrite Rabs_mult, Rabs_Ropp, (Rabs_pos_eq (x * x)) by lra. assert (P : 324 <= 4 * (INR (S k) * INR (S k))) by nra. rewrite Rabs_pos_eq by (left; apply Rinv_0_lt_compat; lra). apply (Rmult_le_reg_r (4 * (INR (S k) * INR (S k)))); [lra|]. rewrite Rmult_assoc, Rinv_l by lra. nra.
Qed.
Lemma J0_small : forall x k, Rabs x <= 8 -> Rabs (J0_term x (8 + k)) <= 3 / 4 ^ k.
Proof.
  intros x k X. induction k as [|k IH].
  - unfold J0_term. rewrite Nat.add_0_r. unfold Rdiv. rewrite !Rabs_mult, <- RPow_abs, Rabs_m1, pow1, <- RPow_abs, Rabs_mult. rewrite (Rabs_pos_eq (/ 2)) by lra. assert (B : (Rabs x * / 2) ^ (2 * 8) <= 4 ^ (2 * 8)) by (apply pow_incr; split; [apply Rmult_le_pos; [apply Rabs_pos|lra]|lra]). assert (F : INR (fact 8) = 40320) by (rewrite INR_IZR_INZ; vm_compute (Z.of_nat (fact 8)); reflexivity). rewrite F, (Rabs_pos_eq (/ (40320 * 40320))) by (left; apply Rinv_0_lt_compat; lra). assert (V : 0 < / (40320 * 40320)) by (apply Rinv_0_lt_compat; lra). apply (Rmult_le_compat_r (/ (40320 * 40320))) in B; [|lra]. rewrite Rmult_1_l. eapply Rle_trans; [exact B|]. change (4 ^ 0) with 1. apply (Rmult_le_reg_r (40320 * 40320)); [lra|]. rewrite Rmult_assoc, Rinv_l by lra. change (2 * 8)%nat with 16%nat. lra.
  - rewrite Nat.add_succ_r. pose proof (J0_shrink x (8 + k) X ltac:(lia)). cbn [pow]. assert (0 < 4 ^ k) by (apply pow_lt; lra). replace (3 / (4 * 4 ^ k)) with (3 / 4 ^ k / 4) by (field; lra). lra.
Qed.
(** partial sums, the terms below n *)
Fixpoint psum (f : nat -> R) (n : nat) : R := match n with O => 0 | S n => psum f n + f n end.
Lemma psum_f : forall f n, sum_f_R0 f n = psum f (S n).
Proof. intros f n. induction n as [|n IH]; [cbn; ring|]. cbn [sum_f_R0]. rewrite IH. reflexivity. Qed.
Lemma J0_rest : forall x k m, Rabs x <= 8 -> Rabs (psum (J0_term x) (8 + k + m) - psum (J0_term x) (8 + k)) <= 4 / 4 ^ k - 4 / 4 ^ (k + m).
Proof.
  intros x k m X. induction m as [|m IH]; [rewrite !Nat.add_0_r, Rminus_eq_0, Rabs_R0; lra|]. rewrite !Nat.add_succ_r. cbn [psum]. pose proof (J0_small x (k + m) X) as S. replace (8 + (k + m))%nat with (8 + k + m)%nat in S by lia. change (4 ^ Datatypes.S (k + m)) with (4 * 4 ^ (k + m)). assert (P : 0 < 4 ^ (k + m)) by (apply pow_lt; lra). replace (4 / (4 * 4 ^ (k + m))) with (1 / 4 ^ (k + m)) by (field; lra).
  replace (psum (J0_term x) (8 + k + m) + J0_term x (8 + k + m) - psum (J0_term x) (8 + k)) with ((psum (J0_term x) (8 + k + m) - psum (J0_term x) (8 + k)) + J0_term x (8 + k + m)) by ring. eapply Rle_trans; [apply Rabs_triang|]. unfold Rdiv in *. lra.
Qed.
Lemma J0_partial : forall J, J0_of J -> forall x k, Rabs x <= 8 -> Rabs (psum (J0_term x) (8 + k) - J x) <= 4 / 4 ^ k.
Proof.
  intros J HJ x k X. apply le_epsilon. intros e E. destruct (HJ x e E) as [n N]. specialize (N (8 + k + n)%nat ltac:(lia)). rewrite psum_f in N. replace (Datatypes.S (8 + k + n)) with (8 + k + Datatypes.S n)%nat in N by lia. pose proof (J0_rest x k (Datatypes.S n) X) as T. assert (0 < 4 / 4 ^ (k + Datatypes.S n)) by (apply Rdiv_lt_0_compat; [lra|apply pow_lt; lra]). unfold R_dist in N. apply Rabs_def2 in N. apply Rabs_le_between in T. apply Rabs_le. lra.
Qed.
(** the coefficients, with x^2 as variable *)
Fixpoint jp (n : nat) (k : positive) (a : Q) : list Q := match n with O => nil | S n => a :: jp n (Pos.succ k) (Qred (- a / (Zpos (4 * (k * k)) # 1))) end.
Lemma jp_ok : forall n x k a m, J0_term x m = Q2R a * x ^ (2 * m) -> Pos.to_nat k = S m -> psum (fun i => J0_term x (m + i)) n = x ^ (2 * m) * qpe (jp n k a) (x * x).
Proof.
  induction n as [|n IH]; intros x k a m A K; cbn [jp qpe psum]; [ring|].
  assert (H : J0_term x (S m) = Q2R (Qred (- a / (Zpos (4 * (k * k)) # 1))) * x ^ (2 * S m)).
  { rewrite J0_next, A, Q2R_red, Q2R_div, Q2R_opp by (intro E; discriminate E). assert (V : Q2R (Zpos (4 * (k * k)) # 1) = 4 * (INR (S m) * INR (S m))). { unfold Q2R. cbn [Qnum Qden]. rewrite <- K, INR_IZR_INZ, positive_nat_Z, <- !mult_IZR. rewrite Rinv_1, Rmult_1_r. apply f_equal. lia. } rewrite V. replace (2 * S m)%nat with (S (S (2 * m))) by lia. cbn [pow]. assert (INR (S m) <> 0) by (apply not_0_INR; lia). field. assumption. }
  specialize (IH x (Pos.succ k) _ (S m) H ltac:(rewrite Pos2Nat.inj_succ, K; reflexivity)).
  assert (E : forall n, psum (fun i => J0_term x (m + i)) n + J0_term x (m + n) = J0_term x m + psum (fun i => J0_term x (S m + i)) n). { clear. induction n as [|n IH]; cbn [psum]; [rewrite Nat.add_0_r; ring|]. rewrite IH, Nat.add_succ_r. cbn [Nat.add]. ring. }
  rewrite E, IH, A. replace (2 * S m)%nat with (S (S (2 * m))) by lia. cbn [pow]. ring.
Qed.
Definition Jp := Eval vm_compute in jp 45 1 1.
Lemma Jp_jp : jp 45 1 1 = Jp. Proof. vm_cast_no_check (eq_refl Jp). Qed.
Lemma psum_ext : forall f g n, (forall i, f i = g i) -> psum f n = psum g n.
Proof. intros f g n H. induction n as [|n IH]; cbn [psum]; [reflexivity|]. rewrite IH, H. reflexivity. Qed.
Lemma Jp_close : forall J, J0_of J -> forall x, Rabs x <= 8 -> Rabs (qpe Jp (x * x) - J x) <= 1 / 10 ^ 20.
Proof.
  intros J HJ x X. pose proof (J0_partial J HJ x 37 X) as H. pose proof (jp_ok 45 x 1 1%Q 0 ltac:(rewrite J0_first, RMicromega.Q2R_1; cbn; ring) eq_refl) as K. rewrite Jp_jp in K. change (x ^ (2 * 0)) with 1 in K. rewrite Rmult_1_l in K. rewrite <- K, (psum_ext _ (J0_term x)) by (intro; reflexivity). replace (8 + 37)%nat with 45%nat in H by reflexivity. lra.
Qed.
(** the same with y = (x / 8)^2 as variable, in integer multiples of 2^-80 *)
Definition Jz : list Z := Eval vm_compute in map (fun p => (Qnum (snd p) * 2 ^ (80 + 6 * Z.of_nat (fst p)) / Zpos (Qden (snd p)))%Z) (combine (seq 0 28) Jp).
Fixpoint near (m : Z) (p : list Q) (q : list Z) : bool := match p with
  | nil => match q with nil => true | _ => false end
  | a :: p => let '(b, q) := match q with nil => (0%Z, nil) | b :: q => (b, q) end in (Z.abs (Qnum a * m - b * Zpos (Qden a)) <=? Zpos (Qden a))%Z && near (64 * m) p q end.
Lemma near_ok : forall p q m y, near m p q = true -> 0 <= y <= 1 -> Rabs (IZR m * qpe p (64 * y) - zpe q y) <= INR (length p).
Proof.
  induction p as [|a p IH]; intros q m y H Y; cbn [near] in H.
  - destruct q; [|discriminate H]. cbn [qpe zpe length INR]. rewrite Rmult_0_r, Rminus_eq_0, Rabs_R0. lra.
  - set (bq := match q with nil => (0%Z, nil) | b :: q => (b, q) end) in *. assert (Q : zpe q y = IZR (fst bq) + y * zpe (snd bq) y) by (unfold bq; destruct q; cbn [fst snd zpe]; ring). destruct bq as [b r]. cbn [fst snd] in Q.
    apply andb_true_iff in H. destruct H as [A B]. specialize (IH r (64 * m)%Z y B Y). cbn [qpe length]. rewrite S_INR, Q. rewrite mult_IZR in IH. apply Z.leb_le, IZR_le in A. rewrite abs_IZR, minus_IZR, !mult_IZR in A.
    assert (D : 0 < IZR (Zpos (Qden a))) by (apply IZR_lt; reflexivity). assert (E : Rabs (IZR m * Q2R a - IZR b) <= 1).
    { replace (IZR m * Q2R a - IZR b) with ((IZR (Qnum a) * IZR m - IZR b * IZR (Zpos (Qden a))) / IZR (Zpos (Qden a))) by (unfold Q2R; field; lra). unfold Rdiv. rewrite Rabs_mult, (Rabs_pos_eq (/ _)) by (left; apply Rinv_0_lt_compat; exact D). apply (Rmult_le_reg_r (IZR (Zpos (Qden a)))); [exact D|]. rewrite Rmult_assoc, Rinv_l, Rmult_1_r, Rmult_1_l by lra. exact A. }
    replace (IZR m * (Q2R a + 64 * y * qpe p (64 * y)) - (IZR b + y * zpe r y)) with ((IZR m * Q2R a - IZR b) + y * (64 * IZR m * qpe p (64 * y) - zpe r y)) by ring.
    eapply Rle_trans; [apply Rabs_triang|]. rewrite Rabs_mult, (Rabs_pos_eq y) by lra. pose proof (Rabs_pos (64 * IZR m * qpe p (64 * y) - zpe r y)). pose proof (pos_INR (length p)). nra.
Qed.
Lemma Jz_close : forall y, 0 <= y <= 1 -> Rabs (zpe Jz y / 2 ^ 80 - qpe Jp (64 * y)) <= 1 / 10 ^ 20.
Proof.
  intros y Y. pose proof (near_ok Jp Jz (2 ^ 80) y ltac:(vm_cast_no_check (eq_refl true)) Y) as H. replace (IZR (2 ^ 80)) with (2 ^ 80) in H by (rewrite pow_IZR; reflexivity). change (length Jp) with 45%nat in H.
  replace (zpe Jz y / 2 ^ 80 - qpe Jp (64 * y)) with (- ((2 ^ 80 * qpe Jp (64 * y) - zpe Jz y) / 2 ^ 80)) by (field; lra). rewrite Rabs_Ropp. unfold Rdiv. rewrite Rabs_mult, (Rabs_pos_eq (/ 2 ^ 80)) by lra. replace (INR 45) with 45 in H by (rewrite INR_IZR_INZ; reflexivity). lra.
Qed.
(** * Polynomials that are almost even *)
Fixpoint evens (p : list Z) : list Z := match p with nil => nil | a :: nil => a :: nil | a :: _ :: p => a :: evens p end.
Fixpoint odds (p : list Z) : list Z := match p with nil => nil | _ :: nil => nil | _ :: b :: p => b :: odds p end.
Lemma parts : forall p t, zpe p t = zpe (evens p) (t * t) + t * zpe (odds p) (t * t).
Proof.
  fix IH 1. intros [|a [|b p]] t; cbn [evens odds zpe]; [ring|ring|]. rewrite (IH p t). ring.
Qed.
Definition even_low (p : list Z) : list Z := zadd [low (odds p)] (evens p).
Lemma even_low_ok : forall p t, 0 <= t <= 1 -> zpe (even_low p) (t * t) <= zpe p t.
Proof.
  intros p t T. rewrite (parts p t). unfold even_low. rewrite zpe_add. cbn [zpe]. pose proof (low_ok (odds p) (t * t) ltac:(nra)) as L. pose proof (IZR_le _ _ (low_neg (odds p))) as N. nra.
Qed.
Fixpoint zcomp (p q : list Z) : list Z := match p with nil => nil | a :: p => zadd [a] (zmul q (zcomp p q)) end.
Lemma zcomp_ok : forall p q x, zpe (zcomp p q) x = zpe p (zpe q x).
Proof. induction p as [|a p IH]; intros q x; cbn [zcomp zpe]; [reflexivity|]. rewrite zpe_add, zpe_mul, IH. cbn [zpe]. ring. Qed.
(** * The branches: A / (256 m B) against Jz / 2^80 *)
Definition gap_num (m : Z) (A B : list Z) : list Z := zscale 10000000000000000 (zadd (zscale (2 ^ 72) A) (zscale (- m) (zmul B (spread Jz)))).
Definition gap_den (m : Z) (B : list Z) : list Z := zscale (m * 2 ^ 80) B.
Lemma gap_close : forall m A B t, (0 < m)%Z -> 0 < zpe B t -> Rabs (zpe (gap_num m A B) t) <= zpe (gap_den m B) t ->
  Rabs (zpe A t / (256 * IZR m * zpe B t) - zpe Jz (t * t) / 2 ^ 80) <= 1 / 10 ^ 16.
Proof.
  intros m A B t M P H. apply IZR_lt in M. unfold gap_num, gap_den in H. rewrite !zpe_scale, zpe_add, !zpe_scale, zpe_mul, spread_ok in H. rewrite opp_IZR, mult_IZR in H. replace (IZR (2 ^ 72)) with (2 ^ 72) in H by (rewrite pow_IZR; reflexivity). replace (IZR (2 ^ 80)) with (2 ^ 80) in H by (rewrite pow_IZR; reflexivity).
  set (a := zpe A t) in *. set (b := zpe B t) in *. set (j := zpe Jz (t * t)) in *. set (k := IZR m) in *.
  replace (a / (256 * k * b) - j / 2 ^ 80) with ((2 ^ 72 * a + - k * (b * j)) / (2 ^ 80 * k * b)) by (field; repeat split; lra). unfold Rdiv at 1. assert (Q : 0 < 2 ^ 80 * k * b) by (apply Rmult_lt_0_compat; [apply Rmult_lt_0_compat; lra|exact P]).
  rewrite Rabs_mult, (Rabs_pos_eq (/ _)) by (left; apply Rinv_0_lt_compat; exact Q). rewrite Rabs_mult, (Rabs_pos_eq 10000000000000000) in H by lra. apply (Rmult_le_reg_r (2 ^ 80 * k * b)); [exact Q|]. rewrite Rmult_assoc, Rinv_l, Rmult_1_r by lra. lra.
Qed.
Definition lin1 : list Z := [24048255576957727686; 80000000000000000000]%Z.
Definition lin1' : list Z := [- (616 * 10 ^ 23 + 256 * (-142444230422723137837)); 8 * 256 * 10 ^ 23]%Z.
Definition A1 := Eval vm_compute in zmul (zmul lin1 lin1') (spread (dilate 64 1 (scl 20 P1))).
Definition B1 := Eval vm_compute in spread (dilate 64 1 (scl 17 Q1)).
Definition lin2 : list Z := [55200781102863106496; 80000000000000000000]%Z.
Definition lin2' : list Z := [- (1413 * 10 ^ 24 + 256 * 546860286310649596604); 8 * 256 * 10 ^ 24]%Z.
Definition rev1 : list Z := [1; 0; -1]%Z.
Definition A2 := Eval vm_compute in zscale (-1) (zmul (zmul lin2 lin2') (zcomp (scl 18 P2) rev1)).
Definition B2 := Eval vm_compute in zscale (-1) (zcomp (scl 18 Q2) rev1).
Lemma line_a : forall t, zpe lin1 t = 10 ^ 19 * (8 * t + x1) /\ zpe lin2 t = 10 ^ 19 * (8 * t + x2).
Proof. intro t. unfold lin1, lin2, x1, x2, dec. cbn [zpe fst snd]. split; lra. Qed.
Lemma line_b : forall t, zpe lin1' t = 256 * 10 ^ 23 * ((8 * t - x11 / 256) - x12).
Proof.
  intro t. unfold lin1', x11, x12, dec. cbn [zpe fst snd]. rewrite opp_IZR, plus_IZR, !mult_IZR, <- (pow_IZR 10 23 : 10 ^ 23 = IZR (10 ^ 23)). set (k := 10 ^ 23). assert (k <> 0) by (apply pow_nonzero; lra). field. assumption.
Qed.
Lemma line_c : forall t, zpe lin2' t = 256 * 10 ^ 24 * ((8 * t - x21 / 256) - x22).
Proof.
  intro t. unfold lin2', x21, x22, dec. cbn [zpe fst snd]. rewrite opp_IZR, plus_IZR, !mult_IZR, <- (pow_IZR 10 24 : 10 ^ 24 = IZR (10 ^ 24)). set (k := 10 ^ 24). assert (k <> 0) by (apply pow_nonzero; lra). field. assumption.
Qed.
Lemma A1_ok : forall t, zpe A1 t = 256 * 10 ^ 62 * ((8 * t + x1) * ((8 * t - x11 / 256) - x12) * horner P1 (64 * (t * t))).
Proof.
  intro t. change A1 with (zmul (zmul lin1 lin1') (spread (dilate 64 1 (scl 20 P1)))). rewrite !zpe_mul, spread_ok, dilate_ok, scl_ok, line_b, (proj1 (line_a t)) by (vm_compute; reflexivity). replace (10 ^ 62) with (10 ^ 19 * 10 ^ 23 * 10 ^ 20) by (rewrite <- !pow_add; reflexivity). ring.
Qed.
Lemma B1_ok : forall t, zpe B1 t = 10 ^ 17 * horner Q1 (64 * (t * t)).
Proof. intro t. change B1 with (spread (dilate 64 1 (scl 17 Q1))). rewrite spread_ok, dilate_ok, scl_ok by (vm_compute; reflexivity). ring. Qed.
Lemma rev1_ok : forall t, zpe rev1 t = 1 - t * t.
Proof. intro t. unfold rev1. cbn [zpe]. ring. Qed.
Lemma A2_ok : forall t, zpe A2 t = - (256 * 10 ^ 61 * ((8 * t + x2) * ((8 * t - x21 / 256) - x22) * horner P2 (1 - t * t))).
Proof.
  intro t. change A2 with (zscale (-1) (zmul (zmul lin2 lin2') (zcomp (scl 18 P2) rev1))). rewrite zpe_scale, !zpe_mul, zcomp_ok, rev1_ok, scl_ok, line_c, (proj2 (line_a t)) by (vm_compute; reflexivity). replace (10 ^ 61) with (10 ^ 19 * 10 ^ 24 * 10 ^ 18) by (rewrite <- !pow_add; reflexivity). ring.
Qed.
Lemma B2_ok : forall t, zpe B2 t = - (10 ^ 18 * horner Q2 (1 - t * t)).
Proof. intro t. change B2 with (zscale (-1) (zcomp (scl 18 Q2) rev1)). rewrite zpe_scale, zcomp_ok, rev1_ok, scl_ok by (vm_compute; reflexivity). ring. Qed.
Lemma B1_pos : forall t, 0 <= t -> 0 < zpe B1 t.
Proof. intros t T. apply first_pos; [exact T|vm_compute; reflexivity]. Qed.
Lemma B2_pos : forall t, 1 / 2 <= t <= 1 -> 0 < zpe B2 t.
Proof.
  intros t T. assert (H : 0 <= zpe (zadd [(-1)%Z] B2) t). { eapply Rle_trans; [|apply even_low_ok; lra]. apply (pieces_ok 3 4 1); [vm_cast_no_check (eq_refl true)|lia|]. change (INR 3) with (1 + 1 + 1). nra. }
  rewrite zpe_add in H. cbn [zpe] in H. lra.
Qed.
Definition n1 := Eval vm_compute in gap_num (10 ^ 45) A1 B1. Definition d1 := Eval vm_compute in gap_den (10 ^ 45) B1.
Definition n2 := Eval vm_compute in gap_num (10 ^ 43) A2 B2. Definition d2 := Eval vm_compute in gap_den (10 ^ 43) B2.
Lemma n1_v : gap_num (10 ^ 45) A1 B1 = n1. Proof. vm_cast_no_check (eq_refl n1). Qed.
Lemma n2_v : gap_num (10 ^ 43) A2 B2 = n2. Proof. vm_cast_no_check (eq_refl n2). Qed.
Lemma d1_v : gap_den (10 ^ 45) B1 = d1. Proof. vm_cast_no_check (eq_refl d1). Qed.
Lemma d2_v : gap_den (10 ^ 43) B2 = d2. Proof. vm_cast_no_check (eq_refl d2). Qed.
Lemma p45 : forall n, IZR (10 ^ Z.of_nat n) = 10 ^ n. Proof. intro n. rewrite <- pow_IZR. reflexivity. Qed.
Lemma t1_close : forall x, 0 <= x <= 4 -> Rabs (t1 x - qpe Jp (x * x)) <= 1 / 10 ^ 16 + 1 / 10 ^ 20.
Proof.
  intros x X. set (t := x / 8). assert (T : 0 <= t <= 1 / 2) by (unfold t; lra). assert (E : x = 8 * t) by (unfold t; field). pose proof (B1_pos t (proj1 T)) as P. assert (Y : 0 <= t * t <= 1 / 4) by nra.
  assert (G := gap_close (10 ^ 45) A1 B1 t eq_refl P). rewrite n1_v, d1_v in G. assert (H : Rabs (zpe n1 t) <= zpe d1 t).
  { apply both; (eapply Rle_trans; [|apply even_low_ok; lra]); apply (small_pieces 1 1 0 22 310 2); try lia; try (replace (IZR (2 ^ 2)) with 4 by reflexivity; change (INR 1) with 1; lra); try lra; vm_cast_no_check (eq_refl true). }
  specialize (G H). pose proof (Jz_close (t * t) ltac:(lra)) as J. replace (64 * (t * t)) with (x * x) in J by (rewrite E; ring).
  assert (Q : zpe A1 t / (256 * IZR (10 ^ 45) * zpe B1 t) = t1 x).
  { rewrite B1_ok in P. rewrite A1_ok, B1_ok. change (10 ^ 45)%Z with (10 ^ Z.of_nat 45)%Z. rewrite p45. unfold t1, evaluate_rational. cbv zeta. replace (64 * (t * t)) with (x * x) in * by (rewrite E; ring). rewrite <- E. replace (10 ^ 62) with (10 ^ 45 * 10 ^ 17) by (rewrite <- pow_add; reflexivity).
    set (h := horner Q1 (x * x)) in *. assert (p1 : 0 < 10 ^ 45) by (apply pow_lt; lra). assert (p2 : 0 < 10 ^ 17) by (apply pow_lt; lra). assert (h <> 0) by (intro Z; rewrite Z in P; lra). field. repeat split; lra. }
  rewrite Q in G. replace (t1 x - qpe Jp (x * x)) with ((t1 x - zpe Jz (t * t) / 2 ^ 80) + (zpe Jz (t * t) / 2 ^ 80 - qpe Jp (x * x))) by ring. eapply Rle_trans; [apply Rabs_triang|]. apply Rplus_le_compat; assumption.
Qed.
Lemma t2_close : forall x, 4 <= x <= 8 -> Rabs (t2 x - qpe Jp (x * x)) <= 1 / 10 ^ 16 + 1 / 10 ^ 20.
Proof.
  intros x X. set (t := x / 8). assert (T : 1 / 2 <= t <= 1) by (unfold t; lra). assert (E : x = 8 * t) by (unfold t; field). pose proof (B2_pos t T) as P. assert (Y : 1 / 4 <= t * t <= 1) by nra.
  assert (G := gap_close (10 ^ 43) A2 B2 t eq_refl P). rewrite n2_v, d2_v in G. assert (H : Rabs (zpe n2 t) <= zpe d2 t).
  { apply both; (eapply Rle_trans; [|apply even_low_ok; lra]); apply (small_pieces 3 4 1 26 280 0); try lia; try (replace (IZR (2 ^ 0)) with 1 by reflexivity; change (INR 3) with (1 + 1 + 1); lra); try lra; vm_cast_no_check (eq_refl true). }
  specialize (G H). pose proof (Jz_close (t * t) ltac:(lra)) as J. replace (64 * (t * t)) with (x * x) in J by (rewrite E; ring).
  assert (Q : zpe A2 t / (256 * IZR (10 ^ 43) * zpe B2 t) = t2 x).
  { rewrite B2_ok in P. rewrite A2_ok, B2_ok. change (10 ^ 43)%Z with (10 ^ Z.of_nat 43)%Z. rewrite p45. unfold t2, evaluate_rational. cbv zeta. replace (1 - t * t) with (1 - x * x / 64) in * by (rewrite E; field). rewrite <- E. replace (10 ^ 61) with (10 ^ 43 * 10 ^ 18) by (rewrite <- pow_add; reflexivity).
    set (h := horner Q2 (1 - x * x / 64)) in *. assert (p1 : 0 < 10 ^ 43) by (apply pow_lt; lra). assert (p2 : 0 < 10 ^ 18) by (apply pow_lt; lra). assert (h <> 0) by (intro Z; rewrite Z in P; lra). field. repeat split; lra. }
  rewrite Q in G. replace (t2 x - qpe Jp (x * x)) with ((t2 x - zpe Jz (t * t) / 2 ^ 80) + (zpe Jz (t * t) / 2 ^ 80 - qpe Jp (x * x))) by ring. eapply Rle_trans; [apply Rabs_triang|]. apply Rplus_le_compat; assumption.
Qed.
Lemma j0_even : forall x, j0 (- x) = j0 x.
Proof. intro x. unfold j0. rewrite Rabs_Ropp. reflexivity. Qed.
Lemma J_even : forall J, J0_of J -> forall x, J (- x) = J x.
Proof.
  intros J HJ x. apply (uniqueness_sum (J0_term x)); [|apply HJ]. pose proof (HJ (- x)) as H. intros e E. destruct (H e E) as [n N]. exists n. intros m M. specialize (N m M). rewrite !psum_f in *. rewrite (psum_ext (J0_term x) (J0_term (- x))); [exact N|]. intro i. unfold J0_term. replace (- x / 2) with (- (x / 2)) by lra. rewrite !pow_mult. do 3 f_equal. ring.
Qed.
Lemma j0_close : forall J, J0_of J -> forall x, Rabs x <= 8 -> Rabs (j0 x - J x) <= 2 / 10 ^ 16.
Proof.
  intros J HJ. assert (G : forall x, 0 <= x <= 8 -> Rabs (j0 x - J x) <= 2 / 10 ^ 16).
  { intros x X. pose proof (Jp_close J HJ x ltac:(rewrite Rabs_pos_eq; lra)) as C. unfold j0. cbv zeta. rewrite !(Rabs_pos_eq x) by lra. destruct (Req_EM_T x 0) as [e|e].
    - subst x. assert (E : J 0 = 1). { apply (uniqueness_sum (J0_term 0)); [apply HJ|]. intros d D. exists 0%nat. intros n _. unfold R_dist. replace (sum_f_R0 (J0_term 0) n) with 1; [rewrite Rminus_eq_0, Rabs_R0; exact D|]. symmetry. induction n as [|n IH]; [apply J0_first|]. cbn [sum_f_R0]. rewrite IH, J0_next. field. apply not_0_INR. lia. } rewrite E, Rminus_eq_0, Rabs_R0. lra.
    - unfold Rleb. destruct (Rltb_spec 4 x) as [l|l]; cbn [negb].
      + destruct (Rltb_spec 8 x) as [h|h]; cbn [negb]; [lra|]. pose proof (t2_close x ltac:(lra)) as D. apply Rabs_le_between in C. apply Rabs_le_between in D. apply Rabs_le. lra.
      + pose proof (t1_close x ltac:(lra)) as D. apply Rabs_le_between in C. apply Rabs_le_between in D. apply Rabs_le. lra. }
  intros x X. destruct (Rle_lt_dec 0 x) as [h|h]; [apply G; rewrite Rabs_pos_eq in X; lra|]. rewrite <- (j0_even x), <- (J_even J HJ x). apply G. rewrite Rabs_left in X; lra.
Qed.
