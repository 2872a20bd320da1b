(** Steed's algorithm in bessel.py runs Miller's algorithm forwards. *)
From Coq Require Import ZArith Reals Bool List Lra Lia Arith.
From Coquelicot Require Import Rcomplements.
From Verif Require Import Base Bounds_Model Bounds_Proofs Bes_Model Bes_K2 Bes_Miller.
Open Scope R_scope.

Section Steed.
  Variables v z : R.
  Hypothesis V : Rabs v <= 1 / 2.
  Hypothesis Z : 0 < z.
  Notation a := (te_a v).
  Notation b := (te_b z).
  Lemma v_sq : v * v <= 1 / 4.
  Proof using V. apply Rabs_le_between in V. nra. Qed.
  Lemma a_neg : forall n, (2 <= n)%nat -> a n < 0.
  Proof using V. intros n N. unfold te_a. pose proof v_sq. apply le_INR in N. cbn [INR] in N. nra. Qed.
  Lemma a_low : forall n, - (INR n - 1 / 2) * (INR n - 1 / 2) <= a n.
  Proof using Type. intro n. unfold te_a. pose proof (Rle_0_sqr v) as Q. unfold Rsqr in Q. nra. Qed.
  (** the two basic solutions as pairs of neighbours (y(n), y(n+1)) *)
  Fixpoint pair (y0 y1 : R) (n : nat) : R * R :=
    match n with O => (y0, y1) | S k => let r := pair y0 y1 k in (snd r, (fst r - b n * snd r) / a (n + 1)) end.
  Definition p (n : nat) : R := fst (pair 0 1 n).
  Definition s (n : nat) : R := fst (pair 1 0 n).
  Lemma p_S : forall n, p (S n) = snd (pair 0 1 n). Proof using Type. reflexivity. Qed.
  Lemma s_S : forall n, s (S n) = snd (pair 1 0 n). Proof using Type. reflexivity. Qed.
  Lemma p_rec : forall n, p (S (S n)) = (p n - b (S n) * p (S n)) / a (S (S n)).
  Proof using Type. intro n. rewrite (p_S (S n)), (p_S n). cbn [pair snd]. unfold p. replace (S n + 1)%nat with (S (S n)) by lia. reflexivity. Qed.
  Lemma s_rec : forall n, s (S (S n)) = (s n - b (S n) * s (S n)) / a (S (S n)).
  Proof using Type. intro n. rewrite (s_S (S n)), (s_S n). cbn [pair snd]. unfold s. replace (S n + 1)%nat with (S (S n)) by lia. reflexivity. Qed.
  (** positive, growing fast enough *)
  Lemma p_pos : forall n, 0 < p (S n) /\ (INR n + 3 / 2) * p (S n) <= - a (S (S n)) * p (S (S n)).
  Proof using V Z.
    induction n as [|n [P G]].
    - rewrite p_rec. change (p 1) with 1. change (p 0) with 0. pose proof (a_neg 2 ltac:(lia)). split; [lra|]. replace (- a 2 * ((0 - b 1 * 1) / a 2)) with (b 1) by (field; lra). unfold te_b. cbn [INR]. lra.
    - pose proof (a_neg (S (S n)) ltac:(lia)) as A. pose proof (a_neg (S (S (S n))) ltac:(lia)) as A'. rewrite S_INR. pose proof (pos_INR n) as N0.
      assert (Q : 0 < p (S (S n))). { apply (Rmult_lt_reg_l (- a (S (S n)))); [lra|]. rewrite Rmult_0_r. apply Rlt_le_trans with (2 := G). apply Rmult_lt_0_compat; lra. }
      split; [exact Q|]. rewrite (p_rec (S n)). replace (- a (S (S (S n))) * ((p (S n) - b (S (S n)) * p (S (S n))) / a (S (S (S n))))) with (b (S (S n)) * p (S (S n)) - p (S n)) by (field; lra).
      assert (L : p (S n) <= (INR n + 3 / 2) * p (S (S n))).
      { pose proof (a_low (S (S n))) as AL. rewrite !S_INR in AL. apply (Rmult_le_reg_l (INR n + 3 / 2)); [lra|]. apply Rle_trans with (1 := G). rewrite <- Rmult_assoc. apply Rmult_le_compat_r; [lra|]. replace (INR n + 1 + 1 - 1 / 2) with (INR n + 3 / 2) in AL by field. lra. }
      unfold te_b. rewrite !S_INR. nra.
  Qed.
  Lemma p0 : forall n, p (S n) <> 0. Proof using V Z. intro n. pose proof (p_pos n). lra. Qed.
  (** the Casoratian *)
  Definition W (n : nat) : R := s n * p (S n) - s (S n) * p n.
  Lemma W_S : forall n, W (S n) = - W n / a (S (S n)).
  Proof using V. intro n. unfold W. rewrite p_rec, s_rec. pose proof (a_neg (S (S n)) ltac:(lia)). field. lra. Qed.
  (** the convergents *)
  Definition f (N : nat) : R := - s (S N) / p (S N).
  Definition y (N n : nat) : R := s n + f N * p n.
  Lemma y_miller : forall N, miller v z N (y N).
  Proof using V Z.
    intro N. unfold miller, y, f. split; [change (s 0) with 1; change (p 0) with 0; ring|]. split; [replace (N + 1)%nat with (S N) by lia; field; apply p0|].
    intros n [N1 N2]. destruct n as [|n]; [lia|]. replace (S n - 1)%nat with n by lia. replace (S n + 1)%nat with (S (S n)) by lia. rewrite (p_rec n), (s_rec n). pose proof (a_neg (S (S n)) ltac:(lia)). field. split; first [apply p0|lra].
  Qed.
  Definition dif (N : nat) : R := W N / (p N * p (S N)).
  Lemma f_step : forall N, f (S N) = f N + dif (S N).
  Proof using V Z. intro N. unfold f, dif, W. field. split; apply p0. Qed.
  Definition rat (N : nat) : R := - p N / (a (S N) * p (S N)).
  Lemma rat_S : forall N, (0 < N)%nat -> 1 / (b (S N) + a (S N) * rat N) = rat (S N).
  Proof using V Z.
    intros N N0. unfold rat. rewrite (p_rec N). pose proof (a_neg (S N) ltac:(lia)) as A. pose proof (a_neg (S (S N)) ltac:(lia)) as A2. pose proof (p0 N) as P1. pose proof (p0 (S N)) as P2. rewrite p_rec in P2.
    assert (D : p N - b (S N) * p (S N) <> 0) by (intro E; apply P2; rewrite E; unfold Rdiv; ring). field. repeat split; try lra; try exact P1; try exact D; intro E; apply D; lra.
  Qed.
  Lemma dif_S : forall N, (0 < N)%nat -> dif N * (b (S N) * rat (S N) - 1) = dif (S N).
  Proof using V Z.
    intros N N0. unfold dif, rat. rewrite W_S. rewrite (p_rec N). pose proof (a_neg (S (S N)) ltac:(lia)) as A2. pose proof (p0 N) as P1. pose proof (p0 (S N)) as P2. rewrite p_rec in P2.
    assert (D : p N - b (S N) * p (S N) <> 0) by (intro E; apply P2; rewrite E; unfold Rdiv; ring). destruct N as [|N]; [lia|]. pose proof (p0 N). field. repeat split; try lra.
  Qed.
  (** the normalising sum *)
  Definition Q (N : nat) : R := sum_f_R0 (fun n => te_c v n * p n) N.
  Lemma sum_S : forall N, miller_sum v (S N) (y (S N)) = miller_sum v N (y N) + Q (S N) * dif (S N).
  Proof using V Z.
    intro N. assert (E : y N (S N) = 0) by (pose proof (y_miller N) as (_ & H & _); replace (N + 1)%nat with (S N) in H by lia; exact H).
    replace (miller_sum v N (y N)) with (miller_sum v (S N) (y N)) by (unfold miller_sum; cbn [sum_f_R0]; rewrite E; ring).
    assert (G : forall M, miller_sum v M (y (S N)) = miller_sum v M (y N) + Q M * dif (S N)); [|apply G].
    induction M as [|M IH]; unfold miller_sum, Q in *; cbn [sum_f_R0]; [|rewrite IH]; unfold y; rewrite f_step; ring.
  Qed.
  (** the state after N rounds *)
  Definition state (N : nat) (st : bool) : steed :=
    Steed st (INR (S N)) (a N) (b N) (rat N) (dif N) (f N) (p (N - 1)) (p N) (te_c v N) (Q N) (miller_sum v N (y N)).
  Lemma f_0 : f 0 = 0. Proof using Type. unfold f. change (s 1) with 0. change (p 1) with 1. field. Qed.
  Lemma init_state : steed_init v z = state 1 false.
  Proof using V Z.
    assert (Bp : 0 < b 1) by (unfold te_b; cbn [INR]; lra). assert (B1 : b 1 = 2 * (z + 1)) by (unfold te_b; cbn [INR]; ring). assert (A1 : a 1 = v * v - 1 / 4) by (unfold te_a; cbn [INR]; field). pose proof (a_neg 2 ltac:(lia)) as A2.
    assert (D1 : dif 1 = 1 / b 1). { unfold dif. rewrite W_S. unfold W. rewrite (p_rec 0). change (s 0) with 1. change (s 1) with 0. change (p 0) with 0. change (p 1) with 1. field. split; lra. }
    assert (R1 : rat 1 = 1 / b 1). { unfold rat. rewrite (p_rec 0). change (p 0) with 0. change (p 1) with 1. field. split; lra. }
    assert (F1 : f 1 = 1 / b 1) by (rewrite f_step, f_0, D1; ring).
    assert (C1 : te_c v 1 = - (v * v - 1 / 4)) by (cbn [te_c INR]; rewrite A1; field).
    assert (Q1 : Q 1 = - (v * v - 1 / 4)) by (unfold Q; cbn [sum_f_R0]; rewrite C1; change (p 0) with 0; change (p 1) with 1; cbn [te_c]; ring).
    assert (S1 : miller_sum v 1 (y 1) = 1 - (v * v - 1 / 4) * (1 / b 1)). { rewrite sum_S, Q1, D1. unfold miller_sum. cbn [sum_f_R0 te_c]. unfold y. rewrite f_0. change (s 0) with 1. change (p 0) with 0. ring. }
    unfold state. rewrite S1, Q1, C1, F1, R1, D1, A1, B1. unfold steed_init. cbv zeta. change (p (1 - 1)) with 0. change (p 1) with 1. replace (INR 2) with 2 by (cbn; ring). reflexivity.
  Qed.
  Lemma body_state : forall N, (0 < N)%nat -> exists st, steed_body (state N false) = state (S N) st /\ st = Rltb (Rabs (Q (S N) * dif (S N))) (Rabs (miller_sum v (S N) (y (S N))) * eps) || Rltb (INR max_iterations) (INR (S (S N))).
  Proof using V Z.
    intros N N0. eexists. split; [|reflexivity]. unfold steed_body, state. cbn [s_stop s_index s_num s_den s_ratio s_diff s_hyp s_k0 s_k1 s_c s_q s_sum]. cbv zeta.
    assert (EA : a N - 2 * (INR (S N) - 1) = a (S N)) by (unfold te_a; rewrite S_INR; field). assert (EB : b N + 2 = b (S N)) by (unfold te_b; rewrite S_INR; ring).
    assert (EK : (p (N - 1) - b N * p N) / a (S N) = p (S N)) by (destruct N as [|N]; [lia|]; rewrite p_rec; now replace (S N - 1)%nat with N by lia).
    assert (EC : - te_c v N * a (S N) / INR (S N) = te_c v (S N)) by (cbn [te_c]; field; apply not_0_INR; lia).
    assert (EQ : Q N + te_c v (S N) * p (S N) = Q (S N)) by reflexivity.
    rewrite EA, EB, EK, EC, EQ, rat_S, dif_S, <- f_step, <- sum_S by exact N0. replace (INR (S N) + 1) with (INR (S (S N))) by (rewrite !S_INR; ring). replace (S N - 1)%nat with N by lia. reflexivity.
  Qed.
  Lemma loop_state : forall k N, (0 < N)%nat -> exists M st, (N <= M <= N + k)%nat /\ while_loop k (fun s => negb (s_stop s)) steed_body (state N false) = state M st /\
    (M = (N + k)%nat \/ st = true /\ Rltb (Rabs (Q M * dif M)) (Rabs (miller_sum v M (y M)) * eps) || Rltb (INR max_iterations) (INR (S M)) = true).
  Proof using V Z.
    induction k as [|k IH]; intros N N0.
    - exists N, false. split; [lia|]. split; [reflexivity|left; lia].
    - cbn [while_loop]. change (negb (s_stop (state N false))) with true. cbv iota. destruct (body_state N N0) as (st & E & ES). rewrite E. destruct st.
      + exists (S N), true. split; [lia|]. split; [|right; split; [reflexivity|now symmetry]]. destruct k; reflexivity.
      + destruct (IH (S N) ltac:(lia)) as (M & st & B & EM & L). exists M, st. split; [lia|]. split; [exact EM|]. destruct L as [L|L]; [left; lia|right; exact L].
  Qed.
  (** positivity of the solution that ends in 0 *)
  Lemma miller_bound : forall N w, miller v z N w -> forall k, (k <= N)%nat -> exists r, 0 <= r <= 1 / (INR (N - k) + 1 / 2) /\ w (N - k + 1)%nat = r * w (N - k)%nat /\ ((0 < k)%nat -> 0 < r).
  Proof using V Z.
    intros N w (W0 & WN & WR). induction k as [|k IH]; intro K.
    - exists 0. replace (N - 0)%nat with N by lia. rewrite WN. pose proof (pos_INR N). split; [split; [lra|apply Rmult_le_pos; [lra|left; apply Rinv_0_lt_compat; lra]]|]. split; [ring|lia].
    - destruct (IH ltac:(lia)) as (r & R1 & R2 & _). set (m := (N - S k)%nat) in *. replace (N - k)%nat with (S m) in * by lia. replace (S m + 1)%nat with (S (S m)) in * by lia. replace (m + 1)%nat with (S m) by lia.
      pose proof (WR (S m) ltac:(lia)) as E. replace (S m - 1)%nat with m in E by lia. replace (S m + 1)%nat with (S (S m)) in E by lia. rewrite R2 in E. rewrite S_INR in R1. pose proof (pos_INR m) as M0.
      pose proof (a_low (S (S m))) as AL. rewrite !S_INR in AL. replace (INR m + 1 + 1 - 1 / 2) with (INR m + 3 / 2) in AL by field. replace (INR m + 1 + 1 / 2) with (INR m + 3 / 2) in R1 by field.
      set (d := b (S m) + a (S (S m)) * r). assert (D : INR m + 1 / 2 < d).
      { unfold d, te_b. rewrite S_INR. assert (L : - (INR m + 3 / 2) <= a (S (S m)) * r). { pose proof (a_neg (S (S m)) ltac:(lia)). destruct R1 as [R0 R1]. assert (H1 : a (S (S m)) * (1 / (INR m + 3 / 2)) <= a (S (S m)) * r) by (apply Rmult_le_compat_neg_l; lra).
          apply Rle_trans with (2 := H1). assert (I0 : 0 < / (INR m + 3 / 2)) by (apply Rinv_0_lt_compat; lra). replace (- (INR m + 3 / 2)) with (- (INR m + 3 / 2) * (INR m + 3 / 2) * (1 / (INR m + 3 / 2))) by (field; lra). apply Rmult_le_compat_r; [unfold Rdiv; lra|exact AL]. }
        lra. }
      exists (/ d). split; [split; [left; apply Rinv_0_lt_compat; lra|unfold Rdiv; rewrite Rmult_1_l; left; apply Rinv_lt_contravar; [apply Rmult_lt_0_compat; lra|exact D]]|].
      split; [|intros _; apply Rinv_0_lt_compat; lra]. replace (w m) with (d * w (S m)) by (unfold d; lra). field. lra.
  Qed.
  Lemma miller_pos : forall N w, miller v z N w -> forall n, (n <= N)%nat -> 0 < w n.
  Proof using V Z.
    intros N w H. induction n as [|n IH]; intro L; [destruct H as [-> _]; lra|]. destruct (miller_bound N w H (N - n) ltac:(lia)) as (r & R1 & R2 & R3). replace (N - (N - n))%nat with n in * by lia. replace (n + 1)%nat with (S n) in R2 by lia.
    rewrite R2. apply Rmult_lt_0_compat; [apply R3; lia|apply IH; lia].
  Qed.
  Lemma c_pos : forall n, 0 <= te_c v n.
  Proof using V.
    induction n as [|n IH]; cbn [te_c]; [lra|]. apply Rmult_le_pos; [exact IH|]. apply Rmult_le_pos; [|left; apply Rinv_0_lt_compat; apply lt_0_INR; lia]. destruct n as [|n]; [unfold te_a; cbn [INR]; pose proof v_sq; lra|]. pose proof (a_neg (S (S n)) ltac:(lia)). lra.
  Qed.
  Lemma sum_ge_1 : forall N w, miller v z N w -> 1 <= miller_sum v N w.
  Proof using V Z.
    intros N w H. unfold miller_sum. pose proof (miller_pos N w H) as P. assert (G : forall M, (M <= N)%nat -> 1 <= sum_f_R0 (fun n => te_c v n * w n) M); [|apply G; lia].
    induction M as [|M IH]; intro L; cbn [sum_f_R0]; [destruct H as [-> _]; cbn [te_c]; lra|]. specialize (IH ltac:(lia)). assert (0 <= te_c v (S M) * w (S M)); [|lra]. apply Rmult_le_pos; [apply c_pos|left; apply P; lia].
  Qed.
End Steed.
Lemma steed_miller : forall v z, Rabs v <= 1 / 2 -> 2 < z -> exists N w, (1 <= N <= 1001)%nat /\ miller v z N w /\
  continued_fraction_kve v z = (sqrt (PI / (2 * z)) / miller_sum v N w, sqrt (PI / (2 * z)) / miller_sum v N w * (1 / 2 + v + z + (v * v - 1 / 4) * w 1%nat) / z).
Proof.
  intros v z V Z2. assert (Z : 0 < z) by lra. destruct (loop_state v z V Z max_iterations 1 ltac:(lia)) as (M & st & B & E & _). exists M, (y v z M). pose proof (y_miller v z V Z M) as H.
  split; [unfold max_iterations in B; lia|]. split; [exact H|]. unfold continued_fraction_kve. cbv zeta. rewrite (init_state v z V Z), E. unfold state. cbn [s_sum s_hyp].
  pose proof (sum_ge_1 v z V Z M _ H) as S1. set (S := miller_sum v M (y v z M)) in *. assert (F1 : f v z M = y v z M 1). { unfold y. change (s v z 1) with 0. change (p v z 1) with 1. ring. } rewrite F1.
  assert (Y1 : 0 <= y v z M 1 <= 2). { destruct (miller_bound v z V Z M _ H M ltac:(lia)) as (r & R1 & R2 & _). replace (M - M)%nat with O in * by lia. replace (0 + 1)%nat with 1%nat in R2 by lia. destruct H as [H0 _]. rewrite R2, H0. cbn [INR] in R1. replace (1 / (0 + 1 / 2)) with 2 in R1 by field. lra. }
  set (w := y v z M 1) in *. pose proof PI_RGT_0 as P. assert (PZ : 0 < PI / (2 * z)) by (apply Rdiv_lt_0_compat; lra).
  assert (X1 : 0 < 1 + 2 * (v + z + (v * v - 1 / 4) * w)). { apply Rabs_le_between in V. assert (- (1 / 4) * 2 <= (v * v - 1 / 4) * w) by (pose proof (Rle_0_sqr v) as Q0; unfold Rsqr in Q0; nra). lra. }
  assert (K : exp (1 / 2 * ln (PI / (2 * z)) - ln S) = sqrt (PI / (2 * z)) / S).
  { assert (SQ : exp (1 / 2 * ln (PI / (2 * z))) = sqrt (PI / (2 * z))) by (rewrite <- Rpower_sqrt by exact PZ; unfold Rpower; f_equal; field). unfold Rminus. rewrite exp_plus, exp_Ropp, exp_ln, SQ by lra. reflexivity. }
  f_equal; [exact K|]. unfold Rminus at 1. rewrite exp_plus. unfold Rminus at 1. rewrite exp_plus, exp_plus, K, !exp_Ropp, !exp_ln by lra. field. lra.
Qed.
Lemma round_0 : forall v, 0 <= v <= 1 / 2 -> round_even v = 0%Z.
Proof.
  intros v V. unfold round_even. assert (I : Int_part v = 0%Z) by (replace v with (IZR 0 + v) by lra; apply Int_part_eq; lra). rewrite I. cbv zeta. destruct (Rltb_spec (v - 0) (1 / 2)); [reflexivity|]. destruct (Rltb_spec (1 / 2) (v - 0)); [lra|reflexivity].
Qed.
Lemma miller_abs : forall v z N w, miller (Rabs v) z N w <-> miller v z N w.
Proof. intros v z N w. assert (E : forall n, te_a (Rabs v) n = te_a v n) by (intro n; unfold te_a; now rewrite <- Rabs_mult, Rabs_pos_eq by (apply Rle_0_sqr)). unfold miller. split; intros (A & B & D); (split; [exact A|split; [exact B|intros n H; rewrite (D n H), E; reflexivity]]). Qed.
Lemma sum_abs : forall v N w, miller_sum (Rabs v) N w = miller_sum v N w.
Proof.
  intros v N w. assert (E : forall n, te_a (Rabs v) n = te_a v n) by (intro n; unfold te_a; now rewrite <- Rabs_mult, Rabs_pos_eq by (apply Rle_0_sqr)). assert (G : forall n, te_c (Rabs v) n = te_c v n) by (induction n as [|n IH]; cbn [te_c]; [reflexivity|now rewrite IH, E]).
  unfold miller_sum. apply sum_eq. intros. now rewrite G.
Qed.
Lemma kv_miller : forall olver v x, Rabs v <= 1 / 2 -> 2 < x -> exists N w, (1 <= N <= 1001)%nat /\ miller v x N w /\ kv olver v x = Num (sqrt (PI / (2 * x)) * exp (- x) / miller_sum v N w).
Proof.
  intros olver v x V X. destruct (steed_miller (Rabs v) x ltac:(now rewrite Rabs_Rabsolu) X) as (N & w & B & H & E). exists N, w. split; [exact B|]. split; [now apply miller_abs|]. rewrite sum_abs in E.
  unfold kv, kve_core, temme_kve. cbv zeta. rewrite !Rabs_Rabsolu. pose proof (Rabs_pos v) as P. unfold Rleb. destruct (Rltb_spec x 0); [lra|]. destruct (Req_EM_T x 0); [lra|]. destruct (Rltb_spec 0 x); [|lra]. destruct (Rltb_spec (Rabs v) 50); [|lra]. cbn [negb].
  rewrite !Rabs_Rabsolu, (round_0 (Rabs v)) by lra. replace (Rabs v - 0) with (Rabs v) by ring. destruct (Rltb_spec 2 x); [|lra]. cbn [negb]. rewrite E. destruct (temme_series_kve (Rabs v) (1 / 10)). cbn [Z.to_nat while_loop fst].
  match goal with |- context [if ?c then _ else _] => destruct c end; f_equal; unfold Rdiv; ring.
Qed.
Lemma kv_between : forall olver v x, Rabs v <= 1 / 2 -> 2 < x -> exists r, kv olver v x = Num r /\ 0 < r <= sqrt (PI / (2 * x)) * exp (- x).
Proof.
  intros olver v x V X. destruct (kv_miller olver v x V X) as (N & w & _ & H & E). eexists. split; [exact E|]. pose proof (sum_ge_1 v x V ltac:(lra) N w H) as S1. pose proof PI_RGT_0.
  assert (P : 0 < sqrt (PI / (2 * x)) * exp (- x)) by (apply Rmult_lt_0_compat; [apply sqrt_lt_R0, Rdiv_lt_0_compat; lra|apply exp_pos]). split; [apply Rdiv_lt_0_compat; lra|].
  apply (Rmult_le_reg_r (miller_sum v N w)); [lra|]. unfold Rdiv. rewrite Rmult_assoc, Rinv_l by lra. apply Rmult_le_compat_l; lra.
Qed.
Lemma miller_unique : forall v z, Rabs v <= 1 / 2 -> 0 < z -> forall N w w', miller v z N w -> miller v z N w' -> forall n, (n <= N)%nat -> w n = w' n.
Proof.
  intros v z V Z N w w' H H'. pose proof (miller_bound v z V Z N) as B.
  assert (D : forall k, (k <= N)%nat -> exists r, w (N - k + 1)%nat = r * w (N - k)%nat /\ w' (N - k + 1)%nat = r * w' (N - k)%nat).
  { induction k as [|k IH]; intro K.
    - exists 0. replace (N - 0)%nat with N by lia. destruct H as (_ & -> & _). destruct H' as (_ & -> & _). split; ring.
    - destruct (IH ltac:(lia)) as (r & E & E'). set (m := (N - S k)%nat) in *. replace (N - k)%nat with (S m) in * by lia. replace (m + 1)%nat with (S m) by lia.
      pose proof (proj2 (proj2 H) (S m) ltac:(lia)) as W. pose proof (proj2 (proj2 H') (S m) ltac:(lia)) as W'. replace (S m - 1)%nat with m in * by lia. rewrite E in W. rewrite E' in W'.
      assert (P : 0 < w m) by (apply (miller_pos v z V Z N w H); lia). exists (/ (te_b z (S m) + te_a v (S m + 1) * r)). assert (Q : te_b z (S m) + te_a v (S m + 1) * r <> 0). { intro Q. assert (w m = 0); [|lra]. rewrite W. replace (te_b z (S m) * w (S m) + te_a v (S m + 1) * (r * w (S m))) with ((te_b z (S m) + te_a v (S m + 1) * r) * w (S m)) by ring. rewrite Q. ring. }
      rewrite W, W'. split; field; exact Q. }
  induction n as [|n IH]; intro L; [destruct H as [-> _], H' as [-> _]; reflexivity|]. destruct (D (N - n)%nat ltac:(lia)) as (r & E & E'). replace (N - (N - n))%nat with n in * by lia. replace (n + 1)%nat with (S n) in * by lia. rewrite E, E', IH by lia. reflexivity.
Qed.
