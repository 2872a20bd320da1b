(** Temme's series at orders 1/2 and -1/2: the loop, the error, all half-integer orders. *)
From Coq Require Import ZArith QArith Qreals Reals List Bool Lra Lia.
From Coquelicot Require Import Coquelicot.
From Verif Require Import Base Bounds_Model Bounds_Proofs Num_Consts Poly_Q Bes_Model Bes_Spec Bes_K Bes_K2 Bes_T.
Import ListNotations.
Open Scope R_scope.

(** * The loop *)
Fixpoint iter {A : Type} (m : nat) (body : A -> A) (a : A) : A := match m with O => a | S m => body (iter m body a) end.
Lemma iter_in : forall (A : Type) m body (a : A), iter m body (body a) = body (iter m body a).
Proof. intros A m body a. induction m as [|m IH]; [reflexivity|]. cbn [iter]. rewrite IH. reflexivity. Qed.
Lemma while_iter : forall (A : Type) (cond : A -> bool) body fuel a, exists m, while_loop fuel cond body a = iter m body a /\ (forall j, (j < m)%nat -> cond (iter j body a) = true) /\ (m = fuel \/ cond (iter m body a) = false).
Proof.
  intros A cond body. induction fuel as [|fuel IH]; intro a; cbn [while_loop].
  - exists 0%nat. split; [destruct (cond a); reflexivity|]. split; [intros j J; lia|left; reflexivity].
  - destruct (cond a) eqn:C.
    + destruct (IH (body a)) as (m & E & B & D). exists (S m). cbn [iter]. rewrite <- iter_in. split; [exact E|]. split; [|destruct D as [->|D]; [left; reflexivity|right; exact D]]. intros [|j] J; [exact C|]. cbn [iter]. rewrite <- iter_in. apply B. lia.
    + exists 0%nat. split; [reflexivity|]. split; [intros j J; lia|right; exact C].
Qed.
(** * The start *)
Definition c1 : R := - 5641895835477563 / 10000000000000000.
Definition c2 : R := 84628437532163431 / 100000000000000000.
Definition gG : R := 56418958354775623 / 50000000000000000.
Definition gH : R := 881546224293369 / 1562500000000000.
Lemma c1_ok : clenshaw coeff1_coeffs 1 = c1.
Proof. unfold clenshaw, coeff1_coeffs, c1, dec. cbn [rev tl app fold_left fst snd hd]. lra. Qed.
Lemma c2_ok : clenshaw coeff2_coeffs 1 = c2.
Proof. unfold clenshaw, coeff2_coeffs, c2, dec. cbn [rev tl app fold_left fst snd hd]. lra. Qed.
Lemma coeffs_half : forall v, v * v = 1 / 4 -> temme_coeffs v = (c1, c2, c2 - v * c1, c2 + v * c1).
Proof. intros v V. unfold temme_coeffs. replace (8 * v * v - 1) with 1 by lra. rewrite c1_ok, c2_ok. reflexivity. Qed.
Definition half (s : bool) : R := if s then 1 / 2 else - (1 / 2).
Lemma half_sq : forall s, half s * half s = 1 / 4.
Proof. intros [|]; cbn; field. Qed.
Lemma sinc_half : forall s, np_sinc (half s) = 2 / PI.
Proof.
  intros s. pose proof PI_RGT_0. unfold np_sinc. destruct (Req_EM_T (half s) 0) as [e|e]; [destruct s; cbn in e; lra|]. destruct s; cbn [half].
  - replace (PI * (1 / 2)) with (PI / 2) by field. rewrite sin_PI2. field. lra.
  - replace (PI * - (1 / 2)) with (- (PI / 2)) by field. rewrite sin_neg, sin_PI2. field. lra.
Qed.
Section Z.
Variable z : R.
Hypothesis Z : 0 < z <= 2.
Definition rr : R := exp (- (ln (z / 2) / 2)).
Lemma rr_pos : 0 < rr. Proof. apply exp_pos. Qed.
Lemma rr_sq : rr * rr = 2 / z.
Proof. unfold rr. rewrite <- exp_plus. replace (- (ln (z / 2) / 2) + - (ln (z / 2) / 2)) with (- ln (z / 2)) by field. rewrite exp_Ropp, exp_ln by lra. field. lra. Qed.
Definition A0 : R := rr / (2 * gG).
Definition B0 : R := / (2 * rr * gH).
Definition dd : R := PI * gG * gH / 2 - 1.
Definition f0 : R := 2 * (A0 - B0) * (1 + dd).
Lemma init_half : forall s, temme_init (half s) z = Temme false 1 f0 (if s then A0 else B0) (if s then B0 else A0) 1 f0 (if s then A0 else B0).
Proof.
  intro s. unfold temme_init. rewrite (coeffs_half _ (half_sq s)), sinc_half. set (L := ln (z / 2)). assert (RP := rr_pos). assert (E1 : exp (- (L / 2)) = rr) by reflexivity. assert (E2 : exp (L / 2) = / rr) by (rewrite <- E1, exp_Ropp, Rinv_inv; reflexivity). pose proof PI_RGT_0 as PP.
  assert (P : 1 / 2 * exp (- half s * L) / (c2 - half s * c1) = if s then A0 else B0).
  { destruct s; cbn [half]; unfold A0, B0.
    - replace (- (1 / 2) * L) with (- (L / 2)) by field. rewrite E1. replace (c2 - 1 / 2 * c1) with gG by (unfold c1, c2, gG; lra). field. unfold gG; lra.
    - replace (- - (1 / 2) * L) with (L / 2) by field. rewrite E2. replace (c2 - - (1 / 2) * c1) with gH by (unfold c1, c2, gH; lra). field. unfold gH; split; lra. }
  assert (Q : 1 / 2 * exp (- (- half s * L)) / (c2 + half s * c1) = if s then B0 else A0).
  { destruct s; cbn [half]; unfold A0, B0.
    - replace (- (- (1 / 2) * L)) with (L / 2) by field. rewrite E2. replace (c2 + 1 / 2 * c1) with gH by (unfold c1, c2, gH; lra). field. unfold gH; split; lra.
    - replace (- (- - (1 / 2) * L)) with (- (L / 2)) by field. rewrite E1. replace (c2 + - (1 / 2) * c1) with gG by (unfold c1, c2, gG; lra). field. unfold gG; lra. }
  assert (F : (c1 * cosh (- half s * L) + c2 * - L * (if Req_EM_T (- half s * L) 0 then 1 else sinh (- half s * L) / (- half s * L))) / (2 / PI) = f0).
  { assert (K : c2 * - L * (if Req_EM_T (- half s * L) 0 then 1 else sinh (- half s * L) / (- half s * L)) = 2 * c2 * sinh (- (L / 2))).
    { destruct (Req_EM_T (- half s * L) 0) as [e|e].
      - assert (L0 : L = 0) by (destruct s; cbn [half] in e; lra). rewrite L0. replace (- (0 / 2)) with 0 by field. rewrite sinh_0. ring.
      - assert (L0 : L <> 0) by (intro H; apply e; rewrite H; ring). destruct s; cbn [half].
        + replace (- (1 / 2) * L) with (- (L / 2)) by field. field. exact L0.
        + replace (- - (1 / 2) * L) with (L / 2) by field. unfold sinh. rewrite Ropp_involutive. field. exact L0. }
    assert (CC : cosh (- half s * L) = cosh (- (L / 2))) by (destruct s; cbn [half]; unfold cosh; [replace (- (1 / 2) * L) with (- (L / 2)) by field; reflexivity|replace (- - (1 / 2) * L) with (L / 2) by field; rewrite Ropp_involutive; field]).
    rewrite K, CC. unfold cosh, sinh. rewrite Ropp_involutive, E1, E2. unfold f0, dd, A0, B0. replace gG with (c2 - c1 / 2) by (unfold c1, c2, gG; lra). replace gH with (c2 + c1 / 2) by (unfold c1, c2, gH; lra). field. unfold c1, c2. repeat split; lra. }
  rewrite F, P, Q. reflexivity.
Qed.
(** * The state after m rounds *)
Definition pm (s : bool) (m : nat) : R := if s then A0 * ta z m else B0 * tb z m.
Definition qm (s : bool) (m : nat) : R := if s then B0 * tb z m else A0 * ta z m.
Definition fm (m : nat) : R := 2 * (A0 * ta z m - B0 * tb z m) + 2 * dd * (A0 - B0) * tp z m.
Definition Sm (m : nat) : R := 2 * A0 * sC z m - 2 * B0 * sD z m + 2 * dd * (A0 - B0) * sP z m.
Definition Hm (s : bool) (m : nat) : R := (if s then A0 * sC z m - A0 * sE z m + B0 * (sC z m - sD z m) else B0 * sC z m - A0 * sE z m) - dd * (A0 - B0) * sF z m.
Definition state (s : bool) (m : nat) (c : temme) : Prop :=
  t_index c = INR m + 1 /\ t_coeff c * t_p c = pm s m /\ t_coeff c * t_q c = qm s m /\ t_coeff c * t_f c = fm m /\ t_kv c = Sm m /\ t_kvp1 c = Hm s m.
Lemma tb_S : forall m, tb z (S m) = tb z m * (z * z) / (2 * INR (S m) * (2 * INR (S m) + 1)).
Proof.
  intro m. pose proof (tb_a z (S m)) as H1. pose proof (tb_a z m) as H2. rewrite ta_S, <- H2 in H1. rewrite S_INR in *. pose proof (pos_INR m). apply (Rmult_eq_reg_r (2 * (INR m + 1) + 1)); [|lra]. rewrite H1. field. repeat split; lra.
Qed.
Lemma body_state : forall s m c, t_stop c = false -> state s m c -> state s (S m) (temme_body (half s) z c) /\
  t_stop (temme_body (half s) z c) = (Rltb (Rabs (fm (S m))) (Rabs (Sm (S m)) * eps) || Rltb (INR max_iterations) (INR (S m) + 1)).
Proof.
  intros s m c N (I & P & Q & F & K & H). unfold temme_body. rewrite N, I, (half_sq s). pose proof (pos_INR m) as M0. pose proof (S_INR m) as SI. set (i := INR m + 1) in *. assert (I1 : 1 <= i) by (unfold i; lra). assert (HS := half_sq s).
  assert (DD : i * i - 1 / 4 <> 0) by nra. assert (D1 : i - half s <> 0) by (destruct s; cbn; lra). assert (D2 : i + half s <> 0) by (destruct s; cbn; lra).
  set (c' := t_coeff c * (z * z) / (4 * i)). assert (P' : c' * (t_p c / (i - half s)) = pm s (S m)).
  { replace (c' * (t_p c / (i - half s))) with (t_coeff c * t_p c * (z * z) / (4 * i * (i - half s))) by (unfold c'; field; lra). rewrite P. unfold pm. destruct s; cbn [half] in *; [rewrite ta_S|rewrite tb_S]; rewrite SI; field; lra. }
  assert (Q' : c' * (t_q c / (i + half s)) = qm s (S m)).
  { replace (c' * (t_q c / (i + half s))) with (t_coeff c * t_q c * (z * z) / (4 * i * (i + half s))) by (unfold c'; field; lra). rewrite Q. unfold qm. destruct s; cbn [half] in *; [rewrite tb_S|rewrite ta_S]; rewrite SI; field; lra. }
  assert (F' : c' * ((i * t_f c + t_p c + t_q c) / (i * i - 1 / 4)) = fm (S m)).
  { replace (c' * ((i * t_f c + t_p c + t_q c) / (i * i - 1 / 4))) with ((i * (t_coeff c * t_f c) + t_coeff c * t_p c + t_coeff c * t_q c) * (z * z) / (4 * i * (i * i - 1 / 4))) by (unfold c'; field; split; lra).
    rewrite P, Q, F. unfold fm. rewrite ta_S, tb_S. cbn [tp]. rewrite SI. assert (W : 4 * (i * i) - 1 <> 0) by lra. assert (W2 : i * i * 4 - 1 <> 0) by lra. assert (W1 : 2 * i - 1 <> 0) by lra. assert (W3 : 2 * i + 1 <> 0) by lra. destruct s; unfold pm, qm; field; repeat split; lra. }
  assert (KV : t_kv c + c' * ((i * t_f c + t_p c + t_q c) / (i * i - 1 / 4)) = Sm (S m)) by (rewrite F', K; unfold Sm, fm, sC, sD, sP; cbn [sum_f_R0]; ring).
  cbn [t_stop]. rewrite KV, F'. split; [|rewrite SI; reflexivity]. unfold state. cbn [t_index t_coeff t_p t_q t_f t_kv t_kvp1]. repeat split; try assumption; [rewrite SI; reflexivity|].
  replace (c' * (t_p c / (i - half s) - i * ((i * t_f c + t_p c + t_q c) / (i * i - 1 / 4)))) with (c' * (t_p c / (i - half s)) - i * (c' * ((i * t_f c + t_p c + t_q c) / (i * i - 1 / 4)))) by ring. rewrite P', F', H. unfold Hm, sC, sD, sE, sF. cbn [sum_f_R0]. pose proof (tb_a z (S m)) as TA. rewrite SI in *. set (a := ta z (S m)) in *. set (b := tb z (S m)) in *. unfold pm, fm. fold a b. destruct s; rewrite <- TA; ring.
Qed.
Lemma init_state : forall s, state s 0 (temme_init (half s) z).
Proof.
  intro s. rewrite init_half. unfold state. cbn [t_index t_coeff t_p t_q t_f t_kv t_kvp1]. unfold pm, qm, fm, Sm, Hm, sC, sD, sE, sP, sF, f0. cbn [sum_f_R0]. change (INR 0) with 0. assert (TA : ta z 0 = 1) by (unfold ta; cbn; field). assert (TB : tb z 0 = 1) by (unfold tb; cbn; field). rewrite TA, TB. cbn [tp]. repeat split; destruct s; ring.
Qed.
Lemma loop_end : forall s, exists m c, while_loop max_iterations (fun c => negb (t_stop c)) (temme_body (half s) z) (temme_init (half s) z) = c /\ state s (S m) c /\
  (Rabs (fm (S m)) <= Rabs (Sm (S m)) * eps \/ (999 <= m)%nat).
Proof.
  intro s. destruct (while_iter temme (fun c => negb (t_stop c)) (temme_body (half s) z) max_iterations (temme_init (half s) z)) as (m & E & B & D). rewrite E.
  assert (G : forall j, (j <= m)%nat -> state s j (iter j (temme_body (half s) z) (temme_init (half s) z)) /\ (forall k, j = S k -> t_stop (iter j (temme_body (half s) z) (temme_init (half s) z)) = (Rltb (Rabs (fm j)) (Rabs (Sm j) * eps) || Rltb (INR max_iterations) (INR j + 1)))).
  { induction j as [|j IH]; intro J; [split; [apply init_state|intros k K; discriminate K]|]. destruct (IH ltac:(lia)) as [S _]. pose proof (B j ltac:(lia)) as N. apply negb_true_iff in N. cbn [iter]. pose proof (body_state s j _ N S) as [S' T']. split; [exact S'|]. intros k _. exact T'. }
  destruct m as [|m].
  - destruct D as [D|D]; [discriminate D|]. cbn [iter] in D. rewrite init_half in D. discriminate D.
  - exists m, (iter (S m) (temme_body (half s) z) (temme_init (half s) z)). split; [reflexivity|]. destruct (G (S m) (le_n _)) as [S T']. split; [exact S|]. specialize (T' m eq_refl). destruct D as [D|D]; [right; injection D as ->; lia|].
    apply negb_false_iff in D. rewrite T' in D. apply orb_true_iff in D. destruct D as [D|D].
    + left. destruct (Rltb_spec (Rabs (fm (Datatypes.S m))) (Rabs (Sm (Datatypes.S m)) * eps)) as [l|l]; [left; exact l|discriminate D].
    + right. destruct (Rltb_spec (INR max_iterations) (INR (Datatypes.S m) + 1)) as [l|l]; [|discriminate D]. rewrite <- S_INR in l. apply INR_lt in l. unfold max_iterations in l. lia.
Qed.
End Z.
