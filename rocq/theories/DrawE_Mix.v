(** An exponential profile as a mixture of Gaussians: the integrals over the widths. *)
From Coq Require Import ZArith Reals Lra Lia.
From Coquelicot Require Import Coquelicot.
From Verif Require Import Size_FT DrawF_Gauss.
Open Scope R_scope.
Local Ltac req := match goal with |- ?a = ?b => change (@eq R a b) end.
Definition dn (n : nat) : R := / (INR n + 1).
Definition tn (n : nat) : R := INR n + 1.
Definition Gs : R := sqrt (PI / 2).
Lemma tn_ge : forall n, 1 <= tn n. Proof. intro n. unfold tn. pose proof (pos_INR n). lra. Qed.
Lemma dn_pos : forall n, 0 < dn n <= 1.
Proof. intro n. pose proof (tn_ge n) as T. unfold dn. fold (tn n). split; [apply Rinv_0_lt_compat; lra|]. rewrite <- Rinv_1. apply Rinv_le_contravar; lra. Qed.
Lemma dn_tn : forall n, dn n <= tn n. Proof. intro n. pose proof (tn_ge n). pose proof (dn_pos n). lra. Qed.
Lemma tn_lim : is_lim_seq tn p_infty.
Proof. unfold tn. apply (is_lim_seq_plus _ _ p_infty 1 p_infty); [apply is_lim_seq_INR|apply is_lim_seq_const|reflexivity]. Qed.
Lemma dn_lim : is_lim_seq dn 0.
Proof. unfold dn. apply (is_lim_seq_inv tn p_infty); [exact tn_lim|discriminate]. Qed.
Lemma Gs_pos : 0 < Gs. Proof. apply sqrt_lt_R0. pose proof PI_RGT_0. lra. Qed.

(** an integral over all positive widths, as a limit from below *)
Lemma widths : forall (f A : R -> R) (l : R), (forall t, 0 < t -> is_derive A t (f t)) -> (forall t, 0 < t -> continuous f t) -> (forall t, 0 < t -> 0 <= f t) -> is_lim_seq (fun n => A (tn n) - A (dn n)) l ->
  (forall n, ex_RInt f (dn n) (tn n)) /\ is_lim_seq (fun n => RInt f (dn n) (tn n)) l /\ forall n, RInt f (dn n) (tn n) <= l.
Proof.
  intros f A l HD HC HP HL.
  assert (X : forall a b, 0 < a -> a <= b -> ex_RInt f a b). { intros a b A0 AB. apply (@ex_RInt_continuous R_CompleteNormedModule). intros z Z. rewrite Rmin_left in Z by exact AB. apply HC. lra. }
  assert (E : forall n, RInt f (dn n) (tn n) = A (tn n) - A (dn n)).
  { intro n. pose proof (dn_pos n) as D. pose proof (dn_tn n) as DT. apply is_RInt_unique. apply (is_RInt_derive A f); intros z Z; rewrite Rmin_left in Z by exact DT; [apply HD|apply HC]; lra. }
  assert (LM : is_lim_seq (fun n => RInt f (dn n) (tn n)) l) by (apply (is_lim_seq_ext (fun n => A (tn n) - A (dn n))); [intro n; rewrite E; reflexivity|exact HL]).
  split; [intro n; apply X; [apply dn_pos|apply dn_tn]|]. split; [exact LM|].
  intro n. apply (is_lim_seq_incr_compare (fun n => RInt f (dn n) (tn n)) l LM). clear n. intro n.
  pose proof (dn_pos n) as D. pose proof (dn_pos (S n)) as D'. pose proof (dn_tn n) as DT. assert (T' : tn n <= tn (S n)) by (unfold tn; rewrite S_INR; lra). assert (DD : dn (S n) <= dn n) by (unfold dn; fold (tn n); fold (tn (S n)); pose proof (tn_ge n); apply Rinv_le_contravar; lra).
  pose proof (RInt_Chasles f (dn (S n)) (dn n) (tn n) (X (dn (S n)) (dn n) ltac:(lra) DD) (X (dn n) (tn n) ltac:(lra) DT)) as C1. pose proof (RInt_Chasles f (dn (S n)) (tn n) (tn (S n)) (X (dn (S n)) (tn n) ltac:(lra) ltac:(lra)) (X (tn n) (tn (S n)) ltac:(pose proof (tn_ge n); lra) T')) as C2.
  assert (P1 : 0 <= RInt f (dn (S n)) (dn n)) by (apply RInt_ge_0; [exact DD|apply X; lra|intros t T; apply HP; lra]). assert (P2 : 0 <= RInt f (tn n) (tn (S n))) by (apply RInt_ge_0; [exact T'|apply X; pose proof (tn_ge n); lra|intros t T; apply HP; pose proof (tn_ge n); lra]).
  change (RInt f (dn (S n)) (dn n) + RInt f (dn n) (tn n) = RInt f (dn (S n)) (tn n)) in C1. change (RInt f (dn (S n)) (tn n) + RInt f (tn n) (tn (S n)) = RInt f (dn (S n)) (tn (S n))) in C2. lra.
Qed.
Lemma gg_seq : forall u, is_lim_seq u p_infty -> is_lim_seq (fun n => gg (u n)) Gs.
Proof. intros u U. apply (is_lim_comp_seq gg u p_infty _ gg_lim); [exists 0%nat; intros; discriminate|exact U]. Qed.
Lemma gg_seq0 : forall u, is_lim_seq u 0 -> is_lim_seq (fun n => gg (u n)) 0.
Proof. intros u U. replace (Finite 0) with (Finite (gg 0)) by (f_equal; exact (@RInt_point R_CompleteNormedModule 0 g1)). apply is_lim_seq_continuous; [|exact U]. apply continuity_pt_filterlim. apply (@ex_derive_continuous R_AbsRing R_NormedModule). exists (g1 0). apply gg_derive. Qed.
Lemma lim_le0 : forall (u v : nat -> R), (forall n, 0 <= u n <= v n) -> is_lim_seq v 0 -> is_lim_seq u 0.
Proof. intros u v H V. apply (is_lim_seq_le_le (fun _ => 0) u v); [exact H|apply is_lim_seq_const|exact V]. Qed.
Lemma lim_c0 : forall c u, is_lim_seq u 0 -> is_lim_seq (fun n => c * u n) 0.
Proof. intros c u U. replace (Finite 0) with (Rbar_mult c 0) by (cbn; f_equal; ring). apply is_lim_seq_scal_l, U. Qed.
Lemma lim_cinf : forall c u, 0 < c -> is_lim_seq u p_infty -> is_lim_seq (fun n => c * u n) p_infty.
Proof. intros c u C U. apply (is_lim_seq_mult _ _ c p_infty p_infty); [apply is_lim_seq_const|exact U|]. apply is_Rbar_mult_sym, is_Rbar_mult_p_infty_pos. exact C. Qed.

Section Widths.
  Variable c : R.
  Hypothesis CP : 0 < c.
  Lemma ct_inf : is_lim_seq (fun n => c * tn n) p_infty. Proof using CP. apply lim_cinf; [exact CP|exact tn_lim]. Qed.
  Lemma cd_0 : is_lim_seq (fun n => c * dn n) 0. Proof using Type. apply lim_c0, dn_lim. Qed.
  Lemma width0 : (forall n, ex_RInt (fun t => g1 (c * t)) (dn n) (tn n)) /\ is_lim_seq (fun n => RInt (fun t => g1 (c * t)) (dn n) (tn n)) (Gs / c) /\ forall n, RInt (fun t => g1 (c * t)) (dn n) (tn n) <= Gs / c.
  Proof using CP.
    apply (widths (fun t => g1 (c * t)) (fun t => gg (c * t) / c)).
    - intros t _. auto_derive; [exists (g1 (c * t)); apply gg_derive|]. replace (Derive (fun x => gg x) (c * t)) with (g1 (c * t)) by (symmetry; apply is_derive_unique, gg_derive). field. lra.
    - intros t _. apply (@ex_derive_continuous R_AbsRing R_NormedModule). unfold g1. auto_derive. trivial.
    - intros t _. left. apply exp_pos.
    - apply (is_lim_seq_ext (fun n => / c * gg (c * tn n) - / c * gg (c * dn n))); [intro n; req; field; lra|]. replace (Gs / c) with (/ c * Gs - 0) by (field; lra). apply is_lim_seq_minus'; [apply (is_lim_seq_scal_l _ (/ c) Gs), gg_seq, ct_inf|apply lim_c0, gg_seq0, cd_0].
  Qed.
  Lemma g1_small : forall x, 1 <= x -> x * g1 x <= 4096 / x /\ x ^ 3 * g1 x <= 4096 / x.
  Proof using Type.
    intros x X. assert (E : g1 x <= 4096 / x ^ 8). { unfold g1. rewrite exp_Ropp. assert (0 < x ^ 8) by (apply pow_lt; lra). replace (4096 / x ^ 8) with (/ (x ^ 8 / 4096)) by (field; lra). apply Rinv_le_contravar; [lra|].
      replace (x * x / 2) with (INR 4 * (x * x / 8)) by (cbn [INR]; field). rewrite <- exp_pow. replace (x ^ 8 / 4096) with ((x * x / 8) ^ 4) by field. apply pow_incr. pose proof (exp_ineq1_le (x * x / 8)). nra. }
    assert (Q : forall k, 1 <= x ^ k) by (intro k; apply pow_R1_Rle; exact X).
    assert (F : forall k, (k <= 7)%nat -> x ^ k * g1 x <= 4096 / x). { intros k K. apply Rle_trans with (x ^ k * (4096 / x ^ 8)); [apply Rmult_le_compat_l; [specialize (Q k); lra|exact E]|]. replace 8%nat with (k + (S (7 - k)))%nat by lia. rewrite pow_add. cbn [pow]. pose proof (Q k). pose proof (Q (7 - k)%nat). replace (x ^ k * (4096 / (x ^ k * (x * x ^ (7 - k))))) with (4096 / x * / x ^ (7 - k)) by (field; lra). rewrite <- (Rmult_1_r (4096 / x)) at 2. apply Rmult_le_compat_l; [apply Rdiv_le_0_compat; lra|]. rewrite <- Rinv_1. apply Rinv_le_contravar; lra. }
    split; [|apply F; lia]. pose proof (F 1%nat ltac:(lia)) as F1. rewrite pow_1 in F1. exact F1.
  Qed.
  Lemma width2 : (forall n, ex_RInt (fun t => t ^ 2 * g1 (c * t)) (dn n) (tn n)) /\ is_lim_seq (fun n => RInt (fun t => t ^ 2 * g1 (c * t)) (dn n) (tn n)) (Gs / c ^ 3) /\ forall n, RInt (fun t => t ^ 2 * g1 (c * t)) (dn n) (tn n) <= Gs / c ^ 3.
  Proof using CP.
    apply (widths (fun t => t ^ 2 * g1 (c * t)) (fun t => gg (c * t) / c ^ 3 - t / c ^ 2 * g1 (c * t))).
    - intros t _. unfold g1. auto_derive; [repeat split; exists (g1 (c * t)); apply gg_derive|]. replace (Derive (fun x => gg x) (c * t)) with (g1 (c * t)) by (symmetry; apply is_derive_unique, gg_derive). unfold g1. cbn [pow]. unfold Rdiv. field. lra.
    - intros t _. apply (@ex_derive_continuous R_AbsRing R_NormedModule). unfold g1. auto_derive. trivial.
    - intros t _. apply Rmult_le_pos; [apply pow2_ge_0|left; apply exp_pos].
    - assert (EN : is_lim_seq (fun n => dn n / c ^ 2 * g1 (c * dn n)) 0).
      { apply (lim_le0 _ (fun n => / c ^ 2 * dn n)); [|apply lim_c0, dn_lim]. intro n. pose proof (dn_pos n). pose proof (exp_pos (- (c * dn n * (c * dn n) / 2))) as E. assert (0 < / c ^ 2) by (apply Rinv_0_lt_compat, pow_lt; exact CP). fold (g1 (c * dn n)) in E. assert (g1 (c * dn n) <= 1). { unfold g1. rewrite <- exp_0. apply exp_le_of. pose proof (Rle_0_sqr (c * dn n)) as Q. unfold Rsqr in Q. lra. }
        unfold Rdiv. assert (0 < dn n * / c ^ 2) by (apply Rmult_lt_0_compat; lra). split; [apply Rmult_le_pos; lra|]. rewrite (Rmult_comm (/ c ^ 2)). rewrite <- (Rmult_1_r (dn n * / c ^ 2)) at 2. apply Rmult_le_compat_l; lra. }
      assert (ET : is_lim_seq (fun n => tn n / c ^ 2 * g1 (c * tn n)) 0).
      { assert (IN : is_lim_seq (fun n => 4096 / c ^ 3 * (/ c * dn n)) 0) by (apply lim_c0, lim_c0, dn_lim). destruct (proj2 (is_lim_seq_spec _ _) ct_inf 1) as [N0 HN].
        apply (is_lim_seq_le_le_loc (fun _ => 0) _ (fun n => 4096 / c ^ 3 * (/ c * dn n))); [|apply is_lim_seq_const|exact IN]. exists N0. intros n H. specialize (HN n H). pose proof (tn_ge n) as T. pose proof (exp_pos (- (c * tn n * (c * tn n) / 2))) as E. fold (g1 (c * tn n)) in E. assert (I2 : 0 < / c ^ 2) by (apply Rinv_0_lt_compat, pow_lt; exact CP). assert (I3 : 0 < / c ^ 3) by (apply Rinv_0_lt_compat, pow_lt; exact CP).
        split; [unfold Rdiv; apply Rmult_le_pos; [apply Rmult_le_pos; lra|lra]|]. destruct (g1_small (c * tn n)) as [G _]; [lra|]. replace (tn n / c ^ 2 * g1 (c * tn n)) with (/ c ^ 3 * (c * tn n * g1 (c * tn n))) by (field; lra). replace (4096 / c ^ 3 * (/ c * dn n)) with (/ c ^ 3 * (4096 / (c * tn n))) by (unfold dn; fold (tn n); field; lra). apply Rmult_le_compat_l; lra. }
      apply (is_lim_seq_ext (fun n => (/ c ^ 3 * gg (c * tn n) - tn n / c ^ 2 * g1 (c * tn n)) - (/ c ^ 3 * gg (c * dn n) - dn n / c ^ 2 * g1 (c * dn n)))); [intro n; req; field; lra|]. replace (Gs / c ^ 3) with ((/ c ^ 3 * Gs - 0) - (0 - 0)) by (field; lra).
      apply is_lim_seq_minus'; apply is_lim_seq_minus'; [apply (is_lim_seq_scal_l _ (/ c ^ 3) Gs), gg_seq, ct_inf|exact ET|apply lim_c0, gg_seq0, cd_0|exact EN].
  Qed.
End Widths.

(** * Widths seen from a distance r *)
Definition Et (r t : R) : R := exp (- ((t * t + r * r / (t * t)) / 2)).
Section Dist.
  Variable r : R.
  Hypothesis RP : 0 < r.
  Lemma Et_pos : forall t, 0 < Et r t. Proof using Type. intro. apply exp_pos. Qed.
  Lemma Et_p : forall t, 0 < t -> g1 (t + r / t) = exp (- r) * Et r t.
  Proof using Type. intros t T. unfold g1, Et. rewrite <- exp_plus. f_equal. field. lra. Qed.
  Lemma Et_m : forall t, 0 < t -> g1 (t - r / t) = exp r * Et r t.
  Proof using Type. intros t T. unfold g1, Et. rewrite <- exp_plus. f_equal. field. lra. Qed.
  Definition F0 (t : R) : R := (exp r * gg (t + r / t) + exp (- r) * gg (t - r / t)) / 2.
  Definition F2 (t : R) : R := (exp (- r) * gg (t - r / t) - exp r * gg (t + r / t)) / 2.
  Lemma ee : exp r * exp (- r) = 1. Proof using Type. rewrite <- exp_plus, Rplus_opp_r. apply exp_0. Qed.
  Lemma gg_comp : forall (u : R -> R) t d, is_derive u t d -> is_derive (fun t => gg (u t)) t (d * g1 (u t)).
  Proof using Type. intros u t d U. apply (is_derive_comp gg u t (g1 (u t)) d); [apply gg_derive|exact U]. Qed.
  Lemma up_d : forall t, 0 < t -> is_derive (fun t => gg (t + r / t)) t ((1 - r / (t * t)) * g1 (t + r / t)).
  Proof using Type. intros t T. apply (gg_comp (fun t => t + r / t)). auto_derive; [lra|]. field. lra. Qed.
  Lemma um_d : forall t, 0 < t -> is_derive (fun t => gg (t - r / t)) t ((1 + r / (t * t)) * g1 (t - r / t)).
  Proof using Type. intros t T. apply (gg_comp (fun t => t - r / t)). auto_derive; [lra|]. field. lra. Qed.
  Lemma F0_d : forall t, 0 < t -> is_derive F0 t (Et r t).
  Proof using Type.
    intros t T. unfold F0. pose proof (is_derive_plus _ _ _ _ _ (is_derive_scal _ t (exp r) _ (up_d t T)) (is_derive_scal _ t (exp (- r)) _ (um_d t T))) as P. apply (is_derive_scal _ t (/ 2)) in P. eapply is_derive_ext; [intro u|match type of P with is_derive _ _ ?v => replace (Et r t) with v end; [exact P|]].
    - cbn. unfold plus; cbn. req. field.
    - rewrite Et_p, Et_m by exact T. unfold plus; cbn. unfold scal; cbn. unfold mult; cbn. pose proof ee as E. set (A := Et r t). set (q := r / (t * t)). match goal with |- ?l = _ => replace l with (/ 2 * ((1 - q) * (exp r * exp (- r)) * A + (1 + q) * (exp r * exp (- r)) * A)) by ring end. rewrite E. req. field.
  Qed.
  Lemma F2_d : forall t, 0 < t -> is_derive F2 t (r / (t * t) * Et r t).
  Proof using Type.
    intros t T. unfold F2. pose proof (is_derive_minus _ _ _ _ _ (is_derive_scal _ t (exp (- r)) _ (um_d t T)) (is_derive_scal _ t (exp r) _ (up_d t T))) as P. apply (is_derive_scal _ t (/ 2)) in P. eapply is_derive_ext; [intro u|match type of P with is_derive _ _ ?v => replace (r / (t * t) * Et r t) with v end; [exact P|]].
    - cbn. unfold minus, plus, opp; cbn. req. field.
    - rewrite Et_p, Et_m by exact T. unfold minus, plus, opp; cbn. unfold scal; cbn. unfold mult; cbn. pose proof ee as E. set (A := Et r t). set (q := r / (t * t)). match goal with |- ?l = _ => replace l with (/ 2 * ((1 + q) * (exp r * exp (- r)) * A - (1 - q) * (exp r * exp (- r)) * A)) by ring end. rewrite E. req. field.
  Qed.
  Definition A2 (t : R) : R := F0 t + r * F2 t - t * Et r t.
  Definition A4 (t : R) : R := 3 * A2 t + r ^ 2 * F0 t - t ^ 3 * Et r t.
  Lemma Et_d : forall t, 0 < t -> is_derive (Et r) t ((r * r / (t * t * t) - t) * Et r t).
  Proof using Type. intros t T. unfold Et. auto_derive; [apply Rmult_integral_contrapositive; lra|]. unfold Rdiv. field. lra. Qed.
  Lemma A2_d : forall t, 0 < t -> is_derive A2 t (t ^ 2 * Et r t).
  Proof using Type.
    intros t T. pose proof (is_derive_plus _ _ _ _ _ (F0_d t T) (is_derive_scal _ t r _ (F2_d t T))) as P. pose proof (is_derive_mult (fun t => t) (Et r) t 1 _ (is_derive_id t) (Et_d t T) Rmult_comm) as Q. pose proof (is_derive_minus _ _ _ _ _ P Q) as S0. eapply is_derive_ext; [intro u|match type of S0 with is_derive _ _ ?v => replace (t ^ 2 * Et r t) with v end; [exact S0|]].
    - unfold A2. cbn. unfold minus, plus, opp; cbn. unfold mult; cbn. req. ring.
    - unfold minus, plus, opp; cbn. unfold scal; cbn. unfold mult; cbn. req. field. lra.
  Qed.
  Lemma A4_d : forall t, 0 < t -> is_derive A4 t (t ^ 4 * Et r t).
  Proof using Type.
    intros t T. pose proof (is_derive_plus _ _ _ _ _ (is_derive_scal _ t 3 _ (A2_d t T)) (is_derive_scal _ t (r ^ 2) _ (F0_d t T))) as P. assert (C3 : is_derive (fun t => t ^ 3) t (3 * t ^ 2)) by (auto_derive; [trivial|ring]). pose proof (is_derive_mult (fun t => t ^ 3) (Et r) t _ _ C3 (Et_d t T) Rmult_comm) as Q. pose proof (is_derive_minus _ _ _ _ _ P Q) as S0. eapply is_derive_ext; [intro u|match type of S0 with is_derive _ _ ?v => replace (t ^ 4 * Et r t) with v end; [exact S0|]].
    - unfold A4. cbn [pow]. unfold minus, plus, opp; cbn. unfold mult; cbn. req. ring.
    - unfold minus, plus, opp; cbn. unfold scal; cbn. unfold mult; cbn. req. field. lra.
  Qed.
  Lemma r_dn : forall n, r / dn n = r * tn n. Proof using Type. intro n. unfold dn. fold (tn n). pose proof (tn_ge n). field. lra. Qed.
  Lemma r_tn : forall n, r / tn n = r * dn n. Proof using Type. intro n. reflexivity. Qed.
  Lemma rt_inf : is_lim_seq (fun n => r * tn n) p_infty. Proof using RP. apply lim_cinf; [exact RP|exact tn_lim]. Qed.
  Lemma rd_0 : is_lim_seq (fun n => r * dn n) 0. Proof using Type. apply lim_c0, dn_lim. Qed.
  Lemma up_t : is_lim_seq (fun n => gg (tn n + r / tn n)) Gs.
  Proof using Type. apply gg_seq. apply (is_lim_seq_plus tn _ p_infty 0 p_infty); [exact tn_lim|exact rd_0|reflexivity]. Qed.
  Lemma up_0 : is_lim_seq (fun n => gg (dn n + r / dn n)) Gs.
  Proof using RP. apply gg_seq. apply (is_lim_seq_ext (fun n => dn n + r * tn n)); [intro n; rewrite r_dn; reflexivity|]. apply (is_lim_seq_plus dn _ 0 p_infty p_infty); [exact dn_lim|exact rt_inf|reflexivity]. Qed.
  Lemma um_t : is_lim_seq (fun n => gg (tn n - r / tn n)) Gs.
  Proof using Type. apply gg_seq. apply (is_lim_seq_minus tn _ p_infty 0 p_infty); [exact tn_lim|exact rd_0|reflexivity]. Qed.
  Lemma um_0 : is_lim_seq (fun n => gg (dn n - r / dn n)) (- Gs).
  Proof using RP.
    apply (is_lim_seq_ext (fun n => - gg (r * tn n - dn n))); [intro n; rewrite r_dn, <- gg_odd; f_equal; ring|]. apply (is_lim_seq_opp _ Gs). apply gg_seq. apply (is_lim_seq_minus _ dn p_infty 0 p_infty); [exact rt_inf|exact dn_lim|reflexivity].
  Qed.
  Lemma lin2 : forall a b (u v : nat -> R) (x y : R), is_lim_seq u x -> is_lim_seq v y -> is_lim_seq (fun n => a * u n + b * v n) (a * x + b * y).
  Proof using Type. intros a b u v x y U V. apply is_lim_seq_plus'; [apply (is_lim_seq_scal_l u a x U)|apply (is_lim_seq_scal_l v b y V)]. Qed.
  Lemma F0_l : is_lim_seq (fun n => F0 (tn n) - F0 (dn n)) (Gs * exp (- r)).
  Proof using RP.
    apply (is_lim_seq_ext (fun n => (exp r / 2 * gg (tn n + r / tn n) + exp (- r) / 2 * gg (tn n - r / tn n)) - (exp r / 2 * gg (dn n + r / dn n) + exp (- r) / 2 * gg (dn n - r / dn n)))); [intro n; unfold F0; req; field; pose proof (tn_ge n); pose proof (dn_pos n); lra|].
    replace (Gs * exp (- r)) with ((exp r / 2 * Gs + exp (- r) / 2 * Gs) - (exp r / 2 * Gs + exp (- r) / 2 * - Gs)) by field. apply is_lim_seq_minus'; apply lin2; [apply up_t|apply um_t|apply up_0|apply um_0].
  Qed.
  Lemma F2_l : is_lim_seq (fun n => F2 (tn n) - F2 (dn n)) (Gs * exp (- r)).
  Proof using RP.
    apply (is_lim_seq_ext (fun n => (- exp r / 2 * gg (tn n + r / tn n) + exp (- r) / 2 * gg (tn n - r / tn n)) - (- exp r / 2 * gg (dn n + r / dn n) + exp (- r) / 2 * gg (dn n - r / dn n)))); [intro n; unfold F2; req; field; pose proof (tn_ge n); pose proof (dn_pos n); lra|].
    replace (Gs * exp (- r)) with ((- exp r / 2 * Gs + exp (- r) / 2 * Gs) - (- exp r / 2 * Gs + exp (- r) / 2 * - Gs)) by field. apply is_lim_seq_minus'; apply lin2; [apply up_t|apply um_t|apply up_0|apply um_0].
  Qed.
  Lemma Et_le : forall t, 0 < t -> Et r t <= g1 t /\ Et r t <= 1.
  Proof using Type.
    intros t T. assert (Q : 0 <= r * r / (t * t)) by (apply Rdiv_le_0_compat; nra). split; [unfold Et, g1; apply exp_le_of; lra|]. unfold Et. rewrite <- exp_0. apply exp_le_of. nra.
  Qed.
  Lemma edge : forall k, (k = 1 \/ k = 3)%nat -> is_lim_seq (fun n => tn n ^ k * Et r (tn n)) 0 /\ is_lim_seq (fun n => dn n ^ k * Et r (dn n)) 0.
  Proof using Type.
    intros k K. split.
    - apply (lim_le0 _ (fun n => 4096 * dn n)); [|apply lim_c0, dn_lim]. intro n. pose proof (tn_ge n) as T. destruct (Et_le (tn n) ltac:(lra)) as [E _]. pose proof (Et_pos (tn n)) as P. pose proof (pow_lt (tn n) k ltac:(lra)) as PK. split; [apply Rmult_le_pos; lra|]. apply Rle_trans with (tn n ^ k * g1 (tn n)); [apply Rmult_le_compat_l; lra|]. change (4096 * dn n) with (4096 / tn n). destruct (g1_small (tn n) T) as [G1 G3]. destruct K as [-> | ->]; [rewrite pow_1; exact G1|exact G3].
    - apply (lim_le0 _ dn); [|apply dn_lim]. intro n. pose proof (dn_pos n) as D. destruct (Et_le (dn n) ltac:(lra)) as [_ E]. pose proof (Et_pos (dn n)) as P. pose proof (pow_lt (dn n) k ltac:(lra)) as PK. split; [apply Rmult_le_pos; lra|]. assert (dn n ^ k <= dn n) by (destruct K as [-> | ->]; [rewrite pow_1; lra|cbn [pow]; nra]). nra.
  Qed.
  Lemma Et_c : forall k t, 0 < t -> continuous (fun t => t ^ k * Et r t) t.
  Proof using Type. intros k t T. apply (@ex_derive_continuous R_AbsRing R_NormedModule). unfold Et. auto_derive. apply Rmult_integral_contrapositive; lra. Qed.
  Lemma dist0 : (forall n, ex_RInt (fun t => t ^ 0 * Et r t) (dn n) (tn n)) /\ is_lim_seq (fun n => RInt (fun t => t ^ 0 * Et r t) (dn n) (tn n)) (Gs * exp (- r)) /\ forall n, RInt (fun t => t ^ 0 * Et r t) (dn n) (tn n) <= Gs * exp (- r).
  Proof using RP. apply (widths _ F0); [intros t T; cbn [pow]; rewrite Rmult_1_l; apply F0_d, T|apply Et_c|intros t T; apply Rmult_le_pos; [apply pow_le; lra|left; apply Et_pos]|exact F0_l]. Qed.
  Lemma A2_l : is_lim_seq (fun n => A2 (tn n) - A2 (dn n)) (Gs * exp (- r) * (1 + r)).
  Proof using RP.
    destruct (edge 1 ltac:(left; reflexivity)) as [ET ED]. apply (is_lim_seq_ext (fun n => (1 * (F0 (tn n) - F0 (dn n)) + r * (F2 (tn n) - F2 (dn n))) - (tn n ^ 1 * Et r (tn n) - dn n ^ 1 * Et r (dn n)))); [intro n; unfold A2; rewrite !pow_1; req; ring|].
    replace (Gs * exp (- r) * (1 + r)) with ((1 * (Gs * exp (- r)) + r * (Gs * exp (- r))) - (0 - 0)) by ring. apply is_lim_seq_minus'; [apply lin2; [apply F0_l|apply F2_l]|apply is_lim_seq_minus'; assumption].
  Qed.
  Lemma dist2 : (forall n, ex_RInt (fun t => t ^ 2 * Et r t) (dn n) (tn n)) /\ is_lim_seq (fun n => RInt (fun t => t ^ 2 * Et r t) (dn n) (tn n)) (Gs * exp (- r) * (1 + r)) /\ forall n, RInt (fun t => t ^ 2 * Et r t) (dn n) (tn n) <= Gs * exp (- r) * (1 + r).
  Proof using RP. apply (widths _ A2); [intros t T; apply A2_d, T|apply Et_c|intros t T; apply Rmult_le_pos; [apply pow_le; lra|left; apply Et_pos]|exact A2_l]. Qed.
  Lemma dist4 : (forall n, ex_RInt (fun t => t ^ 4 * Et r t) (dn n) (tn n)) /\ is_lim_seq (fun n => RInt (fun t => t ^ 4 * Et r t) (dn n) (tn n)) (Gs * exp (- r) * (3 + 3 * r + r ^ 2)) /\ forall n, RInt (fun t => t ^ 4 * Et r t) (dn n) (tn n) <= Gs * exp (- r) * (3 + 3 * r + r ^ 2).
  Proof using RP.
    apply (widths _ A4); [intros t T; apply A4_d, T|apply Et_c|intros t T; apply Rmult_le_pos; [apply pow_le; lra|left; apply Et_pos]|].
    destruct (edge 3 ltac:(right; reflexivity)) as [ET ED]. apply (is_lim_seq_ext (fun n => (3 * (A2 (tn n) - A2 (dn n)) + r ^ 2 * (F0 (tn n) - F0 (dn n))) - (tn n ^ 3 * Et r (tn n) - dn n ^ 3 * Et r (dn n)))); [intro n; unfold A4; req; ring|].
    replace (Gs * exp (- r) * (3 + 3 * r + r ^ 2)) with ((3 * (Gs * exp (- r) * (1 + r)) + r ^ 2 * (Gs * exp (- r))) - (0 - 0)) by ring. apply is_lim_seq_minus'; [apply lin2; [apply A2_l|apply F0_l]|apply is_lim_seq_minus'; assumption].
  Qed.
End Dist.
