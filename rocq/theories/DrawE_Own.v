(** The errors of a drawn exponential profile with the profile's own maxk and stepk. *)
From Coq Require Import ZArith Reals Lra Lia.
From Coquelicot Require Import Coquelicot.
From Verif Require Import Base GSP_Model Size_Model Size_Proofs Size_Band DrawF_Gauss DrawF_Main DrawF_Num DrawE_Spec.
Open Scope R_scope.
Lemma cut_le : forall k, 0 < k -> expo_cut k <= 271 / 100 / k.
Proof.
  intros k K. unfold expo_cut. assert (I : 0 < / k) by (apply Rinv_0_lt_compat; exact K).
  assert (A : / sqrt (1 + k ^ 2) <= / k). { apply Rinv_le_contravar; [exact K|]. rewrite <- (sqrt_square k) at 1 by lra. apply sqrt_le_1_alt. nra. }
  assert (B : / sqrt (1 + 2 * k ^ 2) <= 71 / 100 * / k). { replace (71 / 100 * / k) with (/ (100 / 71 * k)) by (field; lra). apply Rinv_le_contravar; [lra|]. rewrite <- (sqrt_square (100 / 71 * k)) by lra. apply sqrt_le_1_alt. nra. }
  unfold Rdiv in *. lra.
Qed.
Lemma fold_le : forall h, 15 / 2 <= h -> expo_fold h <= 36 * exp (- h).
Proof.
  intros h H. unfold expo_fold. pose proof (exp_pos (- h)) as E.
  assert (A : 3 * (1 + h) / (2 * h ^ 2) <= 23 / 100). { assert (0 < 2 * h ^ 2) by nra. apply (Rmult_le_reg_r (2 * h ^ 2)); [lra|]. replace (3 * (1 + h) / (2 * h ^ 2) * (2 * h ^ 2)) with (3 * (1 + h)) by (field; lra). nra. }
  assert (B : (3 + 3 * h + h ^ 2) / (4 * h ^ 4) <= 1 / 100). { assert (P4 : 0 < 4 * h ^ 4) by (assert (0 < h ^ 4) by (apply pow_lt; lra); lra). apply (Rmult_le_reg_r (4 * h ^ 4)); [lra|]. replace ((3 + 3 * h + h ^ 2) / (4 * h ^ 4) * (4 * h ^ 4)) with (3 + 3 * h + h ^ 2) by (field; lra). assert (Q : 56 <= h ^ 2) by nra. replace (h ^ 4) with (h ^ 2 * h ^ 2) by ring. nra. }
  replace (16 * exp (- h) * (2 + 3 * (1 + h) / (2 * h ^ 2) + (3 + 3 * h + h ^ 2) / (4 * h ^ 4))) with (exp (- h) * (16 * (2 + 3 * (1 + h) / (2 * h ^ 2) + (3 + 3 * h + h ^ 2) / (4 * h ^ 4)))) by ring. rewrite (Rmult_comm 36). apply Rmult_le_compat_l; lra.
Qed.
Lemma own : forall p, 0 < ex_r0 p -> 0 < g_maxk (ex_gs p) -> 0 < g_fold (ex_gs p) < 1 -> 0 < g_hlr (ex_gs p) ->
  0 < ex_maxk p /\ 0 < ex_stepk p /\ (ex_maxk p * ex_r0 p) ^ 3 * g_maxk (ex_gs p) = 1 /\ g_hlr (ex_gs p) * (167 / 100) <= reach (ex_stepk p) / ex_r0 p.
Proof.
  intros p S T F HH.
  destruct (ex_step_radius p S F) as [M1 M2]. cbv zeta in M1, M2. pose proof (Rmax_r (ex_radius (g_fold (ex_gs p))) (g_hlr (ex_gs p) * ex_hlr_factor)) as MR. set (m := Rmax _ _) in *. set (t := g_maxk (ex_gs p)) in *.
  assert (C3 : Rpower t (- one_third) ^ 3 * t = 1). { cbn [pow]. rewrite Rmult_1_r. rewrite <- (Rpower_1 t) at 4 by lra. rewrite <- !Rpower_plus. replace (- one_third + (- one_third + - one_third) + 1) with 0 by (unfold one_third; field). now apply Rpower_O. }
  assert (CP : 0 < Rpower t (- one_third)) by apply Rpower_pos. assert (MK : ex_maxk p * ex_r0 p = Rpower t (- one_third)) by (unfold ex_maxk; fold t; rewrite jpow_pos by lra; field; lra).
  split; [unfold ex_maxk; fold t; rewrite jpow_pos by lra; apply Rdiv_lt_0_compat; assumption|]. split.
  - apply Rnot_le_lt. intro N. assert (0 < m * ex_r0 p) by (apply Rmult_lt_0_compat; lra). pose proof PI_RGT_0. destruct N as [N|N]; [|rewrite N in M2; unfold Rdiv in M2; rewrite Rinv_0, Rmult_0_r in M2; lra]. assert (/ ex_stepk p < 0) by (apply Rinv_lt_0_compat; exact N). assert (PI / ex_stepk p < 0) by (unfold Rdiv; nra). lra.
  - rewrite MK. split; [exact C3|]. unfold reach. rewrite M2. replace (m * ex_r0 p * (1 - / 1000000000000) / ex_r0 p) with (m * (1 - / 1000000000000)) by (field; lra). unfold ex_hlr_factor in MR. nra.
Qed.
Lemma own_default : forall p, 0 < ex_r0 p -> 0 < g_maxk (ex_gs p) <= 1 / 1000 -> 0 < g_fold (ex_gs p) < 1 -> 5 <= g_hlr (ex_gs p) ->
  0 < ex_maxk p /\ 0 < ex_stepk p /\ expo_fold (reach (ex_stepk p) / ex_r0 p) + expo_cut (ex_maxk p * ex_r0 p) <= 3 / 10.
Proof.
  intros p S T F L. destruct (own p S ltac:(lra) F ltac:(lra)) as (A & B & C & D). split; [exact A|]. split; [exact B|]. set (k := ex_maxk p * ex_r0 p) in *. assert (KP : 0 < k) by (apply Rmult_lt_0_compat; lra).
  assert (K10 : 10 <= k). { apply Rnot_lt_le. intro N. assert (k ^ 3 < 10 ^ 3) by (cbn [pow]; nra). assert (0 < k ^ 3) by (apply pow_lt; lra). nra. }
  pose proof (cut_le k KP) as CL. assert (271 / 100 / k <= 271 / 1000) by (apply (Rmult_le_reg_r k); [lra|]; replace (271 / 100 / k * k) with (271 / 100) by (field; lra); lra).
  set (h := reach (ex_stepk p) / ex_r0 p) in *. pose proof (fold_le h ltac:(lra)) as FL. pose proof (exp_small 33 h ltac:(rewrite INR_IZR_INZ; cbn [Z.of_nat Pos.of_succ_nat Pos.succ]; lra)) as E. assert (/ (5 / 4) ^ 33 <= 7 / 10000). { replace (7 / 10000) with (/ (10000 / 7)) by field. apply Rinv_le_contravar; lra. } lra.
Qed.
Lemma own_limit : forall eps, 0 < eps -> exists delta, 0 < delta /\ forall p, 0 < ex_r0 p -> 0 < g_maxk (ex_gs p) <= delta -> 0 < g_fold (ex_gs p) < 1 -> / delta <= g_hlr (ex_gs p) ->
  0 < ex_maxk p /\ 0 < ex_stepk p /\ expo_fold (reach (ex_stepk p) / ex_r0 p) + expo_cut (ex_maxk p * ex_r0 p) <= eps.
Proof.
  intros eps E. set (d1 := (eps / 6) ^ 3). set (d := Rmin d1 (Rmin (eps / 72) (1 / 8))). assert (D1 : 0 < d1) by (apply pow_lt; lra). assert (DP : 0 < d) by (unfold d; repeat apply Rmin_glb_lt; lra).
  assert (DA : d <= d1) by apply Rmin_l. assert (DB : d <= eps / 72) by (unfold d; eapply Rle_trans; [apply Rmin_r|apply Rmin_l]). assert (DC : d <= 1 / 8) by (unfold d; eapply Rle_trans; [apply Rmin_r|apply Rmin_r]).
  exists d. split; [exact DP|]. intros p S T F L. assert (I8 : 8 <= / d) by (replace 8 with (/ (1 / 8)) by field; apply Rinv_le_contravar; lra).
  destruct (own p S ltac:(lra) F ltac:(lra)) as (A & B & C & D). split; [exact A|]. split; [exact B|]. set (k := ex_maxk p * ex_r0 p) in *. set (t := g_maxk (ex_gs p)) in *. assert (KP : 0 < k) by (apply Rmult_lt_0_compat; lra).
  assert (K6 : 6 / eps <= k). { apply Rnot_lt_le. intro N. assert (EP : 0 < 6 / eps) by (apply Rdiv_lt_0_compat; lra). assert (k ^ 3 < (6 / eps) ^ 3) by (apply pow_lt_compat_l' || (cbn [pow]; assert (k * k < 6 / eps * (6 / eps)) by nra; nra)). assert (0 < k ^ 3) by (apply pow_lt; lra). assert (Q : (6 / eps) ^ 3 * d1 = 1) by (unfold d1; field; lra). assert (k ^ 3 * t <= k ^ 3 * d1) by (apply Rmult_le_compat_l; lra). nra. }
  pose proof (cut_le k KP) as CL. assert (271 / 100 / k <= eps / 2). { apply (Rmult_le_reg_r k); [lra|]. replace (271 / 100 / k * k) with (271 / 100) by (field; lra). assert (eps / 2 * (6 / eps) <= eps / 2 * k) by (apply Rmult_le_compat_l; lra). replace (eps / 2 * (6 / eps)) with 3 in * by (field; lra). lra. }
  set (h := reach (ex_stepk p) / ex_r0 p) in *. assert (HD : / d <= h) by lra. pose proof (fold_le h ltac:(lra)) as FL. assert (EX : exp (- h) <= d). { rewrite exp_Ropp. pose proof (exp_ineq1_le h). rewrite <- (Rinv_involutive d) by lra. apply Rinv_le_contravar; [apply Rinv_0_lt_compat; lra|]. lra. }
  lra.
Qed.
