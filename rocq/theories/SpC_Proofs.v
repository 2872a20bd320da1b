(** Proofs about the centre of Spergel profiles. *)
From Coq Require Import Reals Bool List Lra Lia Psatz.
From Verif Require Import Base Bounds_Model Bounds_Proofs Size_Model Size_Proofs SpC_Spec.
Open Scope R_scope.
Section SpC.
  Variables (kv : R -> R -> R) (lgamma : R -> R) (inf : R).

  Lemma gamma_pos : forall x, x <> 0 -> 0 < gamma_ lgamma inf x.
  Proof using.
    intros x H. unfold gamma_. destruct (Reqb_spec x 0); [contradiction|].
    repeat (match goal with |- context [Reqb x ?c] => destruct (Reqb_spec x c); [lra|] end). apply exp_pos.
  Qed.
  Lemma small_rises : forall nu z w, 0 < nu + 1 / 10 ^ 10 < 2 -> 0 < z < w -> fnu_small lgamma inf z nu < fnu_small lgamma inf w nu.
  Proof using.
    intros nu z w H Z. unfold fnu_small. set (n := nu + 1 / 10 ^ 10) in *.
    pose proof (gamma_pos (-2 - n) ltac:(lra)) as G2. pose proof (gamma_pos (-2 + n) ltac:(lra)) as G3.
    set (g2 := gamma_ lgamma inf (-2 - n)) in *. set (g3 := gamma_ lgamma inf (-2 + n)) in *. set (g := gamma_ lgamma inf n).
    rewrite !jpow_pos by lra. set (c1 := Rpower 2 (-6 - n)). set (c0 := Rpower 4 n).
    assert (P1 : 0 < c1) by apply exp_pos. assert (P0 : 0 < c0) by apply exp_pos.
    assert (L : 0 < Rpower z (2 * n) < Rpower w (2 * n)).
    { split; [apply exp_pos|]. unfold Rpower. apply exp_increasing. apply Rmult_lt_compat_l; [lra|]. apply ln_increasing; lra. }
    set (a := Rpower z (2 * n)) in *. set (b := Rpower w (2 * n)) in *.
    assert (S : 0 < z * z < w * w) by nra. set (s := z * z) in *. set (t := w * w) in *. clearbody s t a b g2 g3 c1 c0.
    assert (S3 : s * s * s < t * t * t). { assert (s * s < t * t) by nra. apply Rlt_trans with (s * s * t); [apply Rmult_lt_compat_l; nra|apply Rmult_lt_compat_r; lra]. }
    assert (Q3 : 0 < s * s * s) by (repeat apply Rmult_lt_0_compat; lra).
    apply Rmult_lt_compat_l; [exact P1|]. apply Rplus_lt_compat.
    - apply Rmult_lt_compat_r; [exact G2|]. set (k := 32 * (1 + n) * (2 + n)). assert (K : 0 < k) by (unfold k; nra).
      replace (s * s * 8 * s * (2 + n)) with (8 * (2 + n) * (s * s * s)) by ring. replace (t * t * 8 * t * (2 + n)) with (8 * (2 + n) * (t * t * t)) by ring.
      set (m := 8 * (2 + n)). assert (M : 0 < m) by (unfold m; lra). assert (m * (s * s * s) < m * (t * t * t)) by (apply Rmult_lt_compat_l; lra).
      assert (0 < m * (s * s * s)) by (apply Rmult_lt_0_compat; lra). apply Rmult_le_0_lt_compat; lra.
    - apply Rmult_lt_compat_l; [exact P0|]. apply Rplus_lt_compat_r. apply Rmult_lt_compat_r; [exact G3|]. apply Rmult_le_0_lt_compat; lra.
  Qed.

  (** the expansions for integers *)
  Lemma f3_falls : forall z w, 0 < z < w -> w <= 1 / 10 ^ 10 -> f3 w < f3 z.
  Proof using.
    intros z w H W. unfold f3. assert (S : 0 < z * z < w * w) by nra. assert (T : w * w <= 1) by nra. set (s := z * z) in *. set (t := w * w) in *. nra.
  Qed.
  Lemma f4_falls : forall z w, 0 < z < w -> w <= 1 / 10 ^ 10 -> f4 w < f4 z.
  Proof using.
    intros z w H W. unfold f4. assert (S : 0 < z * z < w * w) by nra. assert (T : w * w <= 1) by nra. set (s := z * z) in *. set (t := w * w) in *. nra.
  Qed.
  Lemma ln_below : forall x, 0 < x -> ln x <= x - 1.
  Proof using. intros x H. pose proof (exp_ineq1_le (ln x)) as E. rewrite exp_ln in E by exact H. lra. Qed.
  Lemma ln_quot : forall x y, 0 < x -> 0 < y -> ln (x / y) = ln x - ln y.
  Proof using. intros x y X Y. unfold Rdiv. rewrite ln_mult, ln_Rinv by (try apply Rinv_0_lt_compat; assumption). ring. Qed.
  Lemma ln_ratio : forall z w, 0 < z -> 0 < w -> (w - z) / w <= ln w - ln z <= (w - z) / z.
  Proof using.
    intros z w Z W. split.
    - pose proof (ln_below (z / w) ltac:(apply Rdiv_lt_0_compat; lra)) as A. rewrite ln_quot in A by lra. replace ((w - z) / w) with (1 - z / w) by (field; lra). lra.
    - pose proof (ln_below (w / z) ltac:(apply Rdiv_lt_0_compat; lra)) as A. rewrite ln_quot in A by lra. replace ((w - z) / z) with (w / z - 1) by (field; lra). lra.
  Qed.
  Lemma ln_small : forall w, 0 < w -> w <= 1 / 10 ^ 10 -> - / w <= ln w <= - 1.
  Proof using.
    intros w H W. split.
    - pose proof (ln_below (/ w) (Rinv_0_lt_compat _ H)) as A. rewrite ln_Rinv in A by exact H. lra.
    - apply Rle_trans with (ln (/ exp 1)); [|rewrite ln_Rinv, ln_exp by apply exp_pos; lra].
      assert (w <= / exp 1). { apply Rle_trans with (/ 3); [lra|]. apply Rinv_le_contravar; [apply exp_pos|]. apply exp_le_3. }
      destruct (Req_dec w (/ exp 1)) as [->|N]; [lra|]. left. apply ln_increasing; lra.
  Qed.
  Lemma f0_falls : forall z w, 0 < z < w -> w <= 1 / 10 ^ 10 -> f0 w < f0 z.
  Proof using.
    intros z w H W. unfold f0. pose proof (ln_ratio z w ltac:(lra) ltac:(lra)) as [L _]. pose proof (ln_small w ltac:(lra) W) as [A B].
    assert (D : 0 < w - z) by lra. set (d := w - z) in *. assert (Ew : w = z + d) by (unfold d; ring).
    set (l := ln w) in *. set (m := ln z) in *. assert (Q : 10 * d <= d / w).
    { unfold Rdiv. rewrite (Rmult_comm 10). apply Rmult_le_compat_l; [lra|]. replace 10 with (/ (1 / 10)) by field. apply Rinv_le_contravar; lra. }
    assert (LW : - 1 <= l * w <= 0). { split; [|nra]. apply Rmult_le_compat_r with (r := w) in A; [|lra]. rewrite Ropp_mult_distr_l_reverse, Rinv_l in A by lra. exact A. }
    assert (S : 0 < z * z < w * w) by nra. assert (T : w * w <= 1) by nra.
    assert (DS : w * w - z * z <= 2 * w * d) by (unfold d; nra).
    assert (DS1 : w * w - z * z <= 2 * d) by nra.
    assert (X : - 2 * d <= (w * w - z * z) * l) by nra.
    set (s := z * z) in *. set (t := w * w) in *.
    assert (Y : (1 + 0.125 * t) ^ 2 - (1 + 0.125 * s) ^ 2 = (t - s) * (0.25 + 0.015625 * (t + s))) by (clearbody s t; lra).
    assert (Y2 : - d <= ((1 + 0.125 * t) ^ 2 - (1 + 0.125 * s) ^ 2) * l). { rewrite Y. replace ((t - s) * (0.25 + 0.015625 * (t + s)) * l) with (((t - s) * l) * (0.25 + 0.015625 * (t + s))) by ring.
      assert (0 <= 0.25 + 0.015625 * (t + s) <= 0.5) by lra. set (k := 0.25 + 0.015625 * (t + s)) in *. assert ((t - s) * l <= 0) by nra. nra. }
    assert (Y3 : d / w <= (1 + 0.125 * s) ^ 2 * (l - m)). { assert (1 <= (1 + 0.125 * s) ^ 2) by nra. assert (0 < d / w) by (apply Rdiv_lt_0_compat; lra). nra. }
    assert (Y4 : t * t - s * s <= 4 * d) by nra. lra.
  Qed.
  Lemma z2lz_falls : forall z w, 0 < z < w -> w <= 1 / 10 ^ 10 -> z2lz w <= z2lz z <= 0.
  Proof using.
    intros z w H W. pose proof (ln_small w ltac:(lra) W) as [_ B]. pose proof (ln_small z ltac:(lra) ltac:(lra)) as [_ C]. unfold z2lz.
    destruct (Rltb_spec (1 / 10 ^ 40) z), (Rltb_spec (1 / 10 ^ 40) w); try lra.
    - split; [|nra]. pose proof (ln_ratio z w ltac:(lra) ltac:(lra)) as [_ L].
      assert (E : z * z * (ln w - ln z) <= z * (w - z)). { replace (z * (w - z)) with (z * z * ((w - z) / z)) by (field; lra). apply Rmult_le_compat_l; [nra|exact L]. }
      assert ((w * w - z * z) * ln w <= (w * w - z * z) * - (1)) by (apply Rmult_le_compat_l; [nra|exact B]). assert (0 <= w * w - z * w) by nra. lra.
    - split; [|lra]. nra.
  Qed.
  Lemma f1_falls : forall z w, 0 < z < w -> w <= 1 / 10 ^ 10 -> f1 w < f1 z.
  Proof using.
    intros z w H W. unfold f1. pose proof (z2lz_falls z w H W) as [A B]. assert (S : 0 < z * z < w * w) by nra.
    set (c := z2lz w) in *. set (e := z2lz z) in *. set (s := z * z) in *. set (t := w * w) in *.
    assert (c * (0.5 + 0.0625 * t) <= e * (0.5 + 0.0625 * s)) by nra. assert (s * s < t * t) by nra. lra.
  Qed.
  Definition listed (nu : R) : Prop := nu = 0 \/ nu = 1 \/ nu = 3 \/ nu = 4.
  Lemma small_falls : forall nu z w, listed nu -> 0 < z < w -> w <= 1 / 10 ^ 10 -> fsmallz_nu lgamma inf w nu < fsmallz_nu lgamma inf z nu.
  Proof using.
    intros nu z w N H W. unfold fsmallz_nu. destruct N as [->|[->|[->| ->]]];
      repeat (match goal with |- context [Reqb ?x ?c] => destruct (Reqb_spec x c); try lra end).
    - apply f0_falls; assumption.
    - apply f1_falls; assumption.
    - apply f3_falls; assumption.
    - apply f4_falls; assumption.
  Qed.
  Lemma xnorm_pos : forall p, -1 < sp_nu p -> 0 < sp_r0 p -> 0 < sp_flux p -> 0 < sp_xnorm lgamma inf p.
  Proof using.
    intros p N R F. unfold sp_xnorm, sp_shootxnorm, sp_inv_r0_sq, sp_inv_r0. assert (I : 0 < 1 / sp_r0 p) by (apply Rdiv_lt_0_compat; lra).
    apply Rmult_lt_0_compat; [apply Rmult_lt_0_compat; [|exact F]|apply Rmult_lt_0_compat; exact I]. apply Rdiv_lt_0_compat; [lra|].
    unfold gammap1. pose proof (gamma_pos (sp_nu p + 1) ltac:(lra)). rewrite jpow_pos by lra. pose proof PI_RGT_0. pose proof (exp_pos (sp_nu p * ln 2)).
    apply Rmult_lt_0_compat; [|assumption]. apply Rmult_lt_0_compat; [lra|assumption].
  Qed.
  Lemma xValue_small : forall p pos, 0 < sp_r0 p -> 0 < radius pos -> radius pos <= sp_r0 p / 10 ^ 10 ->
    sp_xValue kv lgamma inf p pos = sp_xnorm lgamma inf p * fsmallz_nu lgamma inf (radius pos / sp_r0 p) (sp_nu p) /\ 0 < radius pos / sp_r0 p <= 1 / 10 ^ 10.
  Proof using.
    intros p pos R P Q. assert (B : 0 < radius pos / sp_r0 p <= 1 / 10 ^ 10).
    { split; [apply Rdiv_lt_0_compat; lra|]. apply Rmult_le_reg_r with (sp_r0 p); [exact R|]. unfold Rdiv at 1. rewrite Rmult_assoc, Rinv_l by lra. lra. }
    split; [|exact B]. unfold sp_xValue, sp_inv_r0, norm2. fold (radius pos). replace (radius pos * (1 / sp_r0 p)) with (radius pos / sp_r0 p) by (field; lra).
    destruct (Reqb_spec (radius pos / sp_r0 p) 0); [lra|]. unfold fz_nu. destruct (Rltb_spec (1 / 10 ^ 10) (radius pos / sp_r0 p)); [lra|]. reflexivity.
  Qed.
  Lemma ratio_lt : forall p a b, 0 < sp_r0 p -> a < b -> a / sp_r0 p < b / sp_r0 p.
  Proof using. intros p a b R H. apply Rmult_lt_compat_r; [apply Rinv_0_lt_compat; exact R|exact H]. Qed.
  Lemma centre_falls : forall p, listed (sp_nu p) -> 0 < sp_r0 p -> 0 < sp_flux p -> falls (sp_xValue kv lgamma inf p) (sp_r0 p / 10 ^ 10).
  Proof using.
    intros p N R F a b H B. destruct (xValue_small p a R ltac:(lra) ltac:(lra)) as [-> A]. destruct (xValue_small p b R ltac:(lra) B) as [-> C].
    apply Rmult_lt_compat_l; [apply xnorm_pos; auto; unfold listed in N; lra|]. apply small_falls; [exact N| |lra]. split; [lra|]. apply ratio_lt; lra.
  Qed.
  Lemma centre_rises : forall p, 0 < sp_nu p < 199 / 100 -> sp_nu p <> 1 -> 0 < sp_r0 p -> 0 < sp_flux p -> rises (sp_xValue kv lgamma inf p) (sp_r0 p / 10 ^ 10).
  Proof using.
    intros p N M R F a b H B. destruct (xValue_small p a R ltac:(lra) ltac:(lra)) as [-> A]. destruct (xValue_small p b R ltac:(lra) B) as [-> C].
    apply Rmult_lt_compat_l; [apply xnorm_pos; auto; lra|]. unfold fsmallz_nu.
    repeat (match goal with |- context [Reqb ?x ?c] => destruct (Reqb_spec x c); try lra end).
    apply small_rises; [lra|]. split; [lra|]. apply ratio_lt; lra.
  Qed.
  Lemma p2 : forall n, Rpower 2 (-6 - n) * 32 = Rpower 2 (- n - 1).
  Proof using. intro n. replace 32 with (Rpower 2 (INR 5)) by (rewrite Rpower_pow by lra; simpl; lra). rewrite <- Rpower_plus. f_equal. simpl INR. ring. Qed.
  Lemma p4 : forall n, Rpower 2 (- n - 1) * Rpower 4 n = Rpower 2 (n - 1).
  Proof using.
    intro n. replace (Rpower 4 n) with (Rpower (Rpower 2 (INR 2)) n) by (f_equal; rewrite Rpower_pow by lra; simpl; lra).
    rewrite Rpower_mult, <- Rpower_plus. f_equal. simpl INR. ring.
  Qed.
  Lemma small_sign : forall nu, let n := nu + 1 / 10 ^ 10 in 0 < n < 1 -> gamma_ lgamma inf (- n) = (1 + n) * (2 + n) * gamma_ lgamma inf (-2 - n) ->
    exists M, forall z, 0 < z <= 1 ->
    0 <= fnu_small lgamma inf z nu - (Rpower 2 (n - 1) * gamma_ lgamma inf n + Rpower 2 (- n - 1) * gamma_ lgamma inf (- n) * Rpower z (2 * n)) <= M * (z * z).
  Proof using.
    intros nu n H E. pose proof (gamma_pos (-2 - n) ltac:(lra)) as G2. pose proof (gamma_pos (-2 + n) ltac:(lra)) as G3.
    exists (Rpower 2 (-6 - n) * (24 * gamma_ lgamma inf (-2 - n) + Rpower 4 n * (17 * gamma_ lgamma inf (-2 + n)))). intros z Z. unfold fnu_small. fold n. rewrite E.
    set (g2 := gamma_ lgamma inf (-2 - n)) in *. set (g3 := gamma_ lgamma inf (-2 + n)) in *. set (g := gamma_ lgamma inf n).
    rewrite !jpow_pos by lra. rewrite <- p4, <- p2. set (c1 := Rpower 2 (-6 - n)). set (c0 := Rpower 4 n).
    assert (P1 : 0 < c1) by apply exp_pos. assert (P0 : 0 < c0) by apply exp_pos. assert (L : 0 < Rpower z (2 * n)) by apply exp_pos.
    assert (L1 : Rpower z (2 * n) <= 1).
    { unfold Rpower. rewrite <- exp_0. destruct (Req_dec z 1) as [->|N]; [rewrite ln_1, Rmult_0_r; lra|]. left. apply exp_increasing.
      assert (ln z < 0) by (rewrite <- ln_1; apply ln_increasing; lra). nra. }
    set (a := Rpower z (2 * n)) in *. assert (S : 0 < z * z <= 1) by nra. set (s := z * z) in *. clearbody s a g2 g3 c1 c0 g.
    match goal with |- 0 <= ?x <= _ => replace x with (c1 * (a * (s * s) * (8 * (2 + n)) * g2 * s + c0 * ((16 + s - 8 * n) * g3) * s)) by ring end.
    assert (S2 : 0 <= s * s <= 1) by nra. assert (A2 : 0 <= a * (s * s) <= 1) by nra. assert (A3 : 0 <= a * (s * s) * (8 * (2 + n)) <= 24) by nra.
    assert (X : 0 <= a * (s * s) * (8 * (2 + n)) * g2 <= 24 * g2) by (split; [apply Rmult_le_pos; lra|apply Rmult_le_compat_r; lra]).
    assert (Y : 0 <= (16 + s - 8 * n) * g3 <= 17 * g3) by (split; [apply Rmult_le_pos; lra|apply Rmult_le_compat_r; lra]).
    assert (Y0 : 0 <= c0 * ((16 + s - 8 * n) * g3) <= c0 * (17 * g3)) by (split; [apply Rmult_le_pos; lra|apply Rmult_le_compat_l; lra]).
    set (u := a * (s * s) * (8 * (2 + n)) * g2) in *. set (v := c0 * ((16 + s - 8 * n) * g3)) in *. set (w := c0 * (17 * g3)) in *.
    replace (c1 * (u * s + v * s)) with (c1 * ((u + v) * s)) by ring. replace (c1 * (24 * g2 + w) * s) with (c1 * ((24 * g2 + w) * s)) by ring.
    split; [apply Rmult_le_pos; [lra|]; apply Rmult_le_pos; lra|]. apply Rmult_le_compat_l; [lra|]. apply Rmult_le_compat_r; lra.
  Qed.
End SpC.
