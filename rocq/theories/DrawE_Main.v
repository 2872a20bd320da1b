(** drawFFT of an exponential profile: a mixture of Gaussians of all widths. *)
From Coq Require Import ZArith Reals Bool Lra Lia.
From Coquelicot Require Import Coquelicot.
From Verif Require Import Base MSum Array_Model Bounds_Model Bounds_Spec Bounds_Proofs Wrap_Model Wrap_Spec Image_Model Image_Spec Image_Proofs FFT_Model FFT_Spec FFT_Proofs II_Model II_Proofs II_DFT II_Inv GSP_Model Sky_Model Size_Model Size_FT DrawF_Model DrawF_Sum DrawF_Spec DrawF_Poisson DrawF_Gauss DrawF_Main DrawE_Spec DrawE_Sum DrawE_Mix.
Open Scope R_scope.
Local Ltac req := match goal with |- ?a = ?b => change (@eq R a b) end.

(** * Finite sums *)
Lemma real_sum : forall (a : R * R -> R) dk M x y, inverse_sum (fun k => RtoC (a k)) dk M x y =
  (dk / (2 * PI)) ^ 2 * rsum (2 * M + 1) (fun i => rsum (2 * M + 1) (fun j => a (IZR (j - M) * dk, IZR (i - M) * dk) * cos (IZR (j - M) * dk * x + IZR (i - M) * dk * y))).
Proof.
  intros a dk M x y. unfold inverse_sum. change (zsum Cplus (RtoC 0)) with csum. f_equal.
  rewrite (csum_ext _ _ (fun i => (rsum (2 * M + 1) (fun j => a (IZR (j - M) * dk, IZR (i - M) * dk) * cos (IZR (j - M) * dk * x + IZR (i - M) * dk * y)), rsum (2 * M + 1) (fun j => a (IZR (j - M) * dk, IZR (i - M) * dk) * sin (IZR (j - M) * dk * x + IZR (i - M) * dk * y))) : C)).
  - rewrite (csum_pair _ (fun i => rsum (2 * M + 1) (fun j => a (IZR (j - M) * dk, IZR (i - M) * dk) * cos (IZR (j - M) * dk * x + IZR (i - M) * dk * y))) (fun i => rsum (2 * M + 1) (fun j => a (IZR (j - M) * dk, IZR (i - M) * dk) * sin (IZR (j - M) * dk * x + IZR (i - M) * dk * y)))). reflexivity.
  - intros i _. rewrite <- csum_pair. apply csum_ext. intros j _. unfold Cmult, RtoC, wave. cbn [fst snd]. f_equal; ring.
Qed.
Lemma rsum_lim : forall n (u : nat -> Z -> R) (l : Z -> R), (forall i, is_lim_seq (fun m => u m i) (l i)) -> is_lim_seq (fun m => rsum n (u m)) (rsum n l).
Proof.
  intros n u l H. unfold rsum, zsum. induction (Z.to_nat n) as [|k IH]; [cbn [nsum]; apply is_lim_seq_const|]. cbn [nsum]. apply is_lim_seq_plus'; [exact IH|apply H].
Qed.
Lemma rsum_int : forall n (u : R -> Z -> R) (l : Z -> R) a b, (forall i, is_RInt (fun t => u t i) a b (l i)) -> is_RInt (fun t => rsum n (u t)) a b (rsum n l).
Proof.
  intros n u l a b H. unfold rsum, zsum. induction (Z.to_nat n) as [|k IH].
  - cbn [nsum]. apply rint_zero.
  - cbn [nsum]. apply (is_RInt_plus (fun t => nsum Rplus 0 k (u t)) (fun t => u t (Z.of_nat k))); [exact IH|apply H].
Qed.

Section Expo.
  Variables (r0 dk : R) (M : nat) (H d kappa : R).
  Hypothesis RP : 0 < r0.
  Hypothesis DK : 0 < dk.
  Hypothesis HP : 0 < H.
  Hypothesis D0 : 0 <= d.
  Hypothesis HL : H + d <= PI / dk.
  Hypothesis KP : 0 <= kappa.
  Hypothesis KM : kappa <= INR M * (dk * r0).
  Let h := H / r0.
  Lemma h_pos : 0 < h. Proof using HP RP. apply Rdiv_lt_0_compat; lra. Qed.
  Definition qf (t : R) : R := t ^ 2 / (2 * h ^ 2).
  Definition af (t : R) : R := exp (- (h * h / (t * t) / 2)).
  Definition cf (t : R) : R := g1 (kappa * t).
  Definition Wf (t : R) : R := 16 * af t * (2 + 3 * qf t + qf t ^ 2) + 2 * cf t + cf t ^ 2.
  Lemma fold_w : forall t, 0 < t -> 2 * g1 ((2 * PI / dk - (PI / dk + d)) / (r0 * t)) / (1 - qL (r0 * t) (2 * PI / dk)) <= 2 * af t * (1 + qf t).
  Proof using D0 DK HL HP RP.
    intros t T. pose proof h_pos as Hh. assert (SP : 0 < r0 * t) by (apply Rmult_lt_0_compat; lra). assert (HE : H = h * r0) by (unfold h; field; lra).
    replace (2 * PI / dk - (PI / dk + d)) with (PI / dk - d) by (field; lra).
    assert (N : g1 ((PI / dk - d) / (r0 * t)) <= af t). { unfold g1, af. apply exp_le_of. assert (h / t <= (PI / dk - d) / (r0 * t)). { replace (h / t) with (H / (r0 * t)) by (unfold h; field; lra). apply Rmult_le_compat_r; [left; apply Rinv_0_lt_compat; lra|lra]. } assert (0 < h / t) by (apply Rdiv_lt_0_compat; lra). replace (h * h / (t * t)) with (h / t * (h / t)) by (field; lra). nra. }
    set (z := 2 * h ^ 2 / t ^ 2). assert (ZP : 0 < z) by (apply Rdiv_lt_0_compat; [assert (0 < h ^ 2) by (apply pow_lt; lra); lra|apply pow_lt; lra]).
    assert (Q : qL (r0 * t) (2 * PI / dk) <= / (1 + z)). { unfold qL. rewrite exp_Ropp. apply Rinv_le_contravar; [lra|]. eapply Rle_trans; [|apply exp_ineq1_le]. apply Rplus_le_compat_l. unfold z. replace (2 * PI / dk * (2 * PI / dk) / (2 * (r0 * t * (r0 * t)))) with (2 * (PI / dk / r0) ^ 2 / t ^ 2) by (field; lra). apply Rmult_le_compat_r; [left; apply Rinv_0_lt_compat, pow_lt; lra|]. apply Rmult_le_compat_l; [lra|]. apply pow_incr. split; [lra|]. unfold h. apply Rmult_le_compat_r; [left; apply Rinv_0_lt_compat; lra|lra]. }
    assert (IQ : / (1 - qL (r0 * t) (2 * PI / dk)) <= 1 + qf t). { replace (1 + qf t) with (/ (1 - / (1 + z))). 2:{ unfold qf. replace (t ^ 2 / (2 * h ^ 2)) with (/ z) by (unfold z; field; lra). field. split; lra. } assert (/ (1 + z) < 1) by (rewrite <- Rinv_1; apply Rinv_lt_contravar; lra). apply Rinv_le_contravar; lra. }
    pose proof (g1_pos ((PI / dk - d) / (r0 * t))). pose proof PI_RGT_0 as PP. pose proof (qL_r (r0 * t) (2 * PI / dk) SP ltac:(apply Rdiv_lt_0_compat; lra)). unfold Rdiv at 1. apply Rmult_le_compat; [lra|left; apply Rinv_0_lt_compat; lra|lra|exact IQ].
  Qed.
  Lemma af_r : forall t, 0 < t -> 0 < af t <= 1.
  Proof using Type. intros t T. split; [apply exp_pos|]. unfold af. rewrite <- exp_0. apply exp_le_of. assert (0 <= h * h / (t * t)) by (apply Rdiv_le_0_compat; nra). lra. Qed.
  Lemma cf_r : forall t, 0 < cf t <= 1.
  Proof using Type. intros t. split; [apply exp_pos|]. unfold cf, g1. rewrite <- exp_0. apply exp_le_of. pose proof (Rle_0_sqr (kappa * t)) as Q. unfold Rsqr in Q. lra. Qed.
  Lemma qf_r : forall t, 0 <= qf t.
  Proof using HP RP. intros t. unfold qf. pose proof h_pos. assert (0 < h ^ 2) by (apply pow_lt; lra). apply Rdiv_le_0_compat; [apply pow2_ge_0|lra]. Qed.
  Lemma width_close : forall t x y, 0 < t -> Rabs x <= PI / dk + d -> Rabs y <= PI / dk + d ->
    Rabs (line (gk (r0 * t)) dk M x * line (gk (r0 * t)) dk M y - gd (r0 * t) x * gd (r0 * t) y) <= g0 (r0 * t) * g0 (r0 * t) * Wf t.
  Proof using D0 DK HL HP KM KP RP.
    intros t x y T X Y. assert (SP : 0 < r0 * t) by (apply Rmult_lt_0_compat; lra). pose proof PI_RGT_0 as PP. assert (LP : 0 < 2 * PI / dk) by (apply Rdiv_lt_0_compat; lra). assert (PD : 0 < PI / dk) by (apply Rdiv_lt_0_compat; lra). assert (L2 : 2 * PI / dk = PI / dk + PI / dk) by (field; lra).
    pose proof (af_r t T) as AR. pose proof (cf_r t) as CR. pose proof (qf_r t) as QR. set (f := 2 * af t * (1 + qf t)). assert (FP : 0 <= f) by (unfold f; apply Rmult_le_pos; lra).
    assert (B : forall u, Rabs u <= PI / dk + d -> Rabs (line (gk (r0 * t)) dk M u - gd (r0 * t) u) <= g0 (r0 * t) * ((1 + f) * (1 + cf t) - 1)).
    { intros u U. unfold line. apply (gauss_sum_wide (r0 * t) (2 * PI / dk) dk SP LP ltac:(field; lra) M (kappa * t) (PI / dk + d) u f (cf t)); [apply Rmult_le_pos; lra| |exact U|lra|apply fold_w, T|right; unfold cf, g1; reflexivity].
      unfold hh0. replace (INR M * (dk * (r0 * t))) with (INR M * (dk * r0) * t) by ring. apply Rmult_le_compat_r; lra. }
    eapply Rle_trans; [apply (product_close _ _ _ _ (g0 (r0 * t)) ((1 + f) * (1 + cf t) - 1)); [nra|apply gd_abs, SP|apply gd_abs, SP|apply B, X|apply B, Y]|].
    apply Rmult_le_compat_l; [pose proof (g0_pos (r0 * t) SP); nra|]. unfold both_err, Wf. set (a := af t) in *. set (q := qf t) in *. set (c := cf t) in *. replace (1 + ((1 + f) * (1 + c) - 1)) with ((1 + f) * (1 + c)) by ring.
    assert (PS : 2 * f + f ^ 2 <= 4 * a * (2 + 3 * q + q ^ 2)). { unfold f. assert (0 <= a * (1 - a)) by (apply Rmult_le_pos; lra). assert (0 <= (1 + q) ^ 2) by apply pow2_ge_0. assert (0 <= a * (1 - a) * (1 + q) ^ 2) by (apply Rmult_le_pos; assumption). nra. }
    assert (C4 : (1 + c) ^ 2 <= 4) by nra. assert (P0 : 0 <= 2 * f + f ^ 2) by nra. replace (((1 + f) * (1 + c)) ^ 2 - 1) with ((2 * f + f ^ 2) * (1 + c) ^ 2 + (2 * c + c ^ 2)) by ring.
    assert ((2 * f + f ^ 2) * (1 + c) ^ 2 <= 4 * a * (2 + 3 * q + q ^ 2) * 4); [|lra]. apply Rmult_le_compat; [exact P0|apply pow2_ge_0|exact PS|exact C4].
  Qed.
  (** ** Over all widths *)
  Definition c2p : R := sqrt (2 / PI).
  Lemma c2p_Gs : c2p * Gs = 1.
  Proof using Type. unfold c2p, Gs. pose proof PI_RGT_0. rewrite <- sqrt_mult by (apply Rdiv_le_0_compat; lra). replace (2 / PI * (PI / 2)) with 1 by (field; lra). apply sqrt_1. Qed.
  Lemma c2p_pos : 0 < c2p. Proof using Type. apply sqrt_lt_R0. pose proof PI_RGT_0. apply Rdiv_lt_0_compat; lra. Qed.
  Definition wt (t : R) : R := c2p * (t ^ 2 * g1 t).
  Definition ck (k : R * R) : R := sqrt (1 + (fst k * fst k + snd k * snd k) * (r0 * r0)).
  Lemma ck_arg : forall k, 0 < 1 + (fst k * fst k + snd k * snd k) * (r0 * r0). Proof using Type. intros [u v]. cbn [fst snd]. nra. Qed.
  Lemma ck_pos : forall k, 0 < ck k. Proof using Type. intro k. apply sqrt_lt_R0, ck_arg. Qed.
  Lemma ck_sq : forall k, ck k * ck k = 1 + (fst k * fst k + snd k * snd k) * (r0 * r0). Proof using Type. intro k. apply sqrt_sqrt. left. apply ck_arg. Qed.
  Definition kn (n : nat) (k : R * R) : R := c2p * RInt (fun t => t ^ 2 * g1 (ck k * t)) (dn n) (tn n).
  Lemma kn_lim : forall k, is_lim_seq (fun n => kn n k) (/ ck k ^ 3).
  Proof using Type. intro k. unfold kn. replace (/ ck k ^ 3) with (c2p * (Gs / ck k ^ 3)) by (unfold Rdiv; rewrite <- Rmult_assoc, c2p_Gs; ring). apply (is_lim_seq_scal_l _ c2p (Gs / ck k ^ 3)). apply (width2 (ck k) (ck_pos k)). Qed.
  Lemma mix_int : forall F n x y, is_RInt (fun t => wt t * F * (line (gk (r0 * t)) dk M x * line (gk (r0 * t)) dk M y)) (dn n) (tn n) (inverse_sum (fun k => RtoC (F * kn n k)) dk (Z.of_nat M) x y).
  Proof using DK.
    intros F n x y. rewrite real_sum. set (m := Z.of_nat M).
    apply (is_RInt_ext (fun t => scal ((dk / (2 * PI)) ^ 2) (rsum (2 * m + 1) (fun i => rsum (2 * m + 1) (fun j => (wt t * F) * (gk (r0 * t) (IZR (j - m) * dk) * gk (r0 * t) (IZR (i - m) * dk)) * cos (IZR (j - m) * dk * x + IZR (i - m) * dk * y)))))).
    { intros t _. rewrite <- (sep_sum (wt t * F) (gk (r0 * t)) dk M x y DK (gk_even (r0 * t))). rewrite (real_sum (fun k => wt t * F * (gk (r0 * t) (fst k) * gk (r0 * t) (snd k)))). reflexivity. }
    apply (is_RInt_scal (fun t => rsum (2 * m + 1) (fun i => rsum (2 * m + 1) (fun j => (wt t * F) * (gk (r0 * t) (IZR (j - m) * dk) * gk (r0 * t) (IZR (i - m) * dk)) * cos (IZR (j - m) * dk * x + IZR (i - m) * dk * y))))).
    apply (rsum_int _ (fun t i => rsum (2 * m + 1) (fun j => (wt t * F) * (gk (r0 * t) (IZR (j - m) * dk) * gk (r0 * t) (IZR (i - m) * dk)) * cos (IZR (j - m) * dk * x + IZR (i - m) * dk * y)))). intro i.
    apply (rsum_int _ (fun t j => (wt t * F) * (gk (r0 * t) (IZR (j - m) * dk) * gk (r0 * t) (IZR (i - m) * dk)) * cos (IZR (j - m) * dk * x + IZR (i - m) * dk * y))). intro j.
    set (k1 := IZR (j - m) * dk). set (k2 := IZR (i - m) * dk). set (c := cos (k1 * x + k2 * y)). unfold kn. destruct (width2 (ck (k1, k2)) (ck_pos _)) as (XI & _ & _).
    apply (is_RInt_ext (fun t => scal (F * c2p * c) (t ^ 2 * g1 (ck (k1, k2) * t)))).
    - intros t _. unfold scal; cbn -[pow]; unfold mult; cbn -[pow]. unfold wt. assert (E : g1 (ck (k1, k2) * t) = g1 t * (gk (r0 * t) k1 * gk (r0 * t) k2)). { unfold g1, gk. rewrite <- !exp_plus. f_equal. replace (ck (k1, k2) * t * (ck (k1, k2) * t)) with (ck (k1, k2) * ck (k1, k2) * (t * t)) by ring. rewrite ck_sq. cbn [fst snd]. field. } rewrite E. req. ring.
    - match goal with |- is_RInt _ _ _ ?v => replace v with (scal (F * c2p * c) (RInt (fun t => t ^ 2 * g1 (ck (k1, k2) * t)) (dn n) (tn n))) by (unfold scal; cbn -[pow]; unfold mult; cbn -[pow]; req; ring) end. apply (is_RInt_scal (fun t => t ^ 2 * g1 (ck (k1, k2) * t))). exact (RInt_correct (V := R_CompleteNormedModule) _ _ _ (XI n)).
  Qed.
  Lemma mix_lim : forall F x y, is_lim_seq (fun n => inverse_sum (fun k => RtoC (F * kn n k)) dk (Z.of_nat M) x y) (inverse_sum (fun k => RtoC (F * / ck k ^ 3)) dk (Z.of_nat M) x y).
  Proof using Type.
    intros F x y. set (m := Z.of_nat M). rewrite (real_sum (fun k => F * / ck k ^ 3)). apply (is_lim_seq_ext (fun n => (dk / (2 * PI)) ^ 2 * rsum (2 * m + 1) (fun i => rsum (2 * m + 1) (fun j => F * kn n (IZR (j - m) * dk, IZR (i - m) * dk) * cos (IZR (j - m) * dk * x + IZR (i - m) * dk * y))))); [intro n; rewrite (real_sum (fun k => F * kn n k)); reflexivity|].
    match goal with |- is_lim_seq _ (Finite (?a * ?b)) => apply (is_lim_seq_scal_l _ a b) end.
    apply (rsum_lim _ (fun n i => rsum (2 * m + 1) (fun j => F * kn n (IZR (j - m) * dk, IZR (i - m) * dk) * cos (IZR (j - m) * dk * x + IZR (i - m) * dk * y)))). intro i. apply (rsum_lim _ (fun n j => F * kn n (IZR (j - m) * dk, IZR (i - m) * dk) * cos (IZR (j - m) * dk * x + IZR (i - m) * dk * y))). intro j.
    set (k := (IZR (j - m) * dk, IZR (i - m) * dk)). set (c := cos _). apply (is_lim_seq_ext (fun n => F * c * kn n k)); [intro n; req; ring|]. replace (F * / ck k ^ 3 * c) with (F * c * / ck k ^ 3) by ring. apply (is_lim_seq_scal_l _ (F * c) (/ ck k ^ 3)), kn_lim.
  Qed.
  Definition pk : R := 1 / (2 * PI * r0 ^ 2).
  Lemma pk_pos : 0 < pk. Proof using RP. unfold pk. pose proof PI_RGT_0. apply Rdiv_lt_0_compat; [lra|]. assert (0 < r0 ^ 2) by (apply pow_lt; lra). nra. Qed.
  Lemma wt_g0 : forall t, 0 < t -> wt t * (g0 (r0 * t) * g0 (r0 * t)) = pk * c2p * g1 t.
  Proof using RP. intros t T. rewrite g0_sq by (apply Rmult_lt_0_compat; lra). unfold wt, pk. pose proof PI_RGT_0. field. repeat split; lra. Qed.
  Lemma dens_t : forall t x y, 0 < t -> wt t * (gd (r0 * t) x * gd (r0 * t) y) = pk * c2p * Et (sqrt (x ^ 2 + y ^ 2) / r0) t.
  Proof using RP.
    intros t x y T. unfold gd. replace (wt t * (g0 (r0 * t) * g1 (x / (r0 * t)) * (g0 (r0 * t) * g1 (y / (r0 * t))))) with (wt t * (g0 (r0 * t) * g0 (r0 * t)) * (g1 (x / (r0 * t)) * g1 (y / (r0 * t)))) by ring. rewrite wt_g0 by exact T. rewrite Rmult_assoc. f_equal. unfold g1, Et. rewrite <- !exp_plus. f_equal.
    set (q := sqrt (x ^ 2 + y ^ 2)). assert (Q : q * q = x ^ 2 + y ^ 2) by (apply sqrt_sqrt; nra). replace (q / r0 * (q / r0)) with (q * q / (r0 * r0)) by (field; lra). rewrite Q. field. lra.
  Qed.
  Lemma dist_any : forall r, 0 <= r -> (forall n, ex_RInt (Et r) (dn n) (tn n)) /\ is_lim_seq (fun n => RInt (Et r) (dn n) (tn n)) (Gs * exp (- r)).
  Proof using Type.
    intros r [R0|<-].
    - destruct (dist0 r R0) as (X & L & _). split; [intro n; apply (ex_RInt_ext (fun t => t ^ 0 * Et r t)); [intros t _; cbn [pow]; req; ring|apply X]|]. apply (is_lim_seq_ext (fun n => RInt (fun t => t ^ 0 * Et r t) (dn n) (tn n))); [intro n; apply RInt_ext; intros t _; cbn [pow]; req; ring|exact L].
    - assert (E : forall t, g1 (1 * t) = Et 0 t) by (intro t; unfold g1, Et; f_equal; unfold Rdiv; ring). destruct (width0 1 Rlt_0_1) as (X & L & _). split; [intro n; apply (ex_RInt_ext (fun t => g1 (1 * t))); [intros t _; apply E|apply X]|]. apply (is_lim_seq_ext (fun n => RInt (fun t => g1 (1 * t)) (dn n) (tn n))); [intro n; apply RInt_ext; intros t _; apply E|]. replace (Gs * exp (- 0)) with (Gs / 1) by (rewrite Ropp_0, exp_0; field). exact L.
  Qed.
  Lemma RC : forall (f : R -> R) a b, ex_RInt f a b -> is_RInt f a b (RInt f a b). Proof using Type. intros f a b X. exact (RInt_correct (V := R_CompleteNormedModule) f a b X). Qed.
  Lemma dens_int : forall F n x y, is_RInt (fun t => wt t * F * (gd (r0 * t) x * gd (r0 * t) y)) (dn n) (tn n) (F * pk * c2p * RInt (Et (sqrt (x ^ 2 + y ^ 2) / r0)) (dn n) (tn n)).
  Proof using RP.
    intros F n x y. set (r := sqrt (x ^ 2 + y ^ 2) / r0). assert (R0 : 0 <= r) by (apply Rdiv_le_0_compat; [apply sqrt_pos|exact RP]). apply (is_RInt_ext (fun t => scal (F * pk * c2p) (Et r t))).
    - intros t T. rewrite Rmin_left in T by apply dn_tn. pose proof (dn_pos n). unfold scal; cbn; unfold mult; cbn. replace (wt t * F * (gd (r0 * t) x * gd (r0 * t) y)) with (F * (wt t * (gd (r0 * t) x * gd (r0 * t) y))) by ring. rewrite dens_t by lra. unfold r. req. ring.
    - match goal with |- is_RInt _ _ _ ?v => change v with (scal (F * pk * c2p) (RInt (Et r) (dn n) (tn n))) end. apply (is_RInt_scal (Et r)). apply RC, dist_any, R0.
  Qed.
  Lemma dens_lim : forall F x y, is_lim_seq (fun n => F * pk * c2p * RInt (Et (sqrt (x ^ 2 + y ^ 2) / r0)) (dn n) (tn n)) (expo_density F r0 x y).
  Proof using RP.
    intros F x y. set (r := sqrt (x ^ 2 + y ^ 2) / r0). replace (expo_density F r0 x y) with (F * pk * c2p * (Gs * exp (- r))). 2:{ unfold expo_density. fold r. replace (F * pk * c2p * (Gs * exp (- r))) with (F * pk * (c2p * Gs) * exp (- r)) by ring. rewrite c2p_Gs. unfold pk. pose proof PI_RGT_0. field. lra. }
    apply (is_lim_seq_scal_l _ (F * pk * c2p) (Gs * exp (- r))), dist_any. apply Rdiv_le_0_compat; [apply sqrt_pos|exact RP].
  Qed.
  (** the bound, integrated *)
  Lemma bound_int : forall n, exists b, is_RInt (fun t => g1 t * Wf t) (dn n) (tn n) b /\ b <= Gs * (expo_fold h + expo_cut kappa).
  Proof using HP KP RP.
    intro n. pose proof h_pos as Hh. destruct (dist0 h Hh) as (X0 & _ & B0). destruct (dist2 h Hh) as (X2 & _ & B2). destruct (dist4 h Hh) as (X4 & _ & B4).
    set (c1 := sqrt (1 + kappa ^ 2)). set (c2 := sqrt (1 + 2 * kappa ^ 2)). assert (K2 : 0 <= kappa ^ 2) by apply pow2_ge_0. assert (C1 : 0 < c1) by (apply sqrt_lt_R0; lra). assert (C2 : 0 < c2) by (apply sqrt_lt_R0; lra). assert (S1 : c1 * c1 = 1 + kappa ^ 2) by (apply sqrt_sqrt; lra). assert (S2 : c2 * c2 = 1 + 2 * kappa ^ 2) by (apply sqrt_sqrt; lra).
    destruct (width0 c1 C1) as (X5 & _ & B5). destruct (width0 c2 C2) as (X6 & _ & B6). specialize (X0 n). specialize (X2 n). specialize (X4 n). specialize (X5 n). specialize (X6 n). specialize (B0 n). specialize (B2 n). specialize (B4 n). specialize (B5 n). specialize (B6 n).
    apply RC in X0. apply RC in X2. apply RC in X4. apply RC in X5. apply RC in X6. revert X0 X2 X4 X5 X6 B0 B2 B4 B5 B6. generalize (RInt (fun t => t ^ 0 * Et h t) (dn n) (tn n)) (RInt (fun t => t ^ 2 * Et h t) (dn n) (tn n)) (RInt (fun t => t ^ 4 * Et h t) (dn n) (tn n)) (RInt (fun t => g1 (c1 * t)) (dn n) (tn n)) (RInt (fun t => g1 (c2 * t)) (dn n) (tn n)). intros i0 i2 i4 j1 j2 X0 X2 X4 X5 X6 B0 B2 B4 B5 B6.
    assert (H2 : 0 < h ^ 2) by (apply pow_lt; exact Hh). assert (H4 : 0 < h ^ 4) by (apply pow_lt; exact Hh).
    exists (32 * i0 + (24 / h ^ 2 * i2 + (4 / h ^ 4 * i4 + (2 * j1 + j2)))). split.
    - apply (is_RInt_ext (fun t => plus (scal 32 (t ^ 0 * Et h t)) (plus (scal (24 / h ^ 2) (t ^ 2 * Et h t)) (plus (scal (4 / h ^ 4) (t ^ 4 * Et h t)) (plus (scal 2 (g1 (c1 * t))) (g1 (c2 * t))))))).
      + intros t T. rewrite Rmin_left in T by apply dn_tn. pose proof (dn_pos n) as D. change (32 * (t ^ 0 * Et h t) + (24 / h ^ 2 * (t ^ 2 * Et h t) + (4 / h ^ 4 * (t ^ 4 * Et h t) + (2 * g1 (c1 * t) + g1 (c2 * t)))) = g1 t * Wf t). unfold Wf, qf.
        assert (E0 : Et h t = g1 t * af t) by (unfold Et, g1, af; rewrite <- exp_plus; f_equal; field; lra). assert (E1 : g1 (c1 * t) = g1 t * cf t) by (unfold cf, g1; rewrite <- exp_plus; f_equal; replace (c1 * t * (c1 * t)) with (c1 * c1 * (t * t)) by ring; rewrite S1; field). assert (E2 : g1 (c2 * t) = g1 t * cf t ^ 2) by (unfold cf, g1; cbn [pow]; rewrite Rmult_1_r, <- !exp_plus; f_equal; replace (c2 * t * (c2 * t)) with (c2 * c2 * (t * t)) by ring; rewrite S2; field).
        rewrite E0, E1, E2. set (A := af t). set (c := cf t). cbn [pow]. field. lra.
      + exact (is_RInt_plus _ _ _ _ _ _ (is_RInt_scal _ _ _ 32 _ X0) (is_RInt_plus _ _ _ _ _ _ (is_RInt_scal _ _ _ (24 / h ^ 2) _ X2) (is_RInt_plus _ _ _ _ _ _ (is_RInt_scal _ _ _ (4 / h ^ 4) _ X4) (is_RInt_plus _ _ _ _ _ _ (is_RInt_scal _ _ _ 2 _ X5) X6)))).
    - unfold expo_fold, expo_cut. fold c1 c2. replace (Gs * (16 * exp (- h) * (2 + 3 * (1 + h) / (2 * h ^ 2) + (3 + 3 * h + h ^ 2) / (4 * h ^ 4)) + (2 / c1 + 1 / c2))) with (32 * (Gs * exp (- h)) + (24 / h ^ 2 * (Gs * exp (- h) * (1 + h)) + (4 / h ^ 4 * (Gs * exp (- h) * (3 + 3 * h + h ^ 2)) + (2 * (Gs / c1) + Gs / c2)))) by (field; lra).
      assert (24 / h ^ 2 * i2 <= 24 / h ^ 2 * (Gs * exp (- h) * (1 + h))) by (apply Rmult_le_compat_l; [apply Rdiv_le_0_compat; lra|exact B2]). assert (4 / h ^ 4 * i4 <= 4 / h ^ 4 * (Gs * exp (- h) * (3 + 3 * h + h ^ 2))) by (apply Rmult_le_compat_l; [apply Rdiv_le_0_compat; lra|exact B4]). lra.
  Qed.
  Lemma expo_close : forall F x y, Rabs x <= PI / dk + d -> Rabs y <= PI / dk + d ->
    Rabs (inverse_sum (fun k => RtoC (F * / ck k ^ 3)) dk (Z.of_nat M) x y - expo_density F r0 x y) <= Rabs F * pk * (expo_fold h + expo_cut kappa).
  Proof using D0 DK HL HP KM KP RP.
    intros F x y X Y. set (B := Rabs F * pk * (expo_fold h + expo_cut kappa)). set (u := fun n => inverse_sum (fun k => RtoC (F * kn n k)) dk (Z.of_nat M) x y). set (v := fun n => F * pk * c2p * RInt (Et (sqrt (x ^ 2 + y ^ 2) / r0)) (dn n) (tn n)).
    pose proof (is_lim_seq_abs _ _ (is_lim_seq_minus' u v _ _ (mix_lim F x y) (dens_lim F x y))) as L.
    change (Rbar_le (Rabs (inverse_sum (fun k => RtoC (F * / ck k ^ 3)) dk (Z.of_nat M) x y - expo_density F r0 x y)) B). apply (is_lim_seq_le (fun n => Rabs (u n - v n)) (fun _ => B)); [|exact L|apply is_lim_seq_const].
    intro n. destruct (bound_int n) as (b & B1 & B2). pose proof pk_pos as PK. pose proof c2p_pos as C2. pose proof (is_RInt_minus _ _ _ _ _ _ (mix_int F n x y) (dens_int F n x y)) as D. pose proof (is_RInt_scal _ _ _ (Rabs F * pk * c2p) _ B1) as S1.
    apply Rle_trans with (Rabs F * pk * c2p * b).
    - refine (norm_RInt_le (V := R_NormedModule) _ _ (dn n) (tn n) _ _ (dn_tn n) _ D S1). intros t T. pose proof (dn_pos n) as DP. assert (TP : 0 < t) by lra.
      match goal with |- norm (minus ?p ?q) <= _ => change (Rabs (p - q) <= Rabs F * pk * c2p * (g1 t * Wf t)) end.
      match goal with |- Rabs (?w * F * ?p - ?w * F * ?q) <= _ => replace (w * F * p - w * F * q) with (F * (w * (p - q))) by ring end. rewrite !Rabs_mult. assert (WP : 0 <= wt t) by (unfold wt; apply Rmult_le_pos; [lra|]; apply Rmult_le_pos; [apply pow2_ge_0|left; apply exp_pos]). rewrite (Rabs_pos_eq (wt t)) by exact WP.
      replace (Rabs F * pk * c2p * (g1 t * Wf t)) with (Rabs F * (wt t * (g0 (r0 * t) * g0 (r0 * t) * Wf t))) by (rewrite <- (Rmult_assoc (wt t)), wt_g0 by exact TP; ring). apply Rmult_le_compat_l; [apply Rabs_pos|]. apply Rmult_le_compat_l; [exact WP|]. apply width_close; assumption.
    - replace B with (Rabs F * pk * c2p * (Gs * (expo_fold h + expo_cut kappa))) by (unfold B; replace (Rabs F * pk * c2p * (Gs * (expo_fold h + expo_cut kappa))) with (Rabs F * pk * (c2p * Gs) * (expo_fold h + expo_cut kappa)) by ring; rewrite c2p_Gs; ring). apply Rmult_le_compat_l; [|exact B2]. apply Rmult_le_pos; [apply Rmult_le_pos; [apply Rabs_pos|lra]|lra].
  Qed.
End Expo.
