(** How accurate drawFFT of a Gaussian is with the thresholds of GSParams. *)
From Coq Require Import ZArith Reals Bool Lra Lia.
From Coquelicot Require Import Coquelicot.
From Verif Require Import Base Array_Model Bounds_Model Bounds_Spec Bounds_Proofs Wrap_Model Image_Model Image_Spec FFT_Model FFT_Spec FFT_Proofs GSP_Model Size_Model DrawF_Model DrawF_Spec DrawF_Gauss DrawF_Main.
Open Scope R_scope.

Lemma exp_lower : forall n, (5 / 4) ^ n <= exp (INR n / 4).
Proof. intro n. replace (INR n / 4) with (INR n * (1 / 4)) by field. rewrite <- exp_pow. apply pow_incr. split; [lra|]. pose proof (exp_ineq1_le (1 / 4)). lra. Qed.
Lemma exp_small : forall n y, INR n / 4 <= y -> exp (- y) <= / (5 / 4) ^ n.
Proof. intros n y Y. rewrite exp_Ropp. apply Rinv_le_contravar; [apply pow_lt; lra|]. eapply Rle_trans; [apply exp_lower|]. apply exp_le_of, Y. Qed.
(** the waves left out *)
Lemma k_of : forall thr, 0 < thr <= 1 / 1000 -> 7 / 2 <= sqrt (- 2 * ln thr) /\ exp (- (sqrt (- 2 * ln thr) ^ 2 / 2)) = thr.
Proof.
  intros thr T. assert (L : ln thr <= - (49 / 8)).
  { apply Rle_trans with (ln (exp (- (49 / 8)))); [|rewrite ln_exp; lra]. apply ln_le; [lra|]. apply Rle_trans with (/ 1000); [lra|]. rewrite exp_Ropp. apply Rinv_le_contravar; [apply exp_pos|]. replace (49 / 8) with (INR 6 * 1 + 1 / 8) by (cbn; lra). rewrite exp_plus, <- exp_pow.
    assert (E1 : exp (1 / 8) <= 8 / 7). { pose proof (exp_ineq1_le (- (1 / 8))) as E. rewrite exp_Ropp in E. pose proof (exp_pos (1 / 8)) as P. apply (Rmult_le_compat_r (exp (1 / 8))) in E; [|lra]. rewrite Rinv_l in E by lra. lra. }
    assert (E6 : exp 1 ^ 6 <= 3 ^ 6) by (apply pow_incr; split; [left; apply exp_pos|apply exp_le_3]). pose proof (exp_pos (1 / 8)). apply Rle_trans with (3 ^ 6 * (8 / 7)); [|lra]. apply Rmult_le_compat; [apply pow_le; left; apply exp_pos|lra|exact E6|exact E1]. }
  assert (SS : sqrt (- 2 * ln thr) ^ 2 = - 2 * ln thr) by (apply pow2_sqrt; lra). split; [|rewrite SS; replace (- (- 2 * ln thr / 2)) with (ln thr) by field; apply exp_ln; lra].
  rewrite <- (sqrt_square (7 / 2)) by lra. apply sqrt_le_1_alt. lra.
Qed.
Lemma cut_small : forall K, 7 / 2 <= K -> exp (- (K ^ 2 / 2)) <= 1 / 1000 -> cut_err K <= 24 / 100000.
Proof.
  intros K K1 E. unfold cut_err. pose proof (exp_pos (- (K ^ 2 / 2))) as P. pose proof PI2_3_2 as P3. unfold PI2 in P3.
  assert (SQ : sqrt (2 / PI) <= 82 / 100). { rewrite <- (sqrt_square (82 / 100)) by lra. apply sqrt_le_1_alt. apply (Rmult_le_reg_r PI); [lra|]. replace (2 / PI * PI) with 2 by (field; lra). lra. }
  pose proof (sqrt_pos (2 / PI)). assert (IK : / K <= 2 / 7) by (replace (2 / 7) with (/ (7 / 2)) by field; apply Rinv_le_contravar; lra). assert (0 < / K) by (apply Rinv_0_lt_compat; lra).
  apply Rle_trans with (82 / 100 * (1 / 1000) * (2 / 7)); [|lra]. apply Rmult_le_compat; [apply Rmult_le_pos; lra|lra| |exact IK]. apply Rmult_le_compat; lra.
Qed.
(** the images *)
Lemma fold_small : forall s H d n, 0 < s -> 0 <= d -> 5 <= (H - d) / s -> INR n / 4 <= ((H - d) / s) ^ 2 / 2 -> fold_err s H d <= 2 * / (5 / 4) ^ n * (1001 / 1000).
Proof.
  intros s H d n SP D A B. unfold fold_err. pose proof (exp_small n _ B) as E. pose proof (exp_pos (- (((H - d) / s) ^ 2 / 2))) as P.
  assert (HS : 5 <= H / s). { assert (0 <= d / s) by (apply Rdiv_le_0_compat; lra). replace ((H - d) / s) with (H / s - d / s) in A by (field; lra). lra. }
  assert (Q : exp (- ((2 * H / s) ^ 2 / 2)) <= / (5 / 4) ^ 32). { apply exp_small. replace (2 * H / s) with (2 * (H / s)) by (field; lra). cbn [INR]. nra. }
  assert (Q2 : / (5 / 4) ^ 32 <= 1 / 1200) by (replace (1 / 1200) with (/ 1200) by field; apply Rinv_le_contravar; lra).
  apply Rmult_le_compat; [lra|left; apply Rinv_0_lt_compat; lra|lra|]. replace (1001 / 1000) with (/ (1000 / 1001)) by field. apply Rinv_le_contravar; lra.
Qed.
Lemma both_mono : forall a b, 0 <= a <= b -> both_err a <= both_err b.
Proof. intros a b AB. unfold both_err. nra. Qed.
Lemma fold_pos : forall s H d, 0 < s -> 0 < H -> 0 <= fold_err s H d.
Proof. intros s H d SP HP. unfold fold_err. pose proof (qH s H SP HP). pose proof (exp_pos (- (((H - d) / s) ^ 2 / 2))). apply Rdiv_le_0_compat; lra. Qed.
Lemma cut_pos : forall K, 0 < K -> 0 <= cut_err K.
Proof. intros K KP. unfold cut_err. apply Rdiv_le_0_compat; [|exact KP]. apply Rmult_le_pos; [apply sqrt_pos|left; apply exp_pos]. Qed.

Definition rad (p : gaussian) : R := Rmax (sqrt (- 2 * ln (g_fold (ga_gs p)))) (g_hlr (ga_gs p) * ga_hlr_factor).
Lemma rad_ge : forall p, 5 <= g_hlr (ga_gs p) -> 588 / 100 <= rad p.
Proof. intros p H. unfold rad. eapply Rle_trans; [|apply Rmax_r]. unfold ga_hlr_factor. lra. Qed.
Lemma stepk_rad : forall p, ga_stepk p = PI / (rad p * ga_sigma p). Proof. reflexivity. Qed.
Lemma own_err : forall p, 0 < ga_sigma p -> 0 < g_maxk (ga_gs p) <= 1 / 1000 -> 5 <= g_hlr (ga_gs p) ->
  0 < ga_maxk p /\ 0 < ga_stepk p /\ both_err (fold_err (ga_sigma p) (reach (ga_stepk p)) 0 + cut_err (ga_maxk p * ga_sigma p)) <= 5 / 10000.
Proof.
  intros p SP T HL. pose proof (rad_ge p HL) as RG. pose proof PI_RGT_0 as PP. destruct (k_of _ T) as [K1 K2]. assert (RS : 0 < rad p * ga_sigma p) by (apply Rmult_lt_0_compat; lra).
  assert (KE : ga_maxk p * ga_sigma p = sqrt (- 2 * ln (g_maxk (ga_gs p)))) by (unfold ga_maxk; field; lra).
  split; [unfold ga_maxk; apply Rdiv_lt_0_compat; lra|]. split; [rewrite stepk_rad; apply Rdiv_lt_0_compat; assumption|].
  assert (RE : reach (ga_stepk p) = rad p * ga_sigma p * (1 - / 1000000000000)) by (unfold reach; rewrite stepk_rad; field; lra).
  assert (HE : (reach (ga_stepk p) - 0) / ga_sigma p = rad p * (1 - / 1000000000000)) by (rewrite RE; field; lra).
  assert (F : fold_err (ga_sigma p) (reach (ga_stepk p)) 0 <= 2 * / (5 / 4) ^ 66 * (1001 / 1000)). { apply fold_small; [exact SP|lra|rewrite HE; nra|]. rewrite HE. assert (58 / 10 <= rad p * (1 - / 1000000000000)) by nra. replace (INR 66) with 66 by (rewrite INR_IZR_INZ; reflexivity). nra. }
  assert (F2 : / (5 / 4) ^ 66 <= 1 / 1000000) by (replace (1 / 1000000) with (/ 1000000) by field; apply Rinv_le_contravar; lra). assert (F3 : fold_err (ga_sigma p) (reach (ga_stepk p)) 0 <= 3 / 1000000) by lra.
  assert (C : cut_err (ga_maxk p * ga_sigma p) <= 24 / 100000) by (rewrite KE; apply cut_small; [exact K1|rewrite K2; lra]).
  assert (RP : 0 < reach (ga_stepk p)) by (rewrite RE; apply Rmult_lt_0_compat; lra). pose proof (fold_pos (ga_sigma p) (reach (ga_stepk p)) 0 SP RP). pose proof (cut_pos (ga_maxk p * ga_sigma p) ltac:(rewrite KE; lra)).
  eapply Rle_trans; [apply (both_mono _ (245 / 1000000)); lra|]. unfold both_err. lra.
Qed.

(** with the pixel *)
Lemma pixel_err : forall p c, 0 < ga_sigma p -> 0 < c <= 500 * ga_sigma p -> 0 < g_maxk (ga_gs p) <= 1 / 1000 -> 5 <= g_hlr (ga_gs p) ->
  0 < pixel_maxk p c /\ 0 < pixel_stepk p c /\ c / 2 <= reach (pixel_stepk p c) /\ both_err (fold_err (ga_sigma p) (reach (pixel_stepk p c)) (c / 2) + cut_err (pixel_maxk p c * ga_sigma p)) <= 6 / 10000.
Proof.
  intros p c SP CB T HL. set (s := ga_sigma p) in *. pose proof (rad_ge p HL) as RG. pose proof PI_RGT_0 as PP. destruct (k_of _ T) as [K1 K2]. assert (RS : 0 < rad p * s) by (apply Rmult_lt_0_compat; lra).
  assert (KE : ga_maxk p * s = sqrt (- 2 * ln (g_maxk (ga_gs p)))) by (unfold ga_maxk; fold s; field; lra).
  assert (BK : 4 <= bx_maxk (pixel_box c (ga_gs p)) * s). { unfold bx_maxk, bx_minL, pixel_box. cbn [bx_gs bx_width bx_height]. rewrite Rmin_left by lra. assert (G : 0 < g_maxk (ga_gs p) * c) by (apply Rmult_lt_0_compat; lra). apply (Rmult_le_reg_r (g_maxk (ga_gs p) * c)); [exact G|]. replace (2 / (g_maxk (ga_gs p) * c) * s * (g_maxk (ga_gs p) * c)) with (2 * s) by (field; split; lra). assert (g_maxk (ga_gs p) * c <= 1 / 1000 * (500 * s)) by (apply Rmult_le_compat; lra). lra. }
  assert (PK : 7 / 2 <= pixel_maxk p c * s /\ exp (- ((pixel_maxk p c * s) ^ 2 / 2)) <= 1 / 1000).
  { unfold pixel_maxk. unfold Rmin. destruct (Rle_dec (ga_maxk p) (bx_maxk (pixel_box c (ga_gs p)))).
    - rewrite KE, K2. lra.
    - split; [lra|]. eapply Rle_trans; [apply (exp_small 32)|]; [replace (INR 32) with 32 by (rewrite INR_IZR_INZ; reflexivity); nra|]. replace (1 / 1000) with (/ 1000) by field. apply Rinv_le_contravar; lra. }
  destruct PK as [P1 P2]. assert (MP : 0 < pixel_maxk p c) by (apply (Rmult_lt_reg_r s); lra). split; [exact MP|].
  assert (SE : pixel_stepk p c = PI / sqrt ((rad p * s) ^ 2 + c ^ 2)).
  { unfold pixel_stepk. rewrite stepk_rad. fold s. unfold bx_stepk, bx_maxL, pixel_box. cbn [bx_width bx_height]. rewrite Rmax_left by lra.
    replace (/ (PI / (rad p * s)) ^ 2 + / (PI / c) ^ 2) with (((rad p * s) ^ 2 + c ^ 2) / (PI * PI)) by (field; repeat split; lra). assert (0 < (rad p * s) ^ 2 + c ^ 2) by (assert (0 < (rad p * s) ^ 2) by (apply pow_lt; lra); assert (0 < c ^ 2) by (apply pow_lt; lra); lra). rewrite sqrt_div_alt by nra. rewrite sqrt_square by lra. pose proof (sqrt_lt_R0 _ H). field. lra. }
  set (Q := sqrt ((rad p * s) ^ 2 + c ^ 2)) in *. assert (QS : Q * Q = (rad p * s) ^ 2 + c ^ 2) by (apply sqrt_sqrt; apply Rplus_le_le_0_compat; apply pow2_ge_0). assert (Q0 : 0 <= Q) by apply sqrt_pos.
  assert (QL : 86 / 100 * (rad p * s) + 1 / 2 * c <= Q * (1 - / 1000000000000)).
  { assert (W : 0 <= Q * (1 - / 1000000000000)) by (apply Rmult_le_pos; lra). apply Rsqr_incr_0; [|lra|lra]. unfold Rsqr. replace (Q * (1 - / 1000000000000) * (Q * (1 - / 1000000000000))) with (Q * Q * ((1 - / 1000000000000) * (1 - / 1000000000000))) by ring. rewrite QS. assert (99 / 100 <= (1 - / 1000000000000) * (1 - / 1000000000000)) by lra.
    apply Rle_trans with (((rad p * s) ^ 2 + c ^ 2) * (99 / 100)); [|apply Rmult_le_compat_l; [rewrite <- QS; apply Rmult_le_pos; lra|lra]]. generalize (rad p * s). intro z. pose proof (pow2_ge_0 (1 / 2 * z - 86 / 100 * c)). pose proof (pow2_ge_0 z). pose proof (pow2_ge_0 c). lra. }
  assert (QP : 0 < Q) by nra. split; [rewrite SE; apply Rdiv_lt_0_compat; assumption|].
  assert (RE : reach (pixel_stepk p c) = Q * (1 - / 1000000000000)) by (unfold reach; rewrite SE; field; lra). split; [rewrite RE; lra|].
  assert (HE : 505 / 100 <= (reach (pixel_stepk p c) - c / 2) / s). { apply (Rmult_le_reg_r s); [exact SP|]. replace ((reach (pixel_stepk p c) - c / 2) / s * s) with (reach (pixel_stepk p c) - c / 2) by (field; lra). rewrite RE. assert (588 / 100 * s <= rad p * s) by (apply Rmult_le_compat_r; lra). lra. }
  assert (F : fold_err s (reach (pixel_stepk p c)) (c / 2) <= 2 * / (5 / 4) ^ 50 * (1001 / 1000)). { apply fold_small; [exact SP|lra|lra|]. replace (INR 50) with 50 by (rewrite INR_IZR_INZ; reflexivity). nra. }
  assert (F2 : / (5 / 4) ^ 50 <= 1 / 60000) by (replace (1 / 60000) with (/ 60000) by field; apply Rinv_le_contravar; lra).
  pose proof (cut_small _ P1 P2) as C. assert (RP : 0 < reach (pixel_stepk p c)) by (rewrite RE; apply Rmult_lt_0_compat; lra). pose proof (fold_pos s (reach (pixel_stepk p c)) (c / 2) SP RP). pose proof (cut_pos (pixel_maxk p c * s) ltac:(lra)).
  eapply Rle_trans; [apply (both_mono _ (28 / 100000)); lra|]. unfold both_err. lra.
Qed.
(** a size of 128 *)
Lemma make_128 : forall maxk stepk b, (image_N b <= 128)%Z -> 0 < stepk -> 2 * PI / stepk <= 126 -> maxk < PI -> exists dk, makeKImage 128 4096 maxk stepk 1 b = Ok (kbounds 128, 128%Z, dk).
Proof.
  intros maxk stepk b B S T K. pose proof PI_RGT_0 as PP. eexists. unfold makeKImage. cbn [Z.eqb Pos.eqb].
  destruct (getGoodImageSize_ge 1 stepk ltac:(lra) S) as [_ G]. rewrite Rmult_1_l in G. assert (GG : (getGoodImageSize 1 stepk < 128)%Z). { apply lt_IZR. assert (0 < 2 * PI / stepk) by (apply Rdiv_lt_0_compat; lra). nra. }
  set (n := Z.max (getGoodImageSize 1 stepk) (image_N b)). assert (N1 : (n <= 128)%Z) by lia. assert (N0 : (0 <= n)%Z \/ (n < 0)%Z) by lia.
  assert (NP : (1 <= n)%Z). { destruct (getGoodImageSize_ge 1 stepk ltac:(lra) S) as [G1 _]. assert (0 < getGoodImageSize 1 stepk)%Z; [|lia]. apply lt_IZR. eapply Rlt_le_trans; [|exact G1]. apply Rmult_lt_0_compat; [apply Rdiv_lt_0_compat; lra|lra]. }
  assert (G2 : (good_fft_size (IZR n) <= 128)%Z). { destruct (good_fft_size_exact n ltac:(lia)) as (_ & _ & H). apply H; [exists 7%Z; split; [lia|left; reflexivity]|apply IZR_le; lia]. }
  rewrite (Z.max_r _ 128) by lia. replace (IZR 128 * (2 * PI / (IZR 128 * 1)) / 2) with PI by (field; lra). destruct (Rltb_spec maxk PI) as [L|L]; [|contradiction]. change (4096 <? 128)%Z with false. reflexivity.
Qed.
