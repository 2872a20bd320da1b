(** Bandwidths: what lies beyond maxk and outside pi / stepk. *)
From Coq Require Import ZArith Reals Bool List Lra Lia.
From Coquelicot Require Import Coquelicot.
From Verif Require Import Base Bounds_Model Bounds_Proofs GSP_Model Sky_Model Util_Model Size_Model Size_Spec Num_Consts Size_Proofs Size_Moffat.
Import ListNotations.
Open Scope R_scope.

Lemma ln_neg : forall x, 0 < x <= 1 -> ln x <= 0.
Proof. intros x X. destruct (Req_dec x 1) as [->|N]; [rewrite ln_1; lra|]. apply Rlt_le. rewrite <- ln_1. apply ln_increasing; lra. Qed.
Lemma exp_le : forall a b, a <= b -> exp a <= exp b.
Proof. intros a b [H| ->]; [apply Rlt_le, exp_increasing, H|lra]. Qed.
Lemma norm2_nonneg : forall k, 0 <= norm2 k.
Proof. intros [x y]. unfold norm2. cbn [fst snd]. nra. Qed.
Lemma beyond_norm2 : forall m k, beyond m k -> m * m <= norm2 k.
Proof. intros m k H. exact H. Qed.

(** * maxk *)
Lemma gaussian_maxk : forall p k, 0 < ga_sigma p -> 0 < g_maxk (ga_gs p) <= 1 -> beyond (ga_maxk p) k -> Rabs (ga_kValue p k) <= g_maxk (ga_gs p) * Rabs (ga_flux p).
Proof.
  intros p k S T H. apply beyond_norm2 in H. unfold ga_maxk in H. set (t := g_maxk (ga_gs p)) in *. set (s := ga_sigma p) in *. pose proof (ln_neg t T) as L.
  assert (E : sqrt (-2 * ln t) / s * (sqrt (-2 * ln t) / s) = -2 * ln t / (s * s)).
  { replace (sqrt (-2 * ln t) / s * (sqrt (-2 * ln t) / s)) with (sqrt (-2 * ln t) * sqrt (-2 * ln t) / (s * s)) by (field; lra). rewrite sqrt_sqrt by lra. reflexivity. }
  rewrite E in H. unfold ga_kValue, ga_sigsq. fold s. rewrite Rabs_mult, (Rabs_pos_eq (exp _)) by (apply Rlt_le, exp_pos). rewrite Rmult_comm. apply Rmult_le_compat_r; [apply Rabs_pos|].
  apply (Rle_trans _ (exp (ln t))); [apply exp_le|rewrite exp_ln; lra]. rewrite mhalf. assert (H2 : -2 * ln t <= norm2 k * (s * s)).
  { replace (-2 * ln t) with (-2 * ln t / (s * s) * (s * s)) by (field; lra). apply Rmult_le_compat_r; nra. }
  replace (s ^ 2) with (s * s) by ring. lra.
Qed.
Lemma cube_le : forall a q, 0 <= a -> a * a <= q -> a * a * a <= q * sqrt q.
Proof. intros a q A H. assert (a <= sqrt q) by (rewrite <- (sqrt_square a) by lra; apply sqrt_le_1_alt; lra). pose proof (sqrt_pos q). nra. Qed.
Lemma exponential_maxk : forall p k, 0 < ex_r0 p -> 0 < g_maxk (ex_gs p) -> beyond (ex_maxk p) k -> Rabs (ex_kValue p k) <= g_maxk (ex_gs p) * Rabs (ex_flux p).
Proof.
  intros p k S T H. apply beyond_norm2 in H. unfold ex_maxk in H. set (t := g_maxk (ex_gs p)) in *. set (s := ex_r0 p) in *. rewrite jpow_pos in H by lra.
  set (c := Rpower t (- one_third)) in *. assert (C : 0 < c) by apply Rpower_pos. assert (C3 : c * c * c * t = 1).
  { unfold c. rewrite <- (Rpower_1 t) at 4 by lra. rewrite <- !Rpower_plus. replace (- one_third + - one_third + - one_third + 1) with 0 by (unfold one_third; field). now apply Rpower_O. }
  assert (H2 : c * c <= norm2 k * (s * s)). { replace (c * c) with (c / s * (c / s) * (s * s)) by (field; lra). apply Rmult_le_compat_r; nra. }
  unfold ex_kValue. fold s. replace (s ^ 2) with (s * s) by ring. set (q := norm2 k * (s * s) + 1). assert (Q : 1 <= q) by (unfold q; pose proof (norm2_nonneg k); nra).
  pose proof (cube_le c q ltac:(lra) ltac:(unfold q; lra)) as K. assert (KP : 0 < q * sqrt q) by (apply Rmult_lt_0_compat; [lra|apply sqrt_lt_R0; lra]).
  unfold Rdiv. rewrite Rabs_mult, Rmult_comm. apply Rmult_le_compat_r; [apply Rabs_pos|]. rewrite Rabs_pos_eq by (apply Rlt_le, Rinv_0_lt_compat, KP).
  apply (Rmult_le_reg_r (q * sqrt q)); [exact KP|]. rewrite Rinv_l by lra. rewrite <- C3. rewrite (Rmult_comm t). apply Rmult_le_compat_r; lra.
Qed.
Lemma spergel_maxk : forall p k, -1 < sp_nu p -> 0 < sp_r0 p -> 0 < g_maxk (sp_gs p) <= 1 -> beyond (sp_maxk p) k -> Rabs (sp_kValue p k) <= g_maxk (sp_gs p) * Rabs (sp_flux p).
Proof.
  intros p k N S T H. apply beyond_norm2 in H. unfold sp_maxk in H. set (t := g_maxk (sp_gs p)) in *. set (s := sp_r0 p) in *. set (n := sp_nu p) in *. rewrite jpow_pos in H by lra.
  assert (I : -1 / (1 + n) < 0) by (unfold Rdiv; pose proof (Rinv_0_lt_compat (1 + n) ltac:(lra)); nra).
  pose proof (Rpower_ge1 t (-1 / (1 + n)) ltac:(lra) ltac:(lra) ltac:(lra)) as G. set (c := Rpower t (-1 / (1 + n))) in *.
  assert (H2 : c - 1 <= norm2 k * (s * s)).
  { rewrite <- (sqrt_sqrt (c - 1)) by lra. replace (sqrt (c - 1) * sqrt (c - 1)) with (sqrt (c - 1) / s * (sqrt (c - 1) / s) * (s * s)) by (field; lra). apply Rmult_le_compat_r; nra. }
  unfold sp_kValue, sp_r0_sq. fold s n. rewrite Rabs_mult, Rmult_comm. apply Rmult_le_compat_r; [apply Rabs_pos|]. rewrite jpow_pos by lra. rewrite Rabs_pos_eq by (apply Rlt_le, Rpower_pos).
  eapply Rle_trans; [apply (Rpower_anti _ c); lra|]. unfold c. rewrite Rpower_mult. replace (-1 / (1 + n) * (-1 - n)) with 1 by (field; lra). rewrite Rpower_1; lra.
Qed.

(** * sinc *)
Lemma sin_abs_le : forall x, Rabs (sin x) <= Rabs x.
Proof.
  assert (P : forall x, 0 <= x -> Rabs (sin x) <= x).
  { intros x [X|<-]; [|rewrite sin_0, Rabs_R0; lra]. destruct (Rle_lt_dec x 1) as [L|L].
    - rewrite Rabs_pos_eq by (apply sin_ge_0; pose proof PI2_1; lra). apply Rlt_le, sin_lt_x. exact X.
    - apply (Rle_trans _ 1); [apply Rabs_le; pose proof (SIN_bound x); lra|lra]. }
  intro x. destruct (Rle_lt_dec 0 x) as [L|L]; [rewrite (Rabs_pos_eq x) by lra; auto|]. specialize (P (- x) ltac:(lra)). rewrite sin_neg, Rabs_Ropp in P. rewrite (Rabs_left x) by lra. exact P.
Qed.
Lemma sin_sq_bound : forall x, (sin x * sin x) * (1 + x * x / 3) <= x * x.
Proof.
  assert (P : forall x, 0 <= x -> (sin x * sin x) * (1 + x * x / 3) <= x * x).
  { intros x X. destruct (Rle_lt_dec (3 / 2) (x * x)) as [L|L].
    - pose proof (SIN_bound x). assert (sin x * sin x <= 1) by nra. nra.
    - assert (XB : x <= 5 / 4) by nra. pose proof (sin_bound x 0 X ltac:(pose proof PI2_1; lra)) as [_ B]. unfold sin_approx, sin_term in B. cbn [sum_f_R0 Nat.mul Nat.add pow fact INR] in B.
      assert (B2 : sin x <= x - x * x * x / 6 + x * x * x * x * x / 120). { eapply Rle_trans; [exact B|]. right. cbn. field. }
      clear B. assert (S0 : 0 <= sin x) by (apply sin_ge_0; pose proof PI2_1; lra). set (w := x * x) in *.
      assert (B3 : sin x <= x * (1 - w / 6 + w * w / 120)) by (eapply Rle_trans; [exact B2|right; unfold w; field]). assert (C0 : 0 <= 1 - w / 6 + w * w / 120) by (unfold w in *; nra).
      assert (B4 : sin x * sin x <= w * ((1 - w / 6 + w * w / 120) * (1 - w / 6 + w * w / 120))).
      { replace (w * ((1 - w / 6 + w * w / 120) * (1 - w / 6 + w * w / 120))) with (x * (1 - w / 6 + w * w / 120) * (x * (1 - w / 6 + w * w / 120))) by (unfold w; ring). apply Rmult_le_compat; lra. }
      assert (W0 : 0 <= w) by (unfold w; nra). eapply Rle_trans; [apply Rmult_le_compat_r; [lra|exact B4]|].
      assert (Q : (1 - w / 6 + w * w / 120) * (1 - w / 6 + w * w / 120) * (1 + w / 3) <= 1).
      { replace ((1 - w / 6 + w * w / 120) * (1 - w / 6 + w * w / 120) * (1 + w / 3)) with (1 + w * w * (- (1 / 15) + 13 / 1080 * w + (1 / 14400 - 1 / 1080) * (w * w) + w * w * w / 43200)) by field.
        assert (0 <= w * w <= 9 / 4) by nra. assert (0 <= w * w * w <= 27 / 8) by nra. nra. }
      nra. }
  intro x. destruct (Rle_lt_dec 0 x) as [L|L]; [auto|]. specialize (P (- x) ltac:(lra)). rewrite sin_neg in P. nra.
Qed.

Lemma sinc_half : forall k w, w <> 0 -> k <> 0 -> sinc (k * (w / (2 * PI))) = sin (k * w / 2) / (k * w / 2).
Proof.
  intros k w W K. pose proof PI_RGT_0 as P. unfold sinc. destruct (Reqb_spec (k * (w / (2 * PI))) 0) as [e|e].
  - exfalso. assert (k * w = 0) by (replace (k * w) with (k * (w / (2 * PI)) * (2 * PI)) by (field; lra); rewrite e; ring). destruct (Rmult_integral _ _ H); auto.
  - replace (PI * (k * (w / (2 * PI)))) with (k * w / 2) by (field; lra). reflexivity.
Qed.
Lemma sinc_small : forall k w, Rabs (sinc (k * (w / (2 * PI)))) <= 1.
Proof.
  intros k w. pose proof PI_RGT_0 as P. unfold sinc. destruct (Reqb_spec (k * (w / (2 * PI))) 0) as [e|e]; [rewrite Rabs_R1; lra|].
  assert (X : PI * (k * (w / (2 * PI))) <> 0) by (apply Rmult_integral_contrapositive; lra). set (x := PI * _) in *. clearbody x.
  unfold Rdiv. rewrite Rabs_mult, Rabs_inv. apply (Rmult_le_reg_r (Rabs x)); [now apply Rabs_pos_lt|]. rewrite Rmult_assoc, Rinv_l by (now apply Rabs_no_R0). pose proof (sin_abs_le x). lra.
Qed.
(** with a = k L / 2 for a width of at least L: at most 1 / a, and the square at most 1 / (1 + a^2 / 3) *)
Lemma sinc_decay : forall k w L, 0 < L <= w -> k * k * (L * L) / 4 * (sinc (k * (w / (2 * PI))) * sinc (k * (w / (2 * PI)))) <= 1.
Proof.
  intros k w L W. destruct (Req_dec k 0) as [->|K]; [rewrite !Rmult_0_l; unfold Rdiv; rewrite !Rmult_0_l; lra|]. rewrite sinc_half by lra. set (a := k * w / 2).
  assert (A : a <> 0) by (unfold a; intro Z; assert (k * w = 0) by lra; destruct (Rmult_integral _ _ H); lra).
  assert (AA : 0 < a * a) by nra. pose proof (SIN_bound a) as SB. replace (k * k * (L * L) / 4 * (sin a / a * (sin a / a))) with (k * k * (L * L) / 4 * (sin a * sin a) / (a * a)) by (field; exact A).
  apply (Rmult_le_reg_r (a * a)); [exact AA|]. unfold Rdiv at 1. rewrite Rmult_assoc, Rinv_l by lra. assert (S1 : 0 <= sin a * sin a <= 1) by nra.
  assert (KL : k * k * (L * L) / 4 <= a * a). { unfold a. replace (k * w / 2 * (k * w / 2)) with (k * k * (w * w) / 4) by field. assert (0 <= k * k) by nra. assert (L * L <= w * w) by nra. nra. }
  assert (0 <= k * k * (L * L) / 4). { assert (0 <= k * k) by nra. assert (0 <= L * L) by nra. nra. } nra.
Qed.
Lemma sinc_decay3 : forall k w L, 0 < L <= w -> (1 + k * k * (L * L) / 4 / 3) * (sinc (k * (w / (2 * PI))) * sinc (k * (w / (2 * PI)))) <= 1.
Proof.
  intros k w L W. destruct (Req_dec k 0) as [->|K].
  { unfold sinc. destruct (Reqb_spec (0 * (w / (2 * PI))) 0) as [e|e]; [|exfalso; apply e; ring]. replace (0 * 0 * (L * L)) with 0 by ring. lra. }
  rewrite sinc_half by lra. set (a := k * w / 2).
  assert (A : a <> 0) by (unfold a; intro Z; assert (k * w = 0) by lra; destruct (Rmult_integral _ _ H); lra).
  assert (AA : 0 < a * a) by nra. pose proof (sin_sq_bound a) as SB. replace ((1 + k * k * (L * L) / 4 / 3) * (sin a / a * (sin a / a))) with ((1 + k * k * (L * L) / 4 / 3) * (sin a * sin a) / (a * a)) by (field; exact A).
  apply (Rmult_le_reg_r (a * a)); [exact AA|]. unfold Rdiv at 1. rewrite Rmult_assoc, Rinv_l by lra. assert (S1 : 0 <= sin a * sin a) by nra.
  assert (KL : k * k * (L * L) / 4 <= a * a). { unfold a. replace (k * w / 2 * (k * w / 2)) with (k * k * (w * w) / 4) by field. assert (0 <= k * k) by nra. assert (L * L <= w * w) by nra. nra. }
  nra.
Qed.
Lemma box_maxk : forall p k, 0 < bx_width p -> 0 < bx_height p -> 0 < g_maxk (bx_gs p) <= 2 / 5 -> beyond (bx_maxk p) k -> Rabs (bx_kValue p k) <= g_maxk (bx_gs p) * Rabs (bx_flux p).
Proof.
  intros p [kx ky] W H T B. unfold beyond in B. cbn [fst snd] in B. unfold bx_maxk in B. set (t := g_maxk (bx_gs p)) in *. set (L := bx_minL p) in *.
  assert (LW : 0 < L <= bx_width p) by (unfold L, bx_minL; split; [apply Rmin_glb_lt; assumption|apply Rmin_l]). assert (LH : 0 < L <= bx_height p) by (unfold L, bx_minL; split; [apply Rmin_glb_lt; assumption|apply Rmin_r]).
  unfold bx_kValue. cbn [fst snd]. set (s1 := sinc (kx * (bx_width p / (2 * PI)))). set (s2 := sinc (ky * (bx_height p / (2 * PI)))).
  pose proof (sinc_decay kx _ L LW) as D1. pose proof (sinc_decay3 kx _ L LW) as E1. pose proof (sinc_decay ky _ L LH) as D2. pose proof (sinc_decay3 ky _ L LH) as E2. fold s1 in D1, E1. fold s2 in D2, E2.
  assert (LL : 0 < L * L) by nra. set (a := kx * kx * (L * L) / 4) in *. set (b := ky * ky * (L * L) / 4) in *.
  assert (A0 : 0 <= a) by (unfold a; assert (0 <= kx * kx) by nra; nra). assert (B0 : 0 <= b) by (unfold b; assert (0 <= ky * ky) by nra; nra).
  assert (TT : 0 < t * t <= 4 / 25) by nra. assert (AB : 1 <= t * t * (a + b)).
  { replace (2 / (t * L) * (2 / (t * L))) with (4 / (t * t * (L * L))) in B by (field; lra). replace 1 with (4 / (t * t * (L * L)) * (t * t * (L * L) / 4)) by (field; lra).
    replace (t * t * (a + b)) with ((kx * kx + ky * ky) * (t * t * (L * L) / 4)) by (unfold a, b; field). apply Rmult_le_compat_r; [nra|exact B]. }
  assert (G1 : 0 <= s1 * s1) by nra. assert (G2 : 0 <= s2 * s2) by nra.
  assert (K : (s1 * s2) * (s1 * s2) <= t * t).
  { replace (s1 * s2 * (s1 * s2)) with (s1 * s1 * (s2 * s2)) by ring. set (u := s1 * s1) in *. set (v := s2 * s2) in *. clearbody u v a b. clear B.
    assert (T2 : t * t * (a + b) <= 4 / 25 * (a + b)) by (apply Rmult_le_compat_r; lra).
    assert (G : forall a b u v, 0 <= a -> 0 <= b -> 0 <= u -> 0 <= v -> 3 <= a -> a * u <= 1 -> (1 + b / 3) * v <= 1 -> 1 <= t * t * (a + b) -> u * v <= t * t).
    { clear - TT. intros a b u v A0 B0 U V A3 AU BV AB. assert (P1 : (a * u) * ((1 + b / 3) * v) <= 1 * 1) by (apply Rmult_le_compat; try assumption; apply Rmult_le_pos; lra).
      assert (P3 : a + b <= a * (1 + b / 3)) by nra. assert (P2 : t * t * (a + b) <= t * t * (a * (1 + b / 3))) by (apply Rmult_le_compat_l; lra).
      apply (Rmult_le_reg_r (a * (1 + b / 3))); [lra|]. replace (u * v * (a * (1 + b / 3))) with (a * u * ((1 + b / 3) * v)) by ring. lra. }
    destruct (Rle_lt_dec b a) as [O|O]; [apply (G a b); lra|]. rewrite Rmult_comm. apply (G b a); lra. }
  replace (bx_flux p * s1 * s2) with (s1 * s2 * bx_flux p) by ring. rewrite Rabs_mult. apply Rmult_le_compat_r; [apply Rabs_pos|]. apply Rabs_le. split; [|apply sq_le_le; lra].
  assert (- (s1 * s2) <= t) by (apply sq_le_le; [lra|nra]). lra.
Qed.
(** * stepk *)
(** [thr] of the total at most lies outside [r] *)
Lemma total_unique : forall I f g, total_flux I f -> total_flux I g -> f = g.
Proof. intros I f g F G. apply is_lim_unique in F. apply is_lim_unique in G. rewrite F in G. now injection G. Qed.
Lemma share : forall F c e, Rabs (F - F * (1 - e)) <= c * Rabs F <-> Rabs (F * e) <= c * Rabs F.
Proof. intros F c e. replace (F - F * (1 - e)) with (F * e) by ring. reflexivity. Qed.
Lemma share_le : forall F c e, 0 <= e <= c -> Rabs (F - F * (1 - e)) <= c * Rabs F.
Proof. intros F c e H. apply share. rewrite Rabs_mult, (Rabs_pos_eq e), Rmult_comm by lra. apply Rmult_le_compat_r; [apply Rabs_pos|lra]. Qed.
Lemma gaussian_stepk : forall p f, 0 < ga_sigma p -> 0 < g_fold (ga_gs p) < 1 -> total_flux (ga_xValue p) f ->
  Rabs (f - flux_within (ga_xValue p) (PI / ga_stepk p)) <= g_fold (ga_gs p) * Rabs f /\ g_hlr (ga_gs p) * ga_half_light_radius p <= PI / ga_stepk p.
Proof.
  intros p f S T F. rewrite (total_unique _ _ _ F (gaussian_tot p S)). set (t := g_fold (ga_gs p)) in *. set (s := ga_sigma p) in *.
  assert (L : 0 < -2 * ln t) by (assert (ln t < 0) by (rewrite <- ln_1; apply ln_increasing; lra); lra). pose proof (sqrt_lt_R0 _ L) as SQ.
  set (r := Rmax (sqrt (-2 * ln t)) (g_hlr (ga_gs p) * ga_hlr_factor)). assert (R1 : sqrt (-2 * ln t) <= r) by apply Rmax_l. assert (R2 : g_hlr (ga_gs p) * ga_hlr_factor <= r) by apply Rmax_r.
  assert (E : PI / ga_stepk p = r * s). { unfold ga_stepk. fold t s r. pose proof PI_RGT_0. field. repeat split; lra. }
  rewrite E. split; [|unfold ga_half_light_radius; fold s; nra]. rewrite gaussian_within by (try nra; fold s; lra). fold s. replace (r * s / s) with r by (field; lra).
  apply share_le. split; [apply Rlt_le, exp_pos|]. apply (Rle_trans _ (exp (ln t))); [apply exp_le|rewrite exp_ln; lra].
  assert (-2 * ln t <= r ^ 2); [|lra]. rewrite <- (sqrt_sqrt (-2 * ln t)) by lra. cbn [pow]. rewrite Rmult_1_r. apply Rmult_le_compat; lra.
Qed.
Lemma moffat_stepk : forall p f, beta_thr < mo_beta p -> 0 < g_xacc (mo_gs p) < 1 -> 0 < mo_r0 p -> 0 < g_fold (mo_gs p) <= 1 -> total_flux (mo_xValue p) f ->
  Rabs (f - flux_within (mo_xValue p) (PI / mo_stepk p)) <= g_fold (mo_gs p) * Rabs f /\ g_hlr (mo_gs p) * mo_half_light_radius p <= PI / mo_stepk p.
Proof.
  intros p f B X P T F. assert (B1 : 1 < mo_beta p) by (unfold beta_thr in B; lra). rewrite (total_unique _ _ _ F (moffat_total p B1 ltac:(lra) P)).
  destruct (moffat_maxR p B1 ltac:(lra)) as [M E]. set (t := g_fold (mo_gs p)) in *. set (x := g_xacc (mo_gs p)) in *. set (s := mo_r0 p) in *. set (b := mo_beta p) in *.
  unfold mo_stepk. fold b. destruct (Rltb_spec beta_thr b) as [l|l]; [|lra]. unfold mo_stepk_highbeta. fold t s b.
  assert (H5 : 0.5 / (1 - b) = 1 / (1 - b) * / 2) by (replace 0.5 with (1 / 2) by lra; field; lra). rewrite H5, jpow_pos by lra. clear H5. set (c := Rpower t (1 / (1 - b) * / 2)).
  assert (CC : c * c = Rpower t (1 / (1 - b))) by (unfold c; rewrite <- Rpower_plus; f_equal; field; lra). assert (C0 : 0 < c) by apply Rpower_pos.
  assert (M1 : 0 < mo_maxR p). { unfold mo_maxR. apply Rmult_lt_0_compat; [|exact P]. destruct M as [M|M]; [exact M|]. exfalso. rewrite <- M in E. pose proof (Rpower_gt1 x (1 / (1 - b)) ltac:(lra) ltac:(lra) (inv_neg _ B1)). fold b x in E. lra. }
  set (r := Rmax (Rmin (c * s) (mo_maxR p)) (g_hlr (mo_gs p) * mo_half_light_radius p)). assert (R0 : 0 < Rmin (c * s) (mo_maxR p)) by (apply Rmin_glb_lt; nra).
  assert (R1 : Rmin (c * s) (mo_maxR p) <= r) by apply Rmax_l. assert (R2 : g_hlr (mo_gs p) * mo_half_light_radius p <= r) by apply Rmax_r.
  replace (PI / (PI / r)) with r by (pose proof PI_RGT_0; field; lra). split; [|exact R2].
  destruct (Rle_lt_dec (mo_maxR p) r) as [O|O].
  - unfold flux_within. rewrite (is_RInt_unique _ _ _ _ (moffat_outside p r B1 ltac:(fold x; lra) P O)). fold x. rewrite Rminus_eq_0, Rabs_R0. pose proof (Rabs_pos (mo_flux p * (1 - x))). nra.
  - unfold flux_within. rewrite (is_RInt_unique _ _ _ _ (moffat_within p r B1 ltac:(fold x; lra) P ltac:(lra))). fold s b. set (q := r / s). assert (Q : r = q * s) by (unfold q; field; lra).
    assert (CQ : c <= q). { assert (c * s <= r) by (destruct (Rle_lt_dec (c * s) (mo_maxR p)) as [k|k]; [rewrite Rmin_left in R1 by lra; exact R1|rewrite Rmin_right in R1 by lra; lra]). rewrite Q in H. apply (Rmult_le_reg_r s); lra. }
    assert (W : Rpower (1 + q ^ 2) (1 - b) <= t).
    { eapply Rle_trans; [apply (Rpower_anti _ (c * c)); [lra|nra|cbn [pow]; rewrite Rmult_1_r; assert (c * c <= q * q) by (apply Rmult_le_compat; lra); lra]|]. rewrite CC, Rpower_1m by lra. lra. }
    assert (WX : x <= Rpower (1 + q ^ 2) (1 - b)).
    { apply (Rle_trans _ (Rpower (Rpower x (1 / (1 - b))) (1 - b))); [rewrite Rpower_1m by lra; lra|]. apply Rpower_anti; [lra|assert (0 <= q ^ 2) by nra; lra|]. fold x b in E. rewrite <- E. unfold mo_maxR in O. fold s in O. rewrite Q in O. assert (q < mo_maxRrD p) by nra. nra. }
    set (z := Rpower (1 + q ^ 2) (1 - b)) in *. clearbody z. replace (mo_flux p * (1 - x) - mo_flux p * (1 - z)) with ((z - x) * mo_flux p) by ring. rewrite !Rabs_mult, (Rabs_pos_eq (z - x)), (Rabs_pos_eq (1 - x)) by lra.
    pose proof (Rabs_pos (mo_flux p)). assert (z - x <= t * (1 - x)) by nra. nra.
Qed.
Lemma box_stepk : forall p x y, 0 < bx_width p -> 0 < bx_height p -> PI / bx_stepk p <= Rabs x \/ PI / bx_stepk p <= Rabs y -> bx_xValue p (x, y) = 0.
Proof.
  intros p x y W H. assert (M : 0 < bx_maxL p) by (unfold bx_maxL; eapply Rlt_le_trans; [exact W|apply Rmax_l]). unfold bx_stepk. replace (PI / (PI / bx_maxL p)) with (bx_maxL p) by (pose proof PI_RGT_0; field; lra).
  assert (bx_width p <= bx_maxL p) by apply Rmax_l. assert (bx_height p <= bx_maxL p) by apply Rmax_r. unfold bx_xValue. cbn [fst snd].
  intros [K|K]; destruct (Rltb_spec (2 * Rabs x) (bx_width p)); destruct (Rltb_spec (2 * Rabs y) (bx_height p)); try reflexivity; lra.
Qed.
(** ** Exponential *)
Lemma ex_radius_eq : forall x, ex_radius x = let L := - ln x in L + ln (1 + (L + ln (1 + (L + ln (1 + L))))).
Proof. intro x. unfold ex_radius. cbn [fori]. cbv zeta. replace (ln (1 + - ln x) - ln x) with (- ln x + ln (1 + - ln x)) by ring. set (a := - ln x + ln (1 + - ln x)). replace (ln (1 + a) - ln x) with (- ln x + ln (1 + a)) by ring. set (b := - ln x + ln (1 + a)). ring. Qed.
Lemma ln_1p_le : forall x, -1 < x -> ln (1 + x) <= x.
Proof. intros x X. apply (Rle_trans _ (ln (exp x))); [|rewrite ln_exp; lra]. apply ln_le; [lra|apply exp_ineq1_le]. Qed.
Lemma ln_1p_pos : forall x, 0 < x -> 0 < ln (1 + x).
Proof. intros x X. rewrite <- ln_1. apply ln_increasing; lra. Qed.
Lemma ln_diff : forall a b, 0 < a -> a <= b -> ln b - ln a <= (b - a) / a.
Proof.
  intros a b A B. replace b with (a * (1 + (b - a) / a)) at 1 by (field; lra). assert (0 <= (b - a) / a) by (apply Rmult_le_pos; [lra|apply Rlt_le, Rinv_0_lt_compat; lra]).
  rewrite ln_mult by lra. pose proof (ln_1p_le ((b - a) / a) ltac:(lra)). lra.
Qed.
Lemma tail_decr : forall a b, 0 <= a -> a <= b -> (1 + b) * exp (- b) <= (1 + a) * exp (- a).
Proof.
  intros a b A B. pose proof (exp_ineq1_le (b - a)) as E. replace (- a) with (- b + (b - a)) by ring. rewrite exp_plus. pose proof (exp_pos (- b)). set (w := exp (b - a)) in *. assert (1 + b <= (1 + a) * w) by nra. nra.
Qed.
Section ExpRadius.
Variable x : R.
Hypothesis X : 0 < x < 1.
Let L := - ln x.
Let A := L + ln (1 + L).
Let B := L + ln (1 + A).
Lemma exr_L : 0 < L.
Proof. unfold L. assert (ln x < 0) by (rewrite <- ln_1; apply ln_increasing; lra). lra. Qed.
Lemma exr_A : L < A.
Proof. unfold A. pose proof (ln_1p_pos L exr_L). lra. Qed.
Lemma exr_B : A < B.
Proof. pose proof exr_L. pose proof exr_A. unfold B. unfold A at 1. assert (ln (1 + L) < ln (1 + A)) by (apply ln_increasing; lra). lra. Qed.
Lemma exr_C : ex_radius x = L + ln (1 + B).
Proof. rewrite ex_radius_eq. reflexivity. Qed.
Lemma exr_BC : B < ex_radius x.
Proof. rewrite exr_C. pose proof exr_L. pose proof exr_A. pose proof exr_B. unfold B at 1. assert (ln (1 + A) < ln (1 + B)) by (apply ln_increasing; lra). lra. Qed.
Lemma exr_tail : (1 + ex_radius x) * exp (- ex_radius x) = x * (1 + (ex_radius x - B) / (1 + B)).
Proof.
  pose proof exr_L. pose proof exr_A. pose proof exr_B. rewrite exr_C at 2. replace (- (L + ln (1 + B))) with (ln x + - ln (1 + B)) by (unfold L; ring). rewrite exp_plus, exp_Ropp, !exp_ln by lra. field. lra.
Qed.
Lemma exr_above : x < (1 + ex_radius x) * exp (- ex_radius x).
Proof.
  rewrite exr_tail. pose proof exr_L. pose proof exr_A. pose proof exr_B. pose proof exr_BC. assert (0 < (ex_radius x - B) / (1 + B)) by (apply Rmult_lt_0_compat; [lra|apply Rinv_0_lt_compat; lra]). nra.
Qed.
Lemma exr_excess : (ex_radius x - B) / (1 + B) <= ln (1 + L) / (1 + L) ^ 3.
Proof.
  pose proof exr_L as HL. pose proof exr_A as HA. pose proof exr_B as HB. pose proof exr_BC as HC.
  assert (D1 : ex_radius x - B <= (B - A) / (1 + A)). { rewrite exr_C. unfold B at 2. pose proof (ln_diff (1 + A) (1 + B) ltac:(lra) ltac:(lra)) as D. replace (1 + B - (1 + A)) with (B - A) in D by ring. lra. }
  assert (D2 : B - A <= (A - L) / (1 + L)). { unfold B. unfold A at 2. pose proof (ln_diff (1 + L) (1 + A) ltac:(lra) ltac:(lra)) as D. replace (1 + A - (1 + L)) with (A - L) in D by ring. lra. }
  assert (D3 : A - L = ln (1 + L)) by (unfold A; ring). rewrite D3 in D2. pose proof (ln_1p_pos L HL) as l0. revert D2 l0. generalize (ln (1 + L)). intros l D2 l0.
  assert (I : forall u v w, 0 <= u <= w -> 0 < 1 + L <= v -> u / v <= w / (1 + L)).
  { intros u v w U V. unfold Rdiv. apply Rmult_le_compat; [lra|apply Rlt_le, Rinv_0_lt_compat; lra|lra|apply Rinv_le_contravar; lra]. }
  assert (E1 : (B - A) / (1 + A) <= l / (1 + L) / (1 + L)) by (apply I; lra).
  assert (E2 : (ex_radius x - B) / (1 + B) <= l / (1 + L) / (1 + L) / (1 + L)) by (apply I; lra).
  replace (l / (1 + L) ^ 3) with (l / (1 + L) / (1 + L) / (1 + L)) by (field; lra). exact E2.
Qed.
End ExpRadius.
Lemma ex_step_radius : forall p, 0 < ex_r0 p -> 0 < g_fold (ex_gs p) < 1 -> let m := Rmax (ex_radius (g_fold (ex_gs p))) (g_hlr (ex_gs p) * ex_hlr_factor) in 0 < m /\ PI / ex_stepk p = m * ex_r0 p.
Proof.
  intros p S T. cbv zeta. set (t := g_fold (ex_gs p)) in *. pose proof (exr_L t T). pose proof (exr_A t T). pose proof (exr_B t T). pose proof (exr_BC t T). pose proof (Rmax_l (ex_radius t) (g_hlr (ex_gs p) * ex_hlr_factor)) as M1.
  split; [lra|]. unfold ex_stepk, ex_inv_r0. fold t. unfold ex_hlr_factor in *. pose proof PI_RGT_0. field. repeat split; lra.
Qed.
Lemma exponential_stepk : forall p f, 0 < ex_r0 p -> 0 < g_fold (ex_gs p) < 1 -> total_flux (ex_xValue p) f ->
  let L := - ln (g_fold (ex_gs p)) in
  Rabs (f - flux_within (ex_xValue p) (PI / ex_stepk p)) <= g_fold (ex_gs p) * (1 + ln (1 + L) / (1 + L) ^ 3) * Rabs f /\ g_hlr (ex_gs p) * ex_half_light_radius p <= PI / ex_stepk p.
Proof.
  intros p f S T F L. rewrite (total_unique _ _ _ F (exponential_tot p S)). destruct (ex_step_radius p S T) as [M0 M]. rewrite M. set (t := g_fold (ex_gs p)) in *. set (m := Rmax _ _) in *.
  assert (M1 : ex_radius t <= m) by apply Rmax_l. assert (M2 : g_hlr (ex_gs p) * ex_hlr_factor <= m) by apply Rmax_r. split; [|unfold ex_half_light_radius; nra].
  rewrite exponential_within by nra. replace (m * ex_r0 p / ex_r0 p) with m by (field; lra). apply share_le. split; [apply Rmult_le_pos; [lra|apply Rlt_le, exp_pos]|].
  pose proof (exr_L t T). pose proof (exr_A t T). pose proof (exr_B t T). pose proof (exr_BC t T). eapply Rle_trans; [apply (tail_decr (ex_radius t)); lra|]. rewrite (exr_tail t T). apply Rmult_le_compat_l; [lra|]. pose proof (exr_excess t T). fold L in H3 |- *. lra.
Qed.
Lemma exponential_stepk_above : forall p f, 0 < ex_r0 p -> 0 < g_fold (ex_gs p) < 1 -> total_flux (ex_xValue p) f -> f <> 0 -> g_hlr (ex_gs p) * ex_hlr_factor <= ex_radius (g_fold (ex_gs p)) ->
  g_fold (ex_gs p) * Rabs f < Rabs (f - flux_within (ex_xValue p) (PI / ex_stepk p)).
Proof.
  intros p f S T F N H. rewrite (total_unique _ _ _ F (exponential_tot p S)) in *. destruct (ex_step_radius p S T) as [M0 M]. rewrite M. set (t := g_fold (ex_gs p)) in *. rewrite Rmax_left in * by exact H.
  rewrite exponential_within by nra. set (m := ex_radius t) in *. replace (m * ex_r0 p / ex_r0 p) with m by (field; lra). set (Q := ex_flux p * (2 * PI * inv_twopi)) in *.
  pose proof (exr_above t T) as A. fold m in A. set (e := (1 + m) * exp (- m)) in *. replace (Q - Q * (1 - e)) with (e * Q) by ring. rewrite Rabs_mult, (Rabs_pos_eq e) by lra. apply Rmult_lt_compat_r; [now apply Rabs_pos_lt|exact A].
Qed.
