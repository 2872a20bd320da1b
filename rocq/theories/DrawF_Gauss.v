(** The Fourier sum of a Gaussian: folding and truncation. *)
From Coq Require Import ZArith Reals Lra Lia.
From Coquelicot Require Import Coquelicot.
From Verif Require Import Size_FT DrawF_Poisson.
Open Scope R_scope.
Local Ltac req := match goal with |- ?a = ?b => change (@eq R a b) end.

Lemma tail_bound : forall (a : nat -> R) M c q, 0 <= q < 1 -> ex_series a -> (forall k, Rabs (a (S M + k)%nat) <= c * q ^ k) -> Rabs (Series a - sum_n a M) <= c / (1 - q).
Proof.
  intros a M c q Q XA B. rewrite (Series_incr_n a (S M)) by (try lia; exact XA). cbn [pred]. rewrite sum_n_Reals. match goal with |- Rabs (?u + ?v - ?u) <= _ => replace (u + v - u) with v by ring end.
  assert (AQ : Rabs q < 1) by (rewrite Rabs_pos_eq; lra). assert (G : is_series (fun k => c * q ^ k) (c / (1 - q))) by (apply (is_series_scal_l c (fun k => q ^ k) (/ (1 - q))), is_series_geom, AQ).
  rewrite <- (is_series_unique _ _ G). assert (XG : ex_series (fun k => c * q ^ k)) by (exists (c / (1 - q)); exact G).
  apply Rle_trans with (Series (fun k => Rabs (a (S M + k)%nat))).
  - apply Series_Rabs. apply (ex_series_le (V := R_CompleteNormedModule) (fun k => Rabs (a (S M + k)%nat)) (fun k => c * q ^ k)); [|exact XG]. intro k. change (Rabs (Rabs (a (S M + k)%nat)) <= c * q ^ k). rewrite Rabs_Rabsolu. apply B.
  - apply Series_le; [|exact XG]. intro k. split; [apply Rabs_pos|apply B].
Qed.
Lemma rint_short : forall (f : R -> R) u v e, (forall x, continuous f x) -> (forall x, Rmin u v <= x <= Rmax u v -> Rabs (f x) <= e) -> Rabs (RInt f u v) <= Rabs (v - u) * e.
Proof.
  intros f u v e FC B. assert (X : forall p q, ex_RInt f p q) by (intros p q; apply (@ex_RInt_continuous R_CompleteNormedModule); intros; apply FC). destruct (Rle_dec u v) as [L|L].
  - rewrite Rmin_left, Rmax_right in B by lra. rewrite (Rabs_pos_eq (v - u)) by lra. apply (abs_RInt_le_const f); [exact L|apply X|exact B].
  - rewrite Rmin_right, Rmax_left in B by lra. rewrite <- (opp_RInt_swap f v u) by apply X. unfold opp; cbn. rewrite Rabs_Ropp, Rabs_minus_sym, (Rabs_pos_eq (u - v)) by lra. apply (abs_RInt_le_const f); [lra|apply X|exact B].
Qed.
Lemma exp_pow : forall x n, exp x ^ n = exp (INR n * x).
Proof. intros x n. induction n as [|n IH]; [cbn [pow INR]; rewrite Rmult_0_l, exp_0; reflexivity|]. rewrite S_INR. cbn [pow]. rewrite IH, <- exp_plus. f_equal. ring. Qed.
Lemma exp_le_of : forall x y, x <= y -> exp x <= exp y.
Proof. intros x y [L|L]; [left; apply exp_increasing; exact L|right; rewrite L; reflexivity]. Qed.

Section Gauss.
  Variables s L w : R.
  Hypothesis SP : 0 < s.
  Hypothesis LP : 0 < L.
  Hypothesis WL : w * L = 2 * PI.
  Definition g0 : R := 1 / (s * sqrt (2 * PI)).
  Definition gd (x : R) : R := g0 * g1 (x / s).
  Definition gk (k : R) : R := exp (- (k * s * (k * s) / 2)).
  Lemma s2p_pos : 0 < sqrt (2 * PI). Proof using Type. apply sqrt_lt_R0. pose proof PI_RGT_0. lra. Qed.
  Lemma g0_pos : 0 < g0. Proof using SP. unfold g0. pose proof s2p_pos. apply Rdiv_lt_0_compat; [lra|]. apply Rmult_lt_0_compat; lra. Qed.
  Lemma w_p : 0 < w. Proof using LP WL. apply (Rmult_lt_reg_r L); [exact LP|]. rewrite WL. pose proof PI_RGT_0. lra. Qed.
  Lemma g1_pos : forall x, 0 < g1 x. Proof using Type. intro x. apply exp_pos. Qed.
  Lemma g1_le : forall x y, 0 <= y -> y <= Rabs x -> g1 x <= g1 y.
  Proof using Type. intros x y Y YX. unfold g1. apply exp_le_of. assert (y * y <= x * x); [|lra]. rewrite <- (Rabs_pos_eq (x * x)) by apply Rle_0_sqr. rewrite Rabs_mult. apply Rmult_le_compat; lra. Qed.
  Lemma gd_pos : forall x, 0 < gd x. Proof using SP. intro x. apply Rmult_lt_0_compat; [apply g0_pos|apply g1_pos]. Qed.
  Lemma gd_le : forall x y, 0 <= y -> y <= Rabs x -> gd x <= gd y.
  Proof using SP. intros x y Y YX. unfold gd. apply Rmult_le_compat_l; [left; apply g0_pos|]. apply g1_le; [apply Rdiv_le_0_compat; lra|]. unfold Rdiv. rewrite Rabs_mult, (Rabs_pos_eq (/ s)) by (left; apply Rinv_0_lt_compat; exact SP). apply Rmult_le_compat_r; [left; apply Rinv_0_lt_compat; exact SP|exact YX]. Qed.
  Lemma gd_0 : gd 0 = g0. Proof using Type. unfold gd, g1. replace (- (0 / s * (0 / s) / 2)) with 0 by (unfold Rdiv; ring). rewrite exp_0. ring. Qed.
  Lemma gd_cont : forall x, continuous gd x. Proof using Type. intro x. apply (@ex_derive_continuous R_AbsRing R_NormedModule). unfold gd, g1. auto_derive. trivial. Qed.
  Definition qL : R := exp (- (L * L / (2 * (s * s)))).
  Lemma qL_r : 0 < qL < 1.
  Proof using LP SP. split; [apply exp_pos|]. unfold qL. rewrite <- exp_0. apply exp_increasing. assert (0 < L * L / (2 * (s * s))); [|lra]. apply Rdiv_lt_0_compat; [nra|]. nra. Qed.
  (** an image at least (m L + a) away *)
  Lemma far : forall (m : nat) a x, 0 <= a -> INR m * L + a <= Rabs x -> gd x <= g0 * g1 (a / s) * qL ^ m.
  Proof using LP SP.
    intros m a x A X. pose proof (pos_INR m) as PM. assert (0 <= INR m * L) by (apply Rmult_le_pos; lra). apply Rle_trans with (gd (INR m * L + a)); [apply gd_le; lra|]. unfold gd. rewrite Rmult_assoc. apply Rmult_le_compat_l; [left; apply g0_pos|]. unfold g1, qL. rewrite exp_pow, <- exp_plus. apply exp_le_of.
    assert (MM : INR m * (L * L) <= INR m * L * (INR m * L)). { replace (INR m * L * (INR m * L)) with (INR m * INR m * (L * L)) by ring. apply Rmult_le_compat_r; [nra|]. destruct m as [|m]; [cbn; lra|]. rewrite S_INR in *. pose proof (pos_INR m). nra. }
    replace ((INR m * L + a) / s * ((INR m * L + a) / s) / 2) with ((INR m * L + a) * (INR m * L + a) / (2 * (s * s))) by (field; lra). replace (- (a / s * (a / s) / 2) + INR m * - (L * L / (2 * (s * s)))) with (- ((a * a + INR m * (L * L)) / (2 * (s * s)))) by (field; lra).
    apply Ropp_le_contravar. unfold Rdiv. apply Rmult_le_compat_r; [left; apply Rinv_0_lt_compat; nra|]. nra.
  Qed.
  Definition hh0 : R := w * s.
  Definition qk : R := exp (- (hh0 * hh0 / 2)).
  Lemma qk_r : 0 < qk < 1.
  Proof using LP SP WL. split; [apply exp_pos|]. unfold qk. rewrite <- exp_0. apply exp_increasing. pose proof w_p. assert (0 < hh0) by (apply Rmult_lt_0_compat; lra). assert (0 < hh0 * hh0) by (apply Rmult_lt_0_compat; lra). lra. Qed.
  Lemma har_le : forall i x, Rabs (har gk L w i x) <= 2 / L * gk (INR i * w).
  Proof using LP.
    assert (EP : forall k, 0 < gk k) by (intro; apply exp_pos). assert (IL : 0 < / L) by (apply Rinv_0_lt_compat; exact LP).
    intros [|i] x; unfold har.
    - cbn [INR]. rewrite Rmult_0_l. pose proof (EP 0) as E. rewrite Rabs_pos_eq by (apply Rdiv_le_0_compat; lra). unfold Rdiv. nra.
    - pose proof (EP (INR (S i) * w)) as E. rewrite Rabs_mult. rewrite (Rabs_pos_eq (2 * _ / L)) by (apply Rdiv_le_0_compat; lra). replace (2 / L * gk (INR (S i) * w)) with (2 * gk (INR (S i) * w) / L * 1) by (field; lra). apply Rmult_le_compat_l; [apply Rdiv_le_0_compat; lra|]. apply Rabs_le. apply COS_bound.
  Qed.
  Lemma gk_pow : forall i, gk (INR i * w) <= qk ^ i.
  Proof using LP SP WL.
    intro i. unfold gk, qk. rewrite exp_pow. apply exp_le_of. replace (INR i * w * s * (INR i * w * s) / 2) with (INR i * INR i * (hh0 * hh0 / 2)) by (unfold hh0; field). replace (INR i * - (hh0 * hh0 / 2)) with (- (INR i * (hh0 * hh0 / 2))) by ring. apply Ropp_le_contravar. apply Rmult_le_compat_r; [pose proof (Rle_0_sqr hh0) as Q; unfold Rsqr in Q; lra|]. destruct i as [|i]; [cbn; lra|]. rewrite S_INR. pose proof (pos_INR i). nra.
  Qed.
  Lemma gcos_lim : forall k c x0, is_lim_seq (fun M => RInt (fun x => gd x * cos (k * x + c)) (x0 - L / 2 - INR M * L) (x0 + L / 2 + INR M * L)) (gk k * cos c).
  Proof using LP SP.
    intros k c x0. set (f := fun x => gd x * cos (k * x + c)). set (A := fun M => L / 2 + INR M * L).
    assert (FC : forall x, continuous f x) by (intro x; apply (@ex_derive_continuous R_AbsRing R_NormedModule); unfold f, gd, g1; auto_derive; trivial).
    assert (X : forall p q, ex_RInt f p q) by (intros p q; apply (@ex_RInt_continuous R_CompleteNormedModule); intros; apply FC).
    assert (AP : forall M, 0 <= A M) by (intro M; unfold A; pose proof (pos_INR M); nra).
    assert (AL : is_lim_seq A p_infty). { unfold A. apply (is_lim_seq_plus _ _ (L / 2) p_infty p_infty); [apply is_lim_seq_const| |reflexivity]. apply (is_lim_seq_mult _ _ p_infty L p_infty); [apply is_lim_seq_INR|apply is_lim_seq_const|]. apply is_Rbar_mult_p_infty_pos. exact LP. }
    assert (SY : forall M, RInt f (- A M) (A M) = g0 * (s * psi (A M / s) (k * s) * cos c)). { intro M. apply is_RInt_unique. apply (is_RInt_ext (fun x => scal g0 (g1 (x / s) * cos (k * x + c)))); [intros x _; unfold scal; cbn; unfold mult; cbn; unfold f, gd; req; ring|]. apply (is_RInt_scal (fun x => g1 (x / s) * cos (k * x + c))). apply gauss_axis; [exact SP|apply AP]. }
    assert (L1 : is_lim_seq (fun M => RInt f (- A M) (A M)) (gk k * cos c)).
    { apply (is_lim_seq_ext (fun M => (g0 * s * cos c) * psi (A M / s) (k * s))); [intro M; rewrite SY; req; ring|].
      replace (gk k * cos c) with ((g0 * s * cos c) * (sqrt (2 * PI) * exp (- (k * s * (k * s) / 2)))) by (unfold gk, g0; pose proof s2p_pos; field; lra).
      apply (is_lim_seq_scal_l (fun M => psi (A M / s) (k * s)) (g0 * s * cos c) (sqrt (2 * PI) * exp (- (k * s * (k * s) / 2)))).
      apply (is_lim_comp_seq (fun a => psi a (k * s)) (fun M => A M / s) p_infty _ (psi_lim (k * s))); [exists 0%nat; intros; discriminate|]. unfold Rdiv. apply (is_lim_seq_mult _ _ p_infty (/ s) p_infty); [exact AL|apply is_lim_seq_const|]. apply is_Rbar_mult_p_infty_pos. cbn. apply Rinv_0_lt_compat; exact SP. }
    assert (L2 : is_lim_seq (fun M => RInt f (- A M) (x0 - A M)) 0 /\ is_lim_seq (fun M => RInt f (A M) (x0 + A M)) 0).
    { assert (B : forall M u v, Rabs x0 <= A M -> Rabs (v - u) <= Rabs x0 -> (forall x, Rmin u v <= x <= Rmax u v -> A M - Rabs x0 <= Rabs x) -> Rabs (RInt f u v) <= Rabs x0 * (g0 * g1 ((A M - Rabs x0) / s))).
      { intros M u v H1 H2 H3. eapply Rle_trans; [apply (rint_short f u v (g0 * g1 ((A M - Rabs x0) / s)) FC)|].
        - intros x HX. unfold f. rewrite Rabs_mult, (Rabs_pos_eq (gd x)) by (left; apply gd_pos). rewrite <- (Rmult_1_r (g0 * g1 _)). apply Rmult_le_compat; [left; apply gd_pos|apply Rabs_pos| |apply Rabs_le, COS_bound]. change (g0 * g1 ((A M - Rabs x0) / s)) with (gd (A M - Rabs x0)). apply gd_le; [lra|apply H3; exact HX].
        - apply Rmult_le_compat_r; [|exact H2]. apply Rmult_le_pos; left; [apply g0_pos|apply g1_pos]. }
      assert (Z : is_lim_seq (fun M => Rabs x0 * (g0 * g1 ((A M - Rabs x0) / s))) 0).
      { apply (is_lim_seq_ext (fun M => (Rabs x0 * g0) * g1 ((A M - Rabs x0) / s))); [intro M; req; ring|]. replace (Finite 0) with (Rbar_mult (Rabs x0 * g0) 0) by (cbn; f_equal; ring). apply is_lim_seq_scal_l.
        apply (is_lim_comp_seq g1 (fun M => (A M - Rabs x0) / s) p_infty _ g1_lim); [exists 0%nat; intros; discriminate|]. unfold Rdiv. apply (is_lim_seq_mult _ _ p_infty (/ s) p_infty); [|apply is_lim_seq_const|apply is_Rbar_mult_p_infty_pos; cbn; apply Rinv_0_lt_compat; exact SP]. apply (is_lim_seq_minus _ _ p_infty (Rabs x0) p_infty); [exact AL|apply is_lim_seq_const|reflexivity]. }
      assert (EV : eventually (fun M => Rabs x0 <= A M)). { destruct (proj2 (is_lim_seq_spec A p_infty) AL (Rabs x0)) as [M0 HM]. exists M0. intros M H. left. apply HM, H. }
      pose proof (Rle_abs x0) as X1. pose proof (Rle_abs (- x0)) as X2. rewrite Rabs_Ropp in X2.
      split; apply is_lim_seq_abs_0; apply (is_lim_seq_le_le_loc (fun _ => 0) _ (fun M => Rabs x0 * (g0 * g1 ((A M - Rabs x0) / s)))); try apply is_lim_seq_const; try exact Z; destruct EV as [M0 HM]; exists M0; intros M H; specialize (HM M H); (split; [apply Rabs_pos|apply B; [exact HM| |]]).
      - right. f_equal. ring.
      - intros x HX. unfold Rmin, Rmax in HX. destruct (Rle_dec (- A M) (x0 - A M)); rewrite <- (Rabs_Ropp x), (Rabs_pos_eq (- x)); lra.
      - right. f_equal. ring.
      - intros x HX. unfold Rmin, Rmax in HX. destruct (Rle_dec (A M) (x0 + A M)); rewrite (Rabs_pos_eq x); lra. }
    destruct L2 as [L2 L3]. apply (is_lim_seq_ext (fun M => RInt f (- A M) (A M) + RInt f (A M) (x0 + A M) - RInt f (- A M) (x0 - A M))).
    - intro M. replace (x0 - L / 2 - INR M * L) with (x0 - A M) by (unfold A; ring). replace (x0 + L / 2 + INR M * L) with (x0 + A M) by (unfold A; ring).
      assert (C1 : RInt f (- A M) (A M) + RInt f (A M) (x0 + A M) = RInt f (- A M) (x0 + A M)) by apply (RInt_Chasles f (- A M) (A M) (x0 + A M) (X _ _) (X _ _)). assert (C2 : RInt f (- A M) (x0 - A M) + RInt f (x0 - A M) (x0 + A M) = RInt f (- A M) (x0 + A M)) by apply (RInt_Chasles f (- A M) (x0 - A M) (x0 + A M) (X _ _) (X _ _)). req. change (RInt (fun x => gd x * cos (k * x + c)) (x0 - A M) (x0 + A M)) with (RInt f (x0 - A M) (x0 + A M)). lra.
    - replace (gk k * cos c) with (gk k * cos c + 0 - 0) by ring. apply is_lim_seq_minus'; [apply is_lim_seq_plus'; assumption|exact L2].
  Qed.
  Lemma gauss_poisson : forall x, Rabs x <= L -> ex_series (fun m => imgs gd L m x) /\ ex_series (fun i => har gk L w i x) /\ Series (fun m => imgs gd L m x) = Series (fun i => har gk L w i x).
  Proof using LP SP WL.
    pose proof qL_r as QL. pose proof qk_r as QK. pose proof g0_pos as G0.
    assert (I2 : 0 < / (qL * qL)) by (apply Rinv_0_lt_compat; nra).
    assert (PO : forall q, 0 < q < 1 -> forall c, ex_series (fun m => c * q ^ m)). { intros q Q c. apply (ex_series_scal_l c (fun m => q ^ m)), ex_series_geom. rewrite Rabs_pos_eq; lra. }
    apply (poisson gd gk L w LP WL gd_cont) with (b := fun m => 2 * g0 * / (qL * qL) * qL ^ m) (a := fun i => 2 / L * qk ^ i).
    - intro k. unfold gk. f_equal. field.
    - apply PO, QL.
    - assert (Q1 : forall m y, INR m * L <= Rabs y + 2 * L -> gd y <= g0 * / (qL * qL) * qL ^ m).
      { intros m y H. destruct (le_lt_dec 2 m) as [M2|M2].
        - replace (g0 * / (qL * qL) * qL ^ m) with (g0 * g1 (0 / s) * qL ^ (m - 2)). 2:{ replace m with (m - 2 + 2)%nat at 2 by lia. rewrite pow_add. replace (g1 (0 / s)) with 1; [cbn; field; lra|]. unfold g1. replace (- (0 / s * (0 / s) / 2)) with 0 by (unfold Rdiv; ring). symmetry. apply exp_0. }
          apply far; [lra|]. rewrite minus_INR by exact M2. cbn [INR]. lra.
        - apply Rle_trans with g0; [rewrite <- gd_0; apply gd_le; [lra|apply Rabs_pos]|]. rewrite <- (Rmult_1_r g0) at 1. rewrite Rmult_assoc. apply Rmult_le_compat_l; [lra|]. apply (Rmult_le_reg_l (qL * qL)); [nra|]. rewrite <- Rmult_assoc, Rinv_r, Rmult_1_l, Rmult_1_r by nra. destruct m as [|[|m]]; [cbn; nra|cbn; nra|lia]. }
      intros [|m] x X; unfold imgs.
      + rewrite Rabs_pos_eq by (left; apply gd_pos). apply Rle_trans with (g0 * / (qL * qL) * qL ^ 0); [apply Q1; cbn [INR]; pose proof (Rabs_pos x); lra|]. cbn [pow]. nra.
      + pose proof (gd_pos (x + INR (S m) * L)) as U. pose proof (gd_pos (x - INR (S m) * L)) as V. rewrite Rabs_pos_eq by lra. assert (P : 0 <= INR (S m) * L) by (apply Rmult_le_pos; [apply pos_INR|lra]).
        assert (gd (x + INR (S m) * L) <= g0 * / (qL * qL) * qL ^ S m). { apply Q1. apply Rabs_le_between in X. pose proof (Rle_abs (x + INR (S m) * L)). lra. }
        assert (gd (x - INR (S m) * L) <= g0 * / (qL * qL) * qL ^ S m). { apply Q1. apply Rabs_le_between in X. pose proof (Rle_abs (- (x - INR (S m) * L))) as Y. rewrite Rabs_Ropp in Y. lra. } lra.
    - apply PO, QK.
    - intros i x. eapply Rle_trans; [apply har_le|]. apply Rmult_le_compat_l; [apply Rdiv_le_0_compat; lra|apply gk_pow].
    - intros j c x0. apply gcos_lim.
  Qed.
  (** the sum of finitely many waves against the profile itself *)
  Lemma gauss_sum : forall M K D x, 0 < K -> K <= INR M * hh0 -> Rabs x <= D -> D <= L ->
    Rabs (sum_n (fun i => har gk L w i x) M - gd x) <= g0 * (2 * g1 ((L - D) / s) / (1 - qL) + sqrt (2 / PI) * exp (- (K * K / 2)) / K).
  Proof using LP SP WL.
    intros M K D x KP KM XD DL. destruct (gauss_poisson x ltac:(lra)) as (X1 & X2 & PE). pose proof qL_r as QL. pose proof g0_pos as G0. pose proof w_p as WP. pose proof PI_RGT_0 as PP.
    assert (H0 : 0 < hh0) by (apply Rmult_lt_0_compat; lra). set (y := INR M * hh0) in *.
    assert (A : Rabs (Series (fun m => imgs gd L m x) - gd x) <= g0 * (2 * g1 ((L - D) / s) / (1 - qL))).
    { replace (gd x) with (sum_n (fun m => imgs gd L m x) 0) by (rewrite sum_O; reflexivity). replace (g0 * (2 * g1 ((L - D) / s) / (1 - qL))) with (2 * (g0 * g1 ((L - D) / s)) / (1 - qL)) by (field; lra). apply tail_bound; [lra|exact X1|]. intro k. change (imgs gd L (1 + k) x) with (gd (x + INR (S k) * L) + gd (x - INR (S k) * L)).
      rewrite S_INR. pose proof (gd_pos (x + (INR k + 1) * L)). pose proof (gd_pos (x - (INR k + 1) * L)). rewrite Rabs_pos_eq by lra. apply Rabs_le_between in XD. assert (0 <= INR k * L) by (apply Rmult_le_pos; [apply pos_INR|lra]).
      pose proof (far k (L - D) (x + (INR k + 1) * L) ltac:(lra) ltac:(pose proof (Rle_abs (x + (INR k + 1) * L)); lra)). pose proof (far k (L - D) (x - (INR k + 1) * L) ltac:(lra) ltac:(pose proof (Rle_abs (- (x - (INR k + 1) * L))) as Y; rewrite Rabs_Ropp in Y; lra)). lra. }
    assert (B : Rabs (Series (fun i => har gk L w i x) - sum_n (fun i => har gk L w i x) M) <= g0 * (sqrt (2 / PI) * exp (- (K * K / 2)) / K)).
    { set (q := exp (- (y * hh0))). assert (YH : 0 < y * hh0) by (apply Rmult_lt_0_compat; lra). assert (Q : 0 < q < 1) by (split; [apply exp_pos|unfold q; rewrite <- exp_0; apply exp_increasing; lra]).
      eapply Rle_trans; [apply (tail_bound _ M (2 / L * exp (- (y * y / 2)) * q) q); [lra|exact X2|]|].
      - intro k. eapply Rle_trans; [apply har_le|]. rewrite Rmult_assoc, Rmult_assoc. apply Rmult_le_compat_l; [apply Rdiv_le_0_compat; lra|]. change (q * q ^ k) with (q ^ S k). unfold gk, q. rewrite exp_pow, <- exp_plus. apply exp_le_of.
        replace (INR (S M + k) * w * s) with (y + INR (S k) * hh0). 2:{ unfold y, hh0. replace (S M + k)%nat with (M + S k)%nat by lia. rewrite plus_INR. ring. }
        pose proof (Rle_0_sqr (INR (S k) * hh0)) as SQ. unfold Rsqr in SQ. lra.
      - assert (EQ : q / (1 - q) <= 1 / (y * hh0)). { apply (Rmult_le_reg_r ((1 - q) * (y * hh0))); [apply Rmult_lt_0_compat; lra|]. replace (q / (1 - q) * ((1 - q) * (y * hh0))) with (q * (y * hh0)) by (field; lra). replace (1 / (y * hh0) * ((1 - q) * (y * hh0))) with (1 - q) by (field; lra).
          pose proof (exp_ineq1_le (y * hh0)) as E1. assert (QE : q * exp (y * hh0) = 1) by (unfold q; rewrite <- exp_plus, Rplus_opp_l; apply exp_0). nra. }
        assert (EK : exp (- (y * y / 2)) <= exp (- (K * K / 2))) by (apply exp_le_of; nra). pose proof (exp_pos (- (y * y / 2))) as EP.
        assert (IK : 1 / (y * hh0) <= 1 / (K * hh0)) by (apply Rmult_le_compat_l; [lra|]; apply Rinv_le_contravar; [apply Rmult_lt_0_compat; lra|apply Rmult_le_compat_r; lra]).
        replace (2 / L * exp (- (y * y / 2)) * q / (1 - q)) with (2 / L * (exp (- (y * y / 2)) * (q / (1 - q)))) by (field; lra).
        replace (g0 * (sqrt (2 / PI) * exp (- (K * K / 2)) / K)) with (2 / L * (exp (- (K * K / 2)) * (1 / (K * hh0)))).
        + apply Rmult_le_compat_l; [apply Rdiv_le_0_compat; lra|]. apply Rmult_le_compat; [lra|apply Rdiv_le_0_compat; lra|exact EK|lra].
        + assert (LE : L = 2 * PI / w) by (rewrite <- WL; field; lra). assert (GS : g0 * sqrt (2 / PI) = 1 / (s * PI)). { unfold g0. pose proof s2p_pos as S2. assert (SS : sqrt (2 / PI) = sqrt (2 * PI) / PI). { replace (2 / PI) with (2 * PI / (PI * PI)) by (field; lra). rewrite sqrt_div_alt by nra. rewrite sqrt_square by lra. reflexivity. } rewrite SS. field. repeat split; lra. }
          replace (g0 * (sqrt (2 / PI) * exp (- (K * K / 2)) / K)) with (g0 * sqrt (2 / PI) * (exp (- (K * K / 2)) / K)) by (field; lra). rewrite GS, LE. unfold hh0. field. repeat split; lra. }
    rewrite Rmult_plus_distr_l. rewrite PE in A. apply Rabs_le_between in A, B. apply Rabs_le. lra.
  Qed.
End Gauss.
