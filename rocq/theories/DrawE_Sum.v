(** The Fourier sum of a Gaussian of any width: a bound on the waves left out that stays below the peak. *)
From Coq Require Import ZArith Reals Lra Lia.
From Coquelicot Require Import Coquelicot.
From Verif Require Import Size_FT DrawF_Poisson DrawF_Gauss.
Open Scope R_scope.
Local Ltac req := match goal with |- ?a = ?b => change (@eq R a b) end.
Section Wide.
  Variables s L w : R.
  Hypothesis SP : 0 < s.
  Hypothesis LP : 0 < L.
  Hypothesis WL : w * L = 2 * PI.
  Let h := hh0 s w.
  Lemma images_close : forall D x, Rabs x <= D -> D <= L -> Rabs (Series (fun m => imgs (gd s) L m x) - gd s x) <= g0 s * (2 * g1 ((L - D) / s) / (1 - qL s L)).
  Proof using LP SP WL.
    intros D x XD DL. destruct (gauss_poisson s L w SP LP WL x ltac:(lra)) as (X1 & _ & _). pose proof (qL_r s L SP LP) as QL. pose proof (g0_pos s SP) as G0.
    replace (gd s x) with (sum_n (fun m => imgs (gd s) L m x) 0) by (rewrite sum_O; reflexivity). replace (g0 s * (2 * g1 ((L - D) / s) / (1 - qL s L))) with (2 * (g0 s * g1 ((L - D) / s)) / (1 - qL s L)) by (field; lra). apply tail_bound; [lra|exact X1|]. intro k. change (imgs (gd s) L (1 + k) x) with (gd s (x + INR (S k) * L) + gd s (x - INR (S k) * L)).
    rewrite S_INR. pose proof (gd_pos s SP (x + (INR k + 1) * L)). pose proof (gd_pos s SP (x - (INR k + 1) * L)). rewrite Rabs_pos_eq by lra. apply Rabs_le_between in XD. assert (0 <= INR k * L) by (apply Rmult_le_pos; [apply pos_INR|lra]).
    pose proof (far s L SP LP k (L - D) (x + (INR k + 1) * L) ltac:(lra) ltac:(pose proof (Rle_abs (x + (INR k + 1) * L)); lra)). pose proof (far s L SP LP k (L - D) (x - (INR k + 1) * L) ltac:(lra) ltac:(pose proof (Rle_abs (- (x - (INR k + 1) * L))) as Y; rewrite Rabs_Ropp in Y; lra)). lra.
  Qed.
  Lemma series_shift_le : forall (a b : nat -> R) M c, ex_series b -> (forall k, Rabs (a (S M + k)%nat) <= c * b k) -> ex_series a -> Rabs (Series a - sum_n a M) <= c * Series b.
  Proof using Type.
    intros a b M c XB B XA. rewrite (Series_incr_n a (S M)) by (try lia; exact XA). cbn [pred]. rewrite sum_n_Reals. match goal with |- Rabs (?u + ?v - ?u) <= _ => replace (u + v - u) with v by ring end.
    rewrite <- Series_scal_l. assert (XC : ex_series (fun k => c * b k)) by apply (ex_series_scal_l c b XB).
    apply Rle_trans with (Series (fun k => Rabs (a (S M + k)%nat))).
    - apply Series_Rabs. apply (ex_series_le (V := R_CompleteNormedModule) (fun k => Rabs (a (S M + k)%nat)) (fun k => c * b k)); [|exact XC]. intro k. change (Rabs (Rabs (a (S M + k)%nat)) <= c * b k). rewrite Rabs_Rabsolu. apply B.
    - apply Series_le; [|exact XC]. intro k. split; [apply Rabs_pos|apply B].
  Qed.
  Lemma waves_close : forall M x, Rabs x <= L -> Rabs (Series (fun i => har (gk s) L w i x) - sum_n (fun i => har (gk s) L w i x) M) <= exp (- (INR M * h * (INR M * h) / 2)) * Series (fun m => imgs (gd s) L m 0).
  Proof using LP SP WL.
    intros M x XL. destruct (gauss_poisson s L w SP LP WL x XL) as (_ & X2 & _). destruct (gauss_poisson s L w SP LP WL 0 ltac:(rewrite Rabs_R0; lra)) as (_ & X0 & P0).
    set (y := INR M * h). assert (HP : 0 < h) by (apply Rmult_lt_0_compat; [apply (w_p L w LP WL)|exact SP]). assert (YP : 0 <= y) by (apply Rmult_le_pos; [apply pos_INR|lra]).
    assert (H0 : forall k, har (gk s) L w (S k) 0 = 2 / L * gk s (INR (S k) * w)). { intro k. unfold har. rewrite Rmult_0_r, cos_0. field. lra. }
    eapply Rle_trans; [apply (series_shift_le _ (fun k => har (gk s) L w (S k) 0) M (exp (- (y * y / 2))))|].
    - apply (ex_series_incr_1 (fun i => har (gk s) L w i 0)); exact X0.
    - intro k. eapply Rle_trans; [apply (har_le s L w LP)|]. rewrite H0. replace (exp (- (y * y / 2)) * (2 / L * gk s (INR (S k) * w))) with (2 / L * (exp (- (y * y / 2)) * gk s (INR (S k) * w))) by ring. apply Rmult_le_compat_l; [apply Rdiv_le_0_compat; lra|]. unfold gk. rewrite <- exp_plus. apply exp_le_of.
      replace (INR (S M + k) * w * s) with (y + INR (S k) * h). 2:{ unfold y, h, hh0. replace (S M + k)%nat with (M + S k)%nat by lia. rewrite plus_INR. ring. }
      replace (INR (S k) * w * s) with (INR (S k) * h) by (unfold h, hh0; ring). assert (0 <= INR (S k) * h) by (apply Rmult_le_pos; [apply pos_INR|lra]). nra.
    - exact X2.
    - apply Rmult_le_compat_l; [left; apply exp_pos|]. rewrite P0, (Series_incr_1 (fun i => har (gk s) L w i 0)) by exact X0. assert (0 <= har (gk s) L w 0 0); [|lra]. unfold har. apply Rdiv_le_0_compat; [left; apply exp_pos|exact LP].
  Qed.
  (** the waves up to M against the profile: f images, c waves left out *)
  Lemma gauss_sum_wide : forall M K D x f c, 0 <= K -> K <= INR M * h -> Rabs x <= D -> 0 <= D <= L -> 2 * g1 ((L - D) / s) / (1 - qL s L) <= f -> exp (- (K * K / 2)) <= c ->
    Rabs (sum_n (fun i => har (gk s) L w i x) M - gd s x) <= g0 s * ((1 + f) * (1 + c) - 1).
  Proof using LP SP WL.
    intros M K D x f c KP KM XD DL FF CC. destruct (gauss_poisson s L w SP LP WL x ltac:(lra)) as (_ & _ & PE). pose proof (g0_pos s SP) as G0. pose proof (qL_r s L SP LP) as QL.
    pose proof (images_close D x XD ltac:(lra)) as A. pose proof (images_close D 0 ltac:(rewrite Rabs_R0; lra) ltac:(lra)) as A0. pose proof (waves_close M x ltac:(lra)) as B. rewrite (gd_0 s) in A0. rewrite PE in A.
    assert (EK : exp (- (INR M * h * (INR M * h) / 2)) <= c). { eapply Rle_trans; [|exact CC]. apply exp_le_of. nra. }
    pose proof (exp_pos (- (INR M * h * (INR M * h) / 2))) as EP. set (E := exp (- (INR M * h * (INR M * h) / 2))) in *. set (P := Series (fun m => imgs (gd s) L m 0)) in *. set (q := 2 * g1 ((L - D) / s) / (1 - qL s L)) in *.
    assert (QG : g0 s * q <= g0 s * f) by (apply Rmult_le_compat_l; lra). apply Rabs_le_between in A, A0.
    assert (PB : E * P <= c * (g0 s * (1 + f))). { assert (0 <= q) by (apply Rdiv_le_0_compat; [|lra]; pose proof (g1_pos ((L - D) / s)); lra). apply Rle_trans with (E * (g0 s * (1 + f))); [apply Rmult_le_compat_l; lra|]. apply Rmult_le_compat_r; [|exact EK]. apply Rmult_le_pos; lra. }
    replace (g0 s * ((1 + f) * (1 + c) - 1)) with (g0 s * f + c * (g0 s * (1 + f))) by ring. apply Rabs_le_between in B. apply Rabs_le. lra.
  Qed.
End Wide.
