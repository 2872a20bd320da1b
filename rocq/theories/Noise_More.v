(** Proofs about constructing, rescaling and rebuilding noise objects, and addNoiseSNR. *)
From Coq Require Import ZArith Reals Bool List Lia Lra.
From Verif Require Import Base Bounds_Model Bounds_Proofs FFT_Model FFT_Proofs Draw_Model Draw_Proofs
  RNG_Model RNG_Spec RNG_Proofs RNG_Link Noise_Model Noise_Spec Noise_Proofs.
Import ListNotations.
Open Scope list_scope.
Open Scope nat_scope.

Section More.
  Context {key : Type}.
  Variable J : jrandom key.
  Variable ent : nat -> Z.
  Notation store := (store (key := key)).
  Notation dkey := (dkey J).

  Lemma class_ok_gauss : forall m sg, (0 <= sg)%R -> class_ok (KGaussian m sg) = true.
  Proof. intros. simpl. destruct (Rltb_spec sg 0); auto. lra. Qed.
  Lemma class_ok_pois1 : class_ok (KPoisson 1) = true.
  Proof. simpl. destruct (Rltb_spec 1 0); auto. lra. Qed.

  Lemma mk_gauss_spec : forall d sg (s : store), wf s -> exists_dev s d -> (0 <= sg)%R ->
    exists s' e, mk_gauss J ent (SDev d) sg s = (s', Ok (NGauss e sg)) /\ ext J s s' /\
      noise_ok s' (NGauss e sg) /\ dref s' e = dref s d /\ dkey s' e = dkey s d.
  Proof.
    intros d sg s W X H.
    destruct (new_follow J ent (KGaussian 0 sg) d s W X (class_ok_gauss 0 sg H)) as (s1 & e & T & E & X1 & C & K & R).
    exists s1, e. split. { unfold mk_gauss. rewrite (bindM_ok _ _ _ _ s s1 e T). reflexivity. }
    split; auto. split; auto. split; auto.
  Qed.
  Lemma mk_pois_spec : forall d sky (s : store), wf s -> exists_dev s d ->
    exists s' e, mk_pois J ent (SDev d) sky s = (s', Ok (NPois e sky)) /\ ext J s s' /\
      noise_ok s' (NPois e sky) /\ dref s' e = dref s d /\ dkey s' e = dkey s d.
  Proof.
    intros d sky s W X.
    destruct (new_follow J ent (KPoisson 1) d s W X class_ok_pois1) as (s1 & e & T & E & X1 & C & K & R).
    exists s1, e. split. { unfold mk_pois. rewrite (bindM_ok _ _ _ _ s s1 e T). reflexivity. }
    split; auto. split; auto. split; auto.
  Qed.
  Lemma mk_varg_spec : forall d var (s : store), wf s -> exists_dev s d -> nimg_ok var ->
    exists s' e, mk_varg J ent (SDev d) var s = (s', Ok (NVarG e (NImg (nshape var) (npix var) NF))) /\ ext J s s' /\
      noise_ok s' (NVarG e (NImg (nshape var) (npix var) NF)) /\ dref s' e = dref s d /\ dkey s' e = dkey s d.
  Proof.
    intros d var s W X V.
    destruct (new_follow J ent (KGaussian 0 1) d s W X (class_ok_gauss 0 1 Rle_0_1)) as (s1 & e & T & E & X1 & C & K & R).
    exists s1, e. split. { unfold mk_varg. rewrite (bindM_ok _ _ _ _ s s1 e T). reflexivity. }
    split; auto. split; auto. split; auto.
  Qed.

  (** Rebuilding from the flattened form. *)
  Lemma tree_noise_spec : forall n (s : store), wf s -> noise_ok s n ->
    (forall d, n <> NDev d) ->
    exists s' n', tree_noise J ent n s = (s', Ok n') /\ ext J s s' /\ noise_ok s' n' /\
      nrepr J s' n' = nrepr J s' n /\ nrepr J s' n = nrepr J s n /\
      match n, n' with
      | NBase _, NBase _ => True
      | NGauss _ a, NGauss _ b => a = b
      | NPois _ a, NPois _ b => a = b
      | NCCD _ a1 a2 a3, NCCD _ b1 b2 b3 => a1 = b1 /\ a2 = b2 /\ a3 = b3
      | NVarG _ a, NVarG _ b => a = b
      | _, _ => False
      end /\
      (forall x, exists_dev s x -> dref s' x <> dref s' (nrng n')).
  Proof.
    intros n s W [X N] H.
    assert (Hc : class_ok (dcls s (nrng n)) = true).
    { destruct n; cbn [nrng]; try tauto.
      - destruct N as [N1 N2]. rewrite N2. apply class_ok_gauss. auto.
      - rewrite N. apply class_ok_pois1.
      - destruct N as [N1 N2]. rewrite N1. apply class_ok_gauss. lra. }
    destruct (tree_copy_spec J ent (nrng n) s W X Hc) as (s1 & e & T & E & X1 & C1 & K1 & R1 & _).
    pose proof E as [W1 F1].
    assert (Rep : forall s2 e2, ext J s1 s2 -> rng_rep J s2 e2 = (dkey s (nrng n), dcls s (nrng n)) ->
        rng_rep J s2 e2 = rng_rep J s2 (nrng n) /\ rng_rep J s2 (nrng n) = rng_rep J s (nrng n)).
    { intros s2 e2 [_ F2] H0. destruct (F1 _ X) as (A1 & _ & A3 & A4). destruct (F2 _ A1) as (_ & _ & B3 & B4).
      rewrite H0. unfold rng_rep. split; congruence. }
    destruct n; cbn [nrng] in *; cbn [tree_noise]; try (exfalso; apply (H d); reflexivity);
      rewrite (bindM_ok _ _ _ _ s s1 e T).
    - exists s1, (NBase e). split; [reflexivity|]. split; auto. split. { split; auto. simpl. congruence. }
      split; auto.
    - destruct N as [N1 N2].
      destruct (mk_gauss_spec e sigma s1 W1 X1 N1) as (s2 & e2 & T2 & E2 & NO & R2 & K2).
      exists s2, (NGauss e2 sigma). split; auto. split. { eapply ext_trans; eauto. } split; auto.
      destruct NO as [X2 [_ C2]]. destruct (Rep s2 e2 E2) as [P1 P2].
      { unfold rng_rep. cbn [nrng] in C2. f_equal; congruence. }
      cbn [nrepr nrng]. rewrite P1, P2. repeat (split; [reflexivity|]).
      intros x Hx. rewrite R2. destruct (F1 x Hx) as (A1 & A2 & _). destruct E2 as [_ F2].
      destruct (F2 x A1) as (_ & -> & _). apply R1; auto.
    - destruct (mk_pois_spec e sky s1 W1 X1) as (s2 & e2 & T2 & E2 & NO & R2 & K2).
      exists s2, (NPois e2 sky). split; auto. split. { eapply ext_trans; eauto. } split; auto.
      destruct NO as [X2 C2]. destruct (Rep s2 e2 E2) as [P1 P2].
      { unfold rng_rep. cbn [nrng] in C2. f_equal; congruence. }
      cbn [nrepr nrng]. rewrite P1, P2. repeat (split; [reflexivity|]).
      intros x Hx. rewrite R2. destruct (F1 x Hx) as (A1 & A2 & _). destruct E2 as [_ F2].
      destruct (F2 x A1) as (_ & -> & _). apply R1; auto.
    - destruct N as [N1 N2].
      exists s1, (NCCD e sky gain rn). split; [reflexivity|]. split; auto. split. { split; auto. split; auto. congruence. }
      destruct (Rep s1 e (ext_refl J s1 W1)) as [P1 P2].
      { unfold rng_rep. f_equal; congruence. }
      cbn [nrepr nrng]. rewrite P1, P2. repeat (split; [reflexivity|]). split; auto.
    - destruct N as (N1 & N2 & N3).
      destruct (mk_varg_spec e var s1 W1 X1 N2) as (s2 & e2 & T2 & E2 & NO & R2 & K2).
      destruct var as [vs vp vt]. cbn [nshape npix ntype] in *. subst vt.
      exists s2, (NVarG e2 (NImg vs vp NF)). split; auto. split. { eapply ext_trans; eauto. } split; auto.
      destruct NO as [X2 [C2 _]]. destruct (Rep s2 e2 E2) as [P1 P2].
      { unfold rng_rep. cbn [nrng] in C2. f_equal; congruence. }
      cbn [nrepr nrng]. rewrite P1, P2. repeat (split; [reflexivity|]).
      intros x Hx. rewrite R2. destruct (F1 x Hx) as (A1 & A2 & _). destruct E2 as [_ F2].
      destruct (F2 x A1) as (_ & -> & _). apply R1; auto.
  Qed.

  (** * Variances *)
  Definition has_variance (n : noise) : Prop :=
    match n with NGauss _ _ | NPois _ _ | NCCD _ _ _ _ => True | _ => False end.

  Lemma pow2_sqrt' : forall v, (0 <= v)%R -> (sqrt v ^ 2 = v)%R.
  Proof. intros. simpl. rewrite Rmult_1_r. apply sqrt_sqrt. auto. Qed.

  Lemma ccd_scaled_var : forall d d' sky gain rn r, (0 <= r)%R ->
    forall v, getVariance (NCCD d sky gain rn) = Ok v ->
    getVariance (NCCD d' (sky * r) gain (rn * sqrt r)) = Ok (r * v)%R.
  Proof.
    intros d d' sky gain rn r Hr v. cbn [getVariance]. destruct (Rltb_spec 0 gain).
    - intros [= <-]. f_equal.
      replace ((rn * sqrt r / gain) ^ 2)%R with ((rn / gain) ^ 2 * sqrt r ^ 2)%R by (field; lra).
      rewrite pow2_sqrt' by auto. field. lra.
    - intros [= <-]. f_equal. replace ((rn * sqrt r) ^ 2)%R with (rn ^ 2 * sqrt r ^ 2)%R by ring.
      rewrite pow2_sqrt' by auto. ring.
  Qed.

  Lemma withScaledVariance_spec : forall n r (s : store), wf s -> noise_ok s n -> has_variance n -> (0 <= r)%R ->
    exists s' n', withScaledVariance J ent n r s = (s', Ok n') /\ ext J s s' /\ noise_ok s' n' /\ has_variance n' /\
      (forall v, getVariance n = Ok v -> getVariance n' = Ok (r * v)%R) /\
      dref s' (nrng n') = dref s (nrng n).
  Proof.
    intros n r s W [X N] H Hr. destruct n; try contradiction; cbn [nrng] in *; cbn [withScaledVariance].
    - destruct N as [N1 N2]. pose proof (sqrt_pos r) as P.
      destruct (mk_gauss_spec d (sigma * sqrt r) s W X (Rmult_le_pos _ _ N1 P)) as (s2 & e2 & T2 & E2 & NO & R2 & K2).
      exists s2, (NGauss e2 (sigma * sqrt r)). split; auto. split; auto. split; auto. split; [exact I|]. split; auto.
      intros v [= <-]. cbn [getVariance]. f_equal.
      replace ((sigma * sqrt r) ^ 2)%R with (sigma ^ 2 * sqrt r ^ 2)%R by ring. rewrite pow2_sqrt' by auto. ring.
    - destruct (mk_pois_spec d (sky * r) s W X) as (s2 & e2 & T2 & E2 & NO & R2 & K2).
      exists s2, (NPois e2 (sky * r)). split; auto. split; auto. split; auto. split; [exact I|]. split; auto.
      intros v [= <-]. cbn [getVariance]. f_equal. ring.
    - destruct N as [N1 N2].
      exists s, (NCCD d (sky * r) gain (rn * sqrt r)). split; auto. split. { apply ext_refl; auto. }
      split. { split; auto. split; auto. apply Rmult_le_pos; auto. apply sqrt_pos. }
      split; [exact I|]. split; auto. intros v. apply ccd_scaled_var; auto.
  Qed.

  Lemma withVariance_spec : forall n v (s : store), wf s -> noise_ok s n -> has_variance n -> (0 <= v)%R ->
    exists s' n', withVariance J ent n v s = (s', Ok n') /\ ext J s s' /\ noise_ok s' n' /\ has_variance n' /\
      getVariance n' = Ok v /\
      match n with
      | NCCD _ _ _ _ => forall x, exists_dev s x -> dref s' x <> dref s' (nrng n')
      | _ => dref s' (nrng n') = dref s (nrng n)
      end.
  Proof.
    intros n v s W NO H Hv. pose proof NO as [X N].
    destruct n; try contradiction; cbn [nrng] in *; cbn [withVariance].
    - destruct (mk_gauss_spec d (sqrt v) s W X (sqrt_pos v)) as (s2 & e2 & T2 & E2 & NO2 & R2 & K2).
      exists s2, (NGauss e2 (sqrt v)). split; auto. split; auto. split; auto. split; [exact I|]. split; auto.
      cbn [getVariance]. rewrite pow2_sqrt'; auto.
    - destruct (mk_pois_spec d v s W X) as (s2 & e2 & T2 & E2 & NO2 & R2 & K2).
      exists s2, (NPois e2 v). auto 10.
    - set (cv := if Rltb 0 gain then (sky / gain + (rn / gain) ^ 2)%R else (rn ^ 2)%R).
      cbv zeta.
      destruct (Rltb_spec 0 cv) as [P|P].
      + assert (Pv : (0 <= v / cv)%R) by (unfold Rdiv; apply Rmult_le_pos; auto; left; apply Rinv_0_lt_compat; auto).
        destruct (withScaledVariance_spec (NCCD d sky gain rn) (v / cv) s W NO I Pv) as (s1 & n1 & T1 & E1 & NO1 & HV & G1 & _).
        assert (E : s1 = s /\ n1 = NCCD d (sky * (v / cv)) gain (rn * sqrt (v / cv))).
        { cbn [withScaledVariance] in T1. unfold mk_ccd, bindM, base_rng, ret in T1. cbn [fst snd] in T1.
          split; congruence. }
        destruct E as [-> ->].
        destruct (tree_noise_spec _ s W NO1) as (s2 & n2 & T2 & E2 & NO2 & _ & _ & M2 & U2); [discriminate|].
        exists s2, n2. rewrite (bindM_ok _ _ _ _ s s _ T1). split; auto. split; auto. split; auto.
        destruct n2; try contradiction. destruct M2 as (<- & <- & <-). split; [exact I|]. split; auto.
        specialize (G1 cv eq_refl). cbn [getVariance] in G1 |- *. rewrite G1. f_equal. field. lra.
      + assert (NO1 : noise_ok s (NCCD d v 1 0)) by (destruct N; split; auto; split; auto; lra).
        destruct (tree_noise_spec _ s W NO1) as (s2 & n2 & T2 & E2 & NO2 & _ & _ & M2 & U2); [discriminate|].
        exists s2, n2. rewrite (bindM_ok _ _ _ _ s s _ eq_refl). split; auto. split; auto. split; auto.
        destruct n2; try contradiction. destruct M2 as (<- & <- & <-). split; [exact I|]. split; auto.
        cbn [getVariance]. destruct (Rltb_spec 0 1); [|lra]. f_equal. field.
  Qed.

  (** * addNoiseSNR *)
  Lemma sumsq_float : forall im, ntype im = NF ->
    sumsq im = fold_right Rplus 0%R (map (fun x => x ^ 2)%R (npix im)).
  Proof.
    intros im H. unfold sumsq. rewrite H. f_equal. apply map_ext. intros. simpl. ring.
  Qed.
  Lemma sumsq_scale : forall f l, fold_right Rplus 0%R (map (fun x => x ^ 2)%R (map (fun v => v * f)%R l)) =
    (f ^ 2 * fold_right Rplus 0 (map (fun x => x ^ 2) l))%R.
  Proof. induction l as [|a t IH]; cbn [map fold_right]. { ring. } rewrite IH. ring. Qed.

  Lemma addNoiseSNR_preserve : forall im n snr (s : store), wf s -> noise_ok s n -> has_variance n ->
    ntype im = NF -> (0 < snr)%R -> (0 < sumsq im)%R ->
    exists s1 n1 v, withVariance J ent n v s = (s1, Ok n1) /\ getVariance n1 = Ok v /\ noise_ok s1 n1 /\ ext J s s1 /\
      snr_of (npix im) v = snr /\
      addNoiseSNR J ent im n snr true s = bindM (applyTo J ent n1 im) (fun im' => ret (im', v)) s1.
  Proof.
    intros im n snr s W NO H T Hs Hq.
    set (v := (sumsq im / snr / snr)%R).
    assert (Hv : (0 < v)%R).
    { unfold v, Rdiv. repeat apply Rmult_lt_0_compat; auto; apply Rinv_0_lt_compat; auto. }
    destruct (withVariance_spec n v s W NO H (Rlt_le _ _ Hv)) as (s1 & n1 & T1 & E1 & NO1 & _ & G1 & _).
    exists s1, n1, v. split; auto. split; auto. split; auto. split; auto. split.
    - unfold snr_of. rewrite <- (sumsq_float im T). unfold v.
      replace (sumsq im / (sumsq im / snr / snr))%R with (snr * snr)%R by (field; lra).
      apply sqrt_square. lra.
    - unfold addNoiseSNR.
      assert (Gn : exists nv, getVariance n = Ok nv) by (destruct n; try contradiction; simpl; eauto).
      destruct Gn as [nv ->]. fold v. rewrite (bindM_ok _ _ _ _ s s1 n1 T1). reflexivity.
  Qed.

  Lemma addNoiseSNR_scale : forall im n snr nv (s : store), getVariance n = Ok nv ->
    ntype im = NF -> (0 < snr)%R -> (0 < sumsq im)%R -> (0 < nv)%R ->
    exists f, (0 < f)%R /\ snr_of (npix (scale_img im f)) nv = snr /\
      npix (scale_img im f) = map (fun x => x * f)%R (npix im) /\
      addNoiseSNR J ent im n snr false s = bindM (applyTo J ent n (scale_img im f)) (fun im' => ret (im', nv)) s.
  Proof.
    intros im n snr nv s G T Hs Hq Hn.
    assert (Hr : (0 < sumsq im / nv)%R) by (unfold Rdiv; apply Rmult_lt_0_compat; auto; apply Rinv_0_lt_compat; auto).
    pose proof (sqrt_lt_R0 _ Hr) as Hm.
    exists (snr / sqrt (sumsq im / nv))%R.
    assert (Hf : (0 < snr / sqrt (sumsq im / nv))%R) by (unfold Rdiv; apply Rmult_lt_0_compat; auto; apply Rinv_0_lt_compat; auto).
    split; auto.
    assert (E : npix (scale_img im (snr / sqrt (sumsq im / nv))) = map (fun x => x * (snr / sqrt (sumsq im / nv)))%R (npix im)).
    { unfold scale_img. rewrite T. reflexivity. }
    split.
    - unfold snr_of. rewrite E, sumsq_scale, <- (sumsq_float im T).
      replace ((snr / sqrt (sumsq im / nv)) ^ 2 * sumsq im / nv)%R
        with (snr * snr * ((sumsq im / nv) / (sqrt (sumsq im / nv) * sqrt (sumsq im / nv))))%R by (field; lra).
      rewrite sqrt_sqrt by lra. replace (sumsq im / nv / (sumsq im / nv))%R with 1%R by (field; lra).
      rewrite Rmult_1_r. apply sqrt_square. lra.
    - split; auto. unfold addNoiseSNR. rewrite G. reflexivity.
  Qed.

  (** Copies keep following the generator they are given. *)
  Lemma noise_copy_spec : forall n (s : store), wf s -> noise_ok s n -> (forall d, n <> NBase d) ->
    exists s' n', noise_copy J ent n None s = (s', Ok n') /\ ext J s s' /\ noise_ok s' n' /\
      dref s' (nrng n') = dref s (nrng n) /\ getVariance n' = getVariance n.
  Proof.
    intros n s W [X N] H. destruct n; cbn [nrng] in *; cbn [noise_copy]; try (exfalso; apply (H d); reflexivity).
    - destruct N as [N1 N2]. destruct (mk_gauss_spec d sigma s W X N1) as (s2 & e2 & T2 & E2 & NO & R2 & K2).
      exists s2, (NGauss e2 sigma). auto.
    - destruct (mk_pois_spec d sky s W X) as (s2 & e2 & T2 & E2 & NO & R2 & K2).
      exists s2, (NPois e2 sky). auto.
    - exists s, (NCCD d sky gain rn). split; auto. split. { apply ext_refl; auto. } split; auto. split; auto.
    - exists s, (NDev d). split; auto. split. { apply ext_refl; auto. } split; auto. split; auto.
    - destruct N as (N1 & N2 & N3). destruct (mk_varg_spec d var s W X N2) as (s2 & e2 & T2 & E2 & NO & R2 & K2).
      exists s2, (NVarG e2 (NImg (nshape var) (npix var) NF)). auto.
  Qed.
End More.
