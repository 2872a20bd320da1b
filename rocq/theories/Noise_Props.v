(** Properties C33 (applying noise advances the generator), C35 (variance bookkeeping), C36
    (addNoiseSNR), C37 (pytree round trip), C82 (sky bookkeeping of photon noise). *)
From Coq Require Import ZArith Reals Bool List Lia Lra.
From Verif Require Import Base Bounds_Model Bounds_Proofs FFT_Model Draw_Model RNG_Model RNG_Spec RNG_Proofs RNG_Link RNG_Props
  Noise_Model Noise_Spec Noise_Proofs Noise_More.
Import ListNotations.
Open Scope list_scope.
Open Scope nat_scope.

(** A concrete store: one user generator with key 3, and a second unrelated one. *)
Definition ex_store : store (key := Z) := St [3; 4]%Z [(0, KUniform); (1, KUniform)] 0.
Lemma ex_store_wf : wf ex_store.
Proof. repeat constructor. Qed.
Definition ex_ent : nat -> Z := fun _ => 5%Z.
Definition ex_img : nimg := NImg (1, 2) [10; 20]%R NF.

(** * C33 *)
(** Full statement (false for CCDNoise, see below): every noise model advances the generator it was
    given by one draw per pixel, pixel i being a function of the i-th subkey. Proved for Gaussian,
    Poisson, variable Gaussian and deviate noise: the state of every generator sharing the noise's
    state moves by the number of pixels, all others stay. *)
Theorem C33_noise_advances_generator_partial :
  forall (key : Type) (J : jrandom key) ent n im (s : store) x, wf s -> noise_ok s n -> in_place s n -> nimg_ok im ->
  (forall d var, n = NVarG d var -> nshape im = nshape var) ->
  let r := applyTo J ent n im s in
  snd r = Ok (NImg (nshape im) (imap (pixel J s n (ntype im) (dkey J s (nrng n))) (npix im)) (ntype im)) /\
  (dref s x = dref s (nrng n) -> dkey J (fst r) x = adv J (dkey J s x) (length (npix im))) /\
  (dref s x <> dref s (nrng n) -> dkey J (fst r) x = dkey J s x).
Proof.
  intros key J ent n im s x W NO P I V r. unfold r. rewrite (apply_in_place J ent n im s W NO P I V). cbn [fst snd].
  split; auto. destruct NO as [X _]. split; intros E.
  - rewrite (dkey_set_same J s (nrng n) _ x W X E). unfold dkey. rewrite E. reflexivity.
  - apply dkey_set_other. auto.
Qed.
Print Assumptions C33_noise_advances_generator_partial.

(** Two successive applications through a shared generator use disjoint, consecutive stretches of
    its stream. *)
Theorem C33_successive_noise_is_fresh_partial :
  forall (key : Type) (J : jrandom key) ent n1 n2 im1 im2 (s : store), wf s -> noise_ok s n1 -> noise_ok s n2 ->
  in_place s n1 -> in_place s n2 -> nimg_ok im1 -> nimg_ok im2 ->
  (forall d var, n1 = NVarG d var -> nshape im1 = nshape var) ->
  (forall d var, n2 = NVarG d var -> nshape im2 = nshape var) ->
  dref s (nrng n1) = dref s (nrng n2) ->
  let k := dkey J s (nrng n1) in
  let r1 := applyTo J ent n1 im1 s in
  let r2 := applyTo J ent n2 im2 (fst r1) in
  snd r1 = Ok (NImg (nshape im1) (imap (pixel J s n1 (ntype im1) k) (npix im1)) (ntype im1)) /\
  snd r2 = Ok (NImg (nshape im2) (imap (pixel J s n2 (ntype im2) (adv J k (length (npix im1)))) (npix im2)) (ntype im2)) /\
  (forall i, sub J (adv J k (length (npix im1))) i = sub J k (length (npix im1) + i)).
Proof.
  intros key J ent n1 n2 im1 im2 s W N1 N2 P1 P2 I1 I2 V1 V2 E k r1 r2.
  assert (E1 : r1 = _) by exact (apply_in_place J ent n1 im1 s W N1 P1 I1 V1).
  destruct N1 as [X1 N1].
  split. { rewrite E1; reflexivity. }
  split; [|intros; apply sub_adv].
  unfold r2. rewrite E1. cbn [fst].
  rewrite (apply_in_place J ent n2 im2 _); auto.
  - cbn [snd]. do 2 f_equal. rewrite (dkey_set_same J s (nrng n1) _ (nrng n2) W X1) by congruence. reflexivity.
  - apply wf_set_dkey; auto.
Qed.
Print Assumptions C33_successive_noise_is_fresh_partial.

(** A noise object follows the generator it was built from, and rescaled objects keep following. *)
Theorem C33_noise_is_linked : forall (key : Type) (J : jrandom key) ent d sigma sky r (s : store),
  wf s -> exists_dev s d -> (0 <= sigma)%R -> (0 <= r)%R ->
  (exists s' n, mk_gauss J ent (SDev d) sigma s = (s', Ok n) /\ ext J s s' /\ noise_ok s' n /\ dref s' (nrng n) = dref s d) /\
  (exists s' n, mk_pois J ent (SDev d) sky s = (s', Ok n) /\ ext J s s' /\ noise_ok s' n /\ dref s' (nrng n) = dref s d) /\
  (forall n, noise_ok s n -> has_variance n ->
     exists s' n', withScaledVariance J ent n r s = (s', Ok n') /\ dref s' (nrng n') = dref s (nrng n)) /\
  (forall n, noise_ok s n -> (forall e, n <> NBase e) ->
     exists s' n', noise_copy J ent n None s = (s', Ok n') /\ dref s' (nrng n') = dref s (nrng n)).
Proof.
  intros key J ent d sigma sky r s W X Hs Hr.
  split; [|split; [|split]].
  - destruct (mk_gauss_spec J ent d sigma s W X Hs) as (s' & e & A & B & C & D & _). exists s', (NGauss e sigma). auto.
  - destruct (mk_pois_spec J ent d sky s W X) as (s' & e & A & B & C & D & _). exists s', (NPois e sky). auto.
  - intros n NO H. destruct (withScaledVariance_spec J ent n r s W NO H Hr) as (s' & n' & A & _ & _ & _ & _ & B). eauto.
  - intros n NO H. destruct (noise_copy_spec J ent n s W NO H) as (s' & n' & A & _ & _ & B & _). eauto.
Qed.
Print Assumptions C33_noise_is_linked.

(** CCDNoise: for all parameters, applying it leaves every existing generator where it was, so the
    same noise is added every time, and the photon noise and the read noise of a pixel are made from
    the same subkey. *)
Theorem C33_ccd_noise_refuted : forall (key : Type) (J : jrandom key) ent d sky gain rn im (s : store),
  wf s -> noise_ok s (NCCD d sky gain rn) ->
  exists s' im', applyTo J ent (NCCD d sky gain rn) im s = (s', Ok im') /\
    (forall x, exists_dev s x -> dkey J s' x = dkey J s x) /\
    npix im' = imap (ccd_pixel J sky gain rn (ntype im) (dkey J s d)) (npix im) /\
    (exists s'', applyTo J ent (NCCD d sky gain rn) im s' = (s'', Ok im')).
Proof.
  intros key J ent d sky gain rn im s W NO.
  destruct (apply_ccd_spec J ent d sky gain rn im s W NO) as (s' & E & [W' F]).
  exists s'. eexists. split; [exact E|]. split. { intros x X. apply F; auto. } split; [reflexivity|].
  destruct NO as (X & Hr & Hc). cbn [nrng] in X. destruct (F d X) as (X' & R' & C' & K').
  destruct (apply_ccd_spec J ent d sky gain rn im s' W') as (s'' & E' & _).
  { split; [exact X'|]. split; auto. congruence. }
  exists s''. rewrite E', K'. reflexivity.
Qed.
Print Assumptions C33_ccd_noise_refuted.

(** withVariance on a CCDNoise goes through a lax.cond as well: the result follows nothing. *)
Theorem C33_ccd_with_variance_refuted : forall (key : Type) (J : jrandom key) ent d sky gain rn v (s : store),
  wf s -> noise_ok s (NCCD d sky gain rn) -> (0 <= v)%R ->
  exists s' n', withVariance J ent (NCCD d sky gain rn) v s = (s', Ok n') /\
    dref s' (nrng n') <> dref s' d.
Proof.
  intros key J ent d sky gain rn v s W NO Hv.
  destruct (withVariance_spec J ent _ v s W NO I Hv) as (s' & n' & E & _ & _ & _ & _ & U).
  exists s', n'. split; auto. destruct NO as [X _]. intros H. apply (U d X). congruence.
Qed.
Print Assumptions C33_ccd_with_variance_refuted.

Example C33_ex : exists s' n, mk_gauss toyJ ex_ent (SDev 0) 2 ex_store = (s', Ok n) /\
  wf s' /\ noise_ok s' n /\ in_place s' n /\ nimg_ok ex_img /\
  dkey toyJ (fst (applyTo toyJ ex_ent n ex_img s')) 0 = 12%Z /\
  dkey toyJ (fst (applyTo toyJ ex_ent n ex_img s')) 1 = 4%Z.
Proof.
  assert (X : exists_dev ex_store 0) by (unfold exists_dev; simpl; lia).
  assert (H2 : (0 <= 2)%R) by lra.
  destruct (mk_gauss_spec toyJ ex_ent 0 2 ex_store ex_store_wf X H2) as (s' & e & T & [W F] & NO & R & K).
  exists s', (NGauss e 2). split; auto. split; auto. split; auto. split; [exact I|]. split; [reflexivity|].
  assert (V : forall d var, NGauss e 2 = NVarG d var -> nshape ex_img = nshape var) by discriminate.
  assert (X1 : exists_dev ex_store 1) by (unfold exists_dev; simpl; lia).
  destruct (F 0 X) as (_ & R0 & _ & K0). destruct (F 1 X1) as (_ & R1 & _ & K1).
  destruct (C33_noise_advances_generator_partial Z toyJ ex_ent (NGauss e 2) ex_img s' 0 W NO I eq_refl V) as (_ & A & _).
  destruct (C33_noise_advances_generator_partial Z toyJ ex_ent (NGauss e 2) ex_img s' 1 W NO I eq_refl V) as (_ & _ & B).
  cbn [nrng] in A, B. split.
  - rewrite A by congruence. rewrite K0. reflexivity.
  - rewrite B by (rewrite R, R1; discriminate). rewrite K1. reflexivity.
Qed.
Example C33_ccd_ex : noise_ok ex_store (NCCD 0 5 2 3) /\
  exists s' im', applyTo toyJ ex_ent (NCCD 0 5 2 3) ex_img ex_store = (s', Ok im') /\
    dkey toyJ s' 0 = 3%Z /\ npix im' = [7 / 2 + 3 / 2 * 7 - 5; 13 / 2 + 3 / 2 * 13 - 5]%R.
Proof.
  assert (NO : noise_ok ex_store (NCCD 0 5 2 3)).
  { split. { unfold exists_dev; simpl; lia. } split; [lra|reflexivity]. }
  split; auto.
  destruct (C33_ccd_noise_refuted Z toyJ ex_ent 0 5 2 3 ex_img ex_store ex_store_wf NO) as (s' & im' & E & F & P & _).
  exists s', im'. split; auto. split. { rewrite F; [reflexivity|]. unfold exists_dev; simpl; lia. }
  rewrite P. unfold imap, ccd_pixel, unsky, value_of. cbn.
  rewrite !Rmax_left by lra.
  repeat match goal with |- context [Rlt_dec ?a ?b] => destruct (Rlt_dec a b); [|exfalso; lra] end.
  repeat f_equal; lra.
Qed.

(** * C35 *)
Theorem C35_with_variance : forall (key : Type) (J : jrandom key) ent n v (s : store),
  wf s -> noise_ok s n -> has_variance n -> (0 <= v)%R ->
  exists s' n', withVariance J ent n v s = (s', Ok n') /\ noise_ok s' n' /\ getVariance n' = Ok v.
Proof.
  intros key J ent n v s W NO H Hv.
  destruct (withVariance_spec J ent n v s W NO H Hv) as (s' & n' & A & _ & B & _ & C & _). eauto.
Qed.
Print Assumptions C35_with_variance.

Theorem C35_scaled_variance : forall (key : Type) (J : jrandom key) ent n r v (s : store),
  wf s -> noise_ok s n -> has_variance n -> getVariance n = Ok v ->
  ((0 <= r)%R -> exists s' n', withScaledVariance J ent n r s = (s', Ok n') /\ getVariance n' = Ok (r * v)%R) /\
  ((0 <= r)%R -> exists s' n', noise_mul J ent n r s = (s', Ok n') /\ getVariance n' = Ok (r * v)%R) /\
  ((0 < r)%R -> exists s' n', noise_div J ent n r s = (s', Ok n') /\ getVariance n' = Ok (v / r)%R).
Proof.
  intros key J ent n r v s W NO H G.
  assert (A : forall q, (0 <= q)%R -> exists s' n', withScaledVariance J ent n q s = (s', Ok n') /\ getVariance n' = Ok (q * v)%R).
  { intros q Hq. destruct (withScaledVariance_spec J ent n q s W NO H Hq) as (s' & n' & E & _ & _ & _ & F & _).
    exists s', n'. auto. }
  split; [auto|]. split; [auto|]. intros Hr.
  destruct (A (1 / r)%R) as (s' & n' & E & F).
  { unfold Rdiv. rewrite Rmult_1_l. left. apply Rinv_0_lt_compat. auto. }
  exists s', n'. split; auto. rewrite F. f_equal. field. lra.
Qed.
Print Assumptions C35_scaled_variance.

(** Requests without a meaning raise and change nothing. *)
Theorem C35_unsupported_raise : forall (key : Type) (J : jrandom key) ent n v (s : store), ~ has_variance n ->
  exists e, getVariance n = Err e /\ withVariance J ent n v s = (s, Err e) /\
    withScaledVariance J ent n v s = (s, Err e) /\ (e = NotImplementedErr \/ e = GalSimError).
Proof.
  intros key J ent n v s H. destruct n; simpl in H; try tauto; eexists; repeat (split; [reflexivity|]); auto.
Qed.
Print Assumptions C35_unsupported_raise.

Example C35_ex : noise_ok ex_store (NCCD 0 5 2 3) /\ getVariance (NCCD 0 5 2 3) = Ok (5 / 2 + (3 / 2) ^ 2)%R /\
  (** zero gain, and zero variance *)
  getVariance (NCCD 0 5 0 3) = Ok (3 ^ 2)%R /\
  (exists s' d, withVariance toyJ ex_ent (NCCD 0 5 0 0) 7 ex_store = (s', Ok (NCCD d 7 1 0))).
Proof.
  split. { split. { unfold exists_dev; simpl; lia. } split; [lra|reflexivity]. }
  cbn [getVariance withVariance].
  destruct (Rltb_spec 0 2); [|lra]. destruct (Rltb_spec 0 0); [lra|].
  split; auto. split; auto. destruct (Rltb_spec 0 (0 ^ 2)) as [L|L]; [simpl in L; lra|].
  eexists _, _. reflexivity.
Qed.

(** * C36 *)
(** Full statement (false for integer images, see below). Float images: with preserve_flux the noise
    applied has the variance that gives the requested signal-to-noise. *)
Theorem C36_snr_preserving_flux_partial : forall (key : Type) (J : jrandom key) ent im n snr (s : store),
  wf s -> noise_ok s n -> has_variance n -> ntype im = NF -> (0 < snr)%R -> (0 < sumsq im)%R ->
  exists s1 n1 v, withVariance J ent n v s = (s1, Ok n1) /\ getVariance n1 = Ok v /\ noise_ok s1 n1 /\ ext J s s1 /\
    snr_of (npix im) v = snr /\
    addNoiseSNR J ent im n snr true s = bindM (applyTo J ent n1 im) (fun im' => ret (im', v)) s1.
Proof. exact (@addNoiseSNR_preserve). Qed.
Print Assumptions C36_snr_preserving_flux_partial.

(** Without preserve_flux the image is scaled so that the given noise has the requested
    signal-to-noise. *)
Theorem C36_snr_scaling_flux_partial : forall (key : Type) (J : jrandom key) ent im n snr nv (s : store),
  getVariance n = Ok nv -> ntype im = NF -> (0 < snr)%R -> (0 < sumsq im)%R -> (0 < nv)%R ->
  exists f, (0 < f)%R /\ snr_of (npix (scale_img im f)) nv = snr /\
    npix (scale_img im f) = map (fun x => x * f)%R (npix im) /\
    addNoiseSNR J ent im n snr false s = bindM (applyTo J ent n (scale_img im f)) (fun im' => ret (im', nv)) s.
Proof. exact (@addNoiseSNR_scale). Qed.
Print Assumptions C36_snr_scaling_flux_partial.

(** Integer images: the squares are taken in the image's integer type and wrap around. *)
Theorem C36_integer_image_refuted : exists (s : store (key := Z)) n im snr,
  wf s /\ noise_ok s n /\ has_variance n /\ nimg_ok im /\ (0 < snr)%R /\
  exists s' im' v, addNoiseSNR toyJ ex_ent im n snr true s = (s', Ok (im', v)) /\ snr_of (npix im) v <> snr.
Proof.
  set (s := St [3]%Z [(0, KPoisson 1)] 0).
  exists s, (NPois 0 1), (NImg (1, 1) [IZR 300] (NI 16)), 1%R.
  assert (W : wf s) by (repeat constructor).
  assert (NO : noise_ok s (NPois 0 1)) by (split; [unfold exists_dev; simpl; lia|reflexivity]).
  split; auto. split; auto. split; [exact I|]. split; [reflexivity|]. split; [lra|].
  set (im := NImg (1, 1) [IZR 300] (NI 16)).
  assert (Q : sumsq im = IZR 24464).
  { unfold sumsq, im. cbn [ntype npix map fold_right nsq]. rewrite truncR_IZR.
    change (swrap 16 (300 * 300)) with 24464%Z. ring. }
  set (v := (sumsq im / 1 / 1)%R).
  assert (Ev : v = 24464%R) by (unfold v; rewrite Q; field).
  assert (Hv : (0 <= v)%R) by lra.
  destruct (withVariance_spec toyJ ex_ent (NPois 0 1) v s W NO I Hv) as (s1 & n1 & T1 & [W1 _] & NO1 & _ & _ & _).
  assert (Pn : exists e, n1 = NPois e v).
  { cbn [withVariance] in T1. destruct (mk_pois_spec toyJ ex_ent 0 v s W) as (s2 & e & T2 & _).
    { unfold exists_dev; simpl; lia. } exists e. congruence. }
  destruct Pn as [e ->].
  assert (A := apply_in_place toyJ ex_ent (NPois e v) im s1 W1 NO1 I eq_refl).
  eexists. eexists. exists v. split.
  - unfold addNoiseSNR. cbn [getVariance]. fold v. rewrite (bindM_ok _ _ _ _ s s1 _ T1). unfold bindM.
    rewrite A by discriminate. unfold ret. cbn [fst snd]. reflexivity.
  - unfold snr_of, im. cbn [npix map fold_right]. rewrite Ev. intros H.
    assert (P : (0 <= (300 ^ 2 + 0) / 24464)%R) by lra.
    assert (E := sqrt_sqrt _ P). rewrite H in E. lra.
Qed.
Print Assumptions C36_integer_image_refuted.

(** Integer images without preserve_flux: the scaled pixels are rounded to integers, so the requested
    signal-to-noise is in general out of reach (here the sum of squares would have to be 2). *)
Theorem C36_integer_scaling_refuted : exists (s : store (key := Z)) n im snr nv,
  wf s /\ noise_ok s n /\ getVariance n = Ok nv /\ (0 < nv)%R /\ nimg_ok im /\ (0 < snr)%R /\
  exists s' im' f, applyTo toyJ ex_ent n (scale_img im f) s = (s', Ok im') /\
    addNoiseSNR toyJ ex_ent im n snr false s = (s', Ok (im', nv)) /\
    snr_of (npix (scale_img im f)) nv <> snr.
Proof.
  set (s := St [3]%Z [(0, KPoisson 1)] 0). set (im := NImg (1, 1) [IZR 10] (NI 32)).
  exists s, (NPois 0 2), im, 1%R, 2%R.
  assert (W : wf s) by (repeat constructor).
  assert (NO : noise_ok s (NPois 0 2)) by (split; [unfold exists_dev; simpl; lia|reflexivity]).
  split; auto. split; auto. split; [reflexivity|]. split; [lra|]. split; [reflexivity|]. split; [lra|].
  set (f := (1 / sqrt (sumsq im / 2))%R).
  assert (A := apply_in_place toyJ ex_ent (NPois 0 2) (scale_img im f) s W NO I eq_refl).
  eexists. eexists. exists f. split; [apply A; discriminate|]. split.
  - unfold addNoiseSNR. cbn [getVariance]. fold f. unfold bindM. rewrite A by discriminate. reflexivity.
  - unfold snr_of, scale_img, im. cbn [npix ntype map fold_right]. set (k := roundR (10 * f)). clearbody k. intros H.
    assert (P : (0 <= (IZR k ^ 2 + 0) / 2)%R) by (pose proof (pow2_ge_0 (IZR k)); lra).
    assert (E := sqrt_sqrt _ P). rewrite H in E.
    assert (E2 : (k * k = 2)%Z) by (apply eq_IZR; rewrite mult_IZR; simpl in E; lra).
    assert (K : (k <= -2 \/ k = -1 \/ k = 0 \/ k = 1 \/ 2 <= k)%Z) by lia.
    destruct K as [K|[-> |[-> |[-> |K]]]]; try discriminate; nia.
Qed.
Print Assumptions C36_integer_scaling_refuted.

Example C36_ex : noise_ok ex_store (NCCD 0 5 2 3) /\ (0 < sumsq ex_img)%R /\ ntype ex_img = NF /\ nimg_ok ex_img.
Proof.
  split. { split. { unfold exists_dev; simpl; lia. } split; [lra|reflexivity]. }
  split; [|split; reflexivity]. unfold sumsq, ex_img. cbn [ntype npix map fold_right nsq]. lra.
Qed.

(** * C37 *)
(** Full statement (false for DeviateNoise and for a pure BaseNoise, see below): rebuilding a
    flattened noise object gives an equal object. *)
Theorem C37_noise_round_trip_partial : forall (key : Type) (J : jrandom key) ent n (s : store),
  wf s -> noise_ok s n -> (forall d, n <> NDev d) -> (forall d, n <> NBase d) ->
  exists s' n', tree_noise J ent n s = (s', Ok n') /\ ext J s s' /\ noise_ok s' n' /\ noise_eq J s' n n'.
Proof.
  intros key J ent n s W NO H1 H2.
  destruct (tree_noise_spec J ent n s W NO H1) as (s' & n' & A & B & C & D & E & _).
  exists s', n'. split; auto. split; auto. split; auto. unfold noise_eq. rewrite D.
  destruct n; try (exfalso; eapply H2; reflexivity); simpl; eauto.
Qed.
Print Assumptions C37_noise_round_trip_partial.

Theorem C37_deviate_noise_refuted : forall (key : Type) (J : jrandom key) ent d (s : store),
  wf s -> noise_ok s (NDev d) -> snd (tree_noise J ent (NDev d) s) = Err TypeError.
Proof.
  intros key J ent d s W [X C]. cbn [tree_noise]. destruct (tree_copy_spec J ent d s W X C) as (s1 & e & T & _).
  rewrite (bindM_ok _ _ _ _ s s1 e T). reflexivity.
Qed.
Print Assumptions C37_deviate_noise_refuted.

Theorem C37_base_noise_refuted : forall (key : Type) (J : jrandom key) ent d (s : store),
  wf s -> noise_ok s (NBase d) ->
  exists s' n', tree_noise J ent (NBase d) s = (s', Ok n') /\ ~ noise_eq J s' (NBase d) n'.
Proof.
  intros key J ent d s W NO.
  destruct (tree_noise_spec J ent (NBase d) s W NO) as (s' & n' & A & _); [discriminate|].
  exists s', n'. split; auto. intros (r & H & _). discriminate.
Qed.
Print Assumptions C37_base_noise_refuted.

Example C37_ex : noise_ok ex_store (NCCD 0 5 2 3) /\ noise_ok ex_store (NDev 1) /\ noise_ok ex_store (NBase 1).
Proof.
  split; [|split]; split; try (unfold exists_dev; simpl; lia); try reflexivity. split; [lra|reflexivity].
Qed.

(** * C82 *)
(** Photon noise: each pixel is replaced by a draw whose expectation is the pixel plus sky (never
    negative), minus the sky: exactly on float images, within one unit on integer images. *)
Theorem C82_photon_noise_sky : forall (key : Type) (J : jrandom key) ent d sky im (s : store),
  wf s -> noise_ok s (NPois d sky) -> nimg_ok im ->
  exists s' im', applyTo J ent (NPois d sky) im s = (s', Ok im') /\ length (npix im') = length (npix im) /\
    forall i, i < length (npix im) ->
      let draw := value_of J (KPoisson (Rmax (nth i (npix im) 0 + sky) 0)%R) (sub J (dkey J s d) i) in
      (ntype im = NF -> nth i (npix im') 0%R = draw - sky)%R /\
      (Rabs (nth i (npix im') 0%R - (draw - sky)) < 1)%R.
Proof.
  intros key J ent d sky im s W NO I.
  pose proof (apply_in_place J ent (NPois d sky) im s W NO Logic.I I) as E.
  eexists. eexists. split; [apply E; discriminate|]. cbn [npix]. split; [apply length_imap|].
  intros i Hi.
  set (draw := value_of J (KPoisson (Rmax (nth i (npix im) 0 + sky) 0)%R) (sub J (dkey J s d) i)).
  assert (En : nth i (imap (pixel J s (NPois d sky) (ntype im) (dkey J s d)) (npix im)) 0%R =
               pixel J s (NPois d sky) (ntype im) (dkey J s d) i (nth i (npix im) 0%R)).
  { unfold imap. set (f := pixel J s (NPois d sky) (ntype im) (dkey J s d)). clearbody f. clear - Hi.
    assert (G : forall l st, i < length l ->
       nth i (map (fun t : R * nat => f (snd t) (fst t)) (combine l (seq st (length l)))) 0%R = f (st + i) (nth i l 0%R)).
    { clear. revert i. intros i l. revert i. induction l as [|a t IH]; intros i st H; simpl in H; [lia|].
      destruct i; simpl. { rewrite Nat.add_0_r. reflexivity. } rewrite IH by lia. f_equal. lia. }
    apply G; auto. }
  cbn [nrng]. rewrite En. cbn [pixel]. fold draw. split.
  - intros ->. reflexivity.
  - apply unsky_err.
Qed.
Print Assumptions C82_photon_noise_sky.
Example C82_ex : noise_ok (St [3]%Z [(0, KPoisson 1)] 0) (NPois 0 (5 / 2)).
Proof. split; [unfold exists_dev; simpl; lia|reflexivity]. Qed.
