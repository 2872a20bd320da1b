(** Proofs for the noise models. *)
From Coq Require Import ZArith Reals Bool List Lia Lra.
From Verif Require Import Base Bounds_Model Bounds_Proofs FFT_Model FFT_Proofs Draw_Model Draw_Proofs
  RNG_Model RNG_Spec RNG_Proofs RNG_Link Noise_Model Noise_Spec.
Import ListNotations.
Open Scope list_scope.
Open Scope nat_scope.

(** * Casting and the sky *)
Lemma truncR_IZR : forall z, truncR (IZR z) = z.
Proof.
  intros. unfold truncR. destruct (Rltb (IZR z) 0).
  - apply ceilR_IZR.
  - apply floorR_unique; rewrite ?plus_IZR; lra.
Qed.
Lemma truncR_err : forall x, (Rabs (IZR (truncR x) - x) < 1)%R.
Proof.
  intros. unfold truncR. destruct (Rltb x 0).
  - pose proof (ceilR_bounds x). apply Rabs_def1; lra.
  - pose proof (floorR_bounds x). apply Rabs_def1; lra.
Qed.

Lemma sub_sky_spec : forall t sky l, sub_sky t sky l = map (unsky t sky) l.
Proof.
  intros t sky l. unfold sub_sky, frac_sky, unsky. destruct t; simpl ncast.
  - replace (sky - sky)%R with 0%R by ring.
    destruct (Reqb_spec 0 0); [|lra]. replace (sky - 0)%R with sky by ring.
    replace (map (ncast NF) l) with l.
    2: { clear. induction l; simpl; congruence. }
    destruct (Reqb_spec sky 0) as [->|]; rewrite map_map || idtac.
    + apply map_ext. intros; simpl; ring.
    + apply map_ext. intros; simpl; ring.
  - set (z := truncR sky). replace (sky - (sky - IZR z))%R with (IZR z) by ring.
    assert (E : (if Reqb (sky - IZR z) 0 then l else map (fun v => v - (sky - IZR z))%R l) =
                map (fun v => v - (sky - IZR z))%R l).
    { destruct (Reqb_spec (sky - IZR z) 0) as [E|]; auto. rewrite E. clear.
      induction l; simpl; auto. rewrite <- IHl. f_equal. ring. }
    rewrite E, map_map.
    assert (E2 : forall l' : list R, (if Reqb (IZR z) 0 then l' else map (fun v => v - IZR z)%R l') =
                map (fun v => v - IZR z)%R l').
    { intros l'. destruct (Reqb_spec (IZR z) 0) as [E0|]; auto. rewrite E0. clear.
      induction l'; simpl; auto. rewrite <- IHl'. f_equal. ring. }
    rewrite E2, !map_map. apply map_ext. intros v. unfold ncast.
    rewrite <- minus_IZR, truncR_IZR. reflexivity.
Qed.

Lemma add_sky_spec : forall sky l, add_sky sky l = map (fun v => v + sky)%R l.
Proof.
  intros. unfold add_sky. destruct (Reqb_spec sky 0) as [->|]; auto.
  induction l; simpl; auto. rewrite <- IHl. f_equal. ring.
Qed.

Lemma unsky_err : forall t sky x, (Rabs (unsky t sky x - (x - sky)) < 1)%R.
Proof.
  intros [|w] sky x; unfold unsky.
  - rewrite Rminus_diag_eq by reflexivity. rewrite Rabs_R0. lra.
  - pose proof (truncR_err (x - (sky - IZR (truncR sky)))).
    match goal with |- (Rabs ?a < 1)%R => match type of H with (Rabs ?b < 1)%R => replace a with b by ring end end.
    exact H.
Qed.

(** * Indexed maps *)
Lemma imap_gen : forall (A : Type) (g : R * nat -> A) (h : R -> R) l s,
  map g (combine (map h l) (seq s (length l))) =
  map (fun t : R * nat => g (h (fst t), snd t)) (combine l (seq s (length l))).
Proof. induction l; simpl; intros; f_equal; auto. Qed.
Lemma rmap2_imap : forall (g : nat -> R) (f : R -> R -> R) l s,
  map (fun t => f (fst t) (snd t)) (combine l (map g (seq s (length l)))) =
  map (fun t : R * nat => f (fst t) (g (snd t))) (combine l (seq s (length l))).
Proof. induction l; simpl; intros; f_equal; auto. Qed.
Lemma length_imap : forall f l, length (imap f l) = length l.
Proof. intros. unfold imap. rewrite map_length, combine_length, seq_length. lia. Qed.
Lemma imap_ext_in : forall f g l, (forall i v, i < length l -> f i v = g i v) -> imap f l = imap g l.
Proof.
  intros f g l H. unfold imap. apply map_ext_in. intros [v i] Hin. simpl. apply H.
  apply in_combine_r in Hin. apply in_seq in Hin. lia.
Qed.
Lemma map_imap : forall f h l, map h (imap f l) = imap (fun i v => h (f i v)) l.
Proof. intros. unfold imap. rewrite map_map. reflexivity. Qed.
Lemma combine_imap : forall (f : nat -> R -> R) (g : nat -> R) l s,
  map (fun t : R * R => fst t + snd t)%R
    (combine (map (fun t : R * nat => f (snd t) (fst t)) (combine l (seq s (length l)))) (map g (seq s (length l)))) =
  map (fun t : R * nat => f (snd t) (fst t) + g (snd t))%R (combine l (seq s (length l))).
Proof. induction l; simpl; intros; f_equal; auto. Qed.

(** * Application of the in-place noise models *)
Section Apply.
  Context {key : Type}.
  Variable J : jrandom key.
  Variable ent : nat -> Z.
  Notation store := (store (key := key)).
  Notation dkey := (dkey J).

  Lemma generate_eq : forall d n (s : store), dcls s d <> KBase ->
    generate J d n s = (set_dkey s d (adv J (dkey s d) n), Ok (stream J (dcls s d) (dkey s d) n)).
  Proof. intros. unfold generate, run_key. rewrite generate_key_spec by auto. reflexivity. Qed.
  Lemma existsb_clip : forall l, existsb (fun m => Rltb m 0) (map clip0 l) = false.
  Proof.
    induction l as [|v t IH]; auto. cbn [map existsb]. rewrite IH, orb_false_r.
    destruct (Rltb_spec (clip0 v) 0); auto. unfold clip0 in *. pose proof (Rmax_r v 0). lra.
  Qed.
  Lemma gen_expectation_eq : forall d m l (s : store), dcls s d = KPoisson m ->
    existsb (fun m => Rltb m 0) l = false ->
    gen_expectation J d l s = (set_dkey s d (adv J (dkey s d) (length l)),
      Ok (map (fun t : R * nat => value_of J (KPoisson (fst t)) (sub J (dkey s d) (snd t))) (combine l (seq 0 (length l))))).
  Proof.
    intros d m l s C E. unfold gen_expectation, run_key. rewrite C, gen_expectation_key_spec, E. reflexivity.
  Qed.
  Lemma gen_variance_eq : forall d m sg l (s : store), dcls s d = KGaussian m sg ->
    gen_variance J d l s = (set_dkey s d (adv J (dkey s d) (length l)),
      Ok (map (fun t : R * nat => sqrt (fst t) * jnormal J (sub J (dkey s d) (snd t)))%R (combine l (seq 0 (length l))))).
  Proof.
    intros d m sg l s C. unfold gen_variance, run_key. rewrite C, (gen_variance_key_spec J _ _ _ m sg eq_refl). reflexivity.
  Qed.

  Lemma nth_combine_seq : forall l (f : R -> nat -> R) s,
    map (fun t : R * nat => f (fst t) (snd t)) (combine l (seq s (length l))) =
    map (fun i => f (nth (i - s) l 0%R) i) (seq s (length l)).
  Proof.
    induction l as [|v t IH]; intros; simpl; auto. rewrite Nat.sub_diag. f_equal.
    rewrite IH. apply map_ext_in. intros i Hi. apply in_seq in Hi.
    replace (i - s) with (S (i - S s)) by lia. reflexivity.
  Qed.

  Lemma apply_in_place : forall n im (s : store), wf s -> noise_ok s n -> in_place s n -> nimg_ok im ->
    (forall d var, n = NVarG d var -> nshape im = nshape var) ->
    applyTo J ent n im s =
      (set_dkey s (nrng n) (adv J (dkey s (nrng n)) (length (npix im))),
       Ok (NImg (nshape im) (imap (pixel J s n (ntype im) (dkey s (nrng n))) (npix im)) (ntype im))).
  Proof.
    intros n im s W [X N] P I V.
    destruct n; cbn [nrng] in *; try contradiction; cbn [applyTo].
    - destruct N as [_ C]. unfold bindM. rewrite generate_eq by congruence. unfold ret; cbn [fst snd].
      do 3 f_equal. rewrite C. unfold stream, rmap2. rewrite map_map, rmap2_imap. apply map_ext.
      intros [v i]. cbn [fst snd pixel value_of]. rewrite Rplus_0_l. reflexivity.
    - unfold apply_pois, bindM.
      rewrite (gen_expectation_eq d 1) by (auto; apply existsb_clip). unfold ret; cbn [fst snd].
      rewrite sub_sky_spec, add_sky_spec, !map_length. do 3 f_equal.
      rewrite map_map. rewrite map_map. rewrite <- (map_length (fun v => v)%R) at 1.
      rewrite map_length.
      rewrite (imap_gen R (fun t => unsky (ntype im) sky (value_of J (KPoisson (fst t)) (sub J (dkey s d) (snd t))))
                 (fun v => clip0 (v + sky))).
      reflexivity.
    - unfold bindM. rewrite generate_eq by auto. unfold ret; cbn [fst snd].
      do 3 f_equal. unfold stream, rmap2. rewrite map_map, rmap2_imap. reflexivity.
    - destruct N as (C & Iv & T). pose proof (V d var eq_refl) as Sh.
      rewrite Sh, !Nat.eqb_refl. cbn [andb].
      assert (L : length (npix var) = length (npix im)) by (unfold nimg_ok in *; rewrite I, Iv, Sh; auto).
      unfold bindM. rewrite (gen_variance_eq d 0 1) by auto. unfold ret; cbn [fst snd].
      rewrite L. rewrite <- Sh. do 3 f_equal.
      rewrite <- L, (nth_combine_seq (npix var) (fun a i => sqrt a * jnormal J (sub J (dkey s d) i))%R), L.
      rewrite map_map. unfold rmap2. rewrite rmap2_imap. unfold imap.
      apply map_ext. intros [v i]. cbn [fst snd pixel]. rewrite Nat.sub_0_r. reflexivity.
  Qed.

  (** * Stores grown by a computation *)
  Lemma ext_refl : forall (s : store), wf s -> ext J s s.
  Proof. intros. split; auto. Qed.
  Lemma ext_trans : forall a b c : store, ext J a b -> ext J b c -> ext J a c.
  Proof.
    intros a b c [W1 H1] [W2 H2]. split; auto. intros x X.
    destruct (H1 x X) as (X1 & A & B & C). destruct (H2 x X1) as (X2 & A' & B' & C').
    split; auto. split; [congruence|]. split; congruence.
  Qed.

  (** A new deviate following d. *)
  Lemma new_follow : forall c d (s : store), wf s -> exists_dev s d -> class_ok c = true ->
    exists s' e, new J ent c (SDev d) s = (s', Ok e) /\ ext J s s' /\ exists_dev s' e /\ dcls s' e = c /\
      dkey s' e = dkey s d /\ dref s' e = dref s d.
  Proof.
    intros c d s W X Hc.
    exists (St (keys s) (devs s ++ [(dref s d, c)]) (nent s)), (length (devs s)).
    assert (E : dref (St (keys s) (devs s ++ [(dref s d, c)]) (nent s)) (length (devs s)) = dref s d).
    { unfold dref at 1. cbn [devs]. rewrite app_nth2, Nat.sub_diag by lia. reflexivity. }
    split. { unfold new, bindM, reset_state, new_dev. cbn [fst snd]. rewrite Hc. reflexivity. }
    split.
    { split.
      - unfold wf. cbn [keys devs]. apply Forall_app. split; auto. constructor; auto. simpl. apply wf_ref; auto.
      - intros x Hx. unfold exists_dev, RNG_Model.dkey, kget, dref, dcls in *. cbn [keys devs].
        rewrite app_length. rewrite app_nth1 by auto. split; [lia|auto]. }
    split. { unfold exists_dev. cbn [devs]. rewrite app_length. simpl. lia. }
    split. { unfold dcls. cbn [devs]. rewrite app_nth2, Nat.sub_diag by lia. reflexivity. }
    split; auto. unfold RNG_Model.dkey. rewrite E. reflexivity.
  Qed.

  (** A pytree copy of d: same key and class, own state. *)
  Lemma tree_copy_spec : forall d (s : store), wf s -> exists_dev s d -> class_ok (dcls s d) = true ->
    exists s' e, tree_copy J ent d s = (s', Ok e) /\ ext J s s' /\ exists_dev s' e /\
      dcls s' e = dcls s d /\ dkey s' e = dkey s d /\
      (forall x, exists_dev s x -> dref s' x <> dref s' e) /\
      (forall k, ext J s (set_dkey s' e k)).
  Proof.
    intros d s W X Hc.
    destruct (dup_spec J d s W X) as (e & E & Xe & W' & K & C & F). cbv zeta in *.
    exists (fst (duplicate J d s)), e.
    assert (EX : ext J s (fst (duplicate J d s))).
    { split; auto. intros x Hx. destruct (F x Hx) as (N & Rf & Kx & Cx).
      split. { unfold exists_dev in *. rewrite dup_eq. cbn [fst devs]. rewrite app_length. lia. }
      split; auto. unfold dref. rewrite dup_eq. cbn [fst devs]. rewrite app_nth1 by exact Hx. reflexivity. }
    split. { rewrite tree_eq, Hc. rewrite <- E. apply surjective_pairing. }
    split; auto. split; auto. split; auto. split; auto. split; [apply F|].
    intros k. split. { apply wf_set_dkey; auto. }
    intros x Hx. destruct EX as [_ EX]. destruct (EX x Hx) as (A1 & A2 & A3 & A4).
    split; auto. split; auto. split; auto.
    rewrite dkey_set_other; auto. apply F; auto.
  Qed.

  (** * CCDNoise *)
  Lemma clip_scaled : forall gain l, map (fun v => clip0 (v * gain)) l = map clip0 (map (fun v => v * gain)%R l).
  Proof. intros. rewrite map_map. reflexivity. Qed.

  Lemma map_combine_id : forall l s, map (fun t : R * nat => fst t) (combine l (seq s (length l))) = l.
  Proof. induction l; simpl; intros; f_equal; auto. Qed.

  Lemma bindM_ok : forall A B (m : M (key := key) A) (f : A -> M (key := key) B) (s s' : store) a,
    m s = (s', Ok a) -> bindM m f s = f a s'.
  Proof. intros. unfold bindM. rewrite H. reflexivity. Qed.

  Lemma apply_ccd_spec : forall d sky gain rn im (s : store), wf s -> noise_ok s (NCCD d sky gain rn) ->
    exists s', applyTo J ent (NCCD d sky gain rn) im s =
      (s', Ok (NImg (nshape im) (imap (ccd_pixel J sky gain rn (ntype im) (dkey s d)) (npix im)) (ntype im))) /\
      ext J s s'.
  Proof.
    intros d sky gain rn im s W (X & Hrn & Hc). cbn [nrng] in X. cbn [applyTo]. unfold apply_ccd.
    set (k := dkey s d).
    (* the Poisson deviate and its copy inside the cond *)
    assert (Hp : class_ok (KPoisson 1) = true) by (simpl; destruct (Rltb_spec 1 0); auto; lra).
    destruct (new_follow (KPoisson 1) d s W X Hp) as (s1 & pd & T1 & E1 & Xp & Cp & Kp & Rp).
    rewrite (bindM_ok _ _ (ccd_pd J ent d) _ s s1 pd T1).
    pose proof E1 as [W1 F1].
    assert (Hp1 : class_ok (dcls s1 pd) = true) by (rewrite Cp; auto).
    destruct (tree_copy_spec pd s1 W1 Xp Hp1) as (s2 & pd' & T2 & E2 & X2 & C2 & K2 & R2 & S2).
    rewrite Cp in C2. rewrite Kp in K2. fold k in K2.
    set (pho := fun i v => if Rlt_dec 0 gain
                   then (value_of J (KPoisson (Rmax ((v + sky) * gain) 0)) (sub J k i) / gain)%R
                   else (v + sky)%R).
    assert (A : exists s3, bindM (tree_copy J ent pd) (fun pd' =>
             if Rltb 0 gain
             then bindM (gen_expectation J pd' (map (fun v => clip0 (v * gain)) (add_sky sky (npix im))))
                        (fun l => ret (map (fun v => v / gain)%R l))
             else ret (add_sky sky (npix im))) s1 = (s3, Ok (imap pho (npix im))) /\ ext J s1 s3).
    { rewrite (bindM_ok _ _ _ _ s1 s2 pd' T2).
      rewrite add_sky_spec. destruct (Rltb_spec 0 gain) as [G|G].
      - unfold bindM. rewrite (gen_expectation_eq pd' 1) by (auto; rewrite clip_scaled; apply existsb_clip).
        unfold ret. cbn [fst snd]. eexists. split; [|apply S2].
        f_equal. f_equal. rewrite !map_map, map_length.
        rewrite (imap_gen R (fun t => value_of J (KPoisson (fst t)) (sub J (dkey s2 pd') (snd t)) / gain)%R
                 (fun v => clip0 ((v + sky) * gain))).
        unfold imap. apply map_ext. intros [v i]. cbn [fst snd]. rewrite K2. unfold pho.
        destruct (Rlt_dec 0 gain); [reflexivity|contradiction].
      - unfold ret. exists s2. split; [|exact E2]. f_equal. f_equal. unfold imap, pho.
        destruct (Rlt_dec 0 gain); [contradiction|]. cbn [fst snd].
        rewrite <- (map_map (fun t : R * nat => fst t) (fun v => v + sky)%R). rewrite map_combine_id. reflexivity. }
    destruct A as (s3 & T3 & E3). rewrite (bindM_ok _ _ _ _ s1 s3 _ T3).
    assert (E13 : ext J s s3) by (eapply ext_trans; eauto).
    pose proof E13 as [W3 F3]. destruct (F3 d X) as (X3 & Rd3 & Cd3 & Kd3).
    (* the Gaussian deviate *)
    assert (Hc3 : class_ok (dcls s3 d) = true) by congruence.
    destruct (tree_copy_spec d s3 W3 X3 Hc3) as (s4 & d4 & T4 & E4 & X4 & C4 & K4 & R4 & S4).
    pose proof E4 as [W4 F4].
    set (sg := if Rltb 0 gain then (rn / gain)%R else rn).
    assert (Hsg : (0 <= sg)%R).
    { unfold sg. destruct (Rltb_spec 0 gain); auto. unfold Rdiv. apply Rmult_le_pos; auto.
      left. apply Rinv_0_lt_compat. auto. }
    assert (Hg : class_ok (KGaussian 0 sg) = true) by (simpl; destruct (Rltb_spec sg 0); auto; lra).
    assert (G0 : (if Rltb 0 gain then new J ent (KGaussian 0 (rn / gain)) (SDev d4)
           else new J ent (KGaussian 0 rn) (SDev d4)) s4 = new J ent (KGaussian 0 sg) (SDev d4) s4).
    { unfold sg. destruct (Rltb 0 gain); reflexivity. }
    destruct (new_follow (KGaussian 0 sg) d4 s4 W4 X4 Hg) as (s5 & g5 & T5 & E5 & X5 & C5 & K5 & R5).
    rewrite T5 in G0.
    pose proof E5 as [W5 F5].
    assert (Hg5 : class_ok (dcls s5 g5) = true) by (rewrite C5; auto).
    destruct (tree_copy_spec g5 s5 W5 X5 Hg5) as (s6 & g6 & T6 & E6 & X6 & C6 & K6 & R6 & S6).
    pose proof E6 as [W6 F6].
    assert (Tg : ccd_gd J ent d gain rn s3 = (s6, Ok g6)).
    { unfold ccd_gd. rewrite (bindM_ok _ _ _ _ s3 s4 d4 T4). rewrite (bindM_ok _ _ _ _ s4 s5 g5 G0). exact T6. }
    rewrite (bindM_ok _ _ _ _ s3 s6 g6 Tg).
    assert (Hg6 : class_ok (dcls s6 g6) = true) by (rewrite C6, C5; auto).
    destruct (tree_copy_spec g6 s6 W6 X6 Hg6) as (s7 & g7 & T7 & E7 & X7 & C7 & K7 & R7 & S7).
    assert (Ck : dcls s7 g7 = KGaussian 0 sg) by congruence.
    assert (Kk : dkey s7 g7 = k) by (unfold k; congruence).
    set (rd := fun i => if Rlt_dec 0 rn
                then ((if Rlt_dec 0 gain then rn / gain else rn) * jnormal J (sub J k i))%R else 0%R).
    assert (A : exists s8, bindM (tree_copy J ent g6) (fun gd' => if Rltb 0 rn
             then bindM (generate J gd' (length (imap pho (npix im)))) (fun l => ret (rmap2 Rplus (imap pho (npix im)) l))
             else ret (imap pho (npix im))) s6 = (s8, Ok (imap (fun i v => pho i v + rd i)%R (npix im))) /\ ext J s6 s8).
    { rewrite (bindM_ok _ _ _ _ s6 s7 g7 T7).
      destruct (Rltb_spec 0 rn) as [G|G].
      - unfold bindM. rewrite generate_eq by (rewrite Ck; discriminate). unfold ret. cbn [fst snd].
        eexists. split; [|apply S7]. f_equal. f_equal. rewrite Ck, Kk.
        unfold rmap2, stream. rewrite length_imap. unfold imap at 1. rewrite combine_imap.
        unfold imap. apply map_ext. intros [v i]. cbn [fst snd value_of]. unfold rd, sg.
        destruct (Rlt_dec 0 rn); [|contradiction]. rewrite Rplus_0_l.
        destruct (Rltb_spec 0 gain); destruct (Rlt_dec 0 gain); try contradiction; reflexivity.
      - unfold ret. exists s7. split; [|exact E7]. f_equal. f_equal. unfold rd.
        destruct (Rlt_dec 0 rn); [contradiction|]. apply imap_ext_in. intros. rewrite Rplus_0_r. reflexivity. }
    destruct A as (s8 & T8 & E8). rewrite (bindM_ok _ _ _ _ s6 s8 _ T8). unfold ret.
    exists s8. split.
    - f_equal. f_equal. f_equal. rewrite sub_sky_spec, map_imap. reflexivity.
    - apply (ext_trans _ s3); auto. apply (ext_trans _ s4); auto. apply (ext_trans _ s5); auto.
      apply (ext_trans _ s6); auto.
  Qed.
End Apply.
