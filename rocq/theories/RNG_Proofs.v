(** Proofs for the generator model: streams, linking, serialization, permutation. *)
From Coq Require Import ZArith Reals Bool List String Ascii Lia Lra Permutation.
From Verif Require Import Base Bounds_Model Bounds_Proofs RNG_Model RNG_Spec.
Import ListNotations.
Open Scope list_scope.

(** * Lists *)
Lemma length_lset : forall A (l : list A) i v, List.length (lset l i v) = List.length l.
Proof. induction l; destruct i; simpl; intros; congruence. Qed.
Lemma nth_lset_same : forall A (l : list A) i v d, i < List.length l -> nth i (lset l i v) d = v.
Proof. induction l; destruct i; simpl; intros; try lia; auto. apply IHl; lia. Qed.
Lemma nth_lset_other : forall A (l : list A) i j v d, i <> j -> nth j (lset l i v) d = nth j l d.
Proof. induction l; destruct i, j; simpl; intros; try lia; auto. Qed.

(** * Streams *)
Section Stream.
  Context {key : Type}.
  Variable J : jrandom key.
  Notation adv := (adv J). Notation sub := (sub J).

  Lemma adv_S : forall k n, adv k (S n) = adv (fst (jsplit J k)) n.
  Proof.
    intros k n. unfold RNG_Spec.adv. induction n; simpl; auto.
    simpl in IHn. rewrite IHn. reflexivity.
  Qed.
  Lemma adv_add : forall n m k, adv k (n + m) = adv (adv k n) m.
  Proof. induction n; intros; auto. change (S n + m) with (S (n + m)). rewrite !adv_S. apply IHn. Qed.
  Lemma sub_S : forall k i, sub k (S i) = sub (fst (jsplit J k)) i.
  Proof. intros. unfold RNG_Spec.sub. rewrite adv_S. reflexivity. Qed.
  Lemma sub_adv : forall k n i, sub (adv k n) i = sub k (n + i).
  Proof. intros. unfold RNG_Spec.sub. rewrite adv_add. reflexivity. Qed.

  (** A scan whose step consumes one subkey and hands its value to [g]. *)
  Lemma scan_stream : forall (C X : Type) (f : C -> X -> C * R) (kof : C -> key) (g : key -> X -> R)
      (I : C -> Prop),
    (forall c x, I c -> I (fst (f c x)) /\ kof (fst (f c x)) = fst (jsplit J (kof c)) /\
                 snd (f c x) = g (snd (jsplit J (kof c))) x) ->
    forall xs c, I c ->
      kof (fst (scan f c xs)) = adv (kof c) (List.length xs) /\
      snd (scan f c xs) = map (fun t : X * nat => g (sub (kof c) (snd t)) (fst t))
                              (combine xs (seq 0 (List.length xs))).
  Proof.
    intros C X f kof g I H. induction xs as [|x t IH]; intros c Hc; [split; reflexivity|].
    cbn [scan fst snd List.length seq combine map].
    destruct (H c x Hc) as (H1 & H2 & H3).
    destruct (IH (fst (f c x)) H1) as [E1 E2].
    split.
    - rewrite E1, H2. rewrite adv_S. reflexivity.
    - rewrite E2, H3. f_equal.
      rewrite <- seq_shift, H2. generalize (seq 0 (List.length t)). clear.
      induction t as [|y u IHu]; intros [|i l]; cbn [map combine fst snd]; auto.
      rewrite sub_S. f_equal. apply IHu.
  Qed.

  Lemma combine_repeat : forall (X : Type) (x : X) n (B : Type) (h : X * nat -> B) s,
    map h (combine (repeat x n) (seq s n)) = map (fun i => h (x, i)) (seq s n).
  Proof. induction n; simpl; intros; auto. f_equal. apply IHn. Qed.

  Lemma scan_repeat : forall (C X : Type) (f : C -> X -> C * R) (kof : C -> key) (g : key -> X -> R)
      (I : C -> Prop),
    (forall c x, I c -> I (fst (f c x)) /\ kof (fst (f c x)) = fst (jsplit J (kof c)) /\
                 snd (f c x) = g (snd (jsplit J (kof c))) x) ->
    forall x n c, I c ->
      kof (fst (scan f c (repeat x n))) = adv (kof c) n /\
      snd (scan f c (repeat x n)) = map (fun i => g (sub (kof c) i) x) (seq 0 n).
  Proof.
    intros C X f kof g I H x n c Hc.
    destruct (scan_stream C X f kof g I H (repeat x n) c Hc) as [E1 E2].
    rewrite repeat_length in *. split; auto.
    rewrite E2, combine_repeat. reflexivity.
  Qed.

  Lemma count_filter : forall l, List.length (filter (fun b : bool => b) l) = count_occ Bool.bool_dec l true.
  Proof. induction l as [|[] t IH]; simpl; auto. Qed.

  Lemma Rltb_2_17 : forall m, Rltb m (IZR (2 ^ 17)) = if Rlt_dec m 131072 then true else false.
  Proof.
    intros. replace (IZR (2 ^ 17)) with 131072%R by (f_equal; reflexivity).
    destruct (Rltb_spec m 131072); destruct (Rlt_dec m 131072); auto; lra.
  Qed.

  Lemma poisson_one_spec : forall k m,
    fst (poisson_one J k m) = fst (jsplit J k) /\
    snd (poisson_one J k m) = value_of J (KPoisson m) (snd (jsplit J k)).
  Proof.
    intros. unfold poisson_one, value_of. rewrite Rltb_2_17. simpl. split; auto.
    destruct (Rlt_dec m 131072); auto. ring.
  Qed.

  Lemma call_key_spec : forall c k, c <> KBase ->
    call_key J c k = Ok (adv k 1, value_of J c (sub k 0)).
  Proof.
    intros c k H. unfold call_key, RNG_Spec.adv, RNG_Spec.sub, RNG_Spec.adv; cbn [Nat.iter].
    destruct c; try congruence; unfold uniform_one, gaussian_one, binomial_one, weibull_one, gamma_one, chi2_one;
      cbn [fst snd value_of]; try reflexivity.
    - f_equal. f_equal. simpl. ring.
    - unfold bsum. rewrite count_filter. reflexivity.
    - destruct (poisson_one_spec k mean) as [E1 E2].
      rewrite (surjective_pairing (poisson_one J k mean)), E1, E2. reflexivity.
    - f_equal. f_equal. simpl. ring.
  Qed.

  Lemma generate_key_spec : forall c k n, c <> KBase ->
    generate_key J c k n = Ok (adv k n, stream J c k n).
  Proof.
    intros c k n H. unfold generate_key, stream.
    destruct c; try congruence.
    - destruct (scan_repeat key unit (uniform_one J) (fun k => k) (fun u _ => juniform J u) (fun _ => True))
        with (x := tt) (n := n) (c := k) as [E1 E2]; auto.
      rewrite (surjective_pairing (scan _ _ _)), E1, E2. reflexivity.
    - destruct (scan_repeat key unit (gaussian_one J) (fun k => k) (fun u _ => jnormal J u) (fun _ => True))
        with (x := tt) (n := n) (c := k) as [E1 E2]; auto.
      cbv zeta. rewrite E1, E2. rewrite map_map. f_equal. f_equal. apply map_ext. intros. simpl. ring.
    - destruct (scan_repeat (key * list R) unit (binomial_one J) fst
          (fun u _ => value_of J (KBinomial N p) u) (fun c => snd c = repeat p N))
        with (x := tt) (n := n) (c := (k, repeat p N)) as [E1 E2]; auto.
      { intros [k0 l0] x E. simpl in *. subst. unfold bsum. rewrite count_filter. auto. }
      cbv zeta. rewrite E1, E2. reflexivity.
    - destruct (scan_repeat key R (poisson_one J) (fun k => k) (fun u m => value_of J (KPoisson m) u) (fun _ => True))
        with (x := mean) (n := n) (c := k) as [E1 E2]; auto.
      { intros. destruct (poisson_one_spec c x). auto. }
      rewrite (surjective_pairing (scan _ _ _)), E1, E2. reflexivity.
    - destruct (scan_repeat (key * R * R) unit (weibull_one J) (fun c => fst (fst c))
          (fun u _ => jweibull J u b a) (fun c => snd (fst c) = a /\ snd c = b))
        with (x := tt) (n := n) (c := (k, a, b)) as [E1 E2]; auto.
      { intros [[k0 a0] b0] x [E E']. simpl in *. subst. auto. }
      cbv zeta. rewrite E1, E2. reflexivity.
    - destruct (scan_repeat key R (gamma_one J) (fun k => k) (fun u m => jgamma J u m) (fun _ => True))
        with (x := k0) (n := n) (c := k) as [E1 E2]; auto.
      cbv zeta. rewrite E1, E2. rewrite map_map. f_equal. f_equal. apply map_ext. intros. simpl. ring.
    - destruct (scan_repeat key R (chi2_one J) (fun k => k) (fun u m => jchisquare J u m) (fun _ => True))
        with (x := n0) (n := n) (c := k) as [E1 E2]; auto.
      rewrite (surjective_pairing (scan _ _ _)), E1, E2. reflexivity.
  Qed.

  Lemma stream_S : forall c k n, stream J c k (S n) = value_of J c (sub k 0) :: stream J c (adv k 1) n.
  Proof.
    intros. unfold stream. cbn [seq map]. f_equal. rewrite <- seq_shift, map_map. apply map_ext.
    intros. rewrite sub_S. reflexivity.
  Qed.

  Lemma calls_spec : forall c n k, c <> KBase ->
    calls (call_key J c) k n = Ok (adv k n, stream J c k n).
  Proof.
    induction n; intros k H; auto.
    cbn [calls]. rewrite call_key_spec by auto. cbn [bind fst snd].
    rewrite IHn by auto. cbn [bind fst snd]. rewrite stream_S. change (S n) with (1 + n). rewrite adv_add. reflexivity.
  Qed.

  Lemma gen_variance_key_spec : forall c k a m s, c = KGaussian m s ->
    gen_variance_key J c k a = Ok (adv k (List.length a),
      map (fun t : R * nat => sqrt (fst t) * jnormal J (sub k (snd t)))%R (combine a (seq 0 (List.length a)))).
  Proof.
    intros; subst. unfold gen_variance_key.
    destruct (scan_repeat key unit (gaussian_one J) (fun k => k) (fun u _ => jnormal J u) (fun _ => True))
        with (x := tt) (n := List.length a) (c := k) as [E1 E2]; auto.
    cbv zeta. rewrite E1, E2. f_equal. f_equal. clear.
    generalize 0. induction a as [|x t IH]; intros; simpl; auto.
    f_equal; [ring|apply IH].
  Qed.

  Lemma gen_expectation_key_spec : forall k a m,
    gen_expectation_key J (KPoisson m) k a =
      if existsb (fun m => Rltb m 0) a then Err RuntimeError
      else Ok (adv k (List.length a),
        map (fun t : R * nat => value_of J (KPoisson (fst t)) (sub k (snd t))) (combine a (seq 0 (List.length a)))).
  Proof.
    intros. unfold gen_expectation_key. destruct (existsb _ a); auto.
    destruct (scan_stream key R (poisson_one J) (fun k => k) (fun u m => value_of J (KPoisson m) u) (fun _ => True))
        with (xs := a) (c := k) as [E1 E2]; auto.
    { intros. destruct (poisson_one_spec c x). auto. }
    rewrite (surjective_pairing (scan _ _ _)), E1, E2. reflexivity.
  Qed.

  Lemma add_generate_key_spec : forall c k a, c <> KBase ->
    add_generate_key J c k a = Ok (adv k (List.length a),
      map (fun t : R * R => fst t + snd t)%R (combine (stream J c k (List.length a)) a)).
  Proof. intros. unfold add_generate_key. rewrite generate_key_spec by auto. reflexivity. Qed.

  Lemma discard_key_spec : forall k n, discard_key J k n = adv k (Z.to_nat n).
  Proof. reflexivity. Qed.
  Lemma raw_key_spec : forall k, raw_key J k = (adv k 1, jbits J (sub k 0)).
  Proof. reflexivity. Qed.
End Stream.

(** * The store *)
Section Store.
  Context {key : Type}.
  Variable J : jrandom key.
  Variable ent : nat -> Z.
  Notation store := (store (key := key)).
  Notation dkey := (dkey J).
  Notation step := (step J ent).

  Lemma is_base_spec : forall c, is_base c = false -> c <> KBase.
  Proof. intros [] H; simpl in H; congruence. Qed.

  Lemma wf_ref : forall (s : store) d, wf s -> exists_dev s d -> dref s d < List.length (keys s).
  Proof.
    intros s d W E. unfold dref. unfold wf in W. rewrite Forall_forall in W.
    apply W. apply nth_In. exact E.
  Qed.

  (** A drawing operation is: advance the key of the target by its cost; return its outcome. *)
  Lemma draw_step : forall o d (s : store), is_draw o = true -> target o = Some d ->
    step o s = ((if Nat.eqb (cost (dcls s d) o) 0 then s else set_dkey s d (adv J (dkey s d) (cost (dcls s d) o))),
                outcome J (dcls s d) (dkey s d) o) \/
    step o s = (set_dkey s d (adv J (dkey s d) (cost (dcls s d) o)), outcome J (dcls s d) (dkey s d) o).
  Proof.
    intros o d s D T. destruct o; simpl in D, T; try discriminate; injection T as ->;
      unfold RNG_Model.step, mapM, bindM, call, generate, add_generate, gen_variance, gen_expectation,
        discard, raw, clear_cache, serialize, run_key, ret; cbn [cost outcome].
    - destruct (is_base (dcls s d)) eqn:B.
      + destruct (dcls s d); try discriminate. left; reflexivity.
      + rewrite (call_key_spec J _ _ (is_base_spec _ B)). right. reflexivity.
    - destruct (is_base (dcls s d)) eqn:B.
      + destruct (dcls s d); try discriminate. left; reflexivity.
      + rewrite (generate_key_spec J _ _ _ (is_base_spec _ B)). right. reflexivity.
    - destruct (is_base (dcls s d)) eqn:B.
      + destruct (dcls s d); try discriminate. left; reflexivity.
      + rewrite (add_generate_key_spec J _ _ _ (is_base_spec _ B)). right. reflexivity.
    - destruct (dcls s d) eqn:C; try (left; reflexivity).
      rewrite (gen_variance_key_spec J _ _ _ mean sigma eq_refl). right. reflexivity.
    - destruct (dcls s d) eqn:C; try (left; reflexivity).
      rewrite gen_expectation_key_spec. destruct (existsb _ a); [left|right]; reflexivity.
    - rewrite discard_key_spec. right. reflexivity.
    - rewrite raw_key_spec. right. reflexivity.
    - left. reflexivity.
    - left. reflexivity.
  Qed.

  Lemma dref_set_dkey : forall (s : store) d k x, dref (set_dkey s d k) x = dref s x.
  Proof. reflexivity. Qed.
  Lemma dcls_set_dkey : forall (s : store) d k x, dcls (set_dkey s d k) x = dcls s x.
  Proof. reflexivity. Qed.
  Lemma dkey_set_same : forall (s : store) d k x, wf s -> exists_dev s d -> dref s x = dref s d ->
    dkey (set_dkey s d k) x = k.
  Proof.
    intros. unfold RNG_Model.dkey, kget. rewrite dref_set_dkey, H1. simpl.
    apply nth_lset_same. apply wf_ref; auto.
  Qed.
  Lemma dkey_set_other : forall (s : store) d k x, dref s x <> dref s d ->
    dkey (set_dkey s d k) x = dkey s x.
  Proof.
    intros. unfold RNG_Model.dkey, kget. rewrite dref_set_dkey. simpl.
    apply nth_lset_other. auto.
  Qed.
  Lemma wf_set_dkey : forall (s : store) d k, wf s -> wf (set_dkey s d k).
  Proof. intros. unfold wf, set_dkey. simpl. rewrite length_lset. exact H. Qed.

  (** Drawing through d moves every deviate that shares the state of d, and no other. *)
  Lemma draw_step_key : forall o d (s : store) x, wf s -> exists_dev s d ->
    is_draw o = true -> target o = Some d ->
    snd (step o s) = outcome J (dcls s d) (dkey s d) o /\
    devs (fst (step o s)) = devs s /\ wf (fst (step o s)) /\
    dkey (fst (step o s)) x =
      if Nat.eqb (dref s x) (dref s d) then adv J (dkey s d) (cost (dcls s d) o) else dkey s x.
  Proof.
    intros o d s x W E D T.
    assert (K : dref s x = dref s d -> dkey s x = dkey s d) by (intros H; unfold RNG_Model.dkey; rewrite H; auto).
    destruct (draw_step o d s D T) as [R | R]; rewrite R; cbn [fst snd].
    - destruct (Nat.eqb_spec (cost (dcls s d) o) 0) as [Z|Z].
      + rewrite Z. repeat split; auto. destruct (Nat.eqb_spec (dref s x) (dref s d)); auto.
      + split; auto. split; auto. split. { apply wf_set_dkey; auto. }
        destruct (Nat.eqb_spec (dref s x) (dref s d)) as [e|e].
        * apply dkey_set_same; auto.
        * apply dkey_set_other; auto.
    - split; auto. split; auto. split. { apply wf_set_dkey; auto. }
      destruct (Nat.eqb_spec (dref s x) (dref s d)) as [e|e].
      + apply dkey_set_same; auto.
      + apply dkey_set_other; auto.
  Qed.

  (** * Creating and resetting *)
  (** What [reset_state] does: it only adds states; a state taken from another deviate is its state;
      otherwise it is new. *)
  Lemma reset_state_spec : forall sd (s : store), wf s -> seed_ok (List.length (devs s)) sd ->
    exists ks m, fst (reset_state J ent sd s) = St (keys s ++ ks) (devs s) m /\
      forall r, snd (reset_state J ent sd s) = Ok r ->
        r < List.length (keys s ++ ks) /\
        match sd with SDev c => r = dref s c /\ ks = [] | _ => r = List.length (keys s) end.
  Proof.
    intros sd s W O.
    destruct s as [ks ds m].
    destruct sd; simpl in O |- *; unfold bindM, seed_or_random, entropy, ret, new_state, raise; cbn [fst snd keys devs nent];
      try contradiction.
    - eexists [_], _. split; [reflexivity|]. intros r [= <-]. rewrite app_length; simpl; lia.
    - destruct (z =? 0)%Z; cbn [fst snd keys devs nent];
        (eexists [_], _; split; [reflexivity|]; intros r [= <-]; rewrite app_length; simpl; lia).
    - exists [], m. rewrite app_nil_r. split; auto. intros r [=].
    - exists [], m. rewrite app_nil_r. split; auto. intros r [= <-]. split; auto. apply wf_ref; auto.
    - eexists [_], _. split; [reflexivity|]. intros r [= <-]. rewrite app_length; simpl; lia.
    - destruct (eval_tuple t); cbn [fst snd keys devs nent].
      + eexists [_], _. split; [reflexivity|]. intros r [= <-]. rewrite app_length; simpl; lia.
      + exists [], m. rewrite app_nil_r. split; auto. intros r [=].
    - eexists [_], _. split; [reflexivity|]. intros r [= <-]. rewrite app_length; simpl; lia.
    - exists [], m. rewrite app_nil_r. split; auto. intros r [=].
  Qed.
End Store.
