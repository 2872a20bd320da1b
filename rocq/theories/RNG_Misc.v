(** Serialization of a generator state and permute. *)
From Coq Require Import ZArith Reals Bool List String Ascii Lia Permutation.
From Verif Require Import Base Bounds_Model RNG_Model RNG_Spec RNG_Proofs RNG_Link.
Import ListNotations.
Open Scope list_scope.
Open Scope Z_scope.

Lemma app_str_assoc : forall a b c : string, ((a ++ b) ++ c = a ++ (b ++ c))%string.
Proof. induction a; simpl; intros; congruence. Qed.

Lemma eval_digit : forall d t cur acc, 0 <= d < 10 ->
  eval_items (String (digit d) t) cur acc =
  eval_items t (Some (match cur with Some n => 10 * n + d | None => d end)) acc.
Proof.
  intros d t cur acc H.
  assert (d = 0 \/ d = 1 \/ d = 2 \/ d = 3 \/ d = 4 \/ d = 5 \/ d = 6 \/ d = 7 \/ d = 8 \/ d = 9) as E by lia.
  repeat (destruct E as [-> | E]; [reflexivity|]). subst. reflexivity.
Qed.

Lemma eval_digits : forall fuel n t acc, (0 < fuel)%nat -> 0 <= n < 2 ^ Z.of_nat fuel ->
  eval_items (digits fuel n ++ t)%string None acc = eval_items t (Some n) acc.
Proof.
  induction fuel as [|f IH]; intros n t acc F H; [lia|].
  cbn [digits]. destruct (Z.ltb_spec n 10).
  - cbn [append]. rewrite eval_digit by lia. reflexivity.
  - rewrite app_str_assoc. cbn [append].
    assert (D : 1 <= n / 10) by (apply Z.div_le_lower_bound; lia).
    assert (U : n / 10 < 2 ^ Z.of_nat f).
    { apply Z.div_lt_upper_bound; [lia|].
      rewrite Nat2Z.inj_succ, Z.pow_succ_r in H by lia. lia. }
    assert (f <> 0)%nat by (intro; subst; simpl in U; lia).
    rewrite IH by lia. rewrite eval_digit by (apply Z.mod_pos_bound; lia).
    f_equal. f_equal. rewrite <- (Z.div_mod n 10) by lia. reflexivity.
Qed.

Lemma eval_repr_int : forall n t acc, 0 <= n ->
  eval_items (repr_int n ++ t)%string None acc = eval_items t (Some n) acc.
Proof.
  intros n t acc H. unfold repr_int. apply eval_digits; [lia|]. split; auto.
  rewrite Nat2Z.inj_succ, Z2Nat.id by apply Z.log2_nonneg.
  destruct (Z.eq_dec n 0) as [->|]. { simpl; lia. }
  apply Z.log2_spec. lia.
Qed.

Lemma eval_repr_items : forall l acc, l <> [] -> Forall (fun z => 0 <= z) l ->
  eval_items (repr_items l ++ ")")%string None acc = Some (rev acc ++ l).
Proof.
  induction l as [|n t IH]; intros acc N H; [congruence|].
  apply Forall_cons_iff in H. destruct H as [Hn Ht].
  destruct t as [|m u].
  - cbn [repr_items]. rewrite eval_repr_int by auto. simpl. reflexivity.
  - change (repr_items (n :: m :: u)) with (repr_int n ++ ", " ++ repr_items (m :: u))%string.
    rewrite app_str_assoc. rewrite eval_repr_int by auto.
    change ((", " ++ repr_items (m :: u)) ++ ")")%string with
      (String "," (String " " (repr_items (m :: u) ++ ")")%string)).
    transitivity (eval_items (repr_items (m :: u) ++ ")")%string None (n :: acc)); [reflexivity|].
    rewrite IH by (auto; discriminate). simpl. rewrite <- app_assoc. reflexivity.
Qed.

Lemma eval_repr_tuple : forall l, Forall (fun z => 0 <= z) l -> eval_tuple (repr_tuple l) = Some l.
Proof.
  intros l H. destruct l as [|n [|m t]].
  - reflexivity.
  - apply Forall_cons_iff in H. destruct H as [Hn _].
    change (repr_tuple [n]) with (String "(" (repr_int n ++ ",)")%string).
    cbn [eval_tuple]. change (Ascii.eqb "(" "(") with true. cbv iota.
    rewrite eval_repr_int by auto. reflexivity.
  - change (repr_tuple (n :: m :: t)) with (String "(" (repr_items (n :: m :: t) ++ ")")%string).
    cbn [eval_tuple]. change (Ascii.eqb "(" "(") with true. cbv iota.
    rewrite eval_repr_items by (auto; discriminate). reflexivity.
Qed.

Lemma wrap32_id : forall l, Forall (fun z => 0 <= z < 2 ^ 32) l -> wrap32 l = l.
Proof.
  induction l as [|z t IH]; intros H; auto. apply Forall_cons_iff in H. destruct H as [Hz Ht].
  cbn [wrap32 map]. rewrite Z.mod_small by auto. f_equal. apply IH; auto.
Qed.

Section Misc.
  Context {key : Type}.
  Variable J : jrandom key.
  Variable ent : nat -> Z.
  Notation store := (store (key := key)).
  Notation dkey := (dkey J).

  (** jax.random: a key is determined by its data, which are uint32 words. *)
  Hypothesis wrap_data : forall k, jwrap J (jkey_data J k) = k.
  Hypothesis data32 : forall k, Forall (fun z => 0 <= z < 2 ^ 32) (jkey_data J k).

  Lemma reset_str_key : forall k (s : store),
    reset_state J ent (SStr (repr_tuple (jkey_data J k))) s = new_state k s.
  Proof.
    intros k s. unfold reset_state.
    rewrite eval_repr_tuple.
    2: { eapply Forall_impl; [|apply data32]. simpl. intros; lia. }
    rewrite wrap32_id by auto. rewrite wrap_data. reflexivity.
  Qed.

  (** The generator reset from a serialized state has that state. *)
  Lemma reset_serialized : forall d k (s : store), wf s -> exists_dev s d ->
    let r := reset J ent d (SStr (repr_tuple (jkey_data J k))) s in
    snd r = Ok tt /\ dkey (fst r) d = k /\ dcls (fst r) d = dcls s d /\
    forall x, exists_dev s x -> x <> d -> dkey (fst r) x = dkey s x /\ dref (fst r) x <> dref (fst r) d.
  Proof.
    intros d k s W X r.
    destruct (reset_spec J ent d (SStr (repr_tuple (jkey_data J k))) s W X Logic.I)
      as (W' & L & C & F & K & _). cbv zeta in *. fold r in W', L, C, F, K.
    assert (E : r = (St (keys s ++ [k]) (lset (devs s) d (List.length (keys s), dcls s d)) (nent s), Ok tt)).
    { unfold r, reset, bindM. rewrite reset_str_key. reflexivity. }
    specialize (K (f_equal snd E)).
    split. { rewrite E; reflexivity. }
    split. { unfold RNG_Model.dkey. rewrite K. rewrite E. unfold kget. cbn [fst keys].
             rewrite app_nth2, Nat.sub_diag by lia. reflexivity. }
    split. { apply C; auto. }
    intros x Hx N. destruct (F x Hx N) as [F1 F2]. split; auto. rewrite K, F1.
    pose proof (wf_ref s x W Hx). lia.
  Qed.

  (** * permute *)
  Hypothesis perm_ok : forall k n, Permutation (jperm J k n) (seq 0 n).

  Lemma permute_eq : forall (A : Type) (dflt : A) d (args : list (list A)) (s : store),
    wf s -> exists_dev s d -> args <> [] ->
    let r := permute J ent dflt (SDev d) args s in
    snd r = Ok (map (permutation J dflt (dkey s d)) args) /\
    wf (fst r) /\ dkey (fst r) d = adv J (dkey s d) 1 /\
    (forall x, exists_dev s x -> dref (fst r) x = dref s x /\
       (dref s x <> dref s d -> dkey (fst r) x = dkey s x)).
  Proof.
    intros A dflt d args s W X N r.
    set (s1 := St (keys s) (devs s ++ [(dref s d, KBase)]) (nent s)).
    set (e := List.length (devs s)).
    assert (W1 : wf s1).
    { unfold wf, s1. cbn [devs keys]. apply Forall_app. split; auto. constructor; auto. simpl. apply wf_ref; auto. }
    assert (R1 : dref s1 e = dref s d).
    { unfold dref, s1, e. cbn [devs]. rewrite app_nth2, Nat.sub_diag by lia. reflexivity. }
    assert (X1 : exists_dev s1 e) by (unfold exists_dev, s1, e; cbn [devs]; rewrite app_length; simpl; lia).
    assert (K1 : dkey s1 e = dkey s d) by (unfold RNG_Model.dkey; rewrite R1; reflexivity).
    assert (Rx : forall x, exists_dev s x -> dref s1 x = dref s x).
    { intros x Hx. unfold dref, s1. cbn [devs]. rewrite app_nth1; auto. }
    assert (E : r = (set_dkey s1 e (adv J (dkey s1 e) 1), Ok (map (permutation J dflt (dkey s1 e)) args))).
    { unfold r, permute, new, bindM, reset_state, new_dev. cbn [fst snd class_ok].
      destruct args; [congruence|]. reflexivity. }
    rewrite E. cbn [fst snd]. rewrite K1. split; auto.
    split. { apply wf_set_dkey; auto. }
    split. { apply dkey_set_same; auto. rewrite Rx, R1; auto. }
    intros x Hx. split. { rewrite dref_set_dkey. apply Rx; auto. }
    intros Nx. rewrite dkey_set_other by (rewrite Rx, R1; auto).
    unfold RNG_Model.dkey. rewrite Rx by auto. reflexivity.
  Qed.

  Lemma permutation_spec : forall (A : Type) (dflt : A) k (l : list A),
    Permutation (permutation J dflt k l) l.
  Proof.
    intros. unfold permutation.
    assert (E : l = map (fun i => nth i l dflt) (seq 0 (List.length l))).
    { clear. induction l as [|h t IH]; auto. cbn [List.length seq map nth]. f_equal.
      rewrite <- seq_shift, map_map. exact IH. }
    apply (Permutation_trans (l' := map (fun i => nth i l dflt) (seq 0 (List.length l)))).
    - apply Permutation_map. apply perm_ok.
    - rewrite <- E. apply Permutation_refl.
  Qed.
End Misc.
