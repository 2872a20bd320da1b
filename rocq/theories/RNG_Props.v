(** Properties C30 (bulk and sequential draws), C31 (linked and duplicated generators),
    C32 (serialization), C34 (permute). *)
From Coq Require Import ZArith Reals Bool List String Ascii Lia Lra Permutation.
From Verif Require Import Base Bounds_Model RNG_Model RNG_Spec RNG_Proofs RNG_Link RNG_Misc.
Import ListNotations.
Open Scope list_scope.
Open Scope nat_scope.

(** * C30 *)
(** Filling n values in bulk is n successive calls: same values, same final state. *)
Theorem C30_generate_is_calls : forall (key : Type) (J : jrandom key) c k n, c <> KBase ->
  generate_key J c k n = calls (call_key J c) k n.
Proof. intros. rewrite generate_key_spec, calls_spec by auto. reflexivity. Qed.
Print Assumptions C30_generate_is_calls.

(** Both are the first n values of the key's stream, and discard(n) reaches the same state. *)
Theorem C30_stream_values : forall (key : Type) (J : jrandom key) c k n, c <> KBase ->
  generate_key J c k n = Ok (adv J k n, stream J c k n) /\
  discard_key J k (Z.of_nat n) = adv J k n /\
  raw_key J k = (adv J k 1, jbits J (sub J k 0)).
Proof.
  intros. split; [apply generate_key_spec; auto|]. split; [|apply raw_key_spec].
  rewrite discard_key_spec, Nat2Z.id. reflexivity.
Qed.
Print Assumptions C30_stream_values.

(** Any interleaving of calls, bulk draws, variance/expectation draws, discards, raw values and
    cache clears, through any deviates sharing one state: the state ends at the sum of the costs,
    and each operation returns what its position in the stream determines. *)
Theorem C30_any_history : forall (key : Type) (J : jrandom key) ent p q o e (s : store) d,
  wf s -> exists_dev s d ->
  (forall o', In o' (p ++ o :: q) -> is_draw o' = true /\
     exists e', target o' = Some e' /\ exists_dev s e' /\ dref s e' = dref s d) ->
  target o = Some e ->
  dkey J (fst (run J ent p s)) d = adv J (dkey J s d) (fold_right plus 0 (map (tcost s) p)) /\
  nth_error (snd (run J ent (p ++ o :: q) s)) (List.length p) =
    Some (outcome J (dcls s e) (adv J (dkey J s d) (fold_right plus 0 (map (tcost s) p))) o).
Proof.
  intros key J ent p q o e s d W X H T. split.
  - apply (draws_total J ent p s d W X). intros o' Ho'. apply H. apply in_or_app. auto.
  - apply (draws_outcome J ent p q o s d W X H e T).
Qed.
Print Assumptions C30_any_history.

(** A concrete generator: keys are integers, split k = (2k, 2k+1). *)
Definition toyJ : jrandom Z :=
  JR Z (fun k => (2 * k, 2 * k + 1)%Z) (fun z => z) (fun k => [k]) (fun l => nth 0 l 0%Z)
     (fun k => k) IZR (fun k => IZR k) (fun k ps => map (fun _ => Z.odd k) ps)
     (fun k m => k) (fun k a b => IZR k) (fun k a => IZR k) (fun k n => IZR k)
     (fun k n => if Z.even k then rev (seq 0 n) else seq 0 n).
Example C30_ex : exists vs, generate_key toyJ (KGaussian 1 2) 3%Z 2 = Ok (12%Z, vs) /\ vs = [15; 27]%R.
Proof.
  rewrite generate_key_spec by discriminate. eexists. split; [reflexivity|].
  unfold stream, value_of. cbn. repeat f_equal; lra.
Qed.
Example C30_ex_history : exists s,
  wf s /\ exists_dev s 0 /\
  (forall o' : op (key := Z), In o' ([OCall 1; ODiscard 0 3] ++ [ORaw 0]) -> is_draw o' = true /\
     exists e', target o' = Some e' /\ exists_dev s e' /\ dref s e' = dref s 0) /\
  dkey toyJ (fst (run toyJ (fun _ => 5%Z) [OCall 1; ODiscard 0 3] s)) 0 = 48%Z.
Proof.
  exists (St [3%Z] [(0, KBase); (0, KUniform)] 0). split; [repeat constructor|].
  split. { unfold exists_dev; simpl; lia. } split; [|reflexivity].
  intros o' [<-|[<-|[<-|[]]]]; (split; [reflexivity|]); eexists; (split; [reflexivity|]);
    unfold exists_dev; simpl; split; auto.
Qed.

(** * C31 *)
(** After any program, two deviates share a state exactly when the program linked them. *)
Theorem C31_sharing_is_linking : forall (key : Type) (J : jrandom key) ent p x y,
  prog_ok J ent empty p ->
  let s := fst (run J ent p empty) in
  exists_dev s x -> exists_dev s y ->
  (linked (combine p (snd (run J ent p empty))) x y <-> dref s x = dref s y).
Proof. exact (@linked_iff). Qed.
Print Assumptions C31_sharing_is_linking.

(** After any program, a draw through x advances every deviate linked to x to the same state and
    leaves every other deviate where it was. *)
Theorem C31_draws_move_the_linked_deviates : forall (key : Type) (J : jrandom key) ent p o x y,
  prog_ok J ent empty p ->
  let s := fst (run J ent p empty) in
  let s' := fst (step J ent o s) in
  exists_dev s x -> exists_dev s y -> is_draw o = true -> target o = Some x ->
  (linked (combine p (snd (run J ent p empty))) x y ->
     dkey J s y = dkey J s x /\ dkey J s' x = adv J (dkey J s x) (cost (dcls s x) o) /\
     dkey J s' y = dkey J s' x) /\
  (~ linked (combine p (snd (run J ent p empty))) x y -> dkey J s' y = dkey J s y).
Proof.
  intros key J ent p o x y O s s' X Y D T.
  pose proof (linked_iff J ent p x y O X Y) as L. cbv zeta in L. fold s in L.
  pose proof (run_wf J ent p O) as W. fold s in W.
  destruct (draw_step_key J ent o x s y W X D T) as (_ & _ & _ & Ky).
  destruct (draw_step_key J ent o x s x W X D T) as (_ & _ & _ & Kx).
  rewrite Nat.eqb_refl in Kx. fold s' in Kx, Ky.
  split; intros H.
  - apply L in H. rewrite Kx, Ky, H, Nat.eqb_refl. split; auto. unfold dkey. rewrite H. reflexivity.
  - rewrite Ky. destruct (Nat.eqb_spec (dref s y) (dref s x)) as [E|E]; auto.
    exfalso. apply H. apply L. auto.
Qed.
Print Assumptions C31_draws_move_the_linked_deviates.

(** A duplicate has the state and class of its source, is linked to nothing, and from then on,
    whatever happens to deviates not linked to it, keeps its state. *)
Theorem C31_duplicate : forall (key : Type) (J : jrandom key) ent d (s : store), wf s -> exists_dev s d ->
  let r := duplicate J d s in
  exists e, snd r = Ok e /\ exists_dev (fst r) e /\ wf (fst r) /\
    dkey J (fst r) e = dkey J s d /\ dcls (fst r) e = dcls s d /\
    (forall x, exists_dev s x -> x <> e /\ dref (fst r) x <> dref (fst r) e /\
       dkey J (fst r) x = dkey J s x /\ dcls (fst r) x = dcls s x) /\
    (forall y p, y = d \/ y = e -> prog_ok J ent (fst r) p -> leaves_all J ent (fst r) y p ->
       dkey J (fst (run J ent p (fst r))) y = dkey J s d).
Proof.
  intros key J ent d s W X r. destruct (dup_spec J d s W X) as (e & E & Xe & W' & K & C & F).
  exists e. split; auto. split; auto. split; auto. split; auto. split; auto. split; auto.
  intros y p Hy O L. destruct (F d X) as (_ & _ & Kd & _).
  destruct Hy as [-> | ->].
  - destruct (run_leaves J ent p (fst r) d W') with (2 := O) as [E1 _]; auto.
    { unfold exists_dev, r in *. rewrite dup_eq. cbn [fst devs]. rewrite app_length. lia. }
    rewrite E1. exact Kd.
  - destruct (run_leaves J ent p (fst r) e W' Xe O L) as [E1 _]. rewrite E1. exact K.
Qed.
Print Assumptions C31_duplicate.

(** Generators of one class in equal states return the same values for every drawing program. *)
Theorem C31_equal_states_equal_futures : forall (key : Type) (J : jrandom key) ent p (s1 s2 : store) d1 d2,
  wf s1 -> wf s2 -> exists_dev s1 d1 -> exists_dev s2 d2 ->
  dkey J s1 d1 = dkey J s2 d2 -> dcls s1 d1 = dcls s2 d2 -> forallb is_draw p = true ->
  snd (run J ent (map (retarget d1) p) s1) = snd (run J ent (map (retarget d2) p) s2) /\
  dkey J (fst (run J ent (map (retarget d1) p) s1)) d1 = dkey J (fst (run J ent (map (retarget d2) p) s2)) d2.
Proof. exact (@same_future). Qed.
Print Assumptions C31_equal_states_equal_futures.

(** The same explicit seed gives the same state whatever the history; seed() re-keys all linked
    deviates and no other. *)
Theorem C31_same_seed_same_stream : forall (key : Type) (J : jrandom key) ent d z c (s : store),
  wf s -> exists_dev s d -> z <> 0%Z -> class_ok c = true ->
  dkey J (fst (reset J ent d (SInt z) s)) d = jkey J z /\
  dkey J (fst (new J ent c (SInt z) s)) (List.length (devs s)) = jkey J z /\
  (forall sd, sd = SInt z \/ sd = SFloat (IZR z) ->
     snd (seed J ent d sd s) = Ok tt /\
     (forall x, dref s x = dref s d -> dkey J (fst (seed J ent d sd s)) x = jkey J z) /\
     (forall x, dref s x <> dref s d -> dkey J (fst (seed J ent d sd s)) x = dkey J s x)).
Proof.
  intros key J ent d z c s W X Hz Hc.
  split; [apply reset_int; auto|]. split; [apply new_int; auto|].
  intros sd Hsd. destruct (seed_spec J ent d sd s W X) as (_ & _ & F & G & H). cbv zeta in *.
  destruct (H z Hsd Hz) as [H1 H2]. split; auto. split; auto. intros x Hx. rewrite (G x Hx). exact H2.
Qed.
Print Assumptions C31_same_seed_same_stream.

(** Four deviates: 1 follows 0, 2 duplicates 1, 3 follows 2 after being seeded. *)
Definition C31_prog : list (op (key := Z)) :=
  [ONew KBase (SInt 7); ONew KUniform (SDev 0); ODup 1; ONew KUniform (SInt 9); OReset 3 (SDev 2); OCall 1].
Example C31_ex : prog_ok toyJ (fun _ => 5%Z) empty C31_prog /\
  linked (combine C31_prog (snd (run toyJ (fun _ => 5%Z) C31_prog empty))) 0 1 /\
  linked (combine C31_prog (snd (run toyJ (fun _ => 5%Z) C31_prog empty))) 3 2 /\
  ~ linked (combine C31_prog (snd (run toyJ (fun _ => 5%Z) C31_prog empty))) 1 2 /\
  map (dkey toyJ (fst (run toyJ (fun _ => 5%Z) C31_prog empty))) [0; 1; 2; 3] = [14; 14; 7; 7]%Z.
Proof.
  assert (O : prog_ok toyJ (fun _ => 5%Z) empty C31_prog) by (cbn; repeat split; lia).
  split; auto.
  split. { apply linked_iff; auto; unfold exists_dev; cbn; lia. }
  split. { apply linked_iff; auto; unfold exists_dev; cbn; lia. }
  split; [|reflexivity].
  intros H. apply linked_iff in H; auto; [|unfold exists_dev; cbn; lia|unfold exists_dev; cbn; lia].
  cbn in H. lia.
Qed.

(** * C32 *)
(** Python's evaluation of the serialized text gives the words back. *)
Theorem C32_text_round_trip : forall l, Forall (fun z => (0 <= z)%Z) l -> eval_tuple (repr_tuple l) = Some l.
Proof. exact eval_repr_tuple. Qed.
Print Assumptions C32_text_round_trip.

(** reset(serialize()) of any saved state: the generator is back at that state, so its future is
    that of the saved generator, and no other deviate is affected. *)
Theorem C32_serialize_restores : forall (key : Type) (J : jrandom key) ent,
  (forall k, jwrap J (jkey_data J k) = k) ->
  (forall k, Forall (fun z => (0 <= z < 2 ^ 32)%Z) (jkey_data J k)) ->
  forall (s0 s : store) d0 d t, wf s -> exists_dev s d ->
    serialize J d0 s0 = (s0, Ok t) ->
    let r := reset J ent d (SStr t) s in
    snd r = Ok tt /\ dkey J (fst r) d = dkey J s0 d0 /\ dcls (fst r) d = dcls s d /\
    (forall x, exists_dev s x -> x <> d -> dkey J (fst r) x = dkey J s x /\ dref (fst r) x <> dref (fst r) d).
Proof.
  intros key J ent H1 H2 s0 s d0 d t W X E. unfold serialize in E.
  assert (t = repr_tuple (jkey_data J (dkey J s0 d0))) as -> by congruence.
  apply (reset_serialized J ent H1 H2 d (dkey J s0 d0) s W X).
Qed.
Print Assumptions C32_serialize_restores.

Example C32_ex : repr_tuple [1234; 4294967295]%Z = "(1234, 4294967295)"%string /\
  eval_tuple "(1234, 4294967295)"%string = Some [1234; 4294967295]%Z.
Proof. split; reflexivity. Qed.
(** A generator meeting the hypotheses: two keys. *)
Definition boolJ : jrandom bool :=
  JR bool (fun k => (negb k, k)) (fun z => Z.odd z) (fun k => if k then [1; 7]%Z else [0; 4000000000]%Z)
     (fun l => Z.eqb (nth 0 l 0%Z) 1)
     (fun k => if k then 1%Z else 0%Z) (fun _ => 0%R) (fun _ => 0%R) (fun k ps => map (fun _ => k) ps)
     (fun k m => 0%Z) (fun k a b => 0%R) (fun k a => 0%R) (fun k n => 0%R)
     (fun k n => if k then rev (seq 0 n) else seq 0 n).
Example C32_ex_hyp : (forall k, jwrap boolJ (jkey_data boolJ k) = k) /\
  (forall k, Forall (fun z => (0 <= z < 2 ^ 32)%Z) (jkey_data boolJ k)).
Proof. split; intros []; try reflexivity; repeat constructor; simpl; lia. Qed.

(** * C34 *)
(** permute(rng, a, b, ...): there is one index permutation (of each length) that all lists are
    rearranged by, every list keeps its elements, and the generator advances by one draw. *)
Theorem C34_permute : forall (key : Type) (J : jrandom key) ent,
  (forall k n, Permutation (jperm J k n) (seq 0 n)) ->
  forall (A : Type) (dflt : A) d (args : list (list A)) n (s : store),
    wf s -> exists_dev s d -> args <> [] -> Forall (fun l => List.length l = n) args ->
    let r := permute J ent dflt (SDev d) args s in
    exists idx outs, snd r = Ok outs /\ Permutation idx (seq 0 n) /\
      outs = map (fun l => map (fun i => nth i l dflt) idx) args /\
      Forall2 (@Permutation A) outs args /\
      dkey J (fst r) d = adv J (dkey J s d) 1 /\
      (forall x, exists_dev s x -> dref (fst r) x = dref s x /\
         (dref s x <> dref s d -> dkey J (fst r) x = dkey J s x)).
Proof.
  intros key J ent Hp A dflt d args n s W X N L r.
  destruct (permute_eq J ent A dflt d args s W X N) as (E1 & _ & E2 & E3). cbv zeta in *. fold r in E1, E2, E3.
  exists (jperm J (dkey J s d) n), (map (permutation J dflt (dkey J s d)) args).
  split; auto. split; auto. split.
  - apply map_ext_in. intros l Hl. rewrite Forall_forall in L. unfold permutation. rewrite (L l Hl). reflexivity.
  - split; [|auto]. clear - Hp. induction args; constructor; auto. apply permutation_spec; auto.
Qed.
Print Assumptions C34_permute.

(** No list at all is a TypeError and draws nothing. *)
Theorem C34_permute_nothing : forall (key : Type) (J : jrandom key) ent (A : Type) (dflt : A) d (s : store),
  wf s -> exists_dev s d ->
  let r := permute J ent dflt (SDev d) [] s in
  snd r = Err TypeError /\ dkey J (fst r) d = dkey J s d.
Proof.
  intros key J ent A dflt d s W X r. split; [reflexivity|].
  unfold r, permute, new, bindM, reset_state, new_dev, raise. cbn [fst snd class_ok].
  unfold dkey, kget, dref. cbn [keys devs]. rewrite app_nth1 by exact X. reflexivity.
Qed.
Print Assumptions C34_permute_nothing.

Example C34_ex : (forall k n, Permutation (jperm boolJ k n) (seq 0 n)) /\
  snd (permute boolJ (fun _ => 5%Z) 0 (SDev 0) [[1; 2; 3]; [4; 5; 6]] (St [true] [(0, KBase)] 0)) =
    Ok [[3; 2; 1]; [6; 5; 4]].
Proof.
  split; [|reflexivity]. intros [] n; simpl; [apply Permutation_sym, Permutation_rev|apply Permutation_refl].
Qed.
