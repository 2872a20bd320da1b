(** Lemmas on the array indexing primitives of Photon_Model. *)
From Coq Require Import ZArith Reals Bool List Arith Lia Lra Permutation.
From Verif Require Import Base Photon_Model.
Import ListNotations.
Open Scope nat_scope.

Lemma nth_ext' A (d : A) l l' : length l = length l' -> (forall i, i < length l -> nth i l d = nth i l' d) -> l = l'.
Proof. intros. apply (nth_ext l l' d d); assumption. Qed.

Lemma upd_length A (l : list A) i v : length (upd l i v) = length l.
Proof. revert i. induction l; intros [|i]; cbn; auto. Qed.
Lemma nth_upd A (l : list A) i v j d : nth j (upd l i v) d = if (j =? i) && (i <? length l) then v else nth j l d.
Proof.
  revert i j. induction l as [|a l IH]; intros i j.
  - destruct i, j; cbn; rewrite ?andb_false_r; reflexivity.
  - destruct i, j; cbn; try reflexivity. rewrite IH. reflexivity.
Qed.

Lemma fold_upd_length A (ps : list (nat * A)) l : length (fold_left (fun a p => upd a (fst p) (snd p)) ps l) = length l.
Proof. revert l. induction ps as [|p ps IH]; intros l; cbn; [reflexivity|]. rewrite IH. apply upd_length. Qed.
Lemma scatter_length A (l : list A) idx vs : length (scatter l idx vs) = length l.
Proof. apply fold_upd_length. Qed.
Lemma fold_upd_other A (ps : list (nat * A)) l j d : ~ In j (map fst ps) ->
  nth j (fold_left (fun a p => upd a (fst p) (snd p)) ps l) d = nth j l d.
Proof.
  revert l. induction ps as [|p ps IH]; intros l H; cbn; [reflexivity|].
  rewrite IH by (intros C; apply H; right; exact C). rewrite nth_upd.
  destruct (Nat.eqb_spec j (fst p)) as [->|]; [|reflexivity]. exfalso. apply H. left. reflexivity.
Qed.
Lemma fold_upd_in A (ps : list (nat * A)) l i v d : NoDup (map fst ps) -> In (i, v) ps -> i < length l ->
  nth i (fold_left (fun a p => upd a (fst p) (snd p)) ps l) d = v.
Proof.
  revert l. induction ps as [|p ps IH]; intros l N H L; cbn in *; [contradiction|]. inversion N as [|? ? N1 N2]; subst. destruct H as [->|H].
  - rewrite fold_upd_other by exact N1. cbn. rewrite nth_upd, Nat.eqb_refl. apply Nat.ltb_lt in L. rewrite L. reflexivity.
  - apply IH; [exact N2|exact H|]. rewrite upd_length. exact L.
Qed.
Lemma map_fst_combine A B (a : list A) (b : list B) : length a = length b -> map fst (combine a b) = a.
Proof. revert b. induction a as [|x a IH]; intros [|y b] H; cbn in *; try discriminate; [reflexivity|]. rewrite IH by lia. reflexivity. Qed.

Lemma nth_scatter A (l : list A) idx vs k d : NoDup idx -> length idx = length vs -> k < length idx -> nth k idx 0 < length l ->
  nth (nth k idx 0) (scatter l idx vs) d = nth k vs d.
Proof.
  intros N E K L. unfold scatter. apply fold_upd_in.
  - rewrite map_fst_combine by exact E. exact N.
  - rewrite <- combine_nth by exact E. apply nth_In. rewrite combine_length. lia.
  - exact L.
Qed.
Lemma nth_scatter_other A (l : list A) idx vs j d : length idx = length vs -> ~ In j idx -> nth j (scatter l idx vs) d = nth j l d.
Proof. intros E H. unfold scatter. apply fold_upd_other. rewrite map_fst_combine by exact E. exact H. Qed.

Lemma gather_length A (d : A) l idx : length (gather d l idx) = length idx.
Proof. apply map_length. Qed.
Lemma nth_gather A (d d' : A) l idx k : k < length idx -> nth k (gather d l idx) d' = nth (nth k idx 0) l d.
Proof. intros H. unfold gather. rewrite (nth_indep _ d' (nth 0 l d)) by (rewrite map_length; exact H). apply (map_nth (fun i => nth i l d)). Qed.
Lemma gather_seq A (d : A) l : gather d l (seq 0 (length l)) = l.
Proof.
  apply (nth_ext' _ d).
  - rewrite gather_length, seq_length. reflexivity.
  - intros i H. rewrite gather_length, seq_length in H. rewrite nth_gather by (rewrite seq_length; exact H). rewrite seq_nth by exact H. reflexivity.
Qed.
Lemma gather_perm A (d : A) l idx : Permutation idx (seq 0 (length l)) -> Permutation (gather d l idx) l.
Proof. intros H. rewrite <- (gather_seq A d l) at 2. unfold gather. apply Permutation_map. exact H. Qed.

(** permutations of positions *)
Definition isperm (s : list nat) (n : nat) : Prop := Permutation s (seq 0 n).
Lemma isperm_length s n : isperm s n -> length s = n.
Proof. intros H. rewrite (Permutation_length H). apply seq_length. Qed.
Lemma isperm_nodup s n : isperm s n -> NoDup s.
Proof. intros H. apply (Permutation_NoDup (l := seq 0 n)); [apply Permutation_sym, H|apply seq_NoDup]. Qed.
Lemma isperm_lt s n k : isperm s n -> k < n -> nth k s 0 < n.
Proof.
  intros H K. assert (I : In (nth k s 0) (seq 0 n)).
  { apply (Permutation_in (l := s)); [exact H|]. apply nth_In. rewrite (isperm_length _ _ H). exact K. }
  apply in_seq in I. lia.
Qed.
Lemma isperm_onto s n j : isperm s n -> j < n -> exists k, k < n /\ nth k s 0 = j.
Proof.
  intros H J. assert (I : In j s). { apply (Permutation_in (l := seq 0 n)); [apply Permutation_sym, H|]. apply in_seq. lia. }
  destruct (In_nth s j 0 I) as (k & K & E). exists k. rewrite (isperm_length _ _ H) in K. auto.
Qed.
Lemma scatter_gather A (d : A) l v s : isperm s (length l) -> length v = length l -> scatter v s (gather d l s) = l.
Proof.
  intros P E. apply (nth_ext' _ d).
  - rewrite scatter_length. exact E.
  - intros i Hi. rewrite scatter_length, E in Hi. destruct (isperm_onto _ _ _ P Hi) as (k & K & <-).
    rewrite nth_scatter.
    + apply nth_gather. rewrite (isperm_length _ _ P). exact K.
    + apply (isperm_nodup _ _ P).
    + rewrite gather_length. reflexivity.
    + rewrite (isperm_length _ _ P). exact K.
    + rewrite E. exact Hi.
Qed.

Lemma filter_split A (f : A -> bool) l : Permutation (filter (fun x => negb (f x)) l ++ filter f l) l.
Proof.
  induction l as [|a l IH]; cbn; [reflexivity|]. destruct (f a); cbn.
  - apply Permutation_sym. etransitivity; [|apply Permutation_middle]. apply perm_skip. apply Permutation_sym, IH.
  - apply perm_skip. exact IH.
Qed.
Lemma argsortb_perm m : isperm (argsortb m) (length m).
Proof. unfold isperm, argsortb. apply filter_split. Qed.

Definition nfalse (m : list bool) : nat := length (filter negb m).
Lemma filter_seq_count (f : bool -> bool) m : length (filter (fun i => f (nth i m false)) (seq 0 (length m))) = length (filter f m).
Proof.
  assert (H : forall k m, (forall i, i < length m -> nth (k + i) (repeat false k ++ m) false = nth i m false)).
  { intros k m' i _. rewrite app_nth2; rewrite repeat_length; [f_equal; lia|lia]. }
  assert (G : forall (m' : list bool) (g : nat -> bool) k, (forall i, i < length m' -> g (k + i) = nth i m' false) ->
              length (filter (fun i => f (g i)) (seq k (length m'))) = length (filter f m')).
  { induction m' as [|b m' IH]; intros g k Hg; cbn; [reflexivity|].
    assert (E : g k = b). { specialize (Hg 0). cbn in Hg. rewrite Nat.add_0_r in Hg. apply Hg. lia. }
    rewrite E. assert (Hn : length (filter (fun i => f (g i)) (seq (S k) (length m'))) = length (filter f m')).
    { apply IH. intros i Hi. specialize (Hg (S i)). cbn in Hg. rewrite Nat.add_succ_r in Hg. cbn. apply Hg. lia. }
    destruct (f b); cbn; rewrite Hn; reflexivity. }
  apply (G m (fun i => nth i m false) 0). intros i Hi. reflexivity.
Qed.
Lemma argsortb_rank m k : k < length m -> nth (nth k (argsortb m) 0) m false = negb (k <? nfalse m).
Proof.
  intros K. unfold argsortb. set (A := filter (fun i => negb (nth i m false)) (seq 0 (length m))).
  assert (LA : length A = nfalse m) by (apply (filter_seq_count negb)).
  destruct (Nat.ltb_spec k (nfalse m)) as [L|L].
  - rewrite app_nth1 by lia. assert (I : In (nth k A 0) A) by (apply nth_In; lia). apply filter_In in I. destruct I as [_ I].
    apply negb_true_iff in I. rewrite I. reflexivity.
  - rewrite app_nth2 by lia. set (B := filter (fun i => nth i m false) (seq 0 (length m))) in *.
    assert (LB : length A + length B = length m).
    { rewrite <- app_length. assert (P := argsortb_perm m). unfold argsortb in P. fold A in P. fold B in P. exact (isperm_length _ _ P). }
    assert (I : In (nth (k - length A) B 0) B) by (apply nth_In; lia). apply filter_In in I. destruct I as [_ I]. exact I.
Qed.

Lemma nfalse_perm m m' : Permutation m m' -> nfalse m = nfalse m'.
Proof.
  unfold nfalse. intros P. apply Permutation_length. induction P; cbn.
  - constructor.
  - destruct (negb x); [apply perm_skip|]; assumption.
  - destruct (negb x), (negb y); try reflexivity. apply perm_swap.
  - etransitivity; eassumption.
Qed.
Lemma arange_ge_length n k : length (arange_ge n k) = n.
Proof. unfold arange_ge. rewrite map_length, seq_length. reflexivity. Qed.
Lemma nth_arange_ge n k i d : i < n -> nth i (arange_ge n k) d = (k <=? i).
Proof.
  intros H. unfold arange_ge. rewrite (nth_indep _ d (k <=? 0)) by (rewrite map_length, seq_length; exact H).
  rewrite (map_nth (fun i => k <=? i)). rewrite seq_nth by exact H. reflexivity.
Qed.
Lemma nfalse_arange n k : nfalse (arange_ge n k) = Nat.min k n.
Proof.
  unfold nfalse, arange_ge. assert (G : forall n a, length (filter negb (map (fun i => k <=? i) (seq a n))) = Nat.min (k - a) n).
  { induction n0 as [|n0 IH]; intros a; cbn [seq map filter]; [cbn; lia|]. destruct (Nat.leb_spec k a) as [L|L]; cbn [negb].
    - rewrite IH. lia.
    - cbn [length]. rewrite IH. lia. }
  rewrite G. lia.
Qed.

Lemma nth_map A B (f : A -> B) l i d d' : i < length l -> nth i (map f l) d' = f (nth i l d).
Proof. intros H. rewrite (nth_indep _ d' (f d)) by (rewrite map_length; exact H). apply map_nth. Qed.
Lemma nth_where A (m : list bool) (a b : list A) i d : length m = length a -> length a = length b -> i < length m ->
  nth i (where_ m a b) d = if nth i m false then nth i a d else nth i b d.
Proof.
  intros H1 H2 Hi. unfold where_.
  rewrite (nth_map _ _ _ (combine m (combine a b)) i (false, (d, d))) by (rewrite !combine_length; lia).
  rewrite combine_nth by (rewrite combine_length; lia). rewrite combine_nth by lia. reflexivity.
Qed.
Lemma where_length A (m : list bool) (a b : list A) : length m = length a -> length a = length b -> length (where_ m a b) = length a.
Proof. intros. unfold where_. rewrite map_length, !combine_length. lia. Qed.

Lemma nth_repeat' A (v : A) n i d : i < n -> nth i (repeat v n) d = v.
Proof. revert i. induction n; intros [|i] H; cbn; try lia; [reflexivity|]. apply IHn. lia. Qed.
Lemma nth_zip (f : R -> R -> R) (a b : list R) i : length a = length b -> i < length a ->
  nth i (map (fun t => f (fst t) (snd t)) (combine a b)) 0%R = f (nth i a 0%R) (nth i b 0%R).
Proof.
  intros E H. rewrite (nth_map _ _ (fun t => f (fst t) (snd t)) (combine a b) i (0%R, 0%R)) by (rewrite combine_length; lia).
  rewrite combine_nth by exact E. reflexivity.
Qed.
Lemma zip_length (f : R -> R -> R) a b : length a = length b -> length (map (fun t => f (fst t) (snd t)) (combine a b)) = length a.
Proof. intros E. rewrite map_length, combine_length. lia. Qed.

(** real sums over lists *)
Lemma rsuml_app a b : rsuml (a ++ b) = (rsuml a + rsuml b)%R.
Proof. unfold rsuml. induction a; cbn; [lra|]. rewrite IHa. lra. Qed.
Lemma rsuml_perm a b : Permutation a b -> rsuml a = rsuml b.
Proof. unfold rsuml. induction 1; cbn; lra. Qed.
Lemma rsuml_map_mul l c : rsuml (map (fun f => f * c)%R l) = (rsuml l * c)%R.
Proof. unfold rsuml. induction l; cbn; [lra|]. rewrite IHl. lra. Qed.
Lemma rsuml_const l c : (forall i, i < length l -> nth i l 0%R = c) -> rsuml l = (INR (length l) * c)%R.
Proof.
  induction l as [|a l IH]; intros H; [cbn; lra|]. cbn [length]. rewrite S_INR. change (rsuml (a :: l)) with (a + rsuml l)%R.
  rewrite IH by (intros i Hi; exact (H (S i) ltac:(cbn; lia))). rewrite (H 0 ltac:(cbn; lia) : a = c). lra.
Qed.
Lemma rsuml_ext a b : length a = length b -> (forall i, i < length a -> nth i a 0%R = nth i b 0%R) -> rsuml a = rsuml b.
Proof. intros. f_equal. apply (nth_ext' _ 0%R); assumption. Qed.
Lemma repeat_all_false n (m : list bool) : length m = n -> (forall i, i < n -> nth i m true = false) -> m = repeat false n.
Proof.
  intros L H. apply (nth_ext' _ true); [rewrite repeat_length; exact L|]. intros i Hi. rewrite H by lia. rewrite nth_repeat' by lia. reflexivity.
Qed.
Lemma nfalse_repeat n : nfalse (repeat false n) = n.
Proof. unfold nfalse. induction n; cbn; [reflexivity|]. rewrite IHn. reflexivity. Qed.
Lemma nfalse_le m : nfalse m <= length m.
Proof. unfold nfalse. induction m as [|[] m IH]; cbn; lia. Qed.
Lemma nfalse_all m : nfalse m = length m -> m = repeat false (length m).
Proof.
  induction m as [|b m IH]; [reflexivity|]. unfold nfalse. pose proof (nfalse_le m) as L. unfold nfalse in L. destruct b; cbn; intros E; [lia|].
  rewrite <- IH; [reflexivity|]. unfold nfalse. lia.
Qed.
