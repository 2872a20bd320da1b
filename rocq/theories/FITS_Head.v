(** Headers: what is written and read back. *)
From Coq Require Import ZArith Reals Bool String List Lra Lia.
From Verif Require Import Base Bounds_Model Bounds_Proofs Geo_Model Geo_Proofs Angle_Model Sky_Model Sky_Spec Sky_More Util_Model Util_Spec Util_Proofs.
From Verif Require Import FITS_Spec FITS_Model FITS_Poly.
Import ListNotations.
Open Scope R_scope.

Lemma hset_same : forall h k v, hset h k v k = Some v.
Proof. intros. unfold hset. destruct (key_eq_dec k k); congruence. Qed.
Lemma hset_other : forall h k v k', k <> k' -> hset h k v k' = h k'.
Proof. intros. unfold hset. destruct (key_eq_dec k k'); congruence. Qed.
Lemma hsets_out : forall l h k, (forall v, ~ In (k, v) l) -> hsets h l k = h k.
Proof.
  induction l as [|[k0 v0] l IH]; intros h k H; [reflexivity|]. cbn [hsets]. rewrite IH by (intros v I; apply (H v); now right).
  apply hset_other. intros ->. apply (H v0). now left.
Qed.
Lemma hsets_in : forall l h k v, (forall v', In (k, v') l -> v' = v) -> In (k, v) l -> hsets h l k = Some v.
Proof.
  induction l as [|[k0 v0] l IH]; intros h k v U I; [contradiction|]. cbn [hsets].
  assert (D : In (k, v) l \/ forall v', ~ In (k, v') l).
  { destruct (in_dec key_eq_dec k (map fst l)) as [i|i].
    - apply in_map_iff in i. destruct i as ([k1 v1] & E & i). cbn in E. subst k1. left. rewrite <- (U v1 (or_intror i)). exact i.
    - right. intros v' i'. apply i. apply in_map_iff. exists (k, v'). auto. }
  destruct D as [D|D]; [apply IH; [intros v' i; apply U; now right|exact D]|]. rewrite hsets_out by exact D.
  destruct I as [E|I]; [injection E as -> ->; apply hset_same|destruct (D v I)].
Qed.
Lemma mapM_ok : forall A B (f : A -> res B) g l, (forall a, In a l -> f a = Ok (g a)) -> mapM f l = Ok (map g l).
Proof.
  intros A B f g. induction l as [|a l IH]; intro H; [reflexivity|]. cbn [mapM map]. rewrite (H a) by now left. cbn [bind]. rewrite IH by (intros; apply H; now right). reflexivity.
Qed.

(** * SIP *)
Definition sip_list (s : sip) (m : list (list R)) (i0 j0 : nat) : list (key * hval) :=
  let order := (length m - 1)%nat in
  flat_map (fun i => flat_map (fun j => let a := std_ent m i0 j0 i j in if Reqb a 0 then [] else [(KSip s i j, VR a)]) (seq 0 (order + 1))) (seq 0 (order + 1)).
Lemma in_sip_list : forall s m i0 j0 k v, In (k, v) (sip_list s m i0 j0) <->
  exists i j, (i < length m - 1 + 1)%nat /\ (j < length m - 1 + 1)%nat /\ k = KSip s i j /\ v = VR (std_ent m i0 j0 i j) /\ std_ent m i0 j0 i j <> 0.
Proof.
  intros s m i0 j0 k v. unfold sip_list. rewrite in_flat_map. split.
  - intros (i & Hi & H). rewrite in_flat_map in H. destruct H as (j & Hj & H). apply in_seq in Hi, Hj. cbv zeta in H.
    destruct (Reqb_spec (std_ent m i0 j0 i j) 0) as [e|e]; [contradiction|]. destruct H as [H|[]]. injection H as <- <-. exists i, j. repeat split; auto; lia.
  - intros (i & j & Hi & Hj & -> & -> & N). exists i. split; [apply in_seq; lia|]. apply in_flat_map. exists j. split; [apply in_seq; lia|]. cbv zeta.
    destruct (Reqb_spec (std_ent m i0 j0 i j) 0) as [e|e]; [contradiction|now left].
Qed.
Definition sip_eq_dec : forall a b : sip, {a = b} + {a <> b}. Proof. decide equality. Defined.
Lemma write_matrix_other : forall s m i0 j0 h k, (forall n, k = KOrder n -> n <> s) -> (forall n i j, k = KSip n i j -> n <> s) -> write_matrix s m i0 j0 h k = h k.
Proof.
  intros s m i0 j0 h k O K. unfold write_matrix. fold (sip_list s m i0 j0). rewrite hsets_out.
  - apply hset_other. intros <-. now apply (O s).
  - intros v I. apply in_sip_list in I. destruct I as (i & j & _ & _ & E & _). now apply (K s i j).
Qed.
Lemma write_matrix_order : forall s m i0 j0 h, write_matrix s m i0 j0 h (KOrder s) = Some (VZ (length m - 1)).
Proof.
  intros. unfold write_matrix. fold (sip_list s m i0 j0). rewrite hsets_out; [apply hset_same|]. intros v I. apply in_sip_list in I. destruct I as (i & j & _ & _ & E & _). discriminate.
Qed.
Lemma write_matrix_ent : forall s m i0 j0 h i j, (forall i j, h (KSip s i j) = None) -> (i < length m)%nat -> (j < length m)%nat ->
  hget0 (write_matrix s m i0 j0 h) (KSip s i j) = Ok (std_ent m i0 j0 i j).
Proof.
  intros s m i0 j0 h i j N Hi Hj. unfold hget0, write_matrix. fold (sip_list s m i0 j0). destruct (Req_dec (std_ent m i0 j0 i j) 0) as [e|e].
  - rewrite hsets_out, hset_other, N, e; [reflexivity|discriminate|]. intros v I. apply in_sip_list in I. destruct I as (i' & j' & _ & _ & E & _ & Z). injection E as <- <-. contradiction.
  - rewrite (hsets_in _ _ _ (VR (std_ent m i0 j0 i j))); [reflexivity| |].
    + intros v I. apply in_sip_list in I. destruct I as (i' & j' & _ & _ & E & -> & _). now injection E as <- <-.
    + apply in_sip_list. exists i, j. repeat split; auto; lia.
Qed.
Lemma read_matrix_ok : forall h s order g, (forall i j, (i <= order)%nat -> (j <= order)%nat -> hget0 h (KSip s i j) = Ok (g i j)) ->
  read_matrix h s order = Ok (map (fun i => map (fun j => g i j) (seq 0 (order + 1))) (seq 0 (order + 1))).
Proof.
  intros h s order g H. unfold read_matrix. rewrite (mapM_ok _ _ _ (fun i => map (fun j => g i j) (seq 0 (order + 1)))); [reflexivity|].
  intros i Hi. apply in_seq in Hi. apply mapM_ok. intros j Hj. apply in_seq in Hj. apply H; lia.
Qed.
Lemma nth_upd : forall A (f : A -> A) l n d k, nth k (upd n f l) d = if Nat.eqb k n && Nat.ltb n (length l) then f (nth k l d) else nth k l d.
Proof.
  intros A f. induction l as [|a l IH]; intros n d k; [destruct n, k; cbn; now rewrite ?andb_false_r|].
  destruct n as [|n], k as [|k]; cbn [upd nth Nat.eqb length]; try reflexivity. rewrite IH. reflexivity.
Qed.
Lemma upd_length : forall A (f : A -> A) l n, length (upd n f l) = length l.
Proof. intros A f. induction l as [|a l IH]; intros [|n]; cbn [upd length]; auto. Qed.
(** two square matrices with the same coefficients *)
Lemma square_eq : forall n a b, square n a -> square n b -> (forall i j, (i < n)%nat -> (j < n)%nat -> coef a i j = coef b i j) -> a = b.
Proof.
  intros n a b A B H. pose proof A as [LA _]. pose proof B as [LB _]. apply (nth_ext _ _ [] []); [congruence|]. rewrite LA. intros i Hi.
  apply (nth_ext _ _ 0 0); [rewrite !(square_row n) by assumption; reflexivity|]. rewrite (square_row n) by assumption. intros j Hj. now apply H.
Qed.
Lemma table_square : forall n (g : nat -> nat -> R), square n (map (fun i => map (fun j => g i j) (seq 0 n)) (seq 0 n)).
Proof.
  intros n g. split; [now rewrite map_length, seq_length|]. apply List.Forall_forall. intros r H. apply in_map_iff in H. destruct H as (i & <- & _). now rewrite map_length, seq_length.
Qed.
Lemma table_coef : forall n (g : nat -> nat -> R) i j, (i < n)%nat -> (j < n)%nat -> coef (map (fun i => map (fun j => g i j) (seq 0 n)) (seq 0 n)) i j = g i j.
Proof.
  intros n g i j Hi Hj. unfold coef. rewrite (nth_indep _ [] (map (fun j => g 0%nat j) (seq 0 n))) by (now rewrite map_length, seq_length).
  rewrite (map_nth (fun i => map (fun j => g i j) (seq 0 n))), seq_nth by exact Hi. now apply nth_map_seq.
Qed.
Lemma add_at_square : forall n m i0 j0 d, square n m -> square n (add_at i0 j0 d m).
Proof.
  intros n m i0 j0 d [L F]. split; [unfold add_at; now rewrite upd_length|]. unfold add_at. rewrite List.Forall_forall in *. intros r H.
  destruct (In_nth _ _ [] H) as (k & Hk & <-). rewrite upd_length in Hk. rewrite nth_upd. destruct (_ && _); rewrite ?upd_length; apply F, nth_In, Hk.
Qed.
Lemma add_at_coef : forall n m i0 j0 d i j, square n m -> (i < n)%nat -> (j < n)%nat -> coef (add_at i0 j0 d m) i j = if Nat.eqb i i0 && Nat.eqb j j0 then coef m i j + d else coef m i j.
Proof.
  intros n m i0 j0 d i j S Hi Hj. pose proof S as [L _]. unfold coef, add_at. rewrite nth_upd. destruct (Nat.eqb_spec i i0) as [<-|N]; [|reflexivity].
  destruct (Nat.ltb_spec i (length m)) as [_|l]; [|lia]. cbn [andb]. rewrite nth_upd, (square_row n m i S Hi). destruct (Nat.eqb_spec j j0) as [<-|N]; [|reflexivity].
  destruct (Nat.ltb_spec j n) as [_|l]; [reflexivity|lia].
Qed.
Lemma back : forall n m i0 j0, (1 <= n)%nat -> square n m ->
  add_at i0 j0 1 (map (fun i => map (fun j => std_ent m i0 j0 i j) (seq 0 (n - 1 + 1))) (seq 0 (n - 1 + 1))) = m.
Proof.
  intros n m i0 j0 N S. replace (n - 1 + 1)%nat with n by lia. apply (square_eq n); [apply add_at_square, table_square|exact S|].
  intros i j Hi Hj. rewrite (add_at_coef n) by (try apply table_square; assumption). rewrite (table_coef n (std_ent m i0 j0)) by assumption. unfold std_ent. rewrite ent_coef.
  destruct (_ && _); ring.
Qed.
Lemma read_pair : forall h a b n m1 m2, (2 <= n)%nat -> square n m1 -> square n m2 -> h (KOrder a) = Some (VZ (n - 1)) -> h (KOrder b) = Some (VZ (n - 1)) ->
  (forall i j, (i < n)%nat -> (j < n)%nat -> hget0 h (KSip a i j) = Ok (std_ent m1 1 0 i j)) ->
  (forall i j, (i < n)%nat -> (j < n)%nat -> hget0 h (KSip b i j) = Ok (std_ent m2 0 1 i j)) -> read_sip_pair h a b = Ok (m1, m2).
Proof.
  intros h a b n m1 m2 N S1 S2 O1 O2 H1 H2. unfold read_sip_pair, hint. rewrite O1, O2. cbn [to_nat bind]. rewrite Nat.max_id.
  rewrite (read_matrix_ok h a _ (std_ent m1 1 0)) by (intros; apply H1; lia). cbn [bind]. rewrite (read_matrix_ok h b _ (std_ent m2 0 1)) by (intros; apply H2; lia). cbn [bind].
  destruct (Nat.eqb_spec (n - 1) 0) as [e|_]; [lia|]. rewrite !back by (auto; lia). reflexivity.
Qed.
Lemma write_pair : forall h a b n d, a <> b -> (2 <= n)%nat -> square n (fst d) -> square n (snd d) -> (forall i j, h (KSip a i j) = None) -> (forall i j, h (KSip b i j) = None) ->
  let h' := write_sip a b d h in h' (KOrder a) = Some (VZ (n - 1)) /\ h' (KOrder b) = Some (VZ (n - 1)) /\
  (forall i j, (i < n)%nat -> (j < n)%nat -> hget0 h' (KSip a i j) = Ok (std_ent (fst d) 1 0 i j)) /\
  (forall i j, (i < n)%nat -> (j < n)%nat -> hget0 h' (KSip b i j) = Ok (std_ent (snd d) 0 1 i j)).
Proof.
  intros h a b n d NE N S1 S2 HA HB h'. unfold h', write_sip. pose proof S1 as [L1 _]. pose proof S2 as [L2 _]. repeat split.
  - rewrite write_matrix_other by congruence. now rewrite write_matrix_order, L1.
  - now rewrite write_matrix_order, L2.
  - intros i j Hi Hj. unfold hget0 at 1. rewrite write_matrix_other by congruence. apply write_matrix_ent; auto; congruence.
  - intros i j Hi Hj. apply write_matrix_ent; try lia. intros. rewrite write_matrix_other by congruence. apply HB.
Qed.
Lemma write_sip_other : forall a b d h k, (forall n, k = KOrder n -> n <> a /\ n <> b) -> (forall n i j, k = KSip n i j -> n <> a /\ n <> b) -> write_sip a b d h k = h k.
Proof.
  intros a b d h k O K. unfold write_sip. rewrite !write_matrix_other; [reflexivity|..].
  - intros n E. now apply O.
  - intros n i j E. now apply (K n i j).
  - intros n E. now apply O.
  - intros n i j E. now apply (K n i j).
Qed.

(** * TPV *)
Fixpoint slots (l : list (nat * nat)) (k : nat) : list (nat * (nat * nat)) :=
  match l with [] => [] | (n, j) :: t => (k, ((n - j)%nat, j)) :: slots t (next_k k) end.
Fixpoint look (q : nat) (l : list (nat * (nat * nat))) : option (nat * nat) :=
  match l with [] => None | (k, ij) :: t => match look q t with Some r => Some r | None => if Nat.eqb q k then Some ij else None end end.
Lemma write_pv_loop_at : forall pv l k h a q, write_pv_loop pv l k h (KPv a q) =
  match look q (slots l k) with Some (i, j) => Some (VR (match a with X1 => ent (fst pv) i j | X2 => ent (snd pv) j i end)) | None => h (KPv a q) end.
Proof.
  intros pv. induction l as [|[n j] l IH]; intros k h a q; [reflexivity|]. cbn [write_pv_loop slots look]. rewrite IH. destruct (look q (slots l (next_k k))) as [[i' j']|]; [reflexivity|].
  unfold hset. destruct (Nat.eqb_spec q k) as [->|N].
  - destruct a.
    + destruct (key_eq_dec (KPv X2 k) (KPv X1 k)); [discriminate|]. destruct (key_eq_dec (KPv X1 k) (KPv X1 k)); [reflexivity|congruence].
    + destruct (key_eq_dec (KPv X2 k) (KPv X2 k)); [reflexivity|congruence].
  - destruct (key_eq_dec (KPv X2 k) (KPv a q)); [congruence|]. destruct (key_eq_dec (KPv X1 k) (KPv a q)); [congruence|]. reflexivity.
Qed.
Lemma write_pv_loop_other : forall pv l k h key, (forall a q, key <> KPv a q) -> write_pv_loop pv l k h key = h key.
Proof.
  intros pv. induction l as [|[n j] l IH]; intros k h key N; [reflexivity|]. cbn [write_pv_loop]. rewrite IH by exact N. rewrite !hset_other by (apply not_eq_sym, N). reflexivity.
Qed.
Definition opt_eqb (a b : option (nat * nat)) : bool :=
  match a, b with Some (i, j), Some (k, l) => Nat.eqb i k && Nat.eqb j l | None, None => true | _, _ => false end.
Lemma opt_eqb_eq : forall a b, opt_eqb a b = true -> a = b.
Proof. intros [[i j]|] [[k l]|]; cbn; try discriminate; try reflexivity. rewrite andb_true_iff, !Nat.eqb_eq. intros [-> ->]. reflexivity. Qed.
Definition upto (n : nat) (f : nat -> bool) : bool := forallb f (seq 0 n).
Lemma upto_spec : forall n f, upto n f = true -> forall i, (i < n)%nat -> f i = true.
Proof. intros n f H i Hi. unfold upto in H. rewrite forallb_forall in H. apply H, in_seq. lia. Qed.
(** The numbers of the keys, for the orders that exist *)
Lemma slot_of : forall order i j, (order <= 7)%nat -> (i + j <= 7)%nat ->
  look (nth (tri_index i j) pv_keys 0%nat) (slots (pairs order) 0) = if Nat.leb (i + j) order then Some (i, j) else None.
Proof.
  assert (T : upto 8 (fun order => upto 8 (fun i => upto 8 (fun j => negb (Nat.leb (i + j) 7) ||
    opt_eqb (look (nth (tri_index i j) pv_keys 0%nat) (slots (pairs order) 0)) (if Nat.leb (i + j) order then Some (i, j) else None)))) = true) by (vm_compute; reflexivity).
  intros order i j O D. pose proof (upto_spec _ _ (upto_spec _ _ (upto_spec _ _ T order ltac:(lia)) i ltac:(lia)) j ltac:(lia)) as H. cbv beta in H.
  destruct (Nat.leb_spec (i + j) 7) as [_|l]; [|lia]. now apply opt_eqb_eq.
Qed.
Lemma slot_odd : forall order q, (order <= 7)%nat -> In q odd_indices -> look q (slots (pairs order) 0) = None.
Proof.
  assert (T : upto 8 (fun order => forallb (fun q => opt_eqb (look q (slots (pairs order) 0)) None) odd_indices) = true) by (vm_compute; reflexivity).
  intros order q O I. pose proof (upto_spec _ _ T order ltac:(lia)) as H. cbv beta in H. rewrite forallb_forall in H. now apply opt_eqb_eq, H.
Qed.
Lemma tri_all : forall k, (k < 36)%nat -> exists i j, (i + j <= 7)%nat /\ tri_index i j = k.
Proof.
  assert (T : upto 36 (fun k => existsb (fun i => existsb (fun j => Nat.leb (i + j) 7 && Nat.eqb (tri_index i j) k) (seq 0 8)) (seq 0 8)) = true) by (vm_compute; reflexivity).
  intros k K. pose proof (upto_spec _ _ T k K) as H. cbv beta in H. apply existsb_exists in H. destruct H as (i & _ & H). apply existsb_exists in H. destruct H as (j & _ & H).
  apply andb_true_iff in H. destruct H as [A B]. apply Nat.leb_le in A. apply Nat.eqb_eq in B. exists i, j. auto.
Qed.
Lemma tri_lt : forall i j, (i + j <= 7)%nat -> (tri_index i j < 36)%nat.
Proof.
  assert (T : upto 8 (fun i => upto 8 (fun j => negb (Nat.leb (i + j) 7) || Nat.ltb (tri_index i j) 36)) = true) by (vm_compute; reflexivity).
  intros i j D. pose proof (upto_spec _ _ (upto_spec _ _ T i ltac:(lia)) j ltac:(lia)) as H. cbv beta in H. destruct (Nat.leb_spec (i + j) 7) as [_|l]; [|lia]. now apply Nat.ltb_lt.
Qed.
Lemma tri_mono : forall i j d, (i + j <= d)%nat -> (d <= 7)%nat -> (tri_index i j <= tri_index 0 d)%nat.
Proof.
  assert (T : upto 8 (fun d => upto 8 (fun i => upto 8 (fun j => negb (Nat.leb (i + j) d) || Nat.leb (tri_index i j) (tri_index 0 d)))) = true) by (vm_compute; reflexivity).
  intros i j d D E. pose proof (upto_spec _ _ (upto_spec _ _ (upto_spec _ _ T d ltac:(lia)) i ltac:(lia)) j ltac:(lia)) as H. cbv beta in H. destruct (Nat.leb_spec (i + j) d) as [_|l]; [|lia]. now apply Nat.leb_le.
Qed.
(** The order is found when the last nonzero coefficient is late enough in its degree *)
Lemma order_found : forall d j k, (d <= 7)%nat -> (j <= d)%nat -> (d <= 2 * j + 1)%nat -> (tri_index (d - j) j <= k)%nat -> (k <= tri_index 0 d)%nat -> tpv_order k = d.
Proof.
  assert (T : upto 8 (fun d => upto 8 (fun j => upto 36 (fun k => negb (Nat.leb j d && Nat.leb d (2 * j + 1) && Nat.leb (tri_index (d - j) j) k && Nat.leb k (tri_index 0 d)) || Nat.eqb (tpv_order k) d))) = true) by (vm_compute; reflexivity).
  intros d j k D J E L U. pose proof (tri_lt 0 d ltac:(lia)) as K. pose proof (upto_spec _ _ (upto_spec _ _ (upto_spec _ _ T d ltac:(lia)) j ltac:(lia)) k ltac:(lia)) as H. cbv beta in H.
  rewrite !(proj2 (Nat.leb_le _ _)) in H by assumption. now apply Nat.eqb_eq.
Qed.
Lemma last_nonzero_from_spec : forall l k, match last_nonzero_from k l with
  | Some m => (k <= m < k + length l)%nat /\ nth (m - k) l 0 <> 0 /\ forall i, (m < i)%nat -> nth (i - k) l 0 = 0
  | None => forall i, nth i l 0 = 0 end.
Proof.
  induction l as [|x l IH]; intro k; [intro i; destruct i; reflexivity|]. cbn [last_nonzero_from]. specialize (IH (S k)). destruct (last_nonzero_from (S k) l) as [m|].
  - destruct IH as (A & B & C). cbn [length]. split; [lia|]. split.
    + replace (m - k)%nat with (S (m - S k)) by lia. exact B.
    + intros i Hi. replace (i - k)%nat with (S (i - S k)) by lia. apply C, Hi.
  - destruct (Reqb_spec x 0) as [e|e].
    + intros [|i]; [exact e|apply IH].
    + cbn [length]. split; [lia|]. split; [rewrite Nat.sub_diag; exact e|]. intros i Hi. replace (i - k)%nat with (S (i - S k)) by lia. apply IH.
Qed.
Lemma last_nonzero_spec : forall l k, nth k l 0 <> 0 -> exists m, last_nonzero l = Ok m /\ (m < length l)%nat /\ (k <= m)%nat /\ nth m l 0 <> 0.
Proof.
  intros l k H. pose proof (last_nonzero_from_spec l 0) as S. unfold last_nonzero. destruct (last_nonzero_from 0 l) as [m|]; [|now rewrite S in H].
  destruct S as (A & B & C). rewrite Nat.sub_0_r in B. exists m. split; [reflexivity|]. split; [lia|]. split; [|exact B].
  destruct (Nat.le_gt_cases k m) as [l0|l0]; [exact l0|]. exfalso. apply H. specialize (C k l0). now rewrite Nat.sub_0_r in C.
Qed.
Lemma surface_shrink : forall m n c x y, (m <= n)%nat -> (forall i j, (m <= i \/ m <= j)%nat -> c i j = 0) -> surface n c x y = surface m c x y.
Proof.
  intros m n c x y H Z.
  assert (K : forall k f, (forall i, (m <= i)%nat -> f i = 0) -> sumf (m + k) f = sumf m f).
  { induction k as [|k IH]; intros f F; [now rewrite Nat.add_0_r|]. replace (m + S k)%nat with (S (m + k)) by lia. rewrite sumf_last, IH by exact F. rewrite F by lia. ring. }
  unfold surface. replace n with (m + (n - m))%nat by lia. rewrite K.
  - apply sumf_ext. intros i Hi. rewrite K; [reflexivity|]. intros j Hj. rewrite Z by auto. ring.
  - intros i Hi. rewrite <- (sumf_zero (m + (n - m))). apply sumf_ext. intros j _. rewrite Z by auto. ring.
Qed.
Section Tpv.
  Variables (n : nat) (a b : list (list R)) (h : header).
  Hypothesis (N1 : (1 <= n)%nat) (N8 : (n <= 8)%nat) (SA : square n a) (SB : square n b).
  Hypothesis FRESH : forall x k, h (KPv x k) = None.
  Let h' := write_pv (a, b) h.
  Lemma pv_at : forall x q, hget0 h' (KPv x q) = Ok (match look q (slots (pairs (n - 1)) 0) with Some (i, j) => match x with X1 => coef a i j | X2 => coef b j i end | None => 0 end).
  Proof.
    intros x q. unfold hget0, h', write_pv. cbn [fst]. rewrite (proj1 SA), write_pv_loop_at. destruct (look q _) as [[i j]|]; [now destruct x|]. now rewrite FRESH.
  Qed.
  Let v (x : axis) (q : nat) : R := match look q (slots (pairs (n - 1)) 0) with Some (i, j) => match x with X1 => coef a i j | X2 => coef b j i end | None => 0 end.
  Lemma pv_nth : forall x i j, (i + j <= 7)%nat -> nth (tri_index i j) (map (v x) pv_keys) 0 = match x with X1 => low n (coef a) i j | X2 => low n (coef b) j i end.
  Proof.
    intros x i j D. pose proof (tri_lt i j D) as T. rewrite (nth_indep _ 0 (v x 0%nat)) by (rewrite map_length; exact T). rewrite map_nth. unfold v. rewrite slot_of by lia. unfold low.
    rewrite (Nat.add_comm j i). destruct (Nat.leb_spec (i + j) (n - 1)), (Nat.ltb_spec (i + j) n); try lia; destruct x; reflexivity.
  Qed.
  Lemma read_pv : forall d j0 i1 j1 i2 j2, (d <= 7)%nat -> (j0 <= d)%nat -> (d <= 2 * j0 + 1)%nat ->
    (low n (coef a) (d - j0)%nat j0 <> 0 \/ low n (coef b) j0 (d - j0)%nat <> 0) -> low n (coef a) i1 j1 <> 0 -> low n (coef b) i2 j2 <> 0 ->
    (forall i j, (d < i + j)%nat -> low n (coef a) i j = 0 /\ low n (coef b) i j = 0) ->
    read_tpv h' = Ok (fill1 d (map (v X1) pv_keys), fill2 d (map (v X2) pv_keys)).
  Proof.
    intros d j0 i1 j1 i2 j2 D7 J0 J2 TOP A0 B0 HI. unfold read_tpv.
    rewrite (mapM_ok _ _ _ (fun p => v (fst p) (snd p))) by (intros [x q] _; apply pv_at). cbn [bind].
    assert (O : existsb (fun x => negb (Reqb x 0)) (map (fun p : axis * nat => v (fst p) (snd p)) (list_prod [X1; X2] odd_indices)) = false).
    { apply Bool.not_true_iff_false. intro E. apply existsb_exists in E. destruct E as (r & I & E). apply in_map_iff in I. destruct I as ([x q] & <- & I). cbn [fst snd] in E.
      apply in_prod_iff in I. unfold v in E. rewrite slot_odd in E by (try lia; apply I). destruct (Reqb_spec 0 0); [discriminate|lra]. }
    rewrite O. rewrite (mapM_ok _ _ _ (v X1)) by (intros; apply pv_at). cbn [bind]. rewrite (mapM_ok _ _ _ (v X2)) by (intros; apply pv_at). cbn [bind].
    assert (deg : forall x i j, match x with X1 => low n (coef a) i j | X2 => low n (coef b) j i end <> 0 -> (i + j <= d)%nat).
    { intros x i j Z. destruct (Nat.le_gt_cases (i + j) d) as [l|l]; [exact l|]. exfalso. apply Z. destruct x; [apply (HI i j); lia|apply (HI j i); lia]. }
    pose proof (deg X1 i1 j1 A0) as G1. pose proof (deg X2 j2 i2 B0) as G2.
    destruct (last_nonzero_spec (map (v X1) pv_keys) (tri_index i1 j1)) as (m1 & E1 & L1 & K1 & Z1); [rewrite pv_nth by lia; exact A0|].
    destruct (last_nonzero_spec (map (v X2) pv_keys) (tri_index j2 i2)) as (m2 & E2 & L2 & K2 & Z2); [rewrite pv_nth by lia; exact B0|].
    rewrite E1, E2. cbn [bind]. rewrite map_length in L1, L2. change (length pv_keys) with 36%nat in L1, L2.
    assert (U : forall x m, (m < 36)%nat -> nth m (map (v x) pv_keys) 0 <> 0 -> (m <= tri_index 0 d)%nat).
    { intros x m M Z. destruct (tri_all m M) as (i & j & D & <-). rewrite pv_nth in Z by exact D. apply tri_mono; [|exact D7]. now apply (deg x). }
    pose proof (U X1 m1 L1 Z1) as U1. pose proof (U X2 m2 L2 Z2) as U2.
    assert (TB : (tri_index (d - j0) j0 <= Nat.max m1 m2)%nat).
    { destruct TOP as [T|T].
      - destruct (last_nonzero_spec (map (v X1) pv_keys) (tri_index (d - j0) j0)) as (m & E & _ & K & _); [rewrite pv_nth by lia; exact T|]. rewrite E1 in E. injection E as <-. lia.
      - destruct (last_nonzero_spec (map (v X2) pv_keys) (tri_index (d - j0) j0)) as (m & E & _ & K & _); [rewrite pv_nth by lia; exact T|]. rewrite E2 in E. injection E as <-. lia. }
    rewrite (order_found d j0 (Nat.max m1 m2)) by lia. reflexivity.
  Qed.
  Lemma fill_same : forall d, (d <= 7)%nat -> (d < n)%nat -> (forall i j, (d < i + j)%nat -> low n (coef a) i j = 0 /\ low n (coef b) i j = 0) ->
    forall p, apply_ab p (fill1 d (map (v X1) pv_keys), fill2 d (map (v X2) pv_keys)) = apply_ab p (a, b).
  Proof.
    intros d D7 DN HI p. rewrite (apply_ab_warp n (a, b)) by assumption. rewrite (apply_ab_warp (d + 1)).
    2:{ apply (table_square (d + 1) (fun i j => if Nat.leb (i + j) d then nth (tri_index i j) (map (v X1) pv_keys) 0 else 0)). }
    2:{ apply (table_square (d + 1) (fun i j => if Nat.leb (i + j) d then nth (tri_index j i) (map (v X2) pv_keys) 0 else 0)). }
    unfold warp. cbn [fst snd]. f_equal.
    - rewrite (surface_shrink (d + 1) n) by (try lia; intros i j Hij; apply HI; lia). apply sumf_ext. intros i Hi. apply sumf_ext. intros j Hj. f_equal. f_equal.
      unfold low at 1, fill1. rewrite (table_coef (d + 1) (fun i j => if Nat.leb (i + j) d then nth (tri_index i j) (map (v X1) pv_keys) 0 else 0)) by assumption.
      destruct (Nat.ltb_spec (i + j) (d + 1)), (Nat.leb_spec (i + j) d); try lia; [apply (pv_nth X1); lia|symmetry; apply HI; lia].
    - rewrite (surface_shrink (d + 1) n) by (try lia; intros i j Hij; apply HI; lia). apply sumf_ext. intros i Hi. apply sumf_ext. intros j Hj. f_equal. f_equal.
      unfold low at 1, fill2. rewrite (table_coef (d + 1) (fun i j => if Nat.leb (i + j) d then nth (tri_index j i) (map (v X2) pv_keys) 0 else 0)) by assumption.
      destruct (Nat.ltb_spec (i + j) (d + 1)), (Nat.leb_spec (i + j) d); try lia; [apply (pv_nth X2); lia|symmetry; apply HI; lia].
  Qed.
End Tpv.
