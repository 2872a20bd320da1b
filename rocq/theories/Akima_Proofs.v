(** Proofs about Akima interpolation. *)
From Coq Require Import ZArith Reals Bool List Lra Lia Arith.
From Verif Require Import Base Bounds_Model Bounds_Proofs FFT_Model FFT_Proofs Akima_Model Akima_Spec.
Import ListNotations.
Open Scope R_scope.

(** * Arrays *)
Lemma clampi_pos : forall n i, (0 <= i)%Z -> clampi n i = Nat.min n (Z.to_nat i).
Proof. intros n i H. unfold clampi. destruct (Z.ltb_spec i 0); lia. Qed.
Lemma clampi_neg : forall n k, (0 < k)%nat -> clampi n (- Z.of_nat k) = (n - k)%nat.
Proof. intros n k H. unfold clampi. destruct (Z.ltb_spec (- Z.of_nat k) 0); lia. Qed.
Definition lo_of (n : nat) (o : option Z) := match o with None => 0%nat | Some i => clampi n i end.
Definition hi_of (n : nat) (o : option Z) := match o with None => n | Some i => clampi n i end.
Lemma clampi_le : forall n i, (clampi n i <= n)%nat.
Proof. intros. unfold clampi. lia. Qed.
Lemma nth_firstn : forall A k j (l : list A) d, (j < k)%nat -> nth j (firstn k l) d = nth j l d.
Proof. induction k as [|k IH]; intros j l d H; [lia|]. destruct l; [now destruct j|]. destruct j; auto. cbn. apply IH. lia. Qed.
Lemma nth_skipn : forall A k j (l : list A) d, nth j (skipn k l) d = nth (k + j) l d.
Proof. induction k as [|k IH]; intros j l d; auto. destruct l; [now destruct j|]. cbn. apply IH. Qed.
Lemma slice_length : forall A lo hi (l : list A), length (slice lo hi l) = (hi_of (length l) hi - lo_of (length l) lo)%nat.
Proof.
  intros. unfold slice. rewrite firstn_length, skipn_length. fold (lo_of (length l) lo). fold (hi_of (length l) hi).
  assert (hi_of (length l) hi <= length l)%nat by (destruct hi; cbn; [apply clampi_le|lia]). lia.
Qed.
Lemma slice_nth : forall A lo hi (l : list A) j d, (j < hi_of (length l) hi - lo_of (length l) lo)%nat ->
  nth j (slice lo hi l) d = nth (lo_of (length l) lo + j) l d.
Proof. intros. unfold slice. rewrite nth_firstn by exact H. apply nth_skipn. Qed.
Lemma map2_length : forall A B D (f : A -> B -> D) a b, length a = length b -> length (map2 f a b) = length a.
Proof. intros A B D f a. induction a as [|x a IH]; intros [|y b] H; try discriminate; cbn; auto. Qed.
Lemma map2_nth : forall A B D (f : A -> B -> D) a b i da db d, length a = length b -> (i < length a)%nat -> nth i (map2 f a b) d = f (nth i a da) (nth i b db).
Proof.
  intros A B D f a. induction a as [|x a IH]; intros [|y b] i da db d H L; try discriminate; cbn in L; [lia|].
  destruct i; cbn; auto. apply IH; [now injection H | lia].
Qed.
Lemma bc_eq : forall f a b, length a = length b -> bc f a b = map2 f a b.
Proof. intros. unfold bc. now rewrite H, Nat.eqb_refl. Qed.
Lemma bc_length : forall f a b, length a = length b -> length (bc f a b) = length a.
Proof. intros. rewrite bc_eq by auto. now apply map2_length. Qed.
Lemma bc_nth : forall f a b i, length a = length b -> (i < length a)%nat -> nth i (bc f a b) 0 = f (nth i a 0) (nth i b 0).
Proof. intros. rewrite bc_eq by auto. now apply map2_nth. Qed.
Lemma bc_nil : forall f a, (length a <= 1)%nat -> bc f [] a = [].
Proof. now intros f [|x [|]] H. Qed.

Ltac ends := unfold lo_of, hi_of in *; change (-1)%Z with (- Z.of_nat 1)%Z in *; change (-2)%Z with (- Z.of_nat 2)%Z in *;
  change (-3)%Z with (- Z.of_nat 3)%Z in *; rewrite ?clampi_neg by lia; rewrite ?clampi_pos by lia.
Lemma diff_length : forall l, length (diff l) = (length l - 1)%nat.
Proof. intro l. unfold diff. rewrite bc_length; rewrite !slice_length; ends; lia. Qed.
Lemma diff_nth : forall l i, (S i < length l)%nat -> nth i (diff l) 0 = nth (S i) l 0 - nth i l 0.
Proof.
  intros l i H. unfold diff. rewrite bc_nth; rewrite ?slice_length; try (ends; lia).
  rewrite !slice_nth by (ends; lia). ends. replace (Nat.min (length l) (Z.to_nat 1) + i)%nat with (S i) by lia. reflexivity.
Qed.
Lemma secants_length : forall x y, length x = length y -> length (secants x y) = (length x - 1)%nat.
Proof. intros. unfold secants. rewrite bc_length; rewrite !diff_length; lia. Qed.
Lemma secants_nth : forall x y i, length x = length y -> (S i < length x)%nat -> nth i (secants x y) 0 = chord x y i.
Proof. intros. unfold secants. rewrite bc_nth; rewrite ?diff_length; try lia. rewrite !diff_nth by lia. reflexivity. Qed.

(** * Slopes *)
Section Slopes.
  Variable mi : list R.
  Notation n := (length mi).
  Notation m i := (nth i mi 0).
  Hypothesis n2 : (2 <= n)%nat.
  Ltac len := rewrite ?bc_length, ?map2_length, ?slice_length, ?combine_length; repeat (rewrite ?bc_length, ?map2_length, ?slice_length); ends; try lia.
  Lemma wim1_length : length (wim1 mi) = (n - 3)%nat.
  Proof. unfold wim1. rewrite bc_length; rewrite !slice_length; ends; lia. Qed.
  Lemma wi_length : length (wi mi) = (n - 3)%nat.
  Proof. unfold wi. rewrite bc_length; rewrite !slice_length; ends; lia. Qed.
  Lemma denom_length : length (denom mi) = (n - 3)%nat.
  Proof. unfold denom. rewrite bc_length; rewrite ?wim1_length, ?wi_length; lia. Qed.
  Lemma sl12 : length (slice (Some 1%Z) (Some (-2)%Z) mi) = (n - 3)%nat.
  Proof. rewrite slice_length. ends. lia. Qed.
  Lemma sl21 : length (slice (Some 2%Z) (Some (-1)%Z) mi) = (n - 3)%nat.
  Proof. rewrite slice_length. ends. lia. Qed.
  Lemma numer_length : length (numer mi) = (n - 3)%nat.
  Proof. unfold numer. rewrite !bc_length; rewrite ?wim1_length, ?wi_length, ?sl12, ?sl21, ?bc_length; rewrite ?wim1_length, ?wi_length, ?sl12, ?sl21; lia. Qed.
  Lemma midavg_length : length (midavg mi) = (n - 3)%nat.
  Proof. unfold midavg. rewrite bc_length; rewrite ?sl12, ?sl21; lia. Qed.
  Lemma nth12 : forall j, (j < n - 3)%nat -> nth j (slice (Some 1%Z) (Some (-2)%Z) mi) 0 = m (S j).
  Proof. intros. rewrite slice_nth by (ends; lia). f_equal. ends. lia. Qed.
  Lemma nth21 : forall j, (j < n - 3)%nat -> nth j (slice (Some 2%Z) (Some (-1)%Z) mi) 0 = m (S (S j)).
  Proof. intros. rewrite slice_nth by (ends; lia). f_equal. ends. lia. Qed.
  Lemma wim1_nth : forall j, (j < n - 3)%nat -> nth j (wim1 mi) 0 = Rabs (m (j + 3)%nat - m (S (S j))).
  Proof.
    intros j J. unfold wim1. rewrite bc_nth; rewrite ?slice_length; try (ends; lia). unfold absdiff. rewrite nth21 by auto.
    rewrite slice_nth by (ends; lia). do 2 f_equal. f_equal. ends. lia.
  Qed.
  Lemma wi_nth : forall j, (j < n - 3)%nat -> nth j (wi mi) 0 = Rabs (m (S j) - m j).
  Proof.
    intros j J. unfold wi. rewrite bc_nth; rewrite ?slice_length; try (ends; lia). unfold absdiff. rewrite nth12 by auto.
    rewrite slice_nth by (ends; lia). do 2 f_equal. f_equal. ends. lia.
  Qed.
  Lemma denom_nth : forall j, (j < n - 3)%nat -> nth j (denom mi) 0 = Rabs (m (j + 3)%nat - m (S (S j))) + Rabs (m (S j) - m j).
  Proof. intros j J. unfold denom. rewrite bc_nth; rewrite ?wim1_length, ?wi_length; try lia. now rewrite wim1_nth, wi_nth. Qed.
  Lemma numer_nth : forall j, (j < n - 3)%nat ->
    nth j (numer mi) 0 = Rabs (m (j + 3)%nat - m (S (S j))) * m (S j) + Rabs (m (S j) - m j) * m (S (S j)).
  Proof.
    intros j J. unfold numer. rewrite !bc_nth; rewrite ?bc_length; rewrite ?wim1_length, ?wi_length, ?sl12, ?sl21; try lia.
    now rewrite wim1_nth, wi_nth, nth12, nth21.
  Qed.
  Lemma midavg_nth : forall j, (j < n - 3)%nat -> nth j (midavg mi) 0 = (m (S j) + m (S (S j))) / 2.
  Proof. intros j J. unfold midavg. rewrite bc_nth; rewrite ?sl12, ?sl21; try lia. now rewrite nth12, nth21. Qed.
  Lemma big_spec : forall a b, 0 <= a -> 0 <= b -> big (a + b) = if Rlt_dec (a + b) (/ 1000000000000) then false else true.
  Proof.
    intros a b A B. unfold big, tiny. rewrite Rabs_right by lra. destruct (Rltb_spec (a + b) (/ 1000000000000)), (Rlt_dec (a + b) (/ 1000000000000)); auto; lra.
  Qed.
  Lemma smid_nth : forall j, (j < n - 3)%nat -> nth j (smid_jax mi) 0 = akima_slope (fun i => m i) (j + 2).
  Proof.
    intros j J. unfold smid_jax. rewrite (map2_nth _ _ _ _ _ _ _ 0 (0, 0)) by (rewrite ?combine_length, ?denom_length, ?numer_length, ?midavg_length; lia).
    rewrite combine_nth by (rewrite numer_length, midavg_length; lia). cbn [fst snd].
    rewrite denom_nth, numer_nth, midavg_nth by auto. rewrite big_spec by apply Rabs_pos. unfold akima_slope.
    replace (j + 2 + 1)%nat with (j + 3)%nat by lia. replace (j + 2 - 1)%nat with (S j) by lia. replace (j + 2 - 2)%nat with j by lia.
    replace (S (S j)) with (j + 2)%nat by lia. destruct (Rlt_dec _ _); reflexivity.
  Qed.
  Lemma smid_length : length (smid_jax mi) = (n - 3)%nat.
  Proof. unfold smid_jax. rewrite map2_length; rewrite ?combine_length, ?denom_length, ?numer_length, ?midavg_length; lia. Qed.

  (** The masked assignments on the host give the same. *)
  Lemma select_map2 : forall (f : R -> R -> R) mask a b, length a = length b -> map2 f (select mask a) (select mask b) = select mask (map2 f a b).
  Proof.
    intros f mask. induction mask as [|t mask IH]; intros [|x a] [|y c] L; try discriminate; auto. injection L as L.
    cbn. destruct t; cbn; now rewrite IH.
  Qed.
  Lemma select_length : forall A (mask : list bool) (a b : list A), length a = length b -> length (select mask a) = length (select mask b).
  Proof. intros A mask. induction mask as [|t mask IH]; intros [|x a] [|y b] H; try discriminate; auto. cbn. injection H as H. destruct t; cbn; auto. Qed.
  Lemma put_nth : forall mask (v l : list R) i, length v = length l -> (length mask = length l)%nat -> (i < length l)%nat ->
    nth i (put mask (select mask v) l) 0 = if nth i mask false then nth i v 0 else nth i l 0.
  Proof.
    induction mask as [|b mask IH]; intros v l i L M H; destruct l as [|x l]; cbn in *; try lia. destruct v as [|w v]; [discriminate|].
    injection L as L. injection M as M. destruct b, i; cbn; auto; apply IH; auto; lia.
  Qed.
  Lemma put_length : forall A mask (v l : list A), length (put mask v l) = length l.
  Proof. intros A mask. induction mask as [|b mask IH]; intros v [|x l]; cbn; auto; destruct b; cbn; auto. destruct v; cbn; auto. Qed.
  Lemma smid_agree : smid_np mi = smid_jax mi.
  Proof.
    assert (SD : forall mask (f : R -> R -> R) a b, length a = length b -> bc f (select mask a) (select mask b) = select mask (map2 f a b)).
    { intros mask f a b L. rewrite bc_eq by now apply select_length. now apply select_map2. }
    apply (nth_ext _ _ 0 0).
    - unfold smid_np. cbv zeta. rewrite put_length, put_length, map_length, smid_length. apply denom_length.
    - unfold smid_np. cbv zeta. rewrite put_length, put_length, map_length. intros i I.
      rewrite !SD by (rewrite ?numer_length, ?denom_length, ?sl12, ?sl21; lia).
      set (msk := map big (denom mi)). assert (ML : length msk = length (denom mi)) by (unfold msk; apply map_length).
      rewrite put_nth; [|rewrite map2_length, put_length, map_length, sl12, denom_length; [reflexivity | rewrite sl12, sl21; reflexivity] | rewrite put_length, !map_length; exact ML | rewrite put_length, map_length; exact I].
      rewrite put_nth; [|rewrite map2_length, map_length, numer_length, denom_length; [reflexivity | rewrite numer_length, denom_length; reflexivity] | rewrite map_length; exact ML | rewrite map_length; exact I].
      rewrite denom_length in I.
      rewrite (nth_indep (map negb msk) false (negb false)) by (rewrite map_length, ML, denom_length; exact I). rewrite map_nth.
      unfold smid_jax. rewrite (map2_nth _ _ _ _ (denom mi) _ _ 0 (0, 0)) by (rewrite ?combine_length, ?denom_length, ?numer_length, ?midavg_length; lia).
      rewrite combine_nth by (rewrite numer_length, midavg_length; lia). cbn [fst snd].
      rewrite (map2_nth _ _ _ half _ _ i 0 0 0) by (rewrite ?sl12, ?sl21; lia). rewrite (map2_nth _ _ _ Rdiv (numer mi) (denom mi) i 0 0 0) by (rewrite ?numer_length, ?denom_length; lia).
      unfold msk. rewrite (nth_indep (map big (denom mi)) false (big 0)) by (rewrite map_length, denom_length; exact I). rewrite map_nth.
      destruct (big (nth i (denom mi) 0)); cbn [negb]; auto. unfold midavg. rewrite bc_nth; rewrite ?sl12, ?sl21; auto.
  Qed.

  Lemma s0_eq : s0 mi = [m 0].
  Proof. unfold s0, slice. destruct mi as [|a [|b l]]; cbn in n2; try lia. rewrite !clampi_pos by lia. cbn. now destruct l. Qed.
  Lemma slice1 : forall lo hi k, lo_of n (Some lo) = k -> hi_of n (Some hi) = S k -> (k < n)%nat -> slice (Some lo) (Some hi) mi = [m k].
  Proof.
    intros lo hi k L H K. assert (LEN : length (slice (Some lo) (Some hi) mi) = 1%nat) by (rewrite slice_length, L, H; lia).
    destruct (slice (Some lo) (Some hi) mi) as [|a [|b t]] eqn:E; cbn in LEN; try lia. f_equal.
    change a with (nth 0 [a] 0). rewrite <- E, slice_nth by (rewrite L, H; lia). rewrite L. f_equal. lia.
  Qed.
  Lemma s1_eq : s1 mi = [(m 0 + m 1) / 2].
  Proof. unfold s1. rewrite (slice1 0 1 0), (slice1 1 2 1); try (ends; lia). reflexivity. Qed.
  Lemma snm1_eq : snm1 mi = [m (n - 2)].
  Proof. unfold snm1. rewrite (slice1 (-2) (-1) (n - 2)); try (ends; lia). reflexivity. Qed.
  Lemma snm2_eq : (3 <= n)%nat -> snm2 mi = [(m (n - 3) + m (n - 2)) / 2].
  Proof. intro. unfold snm2. rewrite (slice1 (-3) (-2) (n - 3)), (slice1 (-2) (-1) (n - 2)); try (ends; lia). reflexivity. Qed.
  Lemma snm2_short : n = 2%nat -> snm2 mi = [].
  Proof.
    intro H. unfold snm2. assert (slice (Some (-3)%Z) (Some (-2)%Z) mi = []) as -> by (apply length_zero_iff_nil; rewrite slice_length; ends; lia).
    apply bc_nil. rewrite slice_length. ends. lia.
  Qed.
  Lemma slopes_length : length (slopes (smid_jax mi) mi) = S n.
  Proof.
    unfold slopes. rewrite !app_length, s0_eq, s1_eq, snm1_eq, smid_length. cbn [length].
    destruct (Nat.eq_dec n 2) as [e|e]; [rewrite snm2_short | rewrite snm2_eq]; cbn [length]; lia.
  Qed.
  Lemma slope_first : nth 0 (slopes (smid_jax mi) mi) 0 = m 0.
  Proof. unfold slopes. now rewrite s0_eq. Qed.
  Lemma slope_second : nth 1 (slopes (smid_jax mi) mi) 0 = (m 0 + m 1) / 2.
  Proof. unfold slopes. now rewrite s0_eq, s1_eq. Qed.
  Lemma slope_inner : forall i, (2 <= i)%nat -> (i + 2 <= n)%nat -> nth i (slopes (smid_jax mi) mi) 0 = akima_slope (fun i => m i) i.
  Proof.
    intros i A B. unfold slopes. rewrite s0_eq, s1_eq. destruct i as [|[|j]]; try lia. cbn [app nth]. rewrite app_nth1 by (rewrite smid_length; lia).
    rewrite smid_nth by lia. f_equal. lia.
  Qed.
  Lemma slope_last_but_one : (3 <= n)%nat -> nth (n - 1) (slopes (smid_jax mi) mi) 0 = (m (n - 3) + m (n - 2)) / 2.
  Proof.
    intro H. unfold slopes. rewrite s0_eq, s1_eq, snm2_eq by auto. replace (n - 1)%nat with (S (S (n - 3))) by lia.
    cbn [app nth]. rewrite app_nth2 by (rewrite smid_length; lia). rewrite smid_length, Nat.sub_diag. reflexivity.
  Qed.
  Lemma slope_last : nth n (slopes (smid_jax mi) mi) 0 = m (n - 2).
  Proof.
    unfold slopes. rewrite s0_eq, s1_eq, snm1_eq. rewrite !app_assoc, app_nth2; rewrite !app_length, smid_length; cbn [length];
      destruct (Nat.eq_dec n 2) as [e|e].
    - rewrite snm2_short by auto. cbn [length]. replace (n - (1 + 1 + (n - 3) + 0))%nat with 0%nat by lia. reflexivity.
    - rewrite snm2_eq by lia. cbn [length]. replace (n - (1 + 1 + (n - 3) + 1))%nat with 0%nat by lia. reflexivity.
    - rewrite snm2_short by auto. cbn [length]. lia.
    - rewrite snm2_eq by lia. cbn [length]. lia.
  Qed.
End Slopes.
