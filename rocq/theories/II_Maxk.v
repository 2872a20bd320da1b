(** The search for maxk over square rings of the transform. *)
From Coq Require Import ZArith Reals Lra Lia ZifyBool Bool List Classical_Prop.
From Coquelicot Require Import Coquelicot.
From Verif Require Import Base Array_Model Bounds_Model Bounds_Proofs FFT_Model FFT_Spec FFT_Proofs Geo_Model Geo_Proofs WCS_Model
  WCS_Spec WCS_Proofs WCS_Prof MSum Interp_Model Interp_Spec Interp_Kernels II_Model II_Spec II_Proofs II_Pad II_Size II_Prof II_Half II_DFT II_Inv II_K II_Eq.
Import ListNotations.
Open Scope R_scope.
Ltac Zify.zify_post_hook ::= idtac.

Lemma zs_nonneg : forall n f, (forall i, (0 <= i < n)%Z -> (0 <= f i)%Z) -> (0 <= zsum Z.add 0%Z n f)%Z.
Proof.
  intros n f. unfold zsum. destruct (Z_le_gt_dec 0 n) as [l|l]; [|replace (Z.to_nat n) with O by lia; cbn; lia].
  intro H. assert (G : forall k, (k <= Z.to_nat n)%nat -> (0 <= nsum Z.add 0%Z k f)%Z).
  { induction k as [|k IH]; intro Hk; cbn [nsum]; [lia|]. specialize (IH ltac:(lia)). specialize (H (Z.of_nat k) ltac:(lia)). lia. }
  now apply G.
Qed.
Lemma zs_zero : forall n f, (forall i, (0 <= i < n)%Z -> (0 <= f i)%Z) -> zsum Z.add 0%Z n f = 0%Z -> forall i, (0 <= i < n)%Z -> f i = 0%Z.
Proof.
  intros n f H E i Hi. assert (G : forall k, (k <= Z.to_nat n)%nat -> (0 <= nsum Z.add 0%Z k f)%Z /\ (nsum Z.add 0%Z k f = 0%Z -> forall j, (0 <= j < Z.of_nat k)%Z -> f j = 0%Z)).
  { induction k as [|k IH]; intro Hk; cbn [nsum]; [split; [lia|intros; lia]|]. destruct (IH ltac:(lia)) as [A B]. pose proof (H (Z.of_nat k) ltac:(lia)) as Q. split; [lia|].
    intros Ez j Hj. destruct (Z.eq_dec j (Z.of_nat k)) as [->|ne]; [lia|]. apply B; lia. }
  apply (G (Z.to_nat n) (le_n _)); [exact E|lia].
Qed.
Lemma count_nonneg : forall H W f, (0 <= count2 H W f)%Z.
Proof. intros. apply zs_nonneg. intros i _. apply zs_nonneg. intros j _. destruct (f i j); lia. Qed.
Lemma count_zero : forall H W f, count2 H W f = 0%Z <-> forall i j, (0 <= i < H)%Z -> (0 <= j < W)%Z -> f i j = false.
Proof.
  intros H W f. split.
  - intros E i j Hi Hj. unfold count2 in E.
    assert (A : zsum Z.add 0%Z W (fun j => if f i j then 1%Z else 0%Z) = 0%Z).
    { apply (zs_zero H (fun i => zsum Z.add 0%Z W (fun j => if f i j then 1%Z else 0%Z))); [|exact E|exact Hi]. intros k _. apply zs_nonneg. intros l _. destruct (f k l); lia. }
    assert (B : (fun j => if f i j then 1%Z else 0%Z) j = 0%Z).
    { apply (zs_zero W (fun j => if f i j then 1%Z else 0%Z)); [|exact A|exact Hj]. intros l _. destruct (f i l); lia. }
    cbv beta in B. destruct (f i j); [lia|reflexivity].
  - intro G. unfold count2. apply (zsum_zero Z Z.add 0%Z Z.add_0_l). intros i Hi. apply (zsum_zero Z Z.add 0%Z Z.add_0_l). intros j Hj. now rewrite G.
Qed.
Lemma count_plus : forall H W (f g k : Z -> Z -> bool), (forall i j, (if f i j then 1 else 0) + (if g i j then 1 else 0) = if k i j then 1 else 0)%Z -> (count2 H W f + count2 H W g = count2 H W k)%Z.
Proof.
  intros H W f g k E. unfold count2. rewrite <- (zsum_plus Z Z.add 0%Z Z.add_comm Z.add_assoc Z.add_0_l). apply zsum_ext. intros i _.
  rewrite <- (zsum_plus Z Z.add 0%Z Z.add_comm Z.add_assoc Z.add_0_l). apply zsum_ext. intros j _. apply E.
Qed.

Section S.
  Variable kim : kimg.
  Variable h : Z.
  Variable thresh : R.
  Hypothesis Kx : kx0 kim = 0%Z.
  Hypothesis Ky : ky0 kim = (- h)%Z.
  Hypothesis Ks : 0 < kscale kim.
  Let W := ncol (ka kim).
  Let c := maxk_counts kim thresh.
  Let big (i j : Z) : bool := Rltb (thresh * thresh) (Re (Cmult (elt (ka kim) i j) (Cconj (elt (ka kim) i j)))).
  Lemma big_is : forall i j, big i j = true <-> Rabs thresh < Cmod (elt (ka kim) i j).
  Proof.
    intros i j. unfold big. destruct (elt (ka kim) i j) as [a b]. replace (Re (Cmult (a, b) (Cconj (a, b)))) with (Cmod (a, b) * Cmod (a, b)).
    2: { unfold Cmod. rewrite sqrt_sqrt; cbn [fst snd]; [cbn; ring|nra]. }
    replace (thresh * thresh) with (Rabs thresh * Rabs thresh) by (rewrite <- Rabs_mult; apply Rabs_right; nra).
    pose proof (Cmod_ge_0 (a, b)) as A. pose proof (Rabs_pos thresh) as B.
    destruct (Rltb_spec (Rabs thresh * Rabs thresh) (Cmod (a, b) * Cmod (a, b))) as [l|l]; split; intro H; try reflexivity; try discriminate.
    - apply Rsqr_incrst_0; [exact l|exact B|exact A].
    - exfalso. apply l. apply Rmult_le_0_lt_compat; assumption.
  Qed.
  Lemma cmp : forall n j, (0 <= n)%Z -> negb (Rltb (IZR n * kscale kim) (Rabs (IZR j * kscale kim))) = (Z.abs j <=? n)%Z.
  Proof.
    intros n j Hn. rewrite Rabs_mult, (Rabs_right (kscale kim)), <- abs_IZR by lra.
    destruct (Rltb_spec (IZR n * kscale kim) (IZR (Z.abs j) * kscale kim)) as [l|l]; cbn [negb].
    - apply Rmult_lt_reg_r in l; [|exact Ks]. apply lt_IZR in l. symmetry. apply Z.leb_gt. exact l.
    - symmetry. apply Z.leb_le. destruct (Z_le_gt_dec (Z.abs j) n) as [k|k]; [exact k|]. exfalso. apply l. apply Rmult_lt_compat_r; [exact Ks|]. apply IZR_lt. lia.
  Qed.
  Lemma counts_are : forall n, (0 <= n)%Z -> c n = count2 (nrow (ka kim)) W (fun i j => big i j && (Z.abs j <=? n)%Z && (Z.abs (i - h) <=? n)%Z).
  Proof.
    intros n Hn. unfold c, maxk_counts. cbv zeta. unfold count2, W. apply zsum_ext. intros i _. apply zsum_ext. intros j _. fold (big i j). rewrite Kx, Ky, !Z.add_0_r.
    rewrite !cmp by exact Hn. reflexivity.
  Qed.
  Lemma ring_count : forall r, (1 <= r)%Z -> (0 <= c r - c (r - 1))%Z /\ ((c r - c (r - 1) = 0)%Z <-> ~ ring_above (ka kim) h thresh r).
  Proof.
    intros r Hr. rewrite !counts_are by lia.
    set (g := fun i j => big i j && (Z.max (Z.abs (i - h)) (Z.abs j) =? r)%Z).
    assert (E : (count2 (nrow (ka kim)) W (fun i j => big i j && (Z.abs j <=? r - 1) && (Z.abs (i - h) <=? r - 1)) + count2 (nrow (ka kim)) W g =
      count2 (nrow (ka kim)) W (fun i j => big i j && (Z.abs j <=? r) && (Z.abs (i - h) <=? r)))%Z).
    { apply count_plus. intros i j. unfold g. destruct (big i j); cbn [andb]; [|reflexivity].
      destruct (Z.leb_spec (Z.abs j) (r - 1)), (Z.leb_spec (Z.abs (i - h)) (r - 1)), (Z.leb_spec (Z.abs j) r), (Z.leb_spec (Z.abs (i - h)) r), (Z.eqb_spec (Z.max (Z.abs (i - h)) (Z.abs j)) r); cbn [andb]; lia. }
    rewrite <- E. replace (count2 (nrow (ka kim)) W (fun i j => big i j && (Z.abs j <=? r - 1)%Z && (Z.abs (i - h) <=? r - 1)%Z) + count2 (nrow (ka kim)) W g -
      count2 (nrow (ka kim)) W (fun i j => big i j && (Z.abs j <=? r - 1)%Z && (Z.abs (i - h) <=? r - 1)%Z))%Z with (count2 (nrow (ka kim)) W g) by lia.
    split; [apply count_nonneg|]. rewrite count_zero. unfold g, W, ring_above. split.
    - intros G (i & j & Hi & Hj & M & A). specialize (G i j Hi Hj). apply big_is in A. rewrite A in G. cbn [andb] in G. lia.
    - intros G i j Hi Hj. destruct (big i j) eqn:B; [|reflexivity]. cbn [andb]. apply Z.eqb_neq. intro M. apply G. exists i, j. apply big_is in B. auto.
  Qed.
  Lemma five_zero : forall i, (0 <= i)%Z -> sums5 c W i = 0%Z <-> forall r, (i <= r <= i + 4)%Z -> (1 <= r < W)%Z -> ~ ring_above (ka kim) h thresh r.
  Proof.
    intros i Hi. assert (D : forall t, (0 <= delta_msk c W t)%Z).
    { intro t. unfold delta_msk. ifs Ea; [lia|]. ifs Eb; [lia|]. apply ring_count. lia. }
    unfold sums5. split.
    - intros E r Hr Hw. apply (zs_zero 5 (fun t => delta_msk c W (i + t))) with (i := (r - i)%Z) in E; [|intros; apply D|lia].
      cbv beta in E. replace (i + (r - i))%Z with r in E by lia. unfold delta_msk in E. replace ((r <? 0) || (W <=? r))%Z with false in E by lia. replace (r =? 0)%Z with false in E by lia.
      apply ring_count; [lia|exact E].
    - intro G. apply (zsum_zero Z Z.add 0%Z Z.add_0_l). intros t Ht. unfold delta_msk. ifs Ea; [reflexivity|]. ifs Eb; [reflexivity|]. apply ring_count; [lia|]. apply G; lia.
  Qed.
  Lemma scan_is : (1 <= W)%Z -> exists i, (0 <= i <= W)%Z /\ find_maxk_scan kim thresh = IZR i * kscale kim /\
    ((i < W)%Z -> forall r, (i <= r <= i + 4)%Z -> (1 <= r < W)%Z -> ~ ring_above (ka kim) h thresh r) /\
    (forall e, (0 <= e < i)%Z -> exists r, (e <= r <= e + 4)%Z /\ (1 <= r < W)%Z /\ ring_above (ka kim) h thresh r).
  Proof.
    intro Hw. unfold find_maxk_scan. cbv zeta. fold W. fold c. rewrite Kx.
    assert (Ex : forall e, (0 <= e)%Z -> (sums5 c W e =? 0)%Z = false -> exists r, (e <= r <= e + 4)%Z /\ (1 <= r < W)%Z /\ ring_above (ka kim) h thresh r).
    { intros e He E. apply Z.eqb_neq in E.
      apply NNPP. intro G. apply E. apply five_zero; [exact He|]. intros r Hr Hr' A. apply G. exists r. auto. }
    destruct (first_index _ 0 (Z.to_nat W)) as [i|] eqn:F.
    - apply first_some in F. destruct F as (A & B & D). exists i. split; [lia|]. split; [rewrite Z.add_0_r; ring|]. split.
      + intros _. apply five_zero; [lia|]. now apply Z.eqb_eq.
      + intros e He. apply Ex; [lia|]. apply D. lia.
    - exists W. split; [lia|]. split; [|split].
      + rewrite !Z.add_0_r, !minus_IZR. ring.
      + lia.
      + intros e He. apply Ex; [lia|]. apply (first_none _ _ _ F e). lia.
  Qed.
End S.

Section P.
  Variables mkth : R.
  Variable ur : interpolant -> R.
  Definition limit (p : iip) (m : R) : Prop := i_cm p = CYes /\ m = 2 * PI * ur (i_x p) \/ i_cm p = CVal m.
  Lemma maxk_is : forall p m, usable p -> limit p m -> exists kim i, ii_kim p = Ok kim /\
    (0 <= i <= pad_size p / 2 + 1)%Z /\ impl_maxk mkth ur p = Ok (Rmin (IZR i * (2 * PI / IZR (pad_size p))) m) /\
    (let t := mkth * total_flux (i_img p) in let n := (pad_size p / 2 + 1)%Z in let above := ring_above (ka kim) (pad_size p / 2) t in
     ((i < n)%Z -> forall r, (i <= r <= i + 4)%Z -> (1 <= r < n)%Z -> ~ above r) /\
     (forall e, (0 <= e < i)%Z -> exists r, (e <= r <= e + 4)%Z /\ (1 <= r < n)%Z /\ above r)).
  Proof.
    intros p m U L. destruct (usable_kim p U) as (kim & E & H1 & H2 & S & A & B & (Hr & Hc & _) & _).
    assert (S0 : 0 < kscale kim) by (rewrite S; apply Rdiv_lt_0_compat; [pose proof PI_RGT_0; lra|apply IZR_lt; lia]).
    destruct (scan_is kim (pad_size p / 2) (mkth * total_flux (i_img p)) A B S0 ltac:(lia)) as (i & Hi & Ev & G1 & G2). rewrite Hc in *.
    exists kim, i. split; [exact E|]. split; [exact Hi|]. split; [|cbv zeta; auto]. unfold impl_maxk. cbv zeta. rewrite E. rewrite image_total. unfold find_maxk. rewrite <- S.
    destruct L as [[L ->] | L]; rewrite L; cbn [bind]; f_equal; rewrite Ev; f_equal. field. pose proof PI_RGT_0; lra.
  Qed.
  (** The last ring found is above the threshold, unless nothing but the centre was looked at. *)
  Lemma last_ring : forall (above : Z -> Prop) i n, ((i < n)%Z -> forall r, (i <= r <= i + 4)%Z -> (1 <= r < n)%Z -> ~ above r) ->
    (forall e, (0 <= e < i)%Z -> exists r, (e <= r <= e + 4)%Z /\ (1 <= r < n)%Z /\ above r) -> (0 <= i <= n)%Z -> i = 0%Z \/ (2 <= i)%Z /\ above (i - 1)%Z.
  Proof.
    intros above i n G1 G2 Hi. destruct (Z.eq_dec i 0) as [e|ne]; [now left|]. right. destruct (G2 (i - 1)%Z ltac:(lia)) as (r & Hr & Hw & A).
    destruct (Z.eq_dec r (i - 1)) as [->|nr]; [split; [lia|exact A]|]. exfalso. apply (G1 ltac:(lia) r); [lia|lia|exact A].
  Qed.
  Lemma no_ring : forall (above : Z -> Prop) i n, (forall r, (1 <= r <= 4)%Z -> ~ above r) ->
    (forall e, (0 <= e < i)%Z -> exists r, (e <= r <= e + 4)%Z /\ (1 <= r < n)%Z /\ above r) -> (0 <= i)%Z -> i = 0%Z.
  Proof.
    intros above i n G1 G2 Hi. destruct (Z.eq_dec i 0) as [e|ne]; [exact e|]. exfalso. destruct (G2 0%Z ltac:(lia)) as (r & Hr & Hw & A). apply (G1 r); [lia|exact A].
  Qed.
End P.
(** Two by two pixels of the same value without padding *)
Definition flat22 : iip :=
  IIP (RImg (Arr 2 2 (fun _ _ => 1)) 1 1) (LPix 1) None false (0, 0) true true 1 Quintic Quintic CYes CYes 0 0.
Lemma flat22_usable : usable flat22.
Proof. unfold usable, flat22, nonempty. cbn. split; [lia|]. split; [reflexivity|]. split; [lra|]. left. lia. Qed.
Lemma good_2 : good_fft_size 2 = 2%Z.
Proof.
  apply (smallest_good_unique (IZR 2)); [now apply good_fft_size_exact|]. split; [|split].
  - exists 1%Z. split; [lia|left; reflexivity].
  - lra.
  - intros m Hm Hl. now apply le_IZR in Hl.
Qed.
Lemma flat22_size : pad_size flat22 = 2%Z.
Proof. unfold pad_size. cbv zeta. cbn [flat22 i_pad]. destruct (Rltb_spec 1 1) as [l|l]; [lra|]. exact good_2. Qed.
Lemma tw2_odd : tw 2 1 = RtoC (-1).
Proof.
  unfold tw. rewrite expi_neg. replace (2 * PI * (1 / 2)) with PI by field. rewrite cos_PI, sin_PI. unfold RtoC. f_equal. ring.
Qed.
Lemma flat22_maxk : forall mkth ur, 0 < mkth -> 0 < ur Quintic -> impl_maxk mkth ur flat22 = Ok 0 /\ ii_maxk mkth ur flat22 = Ok 0.
Proof.
  intros mkth ur M U. destruct (maxk_is mkth ur flat22 _ flat22_usable (or_introl (conj eq_refl eq_refl))) as (kim & i & Ek & Hi & Em & _ & G).
  destruct (usable_kim flat22 flat22_usable) as (k' & Ek' & _ & _ & _ & _ & _ & (Hr & Hc & Hv) & _). rewrite Ek in Ek'. injection Ek' as <-.
  rewrite flat22_size in *. change (2 / 2)%Z with 1%Z in *. change (2 * 1)%Z with 2%Z in *. change (1 + 1)%Z with 2%Z in *.
  assert (Wd : window (ii_image flat22) 1) by (unfold window, ii_image, flat22, centered; cbn; repeat split).
  assert (Z : forall r c, (0 <= r < 2)%Z -> (0 <= c <= 1)%Z -> (r <> 1 \/ c <> 0)%Z -> elt (ka kim) r c = RtoC 0).
  { intros r c Hr' Hc' Ne. rewrite Hv by assumption. rewrite spectrum_tw by (auto; try lia; lra).
    assert (T1 : tw 2 (-1) = RtoC (-1)) by (rewrite <- tw2_odd; apply tw_mod; [lia|reflexivity]).
    assert (T2 : tw 2 (-2) = RtoC 1) by (rewrite <- (tw_0 2); apply tw_mod; [lia|reflexivity]).
    assert (T3 : tw 2 2 = RtoC 1) by (rewrite <- (tw_0 2); apply tw_mod; [lia|reflexivity]).
    assert (Cs : forall f, csum (2 * 1) f = Cplus (Cplus (RtoC 0) (f 0%Z)) (f 1%Z)) by reflexivity.
    rewrite !Cs. cbn [flat22 ii_image i_recenter i_img centered ra elt].
    assert (Q : (r = 0 /\ c = 0 \/ r = 0 /\ c = 1 \/ r = 1 /\ c = 1)%Z) by lia.
    destruct Q as [[-> ->] | [[-> ->] | [-> ->]]]; change (2 * 1)%Z with 2%Z;
      repeat match goal with |- context [tw 2 ?m] => let m' := eval compute in m in progress change (tw 2 m) with (tw 2 m') end;
      rewrite ?T1, ?T2, ?T3, ?tw2_odd, ?tw_0; apply injective_projections; cbn; ring. }
  assert (i = 0%Z) as ->.
  { apply (no_ring (ring_above (ka kim) 1 (mkth * total_flux (i_img flat22))) i 2); [|exact G|lia].
    intros r Hr' (a & b & Ha & Hb & Mx & Ab). rewrite Hr in Ha. rewrite Hc in Hb. rewrite Z in Ab by lia. rewrite Cmod_0 in Ab. pose proof (Rabs_pos (mkth * total_flux (i_img flat22))). lra. }
  assert (E0 : impl_maxk mkth ur flat22 = Ok 0).
  { rewrite Em. f_equal. rewrite Rmult_0_l. apply Rmin_left. cbn [i_x flat22]. pose proof PI_RGT_0. apply Rmult_le_pos; lra. }
  split; [exact E0|]. unfold ii_maxk. cbn [flat22 i_fm]. destruct (Rltb_spec 0 0) as [l|l]; [lra|]. fold flat22. rewrite E0. cbn [bind]. f_equal. unfold Rdiv. ring.
Qed.
