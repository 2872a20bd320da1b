From Coq Require Import ZArith Reals Lra Lia Bool ZifyBool.
From Verif Require Import Base Array_Model Bounds_Model Bounds_Spec Bounds_Proofs MSum Wrap_Model Wrap_Spec
  Image_Model Image_Spec Image_Proofs FFT_Model FFT_Spec.
Open Scope Z_scope.

(** * ceil and floor *)
Lemma floorR_bounds x : (IZR (floorR x) <= x < IZR (floorR x) + 1)%R.
Proof. unfold floorR. destruct (base_Int_part x). lra. Qed.
Lemma ceilR_bounds x : (x <= IZR (ceilR x) < x + 1)%R.
Proof. unfold ceilR. destruct (base_Int_part (- x)). rewrite opp_IZR. lra. Qed.
Lemma ceilR_unique x z : (x <= IZR z < x + 1)%R -> ceilR x = z.
Proof.
  intros H. pose proof (ceilR_bounds x). apply Z.le_antisymm; apply Zlt_succ_le; apply lt_IZR; rewrite succ_IZR; lra.
Qed.
Lemma ceilR_le x z : (x <= IZR z)%R -> ceilR x <= z.
Proof. intros H. pose proof (ceilR_bounds x). apply Zlt_succ_le, lt_IZR. rewrite succ_IZR. lra. Qed.
Lemma ceilR_IZR z : ceilR (IZR z) = z.
Proof. apply ceilR_unique. lra. Qed.
Lemma floorR_unique x z : (IZR z <= x < IZR z + 1)%R -> floorR x = z.
Proof.
  intros H. pose proof (floorR_bounds x). apply Z.le_antisymm; apply Zlt_succ_le; apply lt_IZR; rewrite succ_IZR; lra.
Qed.

(** * powers of two *)
Lemma exp_ln2_Z k : 0 <= k -> exp (ln 2 * IZR k) = IZR (2 ^ k).
Proof.
  intros Hk. rewrite <- (Z2Nat.id k Hk). generalize (Z.to_nat k). intros n.
  rewrite <- INR_IZR_INZ, <- pow_IZR, Rmult_comm. change (exp (INR n * ln 2)) with (Rpower 2 (INR n)).
  rewrite Rpower_pow by lra. reflexivity.
Qed.
Lemma ln2_pos : (0 < ln 2)%R.
Proof. rewrite <- ln_1. apply ln_increasing; lra. Qed.
Lemma exp_min a b : exp (Rmin a b) = Rmin (exp a) (exp b).
Proof.
  unfold Rmin. destruct (Rle_dec a b) as [H|H], (Rle_dec (exp a) (exp b)) as [H'|H']; try reflexivity.
  - exfalso. apply H'. destruct H as [H|H]; [left; apply exp_increasing; exact H|right; f_equal; exact H].
  - exfalso. apply H. apply Rnot_lt_le. intros C. apply exp_increasing in C. lra.
Qed.
Lemma exp_max a b : exp (Rmax a b) = Rmax (exp a) (exp b).
Proof.
  unfold Rmax. destruct (Rle_dec a b) as [H|H], (Rle_dec (exp a) (exp b)) as [H'|H']; try reflexivity.
  - exfalso. apply H'. destruct H as [H|H]; [left; apply exp_increasing; exact H|right; f_equal; exact H].
  - exfalso. apply H. apply Rnot_lt_le. intros C. apply exp_increasing in C. lra.
Qed.
(** least power of two (with scale c) above x *)
Lemma least_pow c x k : (0 < c)%R -> (0 < x)%R -> k = ceilR ((ln x - ln c) / ln 2) ->
  (x <= c * exp (ln 2 * IZR k))%R /\ forall j, (x <= c * exp (ln 2 * IZR j))%R -> k <= j.
Proof.
  intros Hc Hx Hk. pose proof (ceilR_bounds ((ln x - ln c) / ln 2)) as B. rewrite <- Hk in B.
  pose proof ln2_pos as L2.
  assert (E : forall j, (x <= c * exp (ln 2 * IZR j) <-> (ln x - ln c) / ln 2 <= IZR j)%R).
  { intros j.
    assert (Hp : (0 < c * exp (ln 2 * IZR j))%R) by (apply Rmult_lt_0_compat; [exact Hc|apply exp_pos]).
    assert (Hl : ln (c * exp (ln 2 * IZR j)) = (ln c + ln 2 * IZR j)%R).
    { rewrite ln_mult by (try exact Hc; apply exp_pos). rewrite ln_exp. reflexivity. }
    assert (Hq : ((ln x - ln c) / ln 2 * ln 2 = ln x - ln c)%R) by (field; lra).
    split; intros H.
    - assert (ln x <= ln (c * exp (ln 2 * IZR j)))%R.
      { destruct H as [H|H]; [left; apply ln_increasing; assumption|right; f_equal; exact H]. }
      apply Rmult_le_reg_r with (ln 2); [exact L2|]. lra.
    - assert ((ln x - ln c) / ln 2 * ln 2 <= IZR j * ln 2)%R by (apply Rmult_le_compat_r; lra).
      apply Rnot_lt_le. intros C. apply ln_increasing in C; [|exact Hp]. lra. }
  split.
  - apply E. lra.
  - intros j Hj. apply E in Hj. apply Zlt_succ_le, lt_IZR. rewrite succ_IZR. lra.
Qed.

Lemma good_size_ge2 m : good_size m -> 2 <= m.
Proof.
  intros (k & Hk & Hm). assert (2 ^ 1 <= 2 ^ k) by (apply Z.pow_le_mono_r; lia). destruct Hm; lia.
Qed.
Lemma good_size_even m : good_size m -> Z.even m = true.
Proof.
  intros (k & Hk & Hm). replace k with (Z.succ (k - 1)) in Hm by lia. rewrite Z.pow_succ_r in Hm by lia.
  destruct Hm as [Hm|Hm]; subst m; rewrite ?Z.even_mul; cbn; reflexivity.
Qed.

Lemma good_fft_size_spec n : (1 <= n)%R -> smallest_good ((1 - slop) * n) (good_fft_size n).
Proof.
  intros Hn. unfold good_fft_size. set (x := ((1 - slop) * n)%R).
  assert (Hs : (0 < slop < 1 / 100)%R) by (unfold slop; lra).
  assert (Hx : (1 / 2 < x)%R) by (unfold x; nra).
  set (k1 := ceilR (ln x / ln 2)). set (k2 := ceilR ((ln x - ln 3) / ln 2)).
  assert (Hk1 : k1 = ceilR ((ln x - ln 1) / ln 2)) by (unfold k1; rewrite ln_1; f_equal; f_equal; lra).
  destruct (least_pow 1 x k1 ltac:(lra) ltac:(lra) Hk1) as [A1 B1].
  destruct (least_pow 3 x k2 ltac:(lra) ltac:(lra) eq_refl) as [A2 B2].
  rewrite Rmult_1_l in A1.
  assert (K1 : 0 <= k1).
  { destruct (Z.le_gt_cases 0 k1) as [|C]; [assumption|]. exfalso.
    assert (exp (ln 2 * IZR k1) <= exp (ln 2 * IZR (-1)))%R.
    { assert (IZR k1 <= IZR (-1))%R by (apply IZR_le; lia). pose proof ln2_pos.
      destruct (Req_dec (IZR k1) (IZR (-1))) as [E|E]; [rewrite E; lra|]. left. apply exp_increasing.
      apply Rmult_lt_compat_l; lra. }
    replace (ln 2 * IZR (-1))%R with (- ln 2)%R in H by (change (IZR (-1)) with (-1)%R; lra).
    rewrite exp_Ropp, exp_ln in H by lra. lra. }
  set (k2' := Z.max k2 1).
  assert (E3 : Rmax (ln 3 + ln 2 * IZR k2) (ln 6) = (ln 3 + ln 2 * IZR k2')%R).
  { replace 6%R with (3 * 2)%R by lra. rewrite ln_mult by lra. pose proof ln2_pos.
    unfold k2'. destruct (Z.max_spec k2 1) as [[H1 H2]|[H1 H2]]; rewrite H2.
    - rewrite Rmax_right; [|].
      + lra.
      + assert (IZR k2 <= 1)%R by (apply IZR_le; lia). nra.
    - rewrite Rmax_left; [reflexivity|]. assert (1 <= IZR k2)%R by (apply IZR_le; lia). nra. }
  rewrite E3, exp_min, exp_plus, exp_ln by lra.
  rewrite exp_ln2_Z by assumption. rewrite exp_ln2_Z by (unfold k2'; lia).
  rewrite <- mult_IZR.
  assert (M : Rmin (IZR (2 ^ k1)) (IZR (3 * 2 ^ k2')) = IZR (Z.min (2 ^ k1) (3 * 2 ^ k2'))).
  { destruct (Z.min_spec (2 ^ k1) (3 * 2 ^ k2')) as [[H1 H2]|[H1 H2]]; rewrite H2.
    - apply Rmin_left. apply IZR_le. lia.
    - apply Rmin_right. apply IZR_le. lia. }
  rewrite M. set (m := Z.min (2 ^ k1) (3 * 2 ^ k2')).
  replace (ceilR (IZR m - slop)) with m by (symmetry; apply ceilR_unique; lra).
  rewrite exp_ln2_Z in A1 by assumption.
  assert (A2' : (x <= IZR (3 * 2 ^ k2'))%R).
  { eapply Rle_trans; [exact A2|]. rewrite mult_IZR. apply Rmult_le_compat_l; [lra|].
    rewrite <- exp_ln2_Z by (unfold k2'; lia). pose proof ln2_pos.
    assert (IZR k2 <= IZR k2')%R by (apply IZR_le; unfold k2'; lia).
    destruct (Req_dec (IZR k2) (IZR k2')) as [E|E]; [rewrite E; lra|]. left. apply exp_increasing. nra. }
  assert (Hm2 : 2 ^ k1 = 1 -> k1 = 0).
  { intros E. destruct (Z.eq_dec k1 0); [assumption|]. assert (2 ^ 1 <= 2 ^ k1) by (apply Z.pow_le_mono_r; lia). lia. }
  assert (P1 : 1 <= 2 ^ k1) by (assert (2 ^ 0 <= 2 ^ k1) by (apply Z.pow_le_mono_r; lia); lia).
  assert (P2 : 2 <= 2 ^ k2') by (assert (2 ^ 1 <= 2 ^ k2') by (apply Z.pow_le_mono_r; unfold k2'; lia); lia).
  assert (Hmx : (x <= IZR m)%R).
  { unfold m. rewrite <- M. apply Rmin_glb; assumption. }
  split; [|split].
  - destruct (Z.eq_dec k1 0) as [E|E].
    + exists 1. split; [lia|]. left. unfold m. rewrite E. change (2 ^ 0) with 1. lia.
    + assert (2 ^ 1 <= 2 ^ k1) by (apply Z.pow_le_mono_r; lia).
      destruct (Z.min_spec (2 ^ k1) (3 * 2 ^ k2')) as [[H1 H2]|[H1 H2]]; fold m in H2.
      * exists k1. split; [lia|]. left. lia.
      * exists k2'. split; [unfold k2'; lia|]. right. lia.
  - eapply Rle_trans; [exact Hmx|]. apply IZR_le. lia.
  - intros m' Hg Hx'. pose proof (good_size_ge2 m' Hg). destruct Hg as (j & Hj & Hm').
    assert (m <= m'); [|lia]. destruct Hm' as [Hm'|Hm']; subst m'.
    + assert (k1 <= j). { apply B1. rewrite Rmult_1_l, exp_ln2_Z by lia. exact Hx'. }
      assert (2 ^ k1 <= 2 ^ j) by (apply Z.pow_le_mono_r; lia). lia.
    + assert (k2 <= j). { apply B2. rewrite exp_ln2_Z by lia. rewrite mult_IZR in Hx'. exact Hx'. }
      assert (2 ^ k2' <= 2 ^ j) by (apply Z.pow_le_mono_r; unfold k2'; lia). lia.
Qed.

Lemma slop_integer n m : n <= 99999 -> ((1 - slop) * IZR n <= IZR m)%R -> n <= m.
Proof.
  intros Hn H. apply Zlt_succ_le, lt_IZR. rewrite succ_IZR.
  assert (IZR n <= 99999)%R by (apply IZR_le; lia). unfold slop in H. lra.
Qed.
Lemma good_fft_size_exact n : 1 <= n <= 99999 -> smallest_good (IZR n) (good_fft_size (IZR n)).
Proof.
  intros Hn. destruct (good_fft_size_spec (IZR n)) as (A & B & C); [apply IZR_le; lia|].
  split; [exact A|]. split.
  - apply IZR_le. apply slop_integer; [lia|exact B].
  - intros m' Hg Hm'. apply C; [exact Hg|]. assert (0 <= IZR n)%R by (apply IZR_le; lia). unfold slop. lra.
Qed.
Lemma smallest_good_unique x m m' : smallest_good x m -> smallest_good x m' -> m = m'.
Proof. intros (A & B & C) (A' & B' & C'). apply Z.le_antisymm; auto. Qed.

Lemma good_131072 : good_fft_size (IZR 131073) = 131072.
Proof.
  apply (smallest_good_unique ((1 - slop) * IZR 131073)); [apply good_fft_size_spec; lra|].
  split; [exists 17; split; [lia|left; reflexivity]|]. split; [unfold slop; lra|].
  intros m' (k & Hk & Hm) H.
  assert (131071 < m') by (apply lt_IZR; unfold slop in H; lra).
  destruct (Z.le_gt_cases k 16) as [Hk'|Hk'].
  - assert (2 ^ k <= 2 ^ 16) by (apply Z.pow_le_mono_r; lia). change (2 ^ 16) with 65536 in *.
    destruct Hm; subst m'; [lia|]. destruct (Z.eq_dec k 16); [subst k; change (2 ^ 16) with 65536; lia|].
    assert (2 ^ k <= 2 ^ 15) by (apply Z.pow_le_mono_r; lia). change (2 ^ 15) with 32768 in *. lia.
  - assert (2 ^ 17 <= 2 ^ k) by (apply Z.pow_le_mono_r; lia). change (2 ^ 17) with 131072 in *. destruct Hm; subst m'; lia.
Qed.

(** * Geometry *)
Lemma getGoodImageSize_even s k : Z.even (getGoodImageSize s k) = true.
Proof. unfold getGoodImageSize. rewrite Z.even_mul. reflexivity. Qed.
Lemma getGoodImageSize_ge s k : (0 < s)%R -> (0 < k)%R ->
  (2 * PI / (s * k) * (1 - / 1000000000000) <= IZR (getGoodImageSize s k))%R /\
  (IZR (getGoodImageSize s k) < 2 * PI / (s * k) * (1 - / 1000000000000) + 2)%R.
Proof.
  intros Hs Hk. unfold getGoodImageSize. set (x := (2 * PI / (s * k) * (1 - / 1000000000000))%R).
  pose proof (ceilR_bounds x).
  assert (ceilR x <= 2 * ((ceilR x + 1) / 2) <= ceilR x + 1) by (clear; pose proof (Z.div_mod (ceilR x + 1) 2 ltac:(lia)); pose proof (Z.mod_pos_bound (ceilR x + 1) 2 ltac:(lia)); lia).
  assert (IZR (ceilR x) <= IZR (2 * ((ceilR x + 1) / 2)))%R by (apply IZR_le; lia).
  assert (IZR (2 * ((ceilR x + 1) / 2)) <= IZR (ceilR x + 1))%R by (apply IZR_le; lia).
  rewrite plus_IZR in *. lra.
Qed.

Ltac Zify.zify_post_hook ::= Z.div_mod_to_equations.

Lemma okb_delta x dx y dy : 1 <= dx -> 1 <= dy -> okb (BoundsI (ArgsKwDelta (py x) (py dx) (py y) (py dy))).
Proof.
  intros Hx Hy. split; [eexists; reflexivity|]. split; [intros _; split; assumption|].
  split; [apply BoundsI_delta_def; assumption|reflexivity].
Qed.
Lemma half_facts h : 2 * h / 2 = h /\ - (2 * h) / 2 = - h.
Proof. lia. Qed.
Lemma bound_vals x dx y dy : let b := BoundsI (ArgsKwDelta (py x) (py dx) (py y) (py dy)) in
  nv (bxmin b) = x /\ nv (bdx b) = dx /\ nv (bymin b) = y /\ nv (bdy b) = dy /\
  nv (xmaxI b) = x + dx - 1 /\ nv (ymaxI b) = y + dy - 1.
Proof. cbv zeta. repeat split; reflexivity. Qed.

Lemma kbounds_shape Nk : Z.even Nk = true -> 2 <= Nk ->
  okb (kbounds Nk) /\ nv (bxmin (kbounds Nk)) = 0 /\ nv (bdx (kbounds Nk)) = Nk / 2 + 1 /\
  nv (bymin (kbounds Nk)) = - (Nk / 2) /\ nv (bdy (kbounds Nk)) = 2 * (Nk / 2) + 1 /\ nv (xmaxI (kbounds Nk)) = Nk / 2 /\ nv (ymaxI (kbounds Nk)) = Nk / 2.
Proof.
  intros He H2. apply Z.even_spec in He. destruct He as [h ->].
  unfold kbounds. destruct (half_facts h) as [-> ->].
  split; [apply okb_delta; lia|].
  destruct (bound_vals 0 (h + 1) (- h) (2 * h + 1)) as (E1 & E2 & E3 & E4 & E5 & E6). lia.
Qed.
Lemma bwrap_shape N : Z.even N = true -> 2 <= N ->
  okb (bwrap N) /\ nv (bxmin (bwrap N)) = 0 /\ nv (bdx (bwrap N)) = N / 2 + 1 /\
  nv (bymin (bwrap N)) = - (N / 2) /\ nv (bdy (bwrap N)) = N /\ nv (xmaxI (bwrap N)) = N / 2 /\ nv (ymaxI (bwrap N)) = N / 2 - 1.
Proof.
  intros He H2. apply Z.even_spec in He. destruct He as [h ->].
  unfold bwrap. destruct (half_facts h) as [-> ->].
  split; [apply okb_delta; lia|].
  destruct (bound_vals 0 (h + 1) (- h) (2 * h)) as (E1 & E2 & E3 & E4 & E5 & E6). lia.
Qed.
Lemma breal_shape N : Z.even N = true -> 2 <= N ->
  okb (breal N) /\ nv (bxmin (breal N)) = - (N / 2) /\ nv (bdx (breal N)) = N /\
  nv (bymin (breal N)) = - (N / 2) /\ nv (bdy (breal N)) = N /\ nv (xmaxI (breal N)) = N / 2 - 1 /\ nv (ymaxI (breal N)) = N / 2 - 1.
Proof.
  intros He H2. apply Z.even_spec in He. destruct He as [h ->].
  unfold breal. destruct (half_facts h) as [-> ->].
  split; [apply okb_delta; lia|].
  destruct (bound_vals (- h) (2 * h) (- h) (2 * h)) as (E1 & E2 & E3 & E4 & E5 & E6). lia.
Qed.

Lemma image_N_ge b : bdef b = true ->
  nv (bdx b) <= image_N b /\ nv (bdy b) <= image_N b /\
  2 * Z.abs (nv (bxmin b)) <= image_N b /\ 2 * Z.abs (nv (xmaxI b)) <= image_N b /\
  2 * Z.abs (nv (bymin b)) <= image_N b /\ 2 * Z.abs (nv (ymaxI b)) <= image_N b.
Proof. intros H. unfold image_N, numpyShapeI. rewrite H. cbn [fst snd]. lia. Qed.

Lemma next_good_131072 m : good_size m -> 99999 <= m -> 131072 <= m.
Proof.
  intros (k & Hk & Hm) H.
  destruct (Z.le_gt_cases k 16) as [Hk'|Hk'].
  - assert (2 ^ k <= 2 ^ 16) by (apply Z.pow_le_mono_r; lia). change (2 ^ 16) with 65536 in *.
    destruct Hm; subst m; [lia|]. destruct (Z.eq_dec k 16); [subst k; change (2 ^ 16) with 65536; lia|].
    assert (2 ^ k <= 2 ^ 15) by (apply Z.pow_le_mono_r; lia). change (2 ^ 15) with 32768 in *. lia.
  - assert (2 ^ 17 <= 2 ^ k) by (apply Z.pow_le_mono_r; lia). change (2 ^ 17) with 131072 in *. destruct Hm; subst m; lia.
Qed.

Lemma makeK_ok minfft maxfft maxk stepk scale b kb N dk :
  bdef b = true -> wfI b -> (0 < scale)%R -> (0 < stepk)%R -> Z.even minfft = true -> minfft <> maxfft ->
  maxfft < 131072 ->
  makeKImage minfft maxfft maxk stepk scale b = Ok (kb, N, dk) ->
  Z.even N = true /\ 2 <= N /\ image_N b <= N /\ minfft <= N /\ getGoodImageSize scale stepk <= N /\
  dk = (2 * PI / (IZR N * scale))%R /\
  exists Nk, kb = kbounds Nk /\ Z.even Nk = true /\ N <= Nk <= maxfft /\ (maxk <= IZR Nk * dk / 2)%R.
Proof.
  intros Hd Hw Hs Hk He Hne Hmax. unfold makeKImage.
  destruct (Z.eqb_spec maxfft minfft) as [E|_]; [congruence|].
  set (N0 := Z.max (getGoodImageSize scale stepk) (image_N b)).
  set (G := good_fft_size (IZR N0)). set (N' := Z.max G minfft).
  set (dk' := (2 * PI / (IZR N' * scale))%R).
  destruct (image_N_ge b Hd) as (I1 & I2 & _). destruct (Hw Hd) as [W1 W2].
  assert (HN0 : 1 <= N0) by (unfold N0; lia).
  destruct (good_fft_size_spec (IZR N0)) as (A & B & _); [apply IZR_le; lia|]. fold G in A, B.
  assert (HG2 : 2 <= G) by (apply good_size_ge2; exact A).
  assert (HGe : Z.even G = true) by (apply good_size_even; exact A).
  assert (HNe : Z.even N' = true) by (unfold N'; destruct (Z.max_spec G minfft) as [[_ E]|[_ E]]; rewrite E; assumption).
  assert (HN2 : 2 <= N') by (unfold N'; lia).
  assert (HNR : (0 < IZR N')%R) by (apply IZR_lt; lia).
  assert (Hdk : (0 < dk')%R).
  { unfold dk'. apply Rdiv_lt_0_compat; [pose proof PI_RGT_0; lra|]. apply Rmult_lt_0_compat; assumption. }
  set (Nk := if Rltb maxk (IZR N' * dk' / 2) then N' else ceilR (maxk / dk') * 2).
  assert (HNk : Z.even Nk = true /\ N' <= Nk /\ (maxk <= IZR Nk * dk' / 2)%R).
  { unfold Nk. destruct (Rltb_spec maxk (IZR N' * dk' / 2)) as [L|L].
    - split; [exact HNe|]. split; [lia|]. lra.
    - split; [rewrite Z.even_mul, orb_true_r; reflexivity|].
      pose proof (ceilR_bounds (maxk / dk')) as [C1 C2].
      assert (C3 : (maxk = maxk / dk' * dk')%R) by (field; lra).
      assert (C4 : (maxk <= IZR (ceilR (maxk / dk')) * dk')%R) by (rewrite C3 at 1; apply Rmult_le_compat_r; lra).
      split.
      + apply le_IZR. rewrite mult_IZR. apply Rmult_le_reg_r with dk'; [exact Hdk|]. lra.
      + rewrite mult_IZR. lra. }
  destruct HNk as (K1 & K2 & K3).
  destruct (Z.ltb_spec maxfft Nk) as [L|L]; [discriminate|].
  intros E. assert (E1 : kbounds Nk = kb) by congruence. assert (E2 : N' = N) by congruence. assert (E3 : dk' = dk) by congruence.
  assert (HN0G : N0 <= G).
  { apply slop_integer; [|exact B]. destruct (Z.le_gt_cases N0 99999) as [|C]; [assumption|]. exfalso.
    assert (99999 <= G). { apply le_IZR. assert (IZR 100000 <= IZR N0)%R by (apply IZR_le; lia). unfold slop in B. lra. }
    pose proof (next_good_131072 G A H). unfold N' in *. lia. }
  subst N dk kb.
  split; [exact HNe|]. split; [exact HN2|]. split; [unfold N', N0 in *; lia|]. split; [unfold N'; lia|].
  split; [unfold N', N0 in *; lia|]. split; [reflexivity|].
  exists Nk. split; [reflexivity|]. split; [exact K1|]. split; [lia|exact K3].
Qed.

Lemma makeK_err minfft maxfft maxk stepk scale b :
  minfft <> maxfft ->
  (exists r, makeKImage minfft maxfft maxk stepk scale b = Ok r) \/
  makeKImage minfft maxfft maxk stepk scale b = Err GalSimFFTSizeError.
Proof.
  intros Hne. unfold makeKImage. destruct (Z.eqb_spec maxfft minfft) as [E|_]; [congruence|]. cbv zeta.
  match goal with |- context [if (maxfft <? ?k) then _ else _] => destruct (maxfft <? k) end;
    [right; reflexivity|left; eexists; reflexivity].
Qed.

Lemma centred_included b N : wfI b -> bdef b = true -> centred b -> Z.even N = true -> 2 <= N -> image_N b <= N ->
  includesI_b (breal N) b = true.
Proof.
  intros Hw Hd Hc He H2 Hi. destruct (Hw Hd) as [W1 W2]. destruct (image_N_ge b Hd) as (I1 & I2 & _).
  destruct (breal_shape N He H2) as ((_ & _ & Hbd & _) & E1 & _ & E3 & _ & E5 & E6).
  unfold centred, centerI in Hc. rewrite Hd in Hc.
  assert (C1 : nv (bxmin b) + nv (bdx b) / 2 = 0) by congruence.
  assert (C2 : nv (bymin b) + nv (bdy b) / 2 = 0) by congruence.
  assert (X1 : nv (xmaxI b) = nv (bxmin b) + nv (bdx b) - 1) by reflexivity.
  assert (X2 : nv (ymaxI b) = nv (bymin b) + nv (bdy b) - 1) by reflexivity.
  unfold includesI_b, b_includes_b. fold xmaxI ymaxI. rewrite Hbd, Hd, E1, E3, E5, E6, X1, X2.
  unfold leb. apply Z.even_spec in He. destruct He as [h ->]. destruct (half_facts h) as [-> _].
  cbn [andb]. lia.
Qed.

Section Finish.
  Context {V D W VC DC WC : Type}.
  Variable T : vops V D W. Variable TC : vops VC DC WC.
  Variable irfft2 : arr VC -> Z * Z -> Z -> Z -> V.

  Lemma real_image_wf (im : image V D W) (f : Z -> Z -> V) N : Z.even N = true -> 2 <= N ->
    let a := Arr N N f in
    exists ri, Image_array T a (breal N) (idt im) (iwcs im) false = Ok ri /\ wfimg ri /\ ibnd ri = breal N /\
      iarr ri = a /\ idt ri = idt im /\ iwcs ri = iwcs im.
  Proof using Type.
    intros He H2 a. destruct (breal_shape N He H2) as ((Hc & Hw & Hd & Hst) & E1 & E2 & E3 & E4 & _).
    unfold Image_array. rewrite Hd, E2, E4. unfold a. cbn [ncol nrow]. rewrite !Z.eqb_refl. cbn [negb].
    eexists. split; [reflexivity|].
    assert (EB : BoundsI (ArgsKwDelta (bxmin (breal N)) (py N) (bymin (breal N)) (py N)) = breal N).
    { unfold breal. apply Z.even_spec in He. destruct He as [h ->]. destruct (half_facts h) as [-> ->]. reflexivity. }
    rewrite EB. split; [|repeat split].
    unfold wfimg. cbn [ibnd iarr ncol nrow]. repeat (split; [assumption|]). repeat (split; [lia|]). lia.
  Qed.

  Lemma finish_ok (im : image V D W) (kim : image VC DC WC) F N Nk :
    add_monoid TC (idt kim) -> wfimg kim -> ibnd kim = kbounds Nk -> hermitianF VC (vconj TC) F ->
    (forall x y, 0 <= x <= Nk / 2 -> - (Nk / 2) <= y <= Nk / 2 -> pf (pm_of kim) x y = F x y) ->
    Z.even N = true -> Z.even Nk = true -> 2 <= N <= Nk -> okb (ibnd im) ->
    exists kw, snd (wrap TC kim (bwrap N) HX) = Ok kw /\ wfimg kw /\ eqI (ibnd kw) (bwrap N) = true /\
      (forall x y, 0 <= x <= N / 2 -> - (N / 2) <= y < N / 2 ->
         getValue kw x y = Ok (congruent_sum VC (bop TC Add (idt kim) (idt kim)) (vzero TC) F
            (- (Nk / 2)) (Nk + 1) (- (Nk / 2)) (Nk + 1) N N x y)) /\
      (includesI_b (breal N) (ibnd im) = true ->
        exists s, drawFFT_finish T TC irfft2 im kim N = Ok s /\ wfimg s /\ eqI (ibnd s) (ibnd im) = true /\
          idt s = idt im /\
          forall x y, includesI (ibnd im) x y = true ->
            getValue s x y = Ok (rcast T (idt im) (irfft2 (iarr kw) (N, N) (y + N / 2) (x + N / 2)))) /\
      (includesI_b (breal N) (ibnd im) = false ->
        drawFFT_finish T TC irfft2 im kim N = Err GalSimBoundsError).
  Proof using Type.
    intros Hm Hwk Hkb HF Heq HeN HeK H2 Hokb.
    destruct (kbounds_shape Nk HeK ltac:(lia)) as (Hkok & K1 & K2 & K3 & K4 & K5 & K6).
    destruct (bwrap_shape N HeN ltac:(lia)) as (Hbok & B1 & B2 & B3 & B4 & B5 & B6).
    destruct (breal_shape N HeN ltac:(lia)) as (Hrok & R1 & R2 & R3 & R4 & R5 & R6).
    assert (EN : 2 * (N / 2) = N). { apply Z.even_spec in HeN. destruct HeN as [h ->]. lia. }
    assert (EK : 2 * (Nk / 2) = Nk). { apply Z.even_spec in HeK. destruct HeK as [h ->]. lia. }
    pose proof Hwk as Hwk'. destruct Hwk' as (_ & Hkd & _ & _ & _ & Wc & Wr).
    rewrite Hkb in Wc, Wr.
    assert (Hinc : includesI_b (ibnd kim) (bwrap N) = true).
    { unfold includesI_b, b_includes_b. fold xmaxI ymaxI. rewrite Hkb in Hkd |- *. destruct Hbok as (_ & _ & Hbd & _).
      rewrite Hkd, Hbd, K1, K3, K5, K6, B1, B3, B5, B6. unfold leb. cbn [andb]. lia. }
    destruct Hm as (A1 & A2 & A3).
    destruct (wrap_herm_x_ok TC kim (bwrap N) F (Nk / 2) (Nk / 2) A1 A2 A3 Hwk Hbok Hinc) as (kw & Hk1 & Hk2 & Hk3 & Hk4).
    { rewrite Hkb. exact K1. }
    { rewrite <- Wc. exact K2. }
    { rewrite Hkb. exact K3. }
    { rewrite <- Wr. lia. }
    { exact HF. }
    { exact Heq. }
    { exact B1. }
    { lia. }
    exists kw. split; [exact Hk1|]. split; [exact Hk2|]. split; [exact Hk3|]. split.
    { intros x y Hx Hy. rewrite Hk4.
      - rewrite B2, B4, EK. replace (2 * (N / 2 + 1 - 1)) with N by lia. reflexivity.
      - unfold includesI, b_includes. fold xmaxI ymaxI. destruct Hbok as (_ & _ & Hbd & _).
        rewrite Hbd, B1, B3, B5, B6. unfold leb. cbn [andb]. lia. }
    unfold drawFFT_finish. rewrite Hk1. cbn [bind].
    assert (Hsh : numpyShapeI (breal N) = (N, N)).
    { unfold numpyShapeI. destruct Hrok as (_ & _ & Hrd & _). rewrite Hrd, R2, R4. reflexivity. }
    rewrite Hsh.
    destruct (real_image_wf im (fun i j => rcast T (idt im) (irfft2 (iarr kw) (N, N) i j)) N HeN ltac:(lia)) as (ri & P1 & P2 & P3 & P4 & P5 & P6).
    rewrite P1. cbn [bind]. split.
    - intros Hc. rewrite <- P3 in Hc.
      destruct (subImage_contained T ri (ibnd im) P2 Hokb Hc) as (s & S1 & S2 & S3 & S4 & S5 & S6 & S7).
      exists s. split; [exact S1|]. split; [exact S2|]. split; [exact S3|]. split; [congruence|].
      intros x y Hxy. rewrite S7, Hxy. unfold getValue. rewrite P3.
      assert (Hin : includesI (breal N) x y = true).
      { rewrite P3 in Hc. unfold includesI_b, b_includes_b in Hc. fold xmaxI ymaxI in Hc.
        unfold includesI, b_includes in Hxy |- *. fold xmaxI ymaxI in Hxy |- *. unfold leb in *.
        destruct (bdef (breal N)), (bdef (ibnd im)); try discriminate. cbn [andb] in *. lia. }
      destruct Hrok as (_ & _ & Hrd & _). rewrite Hrd, Hin. cbn [negb]. unfold xmin_, ymin_. rewrite P3, P4, R1, R3.
      cbn [elt]. replace (y - - (N / 2)) with (y + N / 2) by lia. replace (x - - (N / 2)) with (x + N / 2) by lia. reflexivity.
    - intros Hc. rewrite <- P3 in Hc. exact (subImage_not_contained T ri (ibnd im) P2 Hokb Hc).
  Qed.
End Finish.
