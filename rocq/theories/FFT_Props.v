(** C17 (good_fft_size) and C18 (FFT drawing geometry). *)
From Coq Require Import ZArith Reals Lra Lia Bool.
From Verif Require Import Base Array_Model Bounds_Model Bounds_Spec Bounds_Proofs MSum Wrap_Model Wrap_Spec
  Image_Model Image_Spec Image_Proofs Image_Example FFT_Model FFT_Spec FFT_Proofs.
Open Scope Z_scope.

(** ** C17 *)

(** For every size up to 99999 the result is exactly the smallest even 2^k or 3*2^k that is >= n. *)
Theorem C17_smallest_good_size_to_99999 : forall n, 1 <= n <= 99999 ->
  smallest_good (IZR n) (good_fft_size (IZR n)) /\ Z.even (good_fft_size (IZR n)) = true.
Proof. intros n H. split; [exact (good_fft_size_exact n H)|]. apply good_size_even, (good_fft_size_exact n H). Qed.
Print Assumptions C17_smallest_good_size_to_99999.

(** For every n: smallest even size of that form up to the built-in 1e-5 relative slop. *)
Theorem C17_smallest_with_slop_partial : forall n, (1 <= n)%R -> smallest_good ((1 - / 100000) * n) (good_fft_size n).
Proof. exact good_fft_size_spec. Qed.
Print Assumptions C17_smallest_with_slop_partial.

(** The full statement fails: the returned size can be smaller than n. *)
Theorem C17_at_least_n_refuted : ~ (forall n, 1 <= n -> n <= good_fft_size (IZR n)).
Proof. intros H. specialize (H 131073 ltac:(lia)). rewrite good_131072 in H. lia. Qed.
Print Assumptions C17_at_least_n_refuted.

Example C17_example : good_fft_size (IZR 65) = 96 /\ good_fft_size (IZR 97) = 128 /\ good_fft_size (IZR 1) = 2.
Proof.
  assert (P : forall n m k, 1 <= n <= 99999 -> 1 <= k -> (m = 2 ^ k \/ m = 3 * 2 ^ k) -> n <= m ->
     (forall j, 1 <= j < 8 -> n <= 2 ^ j -> m <= 2 ^ j) -> (forall j, 1 <= j < 8 -> n <= 3 * 2 ^ j -> m <= 3 * 2 ^ j) ->
     m <= 2 ^ 8 -> good_fft_size (IZR n) = m).
  { intros n m k Hn Hk Hm Hnm H1 H2 H3. apply (smallest_good_unique (IZR n)); [apply good_fft_size_exact; exact Hn|].
    split; [exists k; tauto|]. split; [apply IZR_le; exact Hnm|]. intros m' (j & Hj & Hm') Hle. apply le_IZR in Hle.
    destruct (Z.le_gt_cases 8 j) as [C|C].
    - assert (2 ^ 8 <= 2 ^ j) by (apply Z.pow_le_mono_r; lia). destruct Hm'; lia.
    - destruct Hm'; subst m'; [apply H1|apply H2]; lia. }
  assert (J : forall j (Q : Z -> Prop), 1 <= j < 8 -> Q 1 -> Q 2 -> Q 3 -> Q 4 -> Q 5 -> Q 6 -> Q 7 -> Q j).
  { intros j Q Hj. assert (C : j = 1 \/ j = 2 \/ j = 3 \/ j = 4 \/ j = 5 \/ j = 6 \/ j = 7) by lia.
    destruct C as [C|[C|[C|[C|[C|[C|C]]]]]]; subst j; auto. }
  split; [|split].
  - apply (P 65 96 5); try lia.
    + intros j Hj. apply (J j (fun j => 65 <= 2 ^ j -> 96 <= 2 ^ j)); cbn; lia.
    + intros j Hj. apply (J j (fun j => 65 <= 3 * 2 ^ j -> 96 <= 3 * 2 ^ j)); cbn; lia.
  - apply (P 97 128 7); try lia.
    + intros j Hj. apply (J j (fun j => 97 <= 2 ^ j -> 128 <= 2 ^ j)); cbn; lia.
    + intros j Hj. apply (J j (fun j => 97 <= 3 * 2 ^ j -> 128 <= 3 * 2 ^ j)); cbn; lia.
  - apply (P 1 2 1); try lia.
    + intros j Hj. apply (J j (fun j => 1 <= 2 ^ j -> 2 <= 2 ^ j)); cbn; lia.
Qed.

(** ** C18 *)

(** Sizes chosen by drawFFT_makeKImage when the gsparams leave a choice: N is even, at least the
    image extent (in both directions and on both sides of the origin), at least the profile's good size and
    the minimum; the k image spans kx in 0..Nk/2, ky in -Nk/2..Nk/2 with N <= Nk <= maximum_fft_size
    even, and reaches maxk. *)
Theorem C18_fft_grid_covers : forall minfft maxfft maxk stepk scale b kb N dk,
  bdef b = true -> wfI b -> (0 < scale)%R -> (0 < stepk)%R -> Z.even minfft = true -> minfft <> maxfft ->
  maxfft < 131072 ->
  makeKImage minfft maxfft maxk stepk scale b = Ok (kb, N, dk) ->
  Z.even N = true /\ minfft <= N /\ nv (bdx b) <= N /\ nv (bdy b) <= N /\ getGoodImageSize scale stepk <= N /\
  (dk * (IZR N * scale) = 2 * PI)%R /\
  exists Nk, Z.even Nk = true /\ N <= Nk <= maxfft /\ (maxk <= IZR (Nk / 2) * dk)%R /\
    forall x y, includesI kb x y = true <-> 0 <= x <= Nk / 2 /\ - (Nk / 2) <= y <= Nk / 2.
Proof.
  intros minfft maxfft maxk stepk scale b kb N dk Hd Hw Hs Hk He Hne Hmax HOk.
  destruct (makeK_ok _ _ _ _ _ _ _ _ _ Hd Hw Hs Hk He Hne Hmax HOk) as (A1 & A2 & A3 & A4 & A5 & A6 & Nk & B1 & B2 & B3 & B4).
  destruct (image_N_ge b Hd) as (I1 & I2 & _).
  split; [exact A1|]. split; [exact A4|]. split; [lia|]. split; [lia|]. split; [exact A5|].
  assert (0 < IZR N)%R by (apply IZR_lt; lia).
  split; [subst dk; field; lra|]. exists Nk. split; [exact B2|]. split; [exact B3|].
  destruct (kbounds_shape Nk B2 ltac:(lia)) as ((_ & _ & Kd & _) & K1 & K2 & K3 & K4 & K5 & K6). split.
  - apply Z.even_spec in B2. destruct B2 as [h ->]. destruct (half_facts h) as [-> _]. rewrite mult_IZR in B4. lra.
  - intros x y. subst kb. rewrite includesI_iff. fold xmaxI ymaxI. rewrite Kd, K1, K3, K5, K6. unfold rectZ. split.
    + intros [_ HH]. exact HH.
    + intros HH. split; [reflexivity|exact HH].
Qed.
Print Assumptions C18_fft_grid_covers.

(** getGoodImageSize is even and is the profile's 2 pi / (stepk scale) rounded up (to even, with 1e-12 slop). *)
Theorem C18_good_image_size : forall scale stepk, (0 < scale)%R -> (0 < stepk)%R ->
  Z.even (getGoodImageSize scale stepk) = true /\
  (2 * PI / (scale * stepk) * (1 - / 1000000000000) <= IZR (getGoodImageSize scale stepk)
     < 2 * PI / (scale * stepk) * (1 - / 1000000000000) + 2)%R.
Proof. intros s k Hs Hk. split; [apply getGoodImageSize_even|exact (getGoodImageSize_ge s k Hs Hk)]. Qed.
Print Assumptions C18_good_image_size.

(** Requests that do not fit under maximum_fft_size raise GalSimFFTSizeError. *)
Theorem C18_too_large_raises : forall minfft maxfft maxk stepk scale b,
  bdef b = true -> wfI b -> (0 < scale)%R -> (0 < stepk)%R -> Z.even minfft = true -> minfft <> maxfft ->
  maxfft < 131072 ->
  maxfft < nv (bdx b) \/ maxfft < nv (bdy b) \/ maxfft < minfft \/ maxfft < getGoodImageSize scale stepk ->
  makeKImage minfft maxfft maxk stepk scale b = Err GalSimFFTSizeError.
Proof.
  intros minfft maxfft maxk stepk scale b Hd Hw Hs Hk He Hne Hmax H.
  destruct (makeK_err minfft maxfft maxk stepk scale b Hne) as [[[[kb N] dk] E]|E]; [exfalso|exact E].
  destruct (C18_fft_grid_covers _ _ _ _ _ _ _ _ _ Hd Hw Hs Hk He Hne Hmax E) as (A1 & A2 & A3 & A4 & A5 & A6 & Nk & B1 & B2 & _). lia.
Qed.
Print Assumptions C18_too_large_raises.

(** End to end for an image centred at the origin (as drawImage does): the N x N real-space
    image made from the k image contains the requested bounds, and the k image is folded so
    that mode (x,y) receives the sum of all modes congruent to it modulo N. *)
Theorem C18_draw_fft_region_and_aliasing : forall V D W VC DC WC (T : vops V D W) (TC : vops VC DC WC) irfft2
    minfft maxfft maxk stepk scale (im : image V D W) (kim : image VC DC WC) F N dk,
  okb (ibnd im) -> centred (ibnd im) -> (0 < scale)%R -> (0 < stepk)%R -> Z.even minfft = true -> minfft <> maxfft ->
  maxfft < 131072 ->
  makeKImage minfft maxfft maxk stepk scale (ibnd im) = Ok (ibnd kim, N, dk) ->
  wfimg kim -> add_monoid TC (idt kim) -> hermitianF VC (vconj TC) F ->
  (forall x y v, getValue kim x y = Ok v -> v = F x y) ->
  exists Nk kw s, N <= Nk /\
    snd (wrap TC kim (bwrap N) HX) = Ok kw /\
    (forall x y, 0 <= x <= N / 2 -> - (N / 2) <= y < N / 2 ->
       getValue kw x y = Ok (congruent_sum VC (bop TC Add (idt kim) (idt kim)) (vzero TC) F
          (- (Nk / 2)) (Nk + 1) (- (Nk / 2)) (Nk + 1) N N x y)) /\
    drawFFT_finish T TC irfft2 im kim N = Ok s /\ eqI (ibnd s) (ibnd im) = true /\ idt s = idt im /\
    forall x y, includesI (ibnd im) x y = true ->
      getValue s x y = Ok (rcast T (idt im) (irfft2 (iarr kw) (N, N) (y + N / 2) (x + N / 2))).
Proof.
  intros V D W VC DC WC T TC irfft2 minfft maxfft maxk stepk scale im kim F N dk Hok Hc Hs Hk He Hne Hmax HOk Hwk Hm HF HV.
  pose proof Hok as (_ & Hw & Hd & _).
  destruct (makeK_ok _ _ _ _ _ _ _ _ _ Hd Hw Hs Hk He Hne Hmax HOk) as (A1 & A2 & A3 & A4 & A5 & A6 & Nk & B1 & B2 & B3 & B4).
  assert (Hpf : forall x y, 0 <= x <= Nk / 2 -> - (Nk / 2) <= y <= Nk / 2 -> pf (pm_of kim) x y = F x y).
  { intros x y Hx Hy. apply HV. destruct (kbounds_shape Nk B2 ltac:(lia)) as ((_ & _ & Kd & _) & K1 & K2 & K3 & K4 & K5 & K6).
    unfold getValue. rewrite B1, Kd. cbn [negb].
    assert (Hin : includesI (kbounds Nk) x y = true).
    { apply includesI_iff. fold xmaxI ymaxI. rewrite K1, K3, K5, K6. split; [exact Kd|]. unfold rectZ. lia. }
    rewrite Hin. cbn [negb]. unfold pm_of, xmin_, ymin_. cbn [pf]. rewrite B1. reflexivity. }
  destruct (finish_ok T TC irfft2 im kim F N Nk Hm Hwk B1 HF Hpf A1 B2 ltac:(lia) Hok) as (kw & P1 & P2 & P3 & P4 & P5 & P6).
  destruct (P5 (centred_included (ibnd im) N Hw Hd Hc A1 A2 A3)) as (s & S1 & S2 & S3 & S4 & S5).
  exists Nk, kw, s. split; [lia|]. split; [exact P1|]. split; [exact P4|]. split; [exact S1|]. split; [exact S3|]. split; [exact S4|exact S5].
Qed.
Print Assumptions C18_draw_fft_region_and_aliasing.

(** The choice minimum_fft_size = maximum_fft_size bypasses all size logic: an odd size gives a k image
    that is not symmetric about ky = 0 (as the Hermitian wrap requires) and an image larger than the FFT
    is not rejected by makeKImage. *)
Theorem C18_fixed_size_geometry_refuted :
  ~ (forall minfft maxfft maxk stepk scale b kb N dk,
      okb b -> centred b -> 2 <= minfft -> (0 < scale)%R -> (0 < stepk)%R ->
      makeKImage minfft maxfft maxk stepk scale b = Ok (kb, N, dk) ->
      nv (bymin kb) = - nv (ymaxI kb)) /\
  ~ (forall minfft maxfft maxk stepk scale b kb N dk,
      okb b -> centred b -> 2 <= minfft -> (0 < scale)%R -> (0 < stepk)%R ->
      makeKImage minfft maxfft maxk stepk scale b = Ok (kb, N, dk) ->
      nv (bdx b) <= N).
Proof.
  split; intros H.
  - specialize (H 129 129 1%R 1%R 1%R (BoundsI (ArgsKwDelta (py (-16)) (py 32) (py (-16)) (py 32))) _ _ _
      (okb_delta (-16) 32 (-16) 32 ltac:(lia) ltac:(lia)) eq_refl ltac:(lia) ltac:(lra) ltac:(lra) eq_refl).
    cbn in H. discriminate.
  - specialize (H 128 128 1%R 1%R 1%R (BoundsI (ArgsKwDelta (py (-100)) (py 200) (py (-100)) (py 200))) _ _ _
      (okb_delta (-100) 200 (-100) 200 ltac:(lia) ltac:(lia)) eq_refl ltac:(lia) ltac:(lra) ltac:(lra) eq_refl).
    cbn in H. lia.
Qed.
Print Assumptions C18_fixed_size_geometry_refuted.

Lemma ex_good2 : getGoodImageSize 1 PI = 2.
Proof.
  unfold getGoodImageSize. replace (2 * PI / (1 * PI))%R with 2%R by (field; apply PI_neq0).
  replace (ceilR (2 * (1 - / 1000000000000))) with 2 by (symmetry; apply ceilR_unique; lra). reflexivity.
Qed.
Lemma ex_good_pow2 k : 1 <= k <= 16 -> good_fft_size (IZR (2 ^ k)) = 2 ^ k.
Proof.
  intros Hk. assert (2 ^ 1 <= 2 ^ k <= 2 ^ 16) by (split; apply Z.pow_le_mono_r; lia).
  change (2 ^ 16) with 65536 in *. change (2 ^ 1) with 2 in *.
  apply (smallest_good_unique (IZR (2 ^ k))); [apply good_fft_size_exact; lia|].
  split; [exists k; split; [lia|left; reflexivity]|]. split; [lra|]. intros m' _ Hm. apply le_IZR. exact Hm.
Qed.

(** Called directly on an image that is not centred, drawFFT can choose an FFT that misses the last
    row and column: bounds 1..64 give a 128 x 128 transform covering -64..63. *)
Theorem C18_uncentred_image_refuted :
  ~ (forall minfft maxfft maxk stepk scale b kb N dk,
      okb b -> Z.even minfft = true -> minfft <> maxfft -> maxfft < 131072 -> (0 < scale)%R -> (0 < stepk)%R ->
      makeKImage minfft maxfft maxk stepk scale b = Ok (kb, N, dk) ->
      includesI_b (breal N) b = true).
Proof.
  intros H.
  assert (E : exists kb dk, makeKImage 128 4096 1 PI 1 (BoundsI (ArgsKwDelta (py 1) (py 64) (py 1) (py 64))) = Ok (kb, 128, dk)).
  { unfold makeKImage. cbn [Z.eqb Pos.eqb]. rewrite ex_good2.
    replace (image_N (BoundsI (ArgsKwDelta (py 1) (py 64) (py 1) (py 64)))) with (2 ^ 7) by reflexivity.
    replace (Z.max 2 (2 ^ 7)) with (2 ^ 7) by reflexivity. rewrite ex_good_pow2 by lia. change (Z.max (2 ^ 7) 128) with 128.
    replace (IZR 128 * (2 * PI / (IZR 128 * 1)) / 2)%R with PI by (field; lra).
    destruct (Rltb_spec 1 PI) as [L|L]; [|exfalso; pose proof PI2_1; lra].
    change (4096 <? 128) with false. eexists. eexists. reflexivity. }
  destruct E as (kb & dk & E).
  specialize (H 128 4096 1%R PI 1%R _ kb 128 dk (okb_delta 1 64 1 64 ltac:(lia) ltac:(lia)) eq_refl ltac:(lia) ltac:(lia) ltac:(lra) PI_RGT_0 E).
  cbn in H. discriminate.
Qed.
Print Assumptions C18_uncentred_image_refuted.

(** A 33 x 20 image centred at the origin, scale 1, stepk pi, maxk 1: a 128-point FFT. *)
Example C18_example : exists dk,
  makeKImage 128 4096 1 PI 1 (BoundsI (ArgsKwDelta (py (-16)) (py 33) (py (-10)) (py 20))) = Ok (kbounds 128, 128, dk) /\
  centred (BoundsI (ArgsKwDelta (py (-16)) (py 33) (py (-10)) (py 20))) /\
  includesI_b (breal 128) (BoundsI (ArgsKwDelta (py (-16)) (py 33) (py (-10)) (py 20))) = true.
Proof.
  eexists. split; [|split; reflexivity].
  unfold makeKImage. cbn [Z.eqb Pos.eqb]. rewrite ex_good2.
  replace (image_N (BoundsI (ArgsKwDelta (py (-16)) (py 33) (py (-10)) (py 20)))) with 33 by reflexivity.
  change (Z.max 2 33) with 33.
  assert (G : good_fft_size (IZR 33) <= 64).
  { destruct (good_fft_size_exact 33 ltac:(lia)) as (_ & _ & H). apply H; [exists 6; split; [lia|left; reflexivity]|lra]. }
  rewrite (Z.max_r _ 128) by lia.
  replace (IZR 128 * (2 * PI / (IZR 128 * 1)) / 2)%R with PI by (field; lra).
  destruct (Rltb_spec 1 PI) as [L|L]; [|exfalso; pose proof PI2_1; lra].
  change (4096 <? 128) with false. reflexivity.
Qed.
