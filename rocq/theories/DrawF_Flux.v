(** Linearity, translations and the total of the Fourier sum that drawFFT evaluates. *)
From Coq Require Import ZArith Reals Bool Lra Lia.
From Coquelicot Require Import Coquelicot.
From Verif Require Import Base MSum Array_Model Bounds_Model Bounds_Spec Bounds_Proofs Wrap_Model Image_Model Image_Spec Image_Proofs FFT_Model FFT_Spec FFT_Proofs II_Model II_Half II_DFT II_Inv Sky_Model Bes_Model GSP_Model Size_Model DrawF_Model DrawF_Spec DrawF_Sum.
Open Scope R_scope.
Lemma csum_add : forall n f g, csum n (fun i => Cplus (f i) (g i)) = Cplus (csum n f) (csum n g).
Proof. intros. apply (zsum_plus C Cplus (RtoC 0) Cplus_comm' Cplus_as Cplus_z). Qed.
Lemma Re_add : forall a b : C, Re (Cplus a b) = Re a + Re b. Proof. intros [a a'] [b b']. reflexivity. Qed.
Lemma Re_scal : forall (c : R) (a : C), Re (Cmult (RtoC c) a) = c * Re a. Proof. intros c [a a']. unfold Cmult, RtoC, Re. cbn [fst snd]. ring. Qed.
(** * Linearity *)
Lemma inv_blend : forall a k1 b k2 dk M x y, inverse_sum (blended a k1 b k2) dk M x y = a * inverse_sum k1 dk M x y + b * inverse_sum k2 dk M x y.
Proof.
  intros. unfold inverse_sum, blended. change (zsum Cplus (RtoC 0)) with csum.
  rewrite (csum_ext _ _ (fun i => Cplus (Cmult (RtoC a) (csum (2 * M + 1) (fun j => Cmult (k1 (IZR (j - M) * dk, IZR (i - M) * dk)) (wave (IZR (j - M) * dk * x + IZR (i - M) * dk * y)))))
    (Cmult (RtoC b) (csum (2 * M + 1) (fun j => Cmult (k2 (IZR (j - M) * dk, IZR (i - M) * dk)) (wave (IZR (j - M) * dk * x + IZR (i - M) * dk * y))))))).
  - rewrite csum_add, !csum_mul, Re_add, !Re_scal. ring.
  - intros i _. rewrite <- !csum_mul, <- csum_add. apply csum_ext. intros j _. cring.
Qed.
Lemma herm_blend : forall a k1 b k2, hermitian k1 -> hermitian k2 -> hermitian (blended a k1 b k2).
Proof. intros a k1 b k2 H1 H2 kx ky. unfold blended. rewrite (H1 kx ky), (H2 kx ky). unfold Cconj, Cplus, Cmult, RtoC. cbn [fst snd]. f_equal; ring. Qed.
(** * Translations *)
Lemma wave_add : forall a b, Cmult (wave a) (wave b) = wave (a + b).
Proof. intros. unfold wave, Cmult. cbn [fst snd]. rewrite cos_plus, sin_plus. f_equal; ring. Qed.
Lemma wave_conj : forall a, Cconj (wave a) = wave (- a). Proof. intros. unfold wave, Cconj. cbn [fst snd]. rewrite cos_neg, sin_neg. reflexivity. Qed.
Lemma inv_moved : forall kval u v dk M x y, inverse_sum (moved kval u v) dk M x y = inverse_sum kval dk M (x - u) (y - v).
Proof.
  intros. unfold inverse_sum, moved. change (zsum Cplus (RtoC 0)) with csum. do 2 f_equal. apply csum_ext. intros i _. apply csum_ext. intros j _. cbn [fst snd].
  rewrite <- Cmult_assoc, wave_add. do 2 f_equal. ring.
Qed.
Lemma herm_moved : forall kval u v, hermitian kval -> hermitian (moved kval u v).
Proof. intros kval u v H kx ky. unfold moved. rewrite (H kx ky). cbn [fst snd]. rewrite Cmult_conj, wave_conj. do 2 f_equal. ring. Qed.
Lemma wave_tw : forall N dk scale j x, (0 < N)%Z -> dk * (IZR N * scale) = 2 * PI -> wave (IZR j * dk * (IZR x * scale)) = tw N (- (j * x)).
Proof.
  intros N dk scale j x HN E. assert (N0 : 0 < IZR N) by (apply IZR_lt; exact HN). unfold tw. replace (- (2 * PI * (IZR (- (j * x)) / IZR N))) with (IZR j * dk * (IZR x * scale)); [reflexivity|].
  rewrite opp_IZR, mult_IZR, <- E. field. lra.
Qed.
Lemma wave_tw2 : forall N dk scale j i x y, (0 < N)%Z -> dk * (IZR N * scale) = 2 * PI -> wave (IZR j * dk * (IZR x * scale) + IZR i * dk * (IZR y * scale)) = Cmult (tw N (- (j * x))) (tw N (- (i * y))).
Proof. intros. rewrite <- wave_add, !(wave_tw N) by assumption. reflexivity. Qed.
Lemma inv_period : forall kval N dk scale M x y x' y', (0 < N)%Z -> dk * (IZR N * scale) = 2 * PI -> ((x - x') mod N = 0)%Z -> ((y - y') mod N = 0)%Z ->
  inverse_sum kval dk M (IZR x * scale) (IZR y * scale) = inverse_sum kval dk M (IZR x' * scale) (IZR y' * scale).
Proof.
  assert (T : forall N j x x', (0 < N)%Z -> ((x - x') mod N = 0)%Z -> tw N (- (j * x)) = tw N (- (j * x'))).
  { intros N j x x' HN H. apply tw_mod; [exact HN|]. pose proof (Z.div_mod (x - x') N ltac:(lia)) as D. rewrite H in D. set (q := ((x - x') / N)%Z) in *. clearbody q. replace (- (j * x))%Z with (- (j * x') + (- (j * q)) * N)%Z by (replace x with (x' + N * q)%Z by lia; ring). apply Z_mod_plus_full. }
  intros kval N dk scale M x y x' y' HN E HX HY. unfold inverse_sum. do 2 f_equal. apply csum_ext. intros i _. apply csum_ext. intros j _. f_equal.
  rewrite !(wave_tw2 N) by assumption. rewrite (T N _ x x'), (T N _ y y') by assumption. reflexivity.
Qed.
(** * The total over a period *)
Lemma tw_total : forall N j x0, (0 < N)%Z -> csum N (fun x => tw N (- (j * (x0 + x)))) = if (j mod N =? 0)%Z then RtoC (IZR N) else RtoC 0.
Proof.
  intros N j x0 HN. rewrite (csum_ext _ _ (fun x => Cmult (tw N (- (j * x0))) (tw N (x * - j)))) by (intros; rewrite <- tw_add; f_equal; ring). rewrite csum_mul, orthogonal by exact HN.
  destruct (Z.eqb_spec (j mod N) 0) as [e|ne].
  - assert (Q : (- j) mod N = 0%Z) by (rewrite Z_mod_zero_opp_full by exact e; reflexivity). rewrite Q, Z.eqb_refl. rewrite (tw_mod N _ 0 HN), tw_0; [cring|]. replace (- (j * x0))%Z with (- j * x0)%Z by ring. rewrite Zmult_mod, Q, Zmult_0_l. reflexivity.
  - assert (Q : (- j) mod N <> 0%Z). { intro Q. apply ne. rewrite <- (Z.opp_involutive j). apply Z_mod_zero_opp_full. exact Q. } apply Z.eqb_neq in Q. rewrite Q. cring.
Qed.
Lemma csum_mul_r : forall n c f, csum n (fun i => Cmult (f i) c) = Cmult (csum n f) c.
Proof. intros. rewrite (csum_ext _ _ (fun i => Cmult c (f i))) by (intros; cring). rewrite csum_mul. cring. Qed.
Lemma csum4 : forall n m (F : Z -> Z -> Z -> Z -> C), csum n (fun y => csum n (fun x => csum m (fun i => csum m (fun j => F y x i j)))) = csum m (fun i => csum m (fun j => csum n (fun y => csum n (fun x => F y x i j)))).
Proof.
  intros. transitivity (csum n (fun y => csum m (fun i => csum m (fun j => csum n (fun x => F y x i j))))).
  - apply csum_ext. intros y _. rewrite csum_swap. apply csum_ext. intros i _. apply csum_swap.
  - rewrite csum_swap. apply csum_ext. intros i _. apply csum_swap.
Qed.
Lemma total_lattice : forall kval N dk scale M x0 y0, (0 < N)%Z -> 0 < scale -> dk * (IZR N * scale) = 2 * PI ->
  square_sum N x0 y0 (fun x y => scale ^ 2 * inverse_sum kval dk M (IZR x * scale) (IZR y * scale)) = lattice_sum kval dk M N.
Proof.
  intros kval N dk scale M x0 y0 HN SC E. assert (N0 : 0 < IZR N) by (apply IZR_lt; exact HN). pose proof PI_RGT_0 as PP. unfold square_sum, inverse_sum, lattice_sum. change (zsum Cplus (RtoC 0)) with csum. change (zsum Rplus 0) with rsum.
  set (c := scale ^ 2 * (dk / (2 * PI)) ^ 2).
  transitivity (c * Re (csum N (fun y => csum N (fun x => csum (2 * M + 1) (fun i => csum (2 * M + 1) (fun j => Cmult (kval (IZR (j - M) * dk, IZR (i - M) * dk)) (Cmult (tw N (- ((j - M) * (x0 + x)))) (tw N (- ((i - M) * (y0 + y)))))))))))%R.
  { rewrite csum_Re, <- rsum_scale. apply rsum_ext. intros y _. rewrite csum_Re, <- rsum_scale. apply rsum_ext. intros x _. unfold c. rewrite !Rmult_assoc. do 3 f_equal. apply csum_ext. intros i _. apply csum_ext. intros j _. rewrite (wave_tw2 N) by assumption. reflexivity. }
  rewrite csum4. rewrite (csum_ext _ _ (fun i => Cmult (RtoC (IZR N * IZR N)) (csum (2 * M + 1) (fun j => if (((j - M) mod N =? 0) && ((i - M) mod N =? 0))%Z%bool then kval (IZR (j - M) * dk, IZR (i - M) * dk) else RtoC 0)))).
  - rewrite csum_mul, Re_scal, <- Rmult_assoc. replace (c * (IZR N * IZR N)) with 1; [ring|]. unfold c. replace dk with (2 * PI / (IZR N * scale)) by (rewrite <- E; field; lra). field. lra.
  - intros i _. rewrite <- csum_mul. apply csum_ext. intros j _.
    rewrite (csum_ext _ _ (fun y => Cmult (Cmult (kval (IZR (j - M) * dk, IZR (i - M) * dk)) (csum N (fun x => tw N (- ((j - M) * (x0 + x)))))) (tw N (- ((i - M) * (y0 + y)))))).
    + rewrite csum_mul, !tw_total by exact HN. destruct ((j - M) mod N =? 0)%Z, ((i - M) mod N =? 0)%Z; cbn [andb]; rewrite ?RtoC_mult; cring.
    + intros y _. rewrite csum_mul, csum_mul_r. cring.
Qed.
Lemma csum_only : forall n s c f, (0 <= s < n)%Z -> f s = c -> (forall i, (0 <= i < n)%Z -> i <> s -> f i = RtoC 0) -> csum n f = c.
Proof.
  intros n s c f Hs E Z0. rewrite <- E. rewrite <- (zsum_single C Cplus (RtoC 0) Cplus_comm' Cplus_as Cplus_z n s f Hs). apply zsum_ext. intros i Hi. destruct (Z.eqb_spec i s) as [->|ne]; [reflexivity|]. apply Z0; assumption.
Qed.
(** only the wave (0, 0) counts when the others vanish *)
Lemma lattice_one : forall kval dk M N, (0 <= M)%Z -> (forall j i, (j mod N = 0)%Z -> (i mod N = 0)%Z -> (Z.abs j <= M)%Z -> (Z.abs i <= M)%Z -> (j, i) <> (0, 0)%Z -> kval (IZR j * dk, IZR i * dk) = RtoC 0) ->
  lattice_sum kval dk M N = Re (kval (0, 0)).
Proof.
  intros kval dk M N HM H. unfold lattice_sum. change (zsum Cplus (RtoC 0)) with csum. f_equal. apply (csum_only _ M); [lia| |].
  - apply (csum_only _ M); [lia| |].
    + rewrite Z.sub_diag. destruct N; cbn; rewrite Rmult_0_l; reflexivity.
    + intros j Hj ne. destruct (Z.eqb_spec ((j - M) mod N) 0) as [e|]; [|reflexivity]. destruct (Z.eqb_spec ((M - M) mod N) 0) as [e'|]; [|reflexivity]. cbn [andb]. apply H; [exact e|exact e'|lia|lia|]. intro X. injection X. lia.
  - intros i Hi ne. rewrite (csum_ext _ _ (fun _ => RtoC 0)).
    + apply (nsum_zero C Cplus (RtoC 0) Cplus_z).
    + intros j Hj. destruct (Z.eqb_spec ((j - M) mod N) 0) as [e|]; [|reflexivity]. destruct (Z.eqb_spec ((i - M) mod N) 0) as [e'|]; [|reflexivity]. cbn [andb]. apply H; [exact e|exact e'|lia|lia|]. intro X. injection X. lia.
Qed.
Lemma lattice_small : forall kval dk M N, (0 <= M < N)%Z -> lattice_sum kval dk M N = Re (kval (0, 0)).
Proof.
  intros kval dk M N HM. apply lattice_one; [lia|]. intros j i J I AJ AI ne. exfalso. apply ne.
  assert (Q : forall z, (z mod N = 0)%Z -> (Z.abs z <= M)%Z -> z = 0%Z). { intros z Hz A. apply Z_div_exact_2 in Hz; [|lia]. set (q := (z / N)%Z) in *. clearbody q. assert (q = 0 \/ q <= -1 \/ 1 <= q)%Z as [Q|[Q|Q]] by lia; [rewrite Q in Hz; lia| |]; exfalso; [assert (N * q <= N * -1)%Z by (apply Z.mul_le_mono_nonneg_l; lia)|assert (N * 1 <= N * q)%Z by (apply Z.mul_le_mono_nonneg_l; lia)]; lia. }
  rewrite (Q j), (Q i) by assumption. reflexivity.
Qed.
Lemma box1_zero : forall N dk scale j, (0 < N)%Z -> 0 < scale -> dk * (IZR N * scale) = 2 * PI -> (j mod N = 0)%Z -> j <> 0%Z -> box1 scale (IZR j * dk) = 0.
Proof.
  intros N dk scale j HN SC E HJ ne. assert (N0 : 0 < IZR N) by (apply IZR_lt; exact HN). pose proof PI_RGT_0 as PP. assert (DK : dk = 2 * PI / (IZR N * scale)) by (rewrite <- E; field; lra).
  apply Z_div_exact_2 in HJ; [|lia]. set (q := (j / N)%Z) in *. clearbody q. unfold box1. destruct (Req_EM_T _ _) as [e|_].
  - exfalso. apply ne. apply eq_IZR. apply Rmult_integral in e. destruct e as [e|e]; [exact e|]. rewrite DK in e. assert (0 < 2 * PI / (IZR N * scale)) by (apply Rdiv_lt_0_compat; nra). lra.
  - replace (IZR j * dk * scale / 2) with (IZR q * PI) at 1. 2:{ rewrite HJ, mult_IZR, DK. field. lra. }
    rewrite Rmult_comm, sin_PI_Z. unfold Rdiv. ring.
Qed.
Lemma lattice_pixel : forall kval N dk scale M, (0 < N)%Z -> 0 < scale -> dk * (IZR N * scale) = 2 * PI -> (0 <= M)%Z -> lattice_sum (pixelated kval scale) dk M N = Re (kval (0, 0)).
Proof.
  intros kval N dk scale M HN SC E HM. rewrite lattice_one; [|exact HM|].
  - unfold pixelated, box1. cbn [fst snd]. destruct (Req_EM_T 0 0) as [_|X]; [|exfalso; now apply X]. rewrite Rmult_1_l. f_equal. cring.
  - intros j i J I _ _ ne. unfold pixelated. cbn [fst snd]. destruct (Z.eq_dec j 0) as [->|nj].
    + destruct (Z.eq_dec i 0) as [->|ni]; [now exfalso; apply ne|]. rewrite (box1_zero N dk scale i) by assumption. rewrite Rmult_0_r. cring.
    + rewrite (box1_zero N dk scale j) by assumption. rewrite Rmult_0_l. cring.
Qed.
Lemma herm_pixel : forall kval c, hermitian kval -> hermitian (pixelated kval c).
Proof.
  assert (B : forall c k, box1 c (- k) = box1 c k). { intros c k. unfold box1. destruct (Req_EM_T (- k) 0), (Req_EM_T k 0); try lra. replace (- k * c / 2) with (- (k * c / 2)) by field. rewrite sin_neg. unfold Rdiv. rewrite Rinv_opp. ring. }
  intros kval c H kx ky. unfold pixelated. cbn [fst snd]. rewrite !B, (H kx ky). unfold Cconj, Cmult, RtoC. cbn [fst snd]. f_equal; ring.
Qed.
(** * For drawFFT *)
Lemma M_upper : forall minfft maxfft maxk stepk scale b N dk M, bdef b = true -> wfI b -> 0 < scale -> 0 < stepk -> Z.even minfft = true -> minfft <> maxfft -> (maxfft < 131072)%Z ->
  makeKImage minfft maxfft maxk stepk scale b = Ok (kbounds (2 * M), N, dk) -> (1 <= M)%Z -> maxk <= IZR (N - 1) * dk -> (M < N)%Z.
Proof.
  intros minfft maxfft maxk stepk scale b N dk M Hd Hw Hs Hk He Hne Hmax E HM HK. destruct (makeK_ok _ _ _ _ _ _ _ _ _ Hd Hw Hs Hk He Hne Hmax E) as (A1 & A2 & _ & _ & _ & A6 & _).
  assert (DK : 0 < dk). { rewrite A6. apply Rdiv_lt_0_compat; [pose proof PI_RGT_0; lra|]. apply Rmult_lt_0_compat; [apply IZR_lt; lia|exact Hs]. }
  assert (Q : forall Nk, kbounds Nk = kbounds (2 * M) -> Z.even Nk = true -> (2 <= Nk)%Z -> (Nk / 2 = M)%Z).
  { intros Nk Q EV LE. destruct (kbounds_shape Nk EV LE) as (_ & _ & _ & K & _). destruct (kbounds_shape (2 * M) ltac:(rewrite Z.even_mul; reflexivity) ltac:(lia)) as (_ & _ & _ & K' & _). rewrite Q, K' in K. rewrite (Z.mul_comm 2 M), Z.div_mul in K by lia. lia. }
  remember (kbounds (2 * M)) as B eqn:HB. revert E. unfold makeKImage. destruct (Z.eqb_spec maxfft minfft); [congruence|]. cbv zeta. set (N1 := Z.max (good_fft_size _) minfft). set (d := 2 * PI / (IZR N1 * scale)). clearbody d. clearbody N1.
  destruct (Z.ltb_spec maxfft (if Rltb maxk (IZR N1 * d / 2) then N1 else (ceilR (maxk / d) * 2)%Z)); [discriminate|]. intro E. injection E as E1 E2 E3. subst N1 d.
  destruct (Rltb_spec maxk (IZR N * dk / 2)) as [L|L].
  - apply Q in E1; [|exact A1|exact A2]. lia.
  - apply Rnot_lt_le in L. assert (C1 : (1 <= ceilR (maxk / dk))%Z). { apply Zlt_succ_le, lt_IZR. rewrite succ_IZR. destruct (ceilR_bounds (maxk / dk)) as [B' _]. assert (0 < maxk / dk). { apply Rdiv_lt_0_compat; [|exact DK]. apply Rlt_le_trans with (2 := L). assert (0 < IZR N) by (apply IZR_lt; lia). nra. } lra. }
    apply Q in E1; [|rewrite Z.even_mul; apply orb_true_r|lia]. rewrite Z.div_mul in E1 by lia. assert (ceilR (maxk / dk) <= N - 1)%Z. { apply ceilR_le. apply Rmult_le_reg_r with dk; [exact DK|]. unfold Rdiv. rewrite Rmult_assoc, Rinv_l by lra. lra. } lia.
Qed.
Lemma square_ext : forall n x0 y0 f g, (forall x y, (x0 <= x < x0 + n)%Z -> (y0 <= y < y0 + n)%Z -> f x y = g x y) -> square_sum n x0 y0 f = square_sum n x0 y0 g.
Proof. intros n x0 y0 f g H. unfold square_sum. apply rsum_ext. intros i Hi. apply rsum_ext. intros j Hj. apply H; lia. Qed.
Section Draw.
  Variables (minfft maxfft : Z) (maxk stepk scale : R) (im : image R bool unit) (kb : bnd Z) (N : Z) (dk : R).
  Hypotheses (Hok : okb (ibnd im)) (Hc : centred (ibnd im)) (Hs : 0 < scale) (Hk : 0 < stepk) (He : Z.even minfft = true) (Hne : minfft <> maxfft) (Hmax : (maxfft < 131072)%Z).
  Hypothesis E : makeKImage minfft maxfft maxk stepk scale (ibnd im) = Ok (kb, N, dk).
  Notation draw kval := (drawFFT minfft maxfft kval maxk stepk scale im).
  Lemma N_pos : (0 < N)%Z.
  Proof using All. destruct Hok as (_ & Hw & Hd & _). destruct (makeK_ok _ _ _ _ _ _ _ _ _ Hd Hw Hs Hk He Hne Hmax E) as (_ & A & _). lia. Qed.
  Lemma draw_blend : idt im = false -> forall a k1 b k2, hermitian k1 -> hermitian k2 -> exists r r1 r2, draw (blended a k1 b k2) = Ok r /\ draw k1 = Ok r1 /\ draw k2 = Ok r2 /\
    forall x y, includesI (ibnd im) x y = true -> exists v1 v2, getValue r1 x y = Ok v1 /\ getValue r2 x y = Ok v2 /\ getValue r x y = Ok (a * v1 + b * v2).
  Proof using All.
    intros FL a k1 b k2 H1 H2. destruct (drawFFT_all _ _ _ _ _ _ _ _ _ Hok Hc Hs Hk He Hne Hmax E) as (M & _ & _ & _ & _ & _ & _ & _ & D).
    destruct (D _ (herm_blend a k1 b k2 H1 H2)) as (r & R1 & _ & _ & R2). destruct (D _ H1) as (r1 & R3 & _ & _ & R4). destruct (D _ H2) as (r2 & R5 & _ & _ & R6).
    exists r, r1, r2. repeat (split; [assumption|]). intros x y I. eexists _, _. split; [apply R4; exact I|]. split; [apply R6; exact I|]. rewrite (R2 x y I), FL, inv_blend. cbn [rcast Tr]. f_equal. ring.
  Qed.
  Lemma draw_moved : forall kval m n, hermitian kval -> exists r r', draw kval = Ok r /\ draw (moved kval (IZR m * scale) (IZR n * scale)) = Ok r' /\
    forall x y x' y', includesI (ibnd im) x y = true -> includesI (ibnd im) x' y' = true -> ((x - m - x') mod N = 0)%Z -> ((y - n - y') mod N = 0)%Z -> getValue r' x y = getValue r x' y'.
  Proof using All.
    intros kval m n H. destruct (drawFFT_all _ _ _ _ _ _ _ _ _ Hok Hc Hs Hk He Hne Hmax E) as (M & _ & _ & ED & _ & _ & _ & _ & D).
    destruct (D _ H) as (r & R1 & _ & _ & R2). destruct (D _ (herm_moved kval (IZR m * scale) (IZR n * scale) H)) as (r' & R3 & _ & _ & R4). exists r, r'. split; [exact R1|]. split; [exact R3|]. intros x y x' y' I I' HX HY.
    rewrite (R2 _ _ I'), (R4 _ _ I). rewrite inv_moved. do 2 f_equal. rewrite <- !Rmult_minus_distr_r, <- !minus_IZR. f_equal. apply (inv_period kval N); try assumption. apply N_pos.
  Qed.
  Lemma draw_symmetric : forall kval, (forall kx ky, kval (- kx, - ky) = kval (kx, ky) /\ Im (kval (kx, ky)) = 0) -> exists r, draw kval = Ok r /\
    forall x y, includesI (ibnd im) x y = true -> includesI (ibnd im) (- x) (- y) = true -> getValue r (- x) (- y) = getValue r x y.
  Proof using All.
    intros kval H. assert (HH : hermitian kval). { intros kx ky. destruct (H kx ky) as [A B]. rewrite A. unfold Cconj. unfold Im in B. destruct (kval (kx, ky)) as [u v]. cbn [fst snd] in *. rewrite B, Ropp_0. reflexivity. }
    destruct (drawFFT_all _ _ _ _ _ _ _ _ _ Hok Hc Hs Hk He Hne Hmax E) as (M & _ & _ & _ & _ & _ & _ & _ & D). destruct (D _ HH) as (r & R1 & _ & _ & R2). exists r. split; [exact R1|]. intros x y I I'. rewrite (R2 _ _ I), (R2 _ _ I'). do 3 f_equal.
    unfold inverse_sum. f_equal. change (zsum Cplus (RtoC 0)) with csum. rewrite !csum_Re. apply rsum_ext. intros i _. rewrite !csum_Re. apply rsum_ext. intros j _.
    destruct (H (IZR (j - M) * dk) (IZR (i - M) * dk)) as [_ B]. unfold Im in B. destruct (kval _) as [u v]. cbn [snd] in B. subst v. unfold Re, Cmult, wave. cbn [fst snd]. rewrite !opp_IZR.
    replace (IZR (j - M) * dk * (- IZR x * scale) + IZR (i - M) * dk * (- IZR y * scale)) with (- (IZR (j - M) * dk * (IZR x * scale) + IZR (i - M) * dk * (IZR y * scale))) by ring. rewrite cos_neg. ring.
  Qed.
  Lemma draw_total_gen : idt im = false -> forall x0 y0, (forall x y, (x0 <= x < x0 + N)%Z -> (y0 <= y < y0 + N)%Z -> includesI (ibnd im) x y = true) -> exists M, kb = kbounds (2 * M) /\ (1 <= M)%Z /\ dk * (IZR N * scale) = 2 * PI /\
    forall kval, hermitian kval -> exists r v, draw kval = Ok r /\ (forall x y, includesI (ibnd im) x y = true -> getValue r x y = Ok (v x y)) /\ square_sum N x0 y0 v = lattice_sum kval dk M N.
  Proof using All.
    intros FL x0 y0 C. destruct (drawFFT_all _ _ _ _ _ _ _ _ _ Hok Hc Hs Hk He Hne Hmax E) as (M & KB & _ & ED & _ & _ & HM & _ & D). exists M. split; [exact KB|]. split; [exact HM|]. split; [exact ED|]. intros kval H. destruct (D _ H) as (r & R1 & _ & _ & R2).
    exists r, (fun x y => scale ^ 2 * inverse_sum kval dk M (IZR x * scale) (IZR y * scale)). split; [exact R1|]. split.
    - intros x y I. rewrite (R2 x y I), FL. reflexivity.
    - apply total_lattice; [apply N_pos|exact Hs|exact ED].
  Qed.
  Lemma draw_total : idt im = false -> forall x0 y0, (forall x y, (x0 <= x < x0 + N)%Z -> (y0 <= y < y0 + N)%Z -> includesI (ibnd im) x y = true) -> maxk <= IZR (N - 1) * dk ->
    forall kval, hermitian kval -> exists r v, draw kval = Ok r /\ (forall x y, includesI (ibnd im) x y = true -> getValue r x y = Ok (v x y)) /\ square_sum N x0 y0 v = Re (kval (0, 0)).
  Proof using All.
    intros FL x0 y0 C HK kval H. destruct (draw_total_gen FL x0 y0 C) as (M & KB & HM & _ & D). destruct (D kval H) as (r & v & R1 & R2 & R3). exists r, v. split; [exact R1|]. split; [exact R2|]. rewrite R3. apply lattice_small. split; [lia|].
    destruct Hok as (_ & Hw & Hd & _). rewrite KB in E. exact (M_upper _ _ _ _ _ _ _ _ _ Hd Hw Hs Hk He Hne Hmax E HM HK).
  Qed.
  Lemma bx_box1 : forall g k, bx_kValue (pixel_box scale g) k = box1 scale (fst k) * box1 scale (snd k).
  Proof using Hs.
    pose proof PI_RGT_0 as PP. assert (B : forall k, sinc (k * (scale / (2 * PI))) = box1 scale k).
    { intro k. unfold sinc, box1. destruct (Reqb_spec (k * (scale / (2 * PI))) 0) as [e|ne]; destruct (Req_EM_T k 0) as [e'|ne'].
      - reflexivity.
      - exfalso. apply ne'. apply Rmult_integral in e. destruct e as [e|e]; [exact e|]. assert (0 < scale / (2 * PI)) by (apply Rdiv_lt_0_compat; lra). lra.
      - exfalso. apply ne. rewrite e'. ring.
      - replace (PI * (k * (scale / (2 * PI)))) with (k * scale / 2) by (field; lra). reflexivity. }
    intros g k. unfold bx_kValue, pixel_box. cbn [bx_width bx_height bx_flux]. rewrite !B. ring.
  Qed.
  Lemma draw_pixel_total : idt im = false -> forall x0 y0, (forall x y, (x0 <= x < x0 + N)%Z -> (y0 <= y < y0 + N)%Z -> includesI (ibnd im) x y = true) ->
    forall kval g, hermitian kval -> exists r v, draw (conv_pixel kval scale g) = Ok r /\ (forall x y, includesI (ibnd im) x y = true -> getValue r x y = Ok (v x y)) /\ square_sum N x0 y0 v = Re (kval (0, 0)).
  Proof using All.
    intros FL x0 y0 C kval g H. destruct (draw_total_gen FL x0 y0 C) as (M & _ & HM & ED & D).
    assert (Q : forall k, conv_pixel kval scale g k = pixelated kval scale k) by (intro k; unfold conv_pixel, pixelated; rewrite bx_box1; reflexivity).
    destruct (D (conv_pixel kval scale g)) as (r & v & R1 & R2 & R3). { intros kx ky. rewrite !Q. apply herm_pixel. exact H. }
    exists r, v. split; [exact R1|]. split; [exact R2|]. rewrite R3. rewrite <- (lattice_pixel kval N dk scale M N_pos Hs ED ltac:(lia)). unfold lattice_sum. f_equal. apply csum_ext. intros i _. apply csum_ext. intros j _. rewrite Q. reflexivity.
  Qed.
End Draw.
(** * Integer images *)
Lemma round_even_near : forall v, Rabs (IZR (round_even v) - v) <= 1 / 2 /\ (Rabs (IZR (round_even v) - v) = 1 / 2 -> Z.even (round_even v) = true).
Proof.
  intro v. unfold round_even. destruct (base_Int_part v) as [B1 B2]. set (f := Int_part v) in *. clearbody f. cbv zeta.
  destruct (Rltb_spec (v - IZR f) (1 / 2)) as [L|L]; [|destruct (Rltb_spec (1 / 2) (v - IZR f)) as [L'|L']].
  - rewrite Rabs_left1 by lra. split; [lra|]. intro. lra.
  - rewrite plus_IZR, Rabs_pos_eq by lra. split; [lra|]. intro. lra.
  - destruct (Z.even f) eqn:EV; [|rewrite plus_IZR].
    + rewrite Rabs_left1 by lra. split; [lra|]. intros _. exact EV.
    + rewrite Rabs_pos_eq by lra. split; [lra|]. intros _. rewrite Z.even_add, EV. reflexivity.
Qed.
Lemma draw_integer : forall minfft maxfft kval maxk stepk scale im kb N dk, hermitian kval ->
  okb (ibnd im) -> centred (ibnd im) -> 0 < scale -> 0 < stepk -> Z.even minfft = true -> minfft <> maxfft -> (maxfft < 131072)%Z ->
  makeKImage minfft maxfft maxk stepk scale (ibnd im) = Ok (kb, N, dk) -> idt im = true ->
  exists M s, drawFFT minfft maxfft kval maxk stepk scale im = Ok s /\ (1 <= M)%Z /\ maxk <= IZR M * dk /\
    forall x y, includesI (ibnd im) x y = true -> exists z, getValue s x y = Ok (IZR z) /\
      let t := scale ^ 2 * inverse_sum kval dk M (IZR x * scale) (IZR y * scale) in Rabs (IZR z - t) <= 1 / 2 /\ (Rabs (IZR z - t) = 1 / 2 -> Z.even z = true).
Proof.
  intros minfft maxfft kval maxk stepk scale im kb N dk HK Hok Hc Hs Hk He Hne Hmax E I. destruct (drawFFT_sum _ _ _ _ _ _ _ _ _ _ HK Hok Hc Hs Hk He Hne Hmax E) as (M & s & S1 & _ & _ & _ & _ & _ & S2 & S3 & S4).
  exists M, s. repeat (split; [assumption|]). intros x y IN. eexists. split; [rewrite (S4 x y IN), I; reflexivity|]. apply round_even_near.
Qed.
