(** drawFFT evaluates the Fourier sum of the profile. *)
From Coq Require Import ZArith Reals Bool Lra Lia.
From Coquelicot Require Import Complex.
From Verif Require Import Base Array_Model Bounds_Model Bounds_Proofs MSum Wrap_Model Wrap_Spec Image_Model Image_Spec Image_Proofs FFT_Model FFT_Spec FFT_Proofs II_Model II_Proofs II_DFT II_Inv DrawF_Model DrawF_Spec.
Open Scope R_scope.

Lemma sym_sum : forall h f, (1 <= h)%Z -> (forall l, (0 < l < 2 * h)%Z -> f (2 * h - l)%Z = f l) -> rsum (2 * h) f = f 0%Z + f h + 2 * rsum (h - 1) (fun l => f (l + 1)%Z).
Proof.
  intros h f H S. transitivity (rsum (1 + ((h - 1) + (1 + (h - 1)))) f); [f_equal; lia|]. rewrite !rsum_app by lia. rewrite !rsum_1. replace (1 + (h - 1 + 0))%Z with h by lia.
  rewrite (rsum_ext (h - 1) (fun i => f (1 + i)%Z) (fun l => f (l + 1)%Z)) by (intros i Hi; f_equal; lia).
  replace (rsum (h - 1) (fun i => f (1 + (h - 1 + (1 + i)))%Z)) with (rsum (h - 1) (fun l => f (l + 1)%Z)); [ring|].
  unfold rsum at 2. rewrite <- (zsum_rev R Rplus 0 Rplus_comm Rplus_as Rplus_0_l (h - 1) (fun i => f (1 + (h - 1 + (1 + i)))%Z)). apply zsum_ext. intros i Hi. rewrite <- (S (i + 1)%Z) by lia. f_equal. lia.
Qed.
Lemma csum_ext : forall n f g, (forall i, (0 <= i < n)%Z -> f i = g i) -> csum n f = csum n g.
Proof. intros. now apply zsum_ext. Qed.
Lemma csum_neg : forall N g, (0 < N)%Z -> (forall a b, (a mod N = b mod N)%Z -> g a = g b) -> csum N (fun k => g (- k)%Z) = csum N g.
Proof.
  intros N g HN P. unfold csum. rewrite <- (zsum_rev C Cplus (RtoC 0) Cplus_comm Cplus_assoc Cplus_0_l N (fun k => g (- k)%Z)).
  transitivity (csum N (fun k => g ((1 + k) mod N)%Z)); [|apply csum_cyclic; exact HN]. apply zsum_ext. intros i Hi. apply P. rewrite Z.mod_mod by lia. replace (- (N - 1 - i))%Z with (1 + i + (-1) * N)%Z by ring. apply Z.mod_add. lia.
Qed.
Section Back.
  Variables (h : Z) (G : Z -> Z -> C) (x y : Z).
  Hypothesis H : (1 <= h)%Z.
  Notation N := (2 * h)%Z.
  Hypothesis GP : forall a b a' b', (a mod N = a' mod N)%Z -> (b mod N = b' mod N)%Z -> G a b = G a' b'.
  Hypothesis GH : forall a b, G (- a)%Z (- b)%Z = Cconj (G a b).
  Definition Hs (p : Z) : C := csum N (fun k => Cmult (G p k) (tw N (- (k * y)))).
  Lemma Hs_per : forall p q, (p mod N = q mod N)%Z -> Hs p = Hs q.
  Proof using GP H. intros p q E. apply csum_ext. intros k _. f_equal. now apply GP. Qed.
  Lemma Hs_neg : forall p, Hs (- p) = Cconj (Hs p).
  Proof using GP GH H.
    intro p. unfold Hs. rewrite csum_conj. symmetry. rewrite <- (csum_neg N (fun k => Cmult (G (- p) k) (tw N (- (k * y))))).
    - apply csum_ext. intros k _. rewrite Cmult_conj, <- GH, tw_conj. do 2 f_equal. ring.
    - lia.
    - intros a b E. f_equal; [now apply GP|]. apply tw_mod; [lia|]. rewrite !Z.mul_comm with (m := y). rewrite <- !Z.mul_opp_l. rewrite <- (Z.mul_mod_idemp_r (- y) a), <- (Z.mul_mod_idemp_r (- y) b), E by lia. reflexivity.
  Qed.
  Definition fr (p : Z) : R := Re (Cmult (Hs p) (tw N (- (p * x)))).
  Lemma fr_sym : forall l, (0 < l < N)%Z -> fr (N - l) = fr l.
  Proof using GP GH H.
    intros l L. unfold fr. rewrite (Hs_per (N - l) (- l)) by (replace (N - l)%Z with (- l + 1 * N)%Z by ring; apply Z.mod_add; lia). rewrite Hs_neg.
    replace (tw N (- ((N - l) * x))) with (Cconj (tw N (- (l * x)))). 2: { rewrite tw_conj. apply tw_mod; [lia|]. replace (- ((N - l) * x))%Z with (- - (l * x) + (- x) * N)%Z by ring. symmetry. apply Z.mod_add. lia. }
    rewrite <- Cmult_conj. reflexivity.
  Qed.
  Lemma irfft_sum : forall A, nrow A = N -> ncol A = (h + 1)%Z -> (forall r p, (0 <= r < N)%Z -> (0 <= p <= h)%Z -> elt A r p = G p (r - h)%Z) ->
    elt (fftshift (irfft2 (ifftshift0 A))) (y + h) (x + h) = / (IZR N * IZR N) * rsum N fr.
  Proof using GP GH H.
    intros A AR AC AE. assert (Hh : (N / 2 = h)%Z) by (rewrite Z.mul_comm, Z.div_mul; lia). assert (N0 : IZR N <> 0) by (apply not_0_IZR; lia).
    change (elt (fftshift (irfft2 (ifftshift0 A))) (y + h) (x + h)) with (elt (irfft2 (ifftshift0 A)) ((y + h - nrow A / 2) mod nrow A)%Z ((x + h - 2 * (ncol A - 1) / 2) mod (2 * (ncol A - 1)))%Z).
    rewrite AR, AC. replace (h + 1 - 1)%Z with h by lia. rewrite Hh. replace (y + h - h)%Z with y by lia. replace (x + h - h)%Z with x by lia. set (i := (y mod N)%Z). set (j := (x mod N)%Z).
    assert (B : forall l, (0 <= l <= h)%Z -> elt (ifft0 (ifftshift0 A)) i l = Cmult (RtoC (/ IZR N)) (Hs l)).
    { intros l L. unfold ifft0. cbn [elt]. change (nrow (ifftshift0 A)) with (nrow A). rewrite AR. f_equal. apply csum_ext. intros k K.
      change (elt (ifftshift0 A) k l) with (elt A ((k - - (nrow A / 2)) mod nrow A)%Z ((l - 0) mod ncol A)%Z). rewrite AR, AC, Hh, Z.sub_0_r, (Z.mod_small l) by lia. rewrite AE by (try lia; apply Z.mod_pos_bound; lia). rewrite tw_neg. f_equal.
      - apply GP; [reflexivity|]. rewrite Zminus_mod_idemp_l. f_equal. lia.
      - apply tw_mod; [lia|]. rewrite <- !Z.mul_opp_l. unfold i. apply Z.mul_mod_idemp_r. lia. }
    unfold irfft2, irfft1. cbv zeta. cbn [elt]. change (ncol (ifft0 (ifftshift0 A))) with (ncol A). rewrite AC. replace (h + 1 - 1)%Z with h by lia. rewrite !B by lia.
    rewrite (rsum_ext (h - 1) _ (fun l => / IZR N * fr (l + 1)%Z)).
    2: { intros l L. rewrite B by lia. unfold fr. rewrite tw_neg. replace (tw N (- ((l + 1) * j))) with (tw N (- ((l + 1) * x))) by (apply tw_mod; [lia|]; rewrite <- !Z.mul_opp_l; unfold j; symmetry; apply Z.mul_mod_idemp_r; lia). destruct (Hs (l + 1)), (tw N (- ((l + 1) * x))). cbn. ring. }
    rewrite rsum_scale, (sym_sum h fr H fr_sym).
    assert (F0 : fr 0 = Re (Hs 0)) by (unfold fr; rewrite Z.mul_0_l; change (- 0)%Z with 0%Z; rewrite tw_0; destruct (Hs 0); cbn; ring).
    assert (Fh : fr h = Re (Hs h) * cos (PI * IZR j)).
    { unfold fr. assert (T : tw N (- (h * x)) = RtoC (cos (PI * IZR j))). { replace (tw N (- (h * x))) with (tw N (h * - j)) by (apply tw_mod; [lia|]; rewrite Z.mul_opp_r, <- !Z.mul_opp_l; unfold j; apply Z.mul_mod_idemp_r; lia).
        unfold tw, expi, RtoC. assert (E : - (2 * PI * (IZR (h * - j) / IZR N)) = PI * IZR j). { rewrite !mult_IZR, opp_IZR. field. apply not_0_IZR. lia. } rewrite E, sin_PI_Z. reflexivity. }
      rewrite T. destruct (Hs h). cbn. ring. }
    rewrite F0, Fh. destruct (Hs 0), (Hs h). cbn. field. exact N0.
  Qed.
End Back.
Lemma fr_total : forall h G x y, rsum (2 * h) (fr h G x y) = Re (csum (2 * h) (fun p => csum (2 * h) (fun k => Cmult (G p k) (tw (2 * h) (- (k * y + p * x)))))).
Proof.
  intros h G x y. rewrite csum_Re. apply rsum_ext. intros p _. unfold fr, Hs. f_equal. rewrite Cmult_comm, <- csum_mul. apply csum_ext. intros k _. replace (- (k * y + p * x))%Z with (- (p * x) + - (k * y))%Z by ring. rewrite tw_add. ring.
Qed.
Section Cong.
  Variables (h M : Z) (F : Z -> Z -> C).
  Hypothesis H : (1 <= h)%Z.
  Hypothesis FH : forall a b, F (- a)%Z (- b)%Z = Cconj (F a b).
  Notation N := (2 * h)%Z.
  Definition Gs (p q : Z) : C := congruent_sum C Cplus (RtoC 0) F (- M) (2 * M + 1) (- M) (2 * M + 1) N N p q.
  Lemma mod_diff : forall a p q, (p mod N = q mod N)%Z -> ((a - p) mod N = (a - q) mod N)%Z.
  Proof using H FH. intros a p q E. rewrite <- (Zminus_mod_idemp_r a p), <- (Zminus_mod_idemp_r a q), E. reflexivity. Qed.
  Lemma Gs_per : forall a b a' b', (a mod N = a' mod N)%Z -> (b mod N = b' mod N)%Z -> Gs a b = Gs a' b'.
  Proof using H FH. intros a b a' b' E E'. unfold Gs, congruent_sum. apply zsum_ext. intros i _. apply zsum_ext. intros j _. now rewrite (mod_diff _ a a' E), (mod_diff _ b b' E'). Qed.
  Lemma mod_opp : forall a, ((- a) mod N =? 0)%Z = (a mod N =? 0)%Z.
  Proof using H FH. intro a. destruct (Z.eqb_spec (a mod N) 0) as [E|E]; [rewrite Z_mod_zero_opp_full by exact E; reflexivity|]. apply Z.eqb_neq. intro E'. apply E. rewrite <- (Z.opp_involutive a). now apply Z_mod_zero_opp_full. Qed.
  Lemma Gs_herm : forall a b, Gs (- a) (- b) = Cconj (Gs a b).
  Proof using H FH.
    intros a b. unfold Gs, congruent_sum. fold csum. rewrite csum_conj. unfold csum at 1. rewrite <- (zsum_rev C Cplus (RtoC 0) Cplus_comm Cplus_assoc Cplus_0_l (2 * M + 1)). apply zsum_ext. intros i _. rewrite csum_conj. unfold csum at 1.
    rewrite <- (zsum_rev C Cplus (RtoC 0) Cplus_comm Cplus_assoc Cplus_0_l (2 * M + 1)). apply zsum_ext. intros j _.
    replace (- M + (2 * M + 1 - 1 - i))%Z with (- (- M + i))%Z by ring. replace (- M + (2 * M + 1 - 1 - j))%Z with (- (- M + j))%Z by ring.
    replace (- (- M + i) - - b)%Z with (- (- M + i - b))%Z by ring. replace (- (- M + j) - - a)%Z with (- (- M + j - a))%Z by ring. rewrite !mod_opp. destruct ((_ =? 0)%Z && (_ =? 0)%Z); [apply FH|]. unfold Cconj, RtoC. cbn. f_equal. ring.
  Qed.
  Lemma pick : forall b (E : C), csum N (fun p => if ((b - p) mod N =? 0)%Z then E else RtoC 0) = E.
  Proof using H FH.
    intros b E. rewrite (csum_ext N _ (fun p => if (p =? b mod N)%Z then E else RtoC 0)); [apply (zsum_single C Cplus (RtoC 0) Cplus_comm Cplus_assoc Cplus_0_l N (b mod N) (fun _ => E)), Z.mod_pos_bound; lia|].
    intros p P. replace ((b - p) mod N =? 0)%Z with (p =? b mod N)%Z; [reflexivity|]. destruct (Z.eqb_spec p (b mod N)) as [->|Q]; symmetry.
    - apply Z.eqb_eq. rewrite Zminus_mod_idemp_r, Z.sub_diag. apply Z.mod_0_l. lia.
    - apply Z.eqb_neq. intro R. apply Q. rewrite <- (Z.mod_small p N) by lia. replace b with ((b - p) + p)%Z by ring. rewrite <- Z.add_mod_idemp_l, R by lia. reflexivity.
  Qed.
  Lemma cong_sum : forall x y, csum N (fun p => csum N (fun k => Cmult (Gs p k) (tw N (- (k * y + p * x))))) =
    csum (2 * M + 1) (fun i => csum (2 * M + 1) (fun j => Cmult (F (- M + j)%Z (- M + i)%Z) (tw N (- ((- M + i) * y + (- M + j) * x))))).
  Proof using H FH.
    intros x y. set (E := fun i j => Cmult (F (- M + j)%Z (- M + i)%Z) (tw N (- ((- M + i) * y + (- M + j) * x)))).
    transitivity (csum N (fun p => csum N (fun k => csum (2 * M + 1) (fun i => csum (2 * M + 1) (fun j => if ((- M + i - k) mod N =? 0)%Z then if ((- M + j - p) mod N =? 0)%Z then E i j else RtoC 0 else RtoC 0))))).
    - apply csum_ext. intros p _. apply csum_ext. intros k _. unfold Gs, congruent_sum. fold csum. rewrite Cmult_comm, <- csum_mul. apply csum_ext. intros i _. rewrite <- csum_mul. apply csum_ext. intros j _.
      destruct (Z.eqb_spec ((- M + i - k) mod N) 0) as [A|A]; cbn [andb]; [|apply Cmult_0_r]. destruct (Z.eqb_spec ((- M + j - p) mod N) 0) as [B|B]; [|apply Cmult_0_r]. unfold E. rewrite Cmult_comm. f_equal. apply tw_mod; [lia|].
      replace (- (k * y + p * x))%Z with (- ((- M + i) * y + (- M + j) * x) + ((- M + i - k) * y + (- M + j - p) * x))%Z by ring. rewrite <- Z.add_mod_idemp_r by lia. replace (((- M + i - k) * y + (- M + j - p) * x) mod N)%Z with 0%Z; [now rewrite Z.add_0_r|].
      rewrite <- Z.add_mod_idemp_l, <- Z.mul_mod_idemp_l, A, Z.mul_0_l, Z.mod_0_l, Z.add_0_l by lia. rewrite <- Z.mul_mod_idemp_l, B, Z.mul_0_l, Z.mod_0_l by lia. reflexivity.
    - transitivity (csum N (fun p => csum (2 * M + 1) (fun i => csum (2 * M + 1) (fun j => csum N (fun k => if ((- M + i - k) mod N =? 0)%Z then if ((- M + j - p) mod N =? 0)%Z then E i j else RtoC 0 else RtoC 0))))).
      + apply csum_ext. intros p _. rewrite csum_swap. apply csum_ext. intros i _. apply csum_swap.
      + rewrite csum_swap. apply csum_ext. intros i _. rewrite csum_swap. apply csum_ext. intros j _. transitivity (csum N (fun p => if ((- M + j - p) mod N =? 0)%Z then E i j else RtoC 0)); [|apply pick]. apply csum_ext. intros p _. apply pick.
  Qed.
End Cong.
(** * drawFFT *)
Lemma Tc_monoid : add_monoid Tc tt.
Proof. split; [|split]; cbn; intros; [apply Cplus_comm|apply Cplus_assoc|apply Cplus_0_l]. Qed.
Lemma drawFFT_all : forall minfft maxfft maxk stepk scale im kb N dk,
  okb (ibnd im) -> centred (ibnd im) -> 0 < scale -> 0 < stepk -> Z.even minfft = true -> minfft <> maxfft -> (maxfft < 131072)%Z ->
  makeKImage minfft maxfft maxk stepk scale (ibnd im) = Ok (kb, N, dk) ->
  exists M, kb = kbounds (2 * M) /\ Z.even N = true /\ dk * (IZR N * scale) = 2 * PI /\ (getGoodImageSize scale stepk <= N)%Z /\ (image_N (ibnd im) <= N)%Z /\ (1 <= M)%Z /\ maxk <= IZR M * dk /\
    forall kval, hermitian kval -> exists s, drawFFT minfft maxfft kval maxk stepk scale im = Ok s /\ eqI (ibnd s) (ibnd im) = true /\ idt s = idt im /\
    forall x y, includesI (ibnd im) x y = true -> getValue s x y = Ok (rcast Tr (idt im) (scale ^ 2 * inverse_sum kval dk M (IZR x * scale) (IZR y * scale))).
Proof.
  intros minfft maxfft maxk stepk scale im kb N dk Hok Hc Hs Hk He Hne Hmax E. pose proof Hok as (_ & Hw & Hd & _).
  destruct (makeK_ok _ _ _ _ _ _ _ _ _ Hd Hw Hs Hk He Hne Hmax E) as (A1 & A2 & A3 & A4 & A5 & A6 & Nk & B1 & B2 & B3 & B4).
  destruct (kbounds_shape Nk B2 ltac:(lia)) as (Kok & K1 & K2 & K3 & K4 & K5 & K6). pose proof Kok as (Kc & Kw & Kd & Ks).
  set (M := (Nk / 2)%Z). assert (EK : Nk = (2 * M)%Z) by (unfold M; apply Z.even_spec in B2; destruct B2 as [q ->]; rewrite (Z.mul_comm 2 q), Z.div_mul by lia; lia).
  set (h := (N / 2)%Z). assert (EN : N = (2 * h)%Z) by (unfold h; apply Z.even_spec in A1; destruct A1 as [q ->]; rewrite (Z.mul_comm 2 q), Z.div_mul by lia; lia).
  assert (N0 : 0 < IZR N) by (apply IZR_lt; lia).
  assert (ED : dk * (IZR N * scale) = 2 * PI) by (rewrite A6; field; lra). exists M. split; [rewrite B1, EK; reflexivity|]. split; [exact A1|]. split; [exact ED|]. split; [exact A5|]. split; [exact A3|]. split; [lia|]. split; [rewrite EK, mult_IZR in B4; lra|].
  intros kval HK.
  set (F := fun a b => kval (IZR a * dk, IZR b * dk)). assert (FH : forall a b, F (- a)%Z (- b)%Z = Cconj (F a b)) by (intros a b; unfold F; rewrite !opp_IZR, !Ropp_mult_distr_l_reverse; apply HK).
  set (kim := drawK kval kb dk).
  assert (Wk : wfimg kim). { unfold wfimg, kim, drawK. cbn [ibnd iarr nrow ncol]. rewrite B1. rewrite K2, K4. repeat split; try assumption; lia. }
  assert (P : forall x y, (0 <= x <= Nk / 2)%Z -> (- (Nk / 2) <= y <= Nk / 2)%Z -> pf (pm_of kim) x y = F x y).
  { intros x y Hx Hy. unfold pm_of, kim, drawK, F. cbn [pf iarr elt ibnd xmin_ ymin_]. unfold xmin_, ymin_. cbn [ibnd]. do 3 f_equal; f_equal; ring. }
  destruct (finish_ok Tr Tc draw_irfft2 im kim F N Nk Tc_monoid Wk B1 FH P A1 B2 ltac:(lia) Hok) as (kw & P1 & P2 & P3 & P4 & P5 & _).
  destruct (P5 (centred_included (ibnd im) N Hw Hd Hc A1 A2 A3)) as (s & S1 & S2 & S3 & S4 & S5).
  exists s. unfold drawFFT. rewrite E. cbn [bind]. split; [exact S1|]. split; [exact S3|]. split; [exact S4|].
  intros x y I. rewrite (S5 x y I). do 2 f_equal. unfold draw_irfft2. fold h.
  destruct P2 as (Q1 & Q2 & Q3 & Q4 & Q5 & Q6 & Q7). destruct (bwrap_shape N A1 ltac:(lia)) as (Hbok & W1 & W2 & W3 & W4 & W5 & W6).
  pose proof Hbok as (_ & _ & Bd & _). unfold eqI, b_eq_I in P3. rewrite Q2, Bd in P3. apply andb_prop in P3. destruct P3 as [P3 E4]. apply andb_prop in P3. destruct P3 as [P3 E3]. apply andb_prop in P3. destruct P3 as [E1 E2].
  apply Z.eqb_eq in E1, E2, E3, E4. rewrite Q6, W2 in E2. rewrite Q7, W4 in E4. rewrite W1 in E1. rewrite W3 in E3. fold h in E2, E3.
  rewrite (irfft_sum h (Gs h M F) x y ltac:(lia) (Gs_per h M F ltac:(lia) FH) (Gs_herm h M F ltac:(lia) FH)).
  - rewrite fr_total, cong_sum by (try lia; exact FH). unfold inverse_sum. rewrite <- EN. replace (scale ^ 2 * _) with ((scale * dk / (2 * PI)) ^ 2 * Re (zsum Cplus (RtoC 0) (2 * M + 1) (fun i => zsum Cplus (RtoC 0) (2 * M + 1) (fun j =>
      Cmult (kval (IZR (j - M) * dk, IZR (i - M) * dk)) (wave (IZR (j - M) * dk * (IZR x * scale) + IZR (i - M) * dk * (IZR y * scale))))))) by (pose proof PI_RGT_0; field; lra).
    pose proof PI_RGT_0 as PI0. replace (scale * dk / (2 * PI)) with (/ IZR N) by (rewrite <- ED; field; repeat split; try lra; intro D0; rewrite D0, Rmult_0_l in ED; lra). replace ((/ IZR N) ^ 2) with (/ (IZR N * IZR N)) by (field; lra). do 2 f_equal.
    apply csum_ext. intros i _. apply csum_ext. intros j _. unfold F. replace (- M + j)%Z with (j - M)%Z by ring. replace (- M + i)%Z with (i - M)%Z by ring. f_equal. unfold tw, expi, wave. rewrite opp_IZR, plus_IZR, !mult_IZR.
    assert (T : - (2 * PI * (- (IZR (i - M) * IZR y + IZR (j - M) * IZR x) / IZR N)) = IZR (j - M) * dk * (IZR x * scale) + IZR (i - M) * dk * (IZR y * scale)) by (rewrite <- ED; field; lra). rewrite T. reflexivity.
  - lia.
  - lia.
  - intros r p Hr Hp. specialize (P4 p (r - h)%Z ltac:(lia) ltac:(lia)). unfold getValue in P4. rewrite Q2 in P4. cbn [negb] in P4. destruct (includesI (ibnd kw) p (r - h)); [|discriminate]. cbn [negb] in P4. injection P4 as P4. unfold ymin_, xmin_ in P4. rewrite E1, E3 in P4.
    replace (r - h - - h)%Z with r in P4 by ring. rewrite Z.sub_0_r in P4. rewrite P4. unfold Gs. rewrite <- EN. fold M. replace (2 * M + 1)%Z with (Nk + 1)%Z by lia. reflexivity.
Qed.
Lemma drawFFT_sum : forall minfft maxfft kval maxk stepk scale im kb N dk, hermitian kval ->
  okb (ibnd im) -> centred (ibnd im) -> 0 < scale -> 0 < stepk -> Z.even minfft = true -> minfft <> maxfft -> (maxfft < 131072)%Z ->
  makeKImage minfft maxfft maxk stepk scale (ibnd im) = Ok (kb, N, dk) ->
  exists M s, drawFFT minfft maxfft kval maxk stepk scale im = Ok s /\ eqI (ibnd s) (ibnd im) = true /\ idt s = idt im /\
    dk * (IZR N * scale) = 2 * PI /\ (getGoodImageSize scale stepk <= N)%Z /\ (image_N (ibnd im) <= N)%Z /\ (1 <= M)%Z /\ maxk <= IZR M * dk /\
    forall x y, includesI (ibnd im) x y = true -> getValue s x y = Ok (rcast Tr (idt im) (scale ^ 2 * inverse_sum kval dk M (IZR x * scale) (IZR y * scale))).
Proof.
  intros minfft maxfft kval maxk stepk scale im kb N dk HK Hok Hc Hs Hk He Hne Hmax E. destruct (drawFFT_all minfft maxfft maxk stepk scale im kb N dk Hok Hc Hs Hk He Hne Hmax E) as (M & _ & _ & D1 & D2 & D3 & D4 & D5 & D6).
  destruct (D6 kval HK) as (s & S1 & S2 & S3 & S4). exists M, s. repeat (split; [assumption|]). exact S4.
Qed.
