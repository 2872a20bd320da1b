(** Image.calculate_fft is the Fourier sum of the pixels, and calculate_inverse_fft undoes it. *)
From Coq Require Import ZArith Reals Lra Lia ZifyBool Bool List.
From Coquelicot Require Import Coquelicot.
From Verif Require Import Base Array_Model Bounds_Model Bounds_Proofs FFT_Model FFT_Proofs Geo_Model MSum
  Interp_Model Interp_Spec II_Model II_Spec II_Proofs II_Pad II_Size II_Half.
Open Scope R_scope.

(** * Roots of unity *)
Definition tw (N m : Z) : C := expi (- (2 * PI * (IZR m / IZR N))).
Lemma expi_add : forall a b, expi (a + b) = Cmult (expi a) (expi b).
Proof. intros. unfold expi, Cmult. cbn [fst snd]. rewrite cos_plus, sin_plus. f_equal; ring. Qed.
Lemma expi_0 : expi 0 = RtoC 1. Proof. unfold expi. rewrite cos_0, sin_0. reflexivity. Qed.
Lemma expi_neg : forall t, expi (- t) = (cos t, - sin t). Proof. intro. unfold expi. now rewrite cos_neg, sin_neg. Qed.
Lemma expi_conj : forall t, Cconj (expi t) = expi (- t). Proof. intro. rewrite expi_neg. reflexivity. Qed.
Lemma expi_2PI : forall t, expi (t - 2 * PI) = expi t.
Proof. intro t. unfold expi. rewrite cos_minus, sin_minus, cos_2PI, sin_2PI. f_equal; ring. Qed.
Lemma tw_add : forall N a b, tw N (a + b) = Cmult (tw N a) (tw N b).
Proof. intros. unfold tw. rewrite <- expi_add. f_equal. rewrite plus_IZR. unfold Rdiv. ring. Qed.
Lemma tw_0 : forall N, tw N 0 = RtoC 1. Proof. intro. unfold tw. rewrite <- expi_0. f_equal. unfold Rdiv. ring. Qed.
Lemma tw_shift : forall N m, (0 < N)%Z -> tw N (m + N) = tw N m.
Proof.
  intros N m H. unfold tw. rewrite <- (expi_2PI (- (2 * PI * (IZR m / IZR N)))). f_equal. rewrite plus_IZR. field. apply not_0_IZR. lia.
Qed.
Lemma tw_mod : forall N a b, (0 < N)%Z -> (a mod N = b mod N)%Z -> tw N a = tw N b.
Proof.
  intros N a b H E. rewrite (Z.div_mod a N), (Z.div_mod b N) by lia. rewrite E. set (m := (b mod N)%Z).
  rewrite (Z.add_comm (N * _)), (Z.add_comm (N * (b / N))). rewrite (Z.mul_comm N), (Z.mul_comm N (b / N)).
  rewrite !(periodic N (tw N)) by (intro; now apply tw_shift). reflexivity.
Qed.
Lemma tw_neg : forall N m, expi (2 * PI * (IZR m / IZR N)) = tw N (- m).
Proof. intros. unfold tw. f_equal. rewrite opp_IZR. unfold Rdiv. ring. Qed.
Lemma tw_conj : forall N m, Cconj (tw N m) = tw N (- m).
Proof. intros. rewrite <- tw_neg. unfold tw. rewrite expi_conj. f_equal. ring. Qed.
Lemma tw_one : forall N m, (0 < N)%Z -> tw N m = RtoC 1 -> (m mod N = 0)%Z.
Proof.
  intros N m H E. rewrite (tw_mod N m (m mod N)) in E by (try lia; now rewrite Z.mod_mod by lia).
  pose proof (Z.mod_pos_bound m N H) as B. set (r := (m mod N)%Z) in *. clearbody r.
  destruct (Z.eq_dec r 0) as [e|ne]; [exact e|]. exfalso. unfold tw, expi in E. apply (f_equal fst) in E. cbn [fst RtoC] in E. rewrite cos_neg in E.
  replace (2 * PI * (IZR r / IZR N)) with (2 * (PI * (IZR r / IZR N))) in E by ring. rewrite cos_2a_sin in E.
  assert (0 < IZR N) by (apply IZR_lt; lia). assert (0 < IZR r) by (apply IZR_lt; lia). assert (IZR r < IZR N) by (apply IZR_lt; lia).
  assert (0 < IZR r / IZR N) by (apply Rdiv_lt_0_compat; assumption).
  assert (IZR r / IZR N < 1) by (apply Rmult_lt_reg_r with (IZR N); [assumption|]; replace (IZR r / IZR N * IZR N) with (IZR r) by (field; lra); lra).
  pose proof PI_RGT_0. assert (P : 0 < sin (PI * (IZR r / IZR N))).
  { apply sin_gt_0; [apply Rmult_lt_0_compat; assumption|]. rewrite <- (Rmult_1_r PI) at 2. apply Rmult_lt_compat_l; assumption. }
  nra.
Qed.

(** * Complex sums *)
Ltac cring := match goal with |- ?a = ?b => change (@eq C a b) end; ring.
Lemma csum_mul : forall n c f, csum n (fun i => Cmult c (f i)) = Cmult c (csum n f).
Proof.
  intros n c f. unfold csum, zsum. induction (Z.to_nat n) as [|k IH]; cbn [nsum]; [cring|]. rewrite IH. cring.
Qed.
Lemma csum_Re : forall n f, Re (csum n f) = rsum n (fun i => Re (f i)).
Proof. intros n f. unfold csum, rsum, zsum. induction (Z.to_nat n) as [|k IH]; cbn [nsum]; [reflexivity|]. rewrite <- IH. reflexivity. Qed.
Lemma csum_conj : forall n f, Cconj (csum n f) = csum n (fun i => Cconj (f i)).
Proof.
  intros n f. unfold csum, zsum. induction (Z.to_nat n) as [|k IH]; cbn [nsum].
  - unfold Cconj. apply injective_projections; cbn; ring.
  - rewrite <- IH. unfold Cconj, Cplus. apply injective_projections; cbn [fst snd]; ring.
Qed.
Lemma csum_swap : forall n m f, csum n (fun i => csum m (fun j => f i j)) = csum m (fun j => csum n (fun i => f i j)).
Proof. intros. apply (zsum_swap C Cplus (RtoC 0) Cplus_comm' Cplus_as Cplus_z). Qed.
Lemma csum_cyclic : forall n q f, (0 < n)%Z -> csum n (fun k => f ((q + k) mod n)%Z) = csum n f.
Proof. intros. now apply (zsum_cyclic C Cplus (RtoC 0) Cplus_comm' Cplus_as Cplus_z). Qed.
Lemma csum_const : forall n c, (0 <= n)%Z -> csum n (fun _ => c) = Cmult (RtoC (IZR n)) c.
Proof.
  intros n c H. unfold csum, zsum. replace (RtoC (IZR n)) with (RtoC (INR (Z.to_nat n))) by (rewrite INR_IZR_INZ, Z2Nat.id by lia; reflexivity).
  induction (Z.to_nat n) as [|k IH]; cbn [nsum]; [cbn; cring|]. rewrite IH, S_INR, RtoC_plus. cring.
Qed.
Lemma Cmult_integral : forall a b : C, Cmult a b = RtoC 0 -> a = RtoC 0 \/ b = RtoC 0.
Proof.
  intros a b H. destruct (Ceq_dec a (RtoC 0)) as [e|ne]; [now left|]. right.
  replace b with (Cmult (Cmult (Cinv a) a) b) by (rewrite Cinv_l by exact ne; cring). rewrite <- Cmult_assoc, H. cring.
Qed.
(** Orthogonality *)
Lemma orthogonal : forall N m, (0 < N)%Z -> csum N (fun k => tw N (k * m)) = if (m mod N =? 0)%Z then RtoC (IZR N) else RtoC 0.
Proof.
  intros N m H. destruct (Z.eqb_spec (m mod N) 0) as [e|ne].
  - transitivity (csum N (fun _ => RtoC 1)).
    + apply zsum_ext. intros k Hk. rewrite (tw_mod N (k * m) 0); [apply tw_0|exact H|]. rewrite <- Z.mul_mod_idemp_r, e, Z.mul_0_r by lia. reflexivity.
    + rewrite csum_const by lia. cring.
  - set (s := csum N (fun k => tw N (k * m))).
    assert (E : Cmult (tw N m) s = s).
    { unfold s. rewrite <- csum_mul. rewrite <- (csum_cyclic N 1 (fun k => tw N (k * m)) H). apply zsum_ext. intros k Hk.
      rewrite <- tw_add. apply tw_mod; [exact H|]. rewrite <- Z.add_mod_idemp_l by lia. rewrite Z.mul_mod_idemp_l by lia. rewrite Z.add_mod_idemp_l by lia. f_equal. lia. }
    assert (E' : Cmult (Cminus (tw N m) (RtoC 1)) s = RtoC 0) by (replace (Cmult (Cminus (tw N m) (RtoC 1)) s) with (Cminus (Cmult (tw N m) s) s) by cring; rewrite E; cring).
    apply Cmult_integral in E'. destruct E' as [E'|E']; [|exact E']. exfalso. apply ne. apply tw_one; [exact H|].
    replace (tw N m) with (Cplus (Cminus (tw N m) (RtoC 1)) (RtoC 1)) by cring. rewrite E'. cring.
Qed.

(** * The forward transform *)
Definition window (im : rimg) (h : Z) : Prop := rx im = (- h)%Z /\ ry im = (- h)%Z /\ nrow (ra im) = (2 * h)%Z /\ ncol (ra im) = (2 * h)%Z.
Lemma No2_pos : forall im, nonempty im -> (1 <= fft_No2 im)%Z.
Proof. intros im N. unfold nonempty, fft_No2 in *. lia. Qed.
Lemma padded_window : forall im, nonempty im -> exists o, fft_padded im = Ok o /\ window o (fft_No2 im) /\ forall x y, pixel o x y = pixel im x y.
Proof.
  intros im N. pose proof (No2_pos im N). unfold fft_padded. cbv zeta. ifs E; [exists im; unfold window; repeat split; lia|].
  destruct (set_sub_ok (RImg (aconst (2 * fft_No2 im) (2 * fft_No2 im) 0) (- fft_No2 im) (- fft_No2 im)) im N) as (o & Eo & So & Po).
  - cbn [ra rx ry nrow ncol aconst]. unfold fft_No2. lia.
  - exists o. split; [exact Eo|]. destruct So as (A & B & D & F). cbn [ra rx ry nrow ncol aconst] in *. split; [unfold window; auto|].
    intros x y. rewrite Po. destruct (has_dec im x y) as [h|h]; [reflexivity|]. rewrite (pixel_out im) by exact h. unfold pixel. ifs Q; reflexivity.
Qed.
(** The sum of one plane, with roots of unity *)
Lemma fourier_window : forall o h dx (c k : Z), window o h -> (1 <= h)%Z -> dx <> 0 ->
  fourier_sum o dx (IZR c * (PI / (IZR h * dx))) (IZR k * (PI / (IZR h * dx))) =
  csum (2 * h) (fun i => csum (2 * h) (fun j => Cmult (RtoC (elt (ra o) i j)) (tw (2 * h) (k * (i - h) + c * (j - h))))).
Proof.
  intros o h dx c k (A & B & D & E) H X. unfold fourier_sum, over_pixels. rewrite D, E. apply zsum_ext. intros i Hi. apply zsum_ext. intros j Hj. cbv zeta.
  f_equal. rewrite <- expi_neg. unfold tw. f_equal. rewrite A, B, !plus_IZR, !mult_IZR, !minus_IZR, opp_IZR. field. split; [apply not_0_IZR; lia|exact X].
Qed.
Lemma shifted_sum : forall o h (c k : Z), window o h -> (1 <= h)%Z -> (0 <= c <= h)%Z ->
  elt (rfft2 (fftshift (ra o))) k c =
  csum (2 * h) (fun i => csum (2 * h) (fun j => Cmult (RtoC (elt (ra o) i j)) (tw (2 * h) (k * (i - h) + c * (j - h))))).
Proof.
  intros o h c k (A & B & D & E) H Hc. unfold rfft2, fftshift. unfold aroll at 1. cbn [elt nrow ncol]. unfold aroll. cbn [nrow ncol elt]. rewrite D, E.
  replace (2 * h / 2)%Z with h by (rewrite Z.mul_comm, Z.div_mul; lia).
  set (f := fun i => csum (2 * h) (fun j => Cmult (RtoC (elt (ra o) i j)) (tw (2 * h) (k * (i - h) + c * (j - h))))).
  rewrite <- (csum_cyclic (2 * h) (- h) f) by lia. apply zsum_ext. intros i Hi. unfold f.
  replace (i - h)%Z with (- h + i)%Z by lia. set (i' := ((- h + i) mod (2 * h))%Z).
  set (g := fun j => Cmult (RtoC (elt (ra o) i' j)) (tw (2 * h) (k * (i' - h) + c * (j - h)))).
  rewrite <- (csum_cyclic (2 * h) (- h) g) by lia. apply zsum_ext. intros j Hj. unfold g. replace (j - h)%Z with (- h + j)%Z by lia.
  set (j' := ((- h + j) mod (2 * h))%Z). f_equal.
  transitivity (tw (2 * h) (k * i + c * j)).
  - unfold tw. f_equal. rewrite plus_IZR. field. apply not_0_IZR. lia.
  - apply tw_mod; [lia|]. pose proof (Z.mod_eq (- h + i) (2 * h) ltac:(lia)) as Ei. pose proof (Z.mod_eq (- h + j) (2 * h) ltac:(lia)) as Ej.
    fold i' in Ei. fold j' in Ej. set (q := ((- h + i) / (2 * h))%Z) in *. set (q' := ((- h + j) / (2 * h))%Z) in *. clearbody i' j' q q'. rewrite Ei, Ej.
    replace (k * (- h + i - 2 * h * q - h) + c * (- h + j - 2 * h * q' - h))%Z with (k * i + c * j + (- (k * (1 + q)) - c * (1 + q')) * (2 * h))%Z by ring.
    now rewrite Z.mod_add by lia.
Qed.
(** The array of calculate_fft, row by row *)
Lemma fft_is_sum : forall im dx, nonempty im -> dx <> 0 -> exists k, calculate_fft im dx = Ok k /\
  kscale k = PI / (IZR (fft_No2 im) * dx) /\ kx0 k = 0%Z /\ ky0 k = (- fft_No2 im)%Z /\ nrow (ka k) = (2 * fft_No2 im)%Z /\ ncol (ka k) = (fft_No2 im + 1)%Z /\
  forall r c, (0 <= r < 2 * fft_No2 im)%Z -> (0 <= c <= fft_No2 im)%Z ->
    elt (ka k) r c = Cmult (RtoC (dx * dx)) (fourier_sum im dx (IZR c * kscale k) (IZR (r - fft_No2 im) * kscale k)).
Proof.
  intros im dx N X. pose proof (No2_pos im N) as H. destruct (padded_window im N) as (o & Eo & W & P). unfold calculate_fft. cbv zeta. rewrite Eo. cbn [bind].
  assert (Se : forall kx ky, fourier_sum o dx kx ky = fourier_sum im dx kx ky).
  { intros kx ky. apply (over_any C Cplus (RtoC 0) Cplus_comm' Cplus_as Cplus_z); [|exact N|exact P|].
    - destruct W as (_ & _ & A & B). unfold nonempty. lia.
    - intros x y. cbv zeta. cring. }
  set (h := fft_No2 im) in *. destruct W as (A & B & D & E). assert (W : window o h) by (unfold window; auto).
  eexists. split; [reflexivity|]. cbn [kscale kx0 ky0 ka]. split; [reflexivity|]. split; [reflexivity|]. split; [reflexivity|].
  assert (Hh : (2 * h / 2 = h)%Z) by (rewrite Z.mul_comm, Z.div_mul; lia).
  split; [exact D|]. split; [cbn; rewrite E, Hh; reflexivity|]. intros r c Hr Hc.
  rewrite <- Se. rewrite fourier_window by assumption.
  change (elt (amap (fun v => Cmult v (RtoC (dx * dx))) (fftshift0 (rfft2 (fftshift (ra o))))) r c) with
    (Cmult (elt (rfft2 (fftshift (ra o))) ((r - nrow (ra o) / 2) mod nrow (ra o))%Z ((c - 0) mod (ncol (ra o) / 2 + 1))%Z) (RtoC (dx * dx))).
  rewrite D, E, Hh.
  rewrite Z.sub_0_r. rewrite (Z.mod_small c) by lia. rewrite (shifted_sum o h) by assumption. rewrite Cmult_comm. f_equal.
  apply zsum_ext. intros i Hi. apply zsum_ext. intros j Hj. f_equal. apply tw_mod; [lia|].
  rewrite <- Z.add_mod_idemp_l by lia. rewrite Z.mul_mod_idemp_l by lia. rewrite Z.add_mod_idemp_l by lia. reflexivity.
Qed.
