(** drawFFT of an exponential profile, at points and averaged over pixels. *)
From Coq Require Import ZArith Reals Bool Lra Lia.
From Coquelicot Require Import Coquelicot.
From Verif Require Import Base MSum Array_Model Bounds_Model Bounds_Spec Bounds_Proofs Wrap_Model Wrap_Spec Image_Model Image_Spec Image_Proofs FFT_Model FFT_Spec FFT_Proofs II_Model II_Proofs II_DFT II_Inv GSP_Model Sky_Model Size_Model Size_FT DrawF_Model DrawF_Sum DrawF_Spec DrawF_Poisson DrawF_Gauss DrawF_Main DrawE_Spec DrawE_Model DrawE_Sum DrawE_Mix DrawE_Main.
Open Scope R_scope.
Local Ltac req := match goal with |- ?a = ?b => change (@eq R a b) end.

(** * Averages of a Fourier sum *)
Lemma cos_avg : forall k b c x, 0 < c -> is_RInt (fun u => cos (k * u + b)) (x - c / 2) (x + c / 2) (c * sinc (k * (c / (2 * PI))) * cos (k * x + b)).
Proof.
  intros k b c x CP. apply (is_RInt_ext (fun u => scal 1 ((fun z => cos (k * z + (k * x + b))) (1 * u + - x)))); [intros u _; unfold scal; cbn; unfold mult; cbn; rewrite Rmult_1_l; f_equal; ring|].
  apply (is_RInt_comp_lin (fun z => cos (k * z + (k * x + b))) 1 (- x)). replace (1 * (x - c / 2) + - x) with (- (c / 2)) by ring. replace (1 * (x + c / 2) + - x) with (c / 2) by ring. apply rint_cos, CP.
Qed.
Section Avg.
  Variables (a : R * R -> R) (dk : R) (m : Z) (c x y : R).
  Hypothesis CP : 0 < c.
  Let sc (k : R) : R := sinc (k * (c / (2 * PI))).
  Lemma avg_in : forall v, is_RInt (fun u => inverse_sum (fun k => RtoC (a k)) dk m u v) (x - c / 2) (x + c / 2) (c * inverse_sum (fun k => RtoC (a k * sc (fst k))) dk m x v).
  Proof using CP.
    intro v. rewrite (real_sum (fun k => a k * sc (fst k))).
    apply (is_RInt_ext (fun u => scal ((dk / (2 * PI)) ^ 2) (rsum (2 * m + 1) (fun i => rsum (2 * m + 1) (fun j => a (IZR (j - m) * dk, IZR (i - m) * dk) * cos (IZR (j - m) * dk * u + IZR (i - m) * dk * v)))))); [intros u _; rewrite (real_sum a); reflexivity|].
    match goal with |- is_RInt _ _ _ (c * (?p * rsum ?n ?f)) => replace (c * (p * rsum n f)) with (scal p (rsum n (fun i => rsum n (fun j => c * (a (IZR (j - m) * dk, IZR (i - m) * dk) * sc (IZR (j - m) * dk) * cos (IZR (j - m) * dk * x + IZR (i - m) * dk * v)))))) end.
    2:{ match goal with |- scal ?p ?q = _ => change (scal p q) with (p * q) end. rewrite (Rmult_comm c), Rmult_assoc. f_equal. rewrite (Rmult_comm _ c). rewrite <- rsum_scale. apply rsum_ext. intros i _. apply rsum_scale. }
    apply (is_RInt_scal (fun u => rsum (2 * m + 1) (fun i => rsum (2 * m + 1) (fun j => a (IZR (j - m) * dk, IZR (i - m) * dk) * cos (IZR (j - m) * dk * u + IZR (i - m) * dk * v))))).
    apply (rsum_int _ (fun u i => rsum (2 * m + 1) (fun j => a (IZR (j - m) * dk, IZR (i - m) * dk) * cos (IZR (j - m) * dk * u + IZR (i - m) * dk * v)))). intro i. apply (rsum_int _ (fun u j => a (IZR (j - m) * dk, IZR (i - m) * dk) * cos (IZR (j - m) * dk * u + IZR (i - m) * dk * v))). intro j.
    set (k1 := IZR (j - m) * dk). set (k2 := IZR (i - m) * dk). replace (c * (a (k1, k2) * sc k1 * cos (k1 * x + k2 * v))) with (scal (a (k1, k2)) (c * sc k1 * cos (k1 * x + k2 * v))) by (unfold scal; cbn; unfold mult; cbn; req; ring). apply (is_RInt_scal (fun u => cos (k1 * u + k2 * v))). apply cos_avg, CP.
  Qed.
  Lemma avg_out : forall u, is_RInt (fun v => inverse_sum (fun k => RtoC (a k)) dk m u v) (y - c / 2) (y + c / 2) (c * inverse_sum (fun k => RtoC (a k * sc (snd k))) dk m u y).
  Proof using CP.
    intro u. rewrite (real_sum (fun k => a k * sc (snd k))).
    apply (is_RInt_ext (fun v => scal ((dk / (2 * PI)) ^ 2) (rsum (2 * m + 1) (fun i => rsum (2 * m + 1) (fun j => a (IZR (j - m) * dk, IZR (i - m) * dk) * cos (IZR (j - m) * dk * u + IZR (i - m) * dk * v)))))); [intros v _; rewrite (real_sum a); reflexivity|].
    match goal with |- is_RInt _ _ _ (c * (?p * rsum ?n ?f)) => replace (c * (p * rsum n f)) with (scal p (rsum n (fun i => rsum n (fun j => c * (a (IZR (j - m) * dk, IZR (i - m) * dk) * sc (IZR (i - m) * dk) * cos (IZR (j - m) * dk * u + IZR (i - m) * dk * y)))))) end.
    2:{ match goal with |- scal ?p ?q = _ => change (scal p q) with (p * q) end. rewrite (Rmult_comm c), Rmult_assoc. f_equal. rewrite (Rmult_comm _ c). rewrite <- rsum_scale. apply rsum_ext. intros i _. apply rsum_scale. }
    apply (is_RInt_scal (fun v => rsum (2 * m + 1) (fun i => rsum (2 * m + 1) (fun j => a (IZR (j - m) * dk, IZR (i - m) * dk) * cos (IZR (j - m) * dk * u + IZR (i - m) * dk * v))))).
    apply (rsum_int _ (fun v i => rsum (2 * m + 1) (fun j => a (IZR (j - m) * dk, IZR (i - m) * dk) * cos (IZR (j - m) * dk * u + IZR (i - m) * dk * v)))). intro i. apply (rsum_int _ (fun v j => a (IZR (j - m) * dk, IZR (i - m) * dk) * cos (IZR (j - m) * dk * u + IZR (i - m) * dk * v))). intro j.
    set (k1 := IZR (j - m) * dk). set (k2 := IZR (i - m) * dk). replace (c * (a (k1, k2) * sc k2 * cos (k1 * u + k2 * y))) with (scal (a (k1, k2)) (c * sc k2 * cos (k2 * y + k1 * u))) by (rewrite (Rplus_comm (k2 * y)); unfold scal; cbn; unfold mult; cbn; req; ring). apply (is_RInt_scal (fun v => cos (k1 * u + k2 * v))). apply (is_RInt_ext (fun v => cos (k2 * v + k1 * u))); [intros v _; f_equal; ring|]. apply cos_avg, CP.
  Qed.
End Avg.
Lemma avg_sum : forall a dk m c x y, 0 < c -> is_RInt (fun v => RInt (fun u => inverse_sum (fun k => RtoC (a k)) dk m u v) (x - c / 2) (x + c / 2)) (y - c / 2) (y + c / 2)
  (c ^ 2 * inverse_sum (fun k => RtoC (a k * (sinc (fst k * (c / (2 * PI))) * sinc (snd k * (c / (2 * PI)))))) dk m x y).
Proof.
  intros a dk m c x y CP. set (b := fun k : R * R => a k * sinc (fst k * (c / (2 * PI)))).
  apply (is_RInt_ext (fun v => scal c (inverse_sum (fun k => RtoC (b k)) dk m x v))); [intros v _; symmetry; apply is_RInt_unique; apply (avg_in a dk m c x CP)|].
  replace (c ^ 2 * inverse_sum (fun k => RtoC (a k * (sinc (fst k * (c / (2 * PI))) * sinc (snd k * (c / (2 * PI)))))) dk m x y) with (scal c (c * inverse_sum (fun k => RtoC (b k * sinc (snd k * (c / (2 * PI))))) dk m x y)).
  - apply (is_RInt_scal (fun v => inverse_sum (fun k => RtoC (b k)) dk m x v)). apply (avg_out b dk m c y CP).
  - match goal with |- scal ?p ?q = _ => change (scal p q) with (p * q) end. replace (c ^ 2) with (c * c) by ring. rewrite Rmult_assoc. do 2 f_equal. rewrite !real_sum. f_equal. apply rsum_ext. intros i _. apply rsum_ext. intros j _. unfold b. cbn [fst snd]. ring.
Qed.

(** * The profile is Lipschitz *)
Lemma root_lip : forall x y z, Rabs (sqrt (x ^ 2 + y ^ 2) - sqrt (x ^ 2 + z ^ 2)) <= Rabs (y - z).
Proof.
  intros x y z. set (p := sqrt (x ^ 2 + y ^ 2)). set (q := sqrt (x ^ 2 + z ^ 2)). assert (PP : p * p = x ^ 2 + y ^ 2) by (apply sqrt_sqrt; nra). assert (QQ : q * q = x ^ 2 + z ^ 2) by (apply sqrt_sqrt; nra). assert (P0 : 0 <= p) by apply sqrt_pos. assert (Q0 : 0 <= q) by apply sqrt_pos.
  assert (PY : Rabs y <= p) by (rewrite <- (sqrt_Rsqr_abs y); apply sqrt_le_1_alt; unfold Rsqr; nra). assert (QZ : Rabs z <= q) by (rewrite <- (sqrt_Rsqr_abs z); apply sqrt_le_1_alt; unfold Rsqr; nra).
  destruct (Req_dec (p + q) 0) as [E|E]; [replace p with 0 by lra; replace q with 0 by lra; rewrite Rminus_0_r, Rabs_R0; apply Rabs_pos|]. assert (S0 : 0 < p + q) by lra.
  apply (Rmult_le_reg_r (p + q)); [exact S0|]. rewrite <- (Rabs_pos_eq (p + q)) at 1 by lra. rewrite <- Rabs_mult. replace ((p - q) * (p + q)) with ((y - z) * (y + z)) by (replace ((p - q) * (p + q)) with (p * p - q * q) by ring; rewrite PP, QQ; ring). rewrite Rabs_mult. apply Rmult_le_compat_l; [apply Rabs_pos|]. eapply Rle_trans; [apply Rabs_triang|lra].
Qed.
Lemma exp_lip : forall p q, 0 <= p -> 0 <= q -> Rabs (exp (- p) - exp (- q)) <= Rabs (p - q).
Proof.
  assert (W : forall p q, 0 <= p -> p <= q -> Rabs (exp (- p) - exp (- q)) <= Rabs (p - q)).
  { intros p q P Q. rewrite (Rabs_minus_sym p q), (Rabs_pos_eq (q - p)) by lra. assert (E : exp (- q) = exp (- p) * exp (- (q - p))) by (rewrite <- exp_plus; f_equal; ring). pose proof (exp_ineq1_le (- (q - p))) as I. assert (E1 : exp (- p) <= 1) by (rewrite <- exp_0; apply exp_le_of; lra). pose proof (exp_pos (- p)) as E0. assert (exp (- (q - p)) <= 1) by (rewrite <- exp_0; apply exp_le_of; lra).
    rewrite E. replace (exp (- p) - exp (- p) * exp (- (q - p))) with (exp (- p) * (1 - exp (- (q - p)))) by ring. rewrite Rabs_pos_eq by (apply Rmult_le_pos; lra). apply Rle_trans with (1 * (q - p)); [apply Rmult_le_compat; lra|lra]. }
  intros p q P Q. destruct (Rle_dec p q) as [L|L]; [apply W; assumption|]. rewrite (Rabs_minus_sym p q), Rabs_minus_sym. apply W; lra.
Qed.
Lemma lip_cont : forall (f : R -> R) K, (forall y z, Rabs (f y - f z) <= K * Rabs (y - z)) -> forall y, continuous f y.
Proof.
  intros f K L y. apply continuity_pt_filterlim. intros eps E. assert (K0 : 0 <= Rabs K) by apply Rabs_pos. exists (eps / (Rabs K + 1)). split; [apply Rdiv_lt_0_compat; lra|]. intros z [_ D]. unfold dist in *. cbn in *. unfold R_dist in *.
  eapply Rle_lt_trans; [apply L|]. apply Rle_lt_trans with (Rabs K * Rabs (z - y)); [apply Rmult_le_compat_r; [apply Rabs_pos|apply Rle_abs]|]. pose proof (Rabs_pos (z - y)). apply Rle_lt_trans with ((Rabs K + 1) * Rabs (z - y)); [nra|]. replace eps with ((Rabs K + 1) * (eps / (Rabs K + 1))) by (field; lra). apply Rmult_lt_compat_l; lra.
Qed.
Section Lip.
  Variables F r0 : R.
  Hypothesis RP : 0 < r0.
  Let KL : R := Rabs (F / (2 * PI * r0 ^ 2)) / r0.
  Lemma dens_y : forall x y z, Rabs (expo_density F r0 x y - expo_density F r0 x z) <= KL * Rabs (y - z).
  Proof using RP.
    intros x y z. unfold expo_density. rewrite <- Rmult_minus_distr_l, Rabs_mult. unfold KL. set (A := Rabs (F / (2 * PI * r0 ^ 2))). replace (A / r0 * Rabs (y - z)) with (A * (/ r0 * Rabs (y - z))) by (field; lra). apply Rmult_le_compat_l; [apply Rabs_pos|]. assert (I : 0 < / r0) by (apply Rinv_0_lt_compat; exact RP).
    eapply Rle_trans; [apply exp_lip; apply Rdiv_le_0_compat; try apply sqrt_pos; exact RP|]. unfold Rdiv. rewrite <- Rmult_minus_distr_r, Rabs_mult, (Rabs_pos_eq (/ r0)) by lra. rewrite Rmult_comm. apply Rmult_le_compat_l; [lra|]. apply root_lip.
  Qed.
  Lemma dens_sym : forall x y, expo_density F r0 x y = expo_density F r0 y x.
  Proof using Type. intros x y. unfold expo_density. rewrite (Rplus_comm (x ^ 2)). reflexivity. Qed.
  Lemma dens_cx : forall y x, continuous (fun u => expo_density F r0 u y) x.
  Proof using RP. intro y. apply (lip_cont _ KL). intros u v. rewrite (dens_sym u), (dens_sym v). apply dens_y. Qed.
  Lemma dens_xi : forall y a b, ex_RInt (fun u => expo_density F r0 u y) a b.
  Proof using RP. intros y a b. apply (@ex_RInt_continuous R_CompleteNormedModule). intros u _. apply dens_cx. Qed.
  Lemma dens_ci : forall a b y, a <= b -> continuous (fun v => RInt (fun u => expo_density F r0 u v) a b) y.
  Proof using RP.
    intros a b y AB. apply (lip_cont _ ((b - a) * KL)). clear y. intros y z. pose proof (RInt_minus _ _ _ _ (dens_xi y a b) (dens_xi z a b)) as E. match goal with |- Rabs (?p - ?q) <= _ => change (p - q) with (minus p q) end. rewrite <- E. rewrite Rmult_assoc. apply (abs_RInt_le_const (fun u => minus (expo_density F r0 u y) (expo_density F r0 u z))); [exact AB|apply @ex_RInt_minus; apply dens_xi|]. intros u _. apply dens_y.
  Qed.
End Lip.

(** * drawFFT *)
Lemma ex_k_ck : forall p k, ex_kValue p k = ex_flux p * / ck (ex_r0 p) k ^ 3.
Proof.
  intros p k. unfold ex_kValue, norm2. set (c := ck (ex_r0 p) k). pose proof (ck_pos (ex_r0 p) k) as C. pose proof (ck_sq (ex_r0 p) k) as Q. fold c in C, Q. destruct k as [u v]. cbn [fst snd] in *.
  match goal with |- context [sqrt ?e] => replace e with (c * c) by (rewrite Q; ring) end. rewrite sqrt_square by lra. cbn [pow]. field. lra.
Qed.
Section Frame.
  Variables (minfft maxfft : Z) (maxk stepk scale : R) (im : image R bool unit) (kb : bnd Z) (N : Z) (dk : R).
  Hypothesis HB : okb (ibnd im).
  Hypothesis HC : centred (ibnd im).
  Hypothesis SC : 0 < scale.
  Hypothesis ST : 0 < stepk.
  Hypothesis MK : 0 < maxk.
  Hypothesis EV : Z.even minfft = true.
  Hypothesis NE : minfft <> maxfft.
  Hypothesis LT : (maxfft < 131072)%Z.
  Hypothesis FL : idt im = false.
  Hypothesis OK : makeKImage minfft maxfft maxk stepk scale (ibnd im) = Ok (kb, N, dk).
  (** as frame, for a transform that need not be separable *)
  Lemma frame2 : forall (a : R * R -> R), (forall u v, a (- u, - v) = a (u, v)) ->
    exists M r, drawFFT minfft maxfft (fun k => RtoC (a k)) maxk stepk scale im = Ok r /\ eqI (ibnd r) (ibnd im) = true /\ 0 < dk /\ reach stepk <= PI / dk /\ maxk <= INR M * dk /\
      forall x y, includesI (ibnd im) x y = true -> getValue r x y = Ok (scale ^ 2 * inverse_sum (fun k => RtoC (a k)) dk (Z.of_nat M) (IZR x * scale) (IZR y * scale)) /\ Rabs (IZR x * scale) <= PI / dk /\ Rabs (IZR y * scale) <= PI / dk.
  Proof using EV FL HB HC LT NE OK SC ST.
    intros a AE. pose proof PI_RGT_0 as PP.
    assert (HK : hermitian (fun k => RtoC (a k))). { intros kx ky. rewrite AE. unfold Cconj, RtoC. cbn [fst snd]. rewrite Ropp_0. reflexivity. }
    destruct (drawFFT_sum minfft maxfft (fun k => RtoC (a k)) maxk stepk scale im kb N dk HK HB HC SC ST EV NE LT OK) as (M & r & D1 & D2 & D3 & D4 & D5 & D6 & D7 & D8 & D9).
    destruct (getGoodImageSize_ge scale stepk SC ST) as [GS _]. apply IZR_le in D5. assert (NS : 0 < IZR N * scale). { apply Rmult_lt_0_compat; [|exact SC]. assert (0 < 2 * PI / (scale * stepk) * (1 - / 1000000000000)); [|lra]. apply Rmult_lt_0_compat; [apply Rdiv_lt_0_compat; [lra|apply Rmult_lt_0_compat; assumption]|lra]. }
    assert (DP : 0 < dk) by (apply (Rmult_lt_reg_r (IZR N * scale)); [exact NS|rewrite D4; lra]). assert (PD : PI / dk = IZR N * scale / 2) by (replace PI with (dk * (IZR N * scale) / 2) by lra; field; lra).
    exists (Z.to_nat M), r. split; [exact D1|]. split; [exact D2|]. split; [exact DP|]. split.
    - rewrite PD. unfold reach. assert (Q : 2 * PI / (scale * stepk) * (1 - / 1000000000000) * scale <= IZR N * scale) by (apply Rmult_le_compat_r; lra). replace (2 * PI / (scale * stepk) * (1 - / 1000000000000) * scale) with (2 * (PI / stepk * (1 - / 1000000000000))) in Q by (field; lra). lra.
    - split; [rewrite INR_IZR_INZ, Z2Nat.id by lia; exact D8|].
      intros x y I. rewrite (D9 x y I). split.
      + f_equal. rewrite FL. cbn [rcast Tr]. rewrite Z2Nat.id by lia. reflexivity.
      + destruct (in_period _ _ _ _ D6 I) as [X Y]. rewrite !Rabs_mult, (Rabs_pos_eq scale), PD by lra. split; nra.
  Qed.
  Lemma RPos : 0 < reach stepk. Proof using ST. unfold reach. pose proof PI_RGT_0. apply Rmult_lt_0_compat; [apply Rdiv_lt_0_compat; lra|lra]. Qed.
  Definition ferr (p : exponential) (d : R) : R := expo_fold ((reach stepk - d) / ex_r0 p) + expo_cut (maxk * ex_r0 p).
  Lemma ex_even : forall p u v, ex_kValue p (- u, - v) = ex_kValue p (u, v).
  Proof using Type. intros p u v. unfold ex_kValue, norm2. cbn [fst snd]. replace (- u * - u) with (u * u) by ring. replace (- v * - v) with (v * v) by ring. reflexivity. Qed.
  Lemma inv_ext : forall (a b : R * R -> R) m x y, (forall k, a k = b k) -> inverse_sum (fun k => RtoC (a k)) dk m x y = inverse_sum (fun k => RtoC (b k)) dk m x y.
  Proof using Type. intros a b m x y E. rewrite !real_sum. f_equal. apply rsum_ext. intros i _. apply rsum_ext. intros j _. rewrite E. reflexivity. Qed.
  Lemma peak_abs : forall p, 0 < ex_r0 p -> Rabs (expo_density (ex_flux p) (ex_r0 p) 0 0) = Rabs (ex_flux p) * pk (ex_r0 p).
  Proof using Type.
    intros p RP. unfold expo_density. replace (sqrt (0 ^ 2 + 0 ^ 2)) with 0 by (replace (0 ^ 2 + 0 ^ 2) with 0 by ring; symmetry; apply sqrt_0). replace (- (0 / ex_r0 p)) with 0 by (unfold Rdiv; ring). rewrite exp_0, Rmult_1_r. unfold Rdiv. rewrite Rabs_mult. f_equal. pose proof (pk_pos (ex_r0 p) RP) as Q. unfold pk, Rdiv in *. rewrite Rmult_1_l in *. apply Rabs_pos_eq. lra.
  Qed.
  Lemma expo_near : forall p M d x y, 0 < ex_r0 p -> 0 < dk -> reach stepk <= PI / dk -> maxk <= INR M * dk -> 0 <= d -> d < reach stepk -> Rabs x <= PI / dk + d -> Rabs y <= PI / dk + d ->
    Rabs (inverse_sum (fun k => RtoC (ex_kValue p k)) dk (Z.of_nat M) x y - expo_density (ex_flux p) (ex_r0 p) x y) <= Rabs (expo_density (ex_flux p) (ex_r0 p) 0 0) * ferr p d.
  Proof using MK.
    intros p M d x y RP DK HL KM D0 DR X Y. rewrite peak_abs by exact RP. rewrite (inv_ext _ (fun k => ex_flux p * / ck (ex_r0 p) k ^ 3)) by (intro; apply ex_k_ck). unfold ferr.
    apply (expo_close (ex_r0 p) dk M (reach stepk - d) d (maxk * ex_r0 p) RP DK ltac:(lra) D0 ltac:(lra)); [apply Rmult_le_pos; lra| |exact X|exact Y]. rewrite <- Rmult_assoc. apply Rmult_le_compat_r; lra.
  Qed.
  Lemma expo_points : forall p, 0 < ex_r0 p -> exists r, drawFFT minfft maxfft (expo_kval p) maxk stepk scale im = Ok r /\ eqI (ibnd r) (ibnd im) = true /\
    forall x y, includesI (ibnd im) x y = true -> exists v, getValue r x y = Ok v /\
      Rabs (v - scale ^ 2 * expo_density (ex_flux p) (ex_r0 p) (IZR x * scale) (IZR y * scale)) <= scale ^ 2 * Rabs (expo_density (ex_flux p) (ex_r0 p) 0 0) * (expo_fold (reach stepk / ex_r0 p) + expo_cut (maxk * ex_r0 p)).
  Proof using EV FL HB HC LT MK NE OK SC ST.
    intros p RP. destruct (frame2 (ex_kValue p) (ex_even p)) as (M & r & D1 & D2 & D3 & D4 & D5 & D6). exists r. split; [exact D1|]. split; [exact D2|]. intros x y I. destruct (D6 x y I) as (V & X & Y). eexists. split; [exact V|].
    pose proof (expo_near p M 0 (IZR x * scale) (IZR y * scale) RP D3 D4 D5 ltac:(lra) RPos ltac:(lra) ltac:(lra)) as E. unfold ferr in E. rewrite Rminus_0_r in E. rewrite <- Rmult_minus_distr_l, Rabs_mult, (Rabs_pos_eq (scale ^ 2)) by (apply pow_le; lra). rewrite Rmult_assoc. apply Rmult_le_compat_l; [apply pow_le; lra|exact E].
  Qed.
  Lemma rint_near : forall (f g : R -> R) x c e, 0 < c -> ex_RInt f (x - c / 2) (x + c / 2) -> ex_RInt g (x - c / 2) (x + c / 2) -> (forall u, x - c / 2 <= u <= x + c / 2 -> Rabs (f u - g u) <= e) ->
    Rabs (RInt f (x - c / 2) (x + c / 2) - RInt g (x - c / 2) (x + c / 2)) <= c * e.
  Proof using Type.
    intros f g x c e CP XF XG B. match goal with |- Rabs (?p - ?q) <= _ => change (p - q) with (minus p q) end. rewrite <- (RInt_minus f g _ _ XF XG). replace (c * e) with ((x + c / 2 - (x - c / 2)) * e) by field. apply (abs_RInt_le_const (fun u => minus (f u) (g u))); [lra|apply @ex_RInt_minus; assumption|exact B].
  Qed.
  Lemma expo_pixels : forall p g, 0 < ex_r0 p -> scale / 2 < reach stepk -> exists r, drawFFT minfft maxfft (conv_pixel (expo_kval p) scale g) maxk stepk scale im = Ok r /\ eqI (ibnd r) (ibnd im) = true /\
    forall x y, includesI (ibnd im) x y = true -> exists v, getValue r x y = Ok v /\
      Rabs (v - expo_pixel (ex_flux p) (ex_r0 p) scale (IZR x * scale) (IZR y * scale)) <= scale ^ 2 * Rabs (expo_density (ex_flux p) (ex_r0 p) 0 0) * (expo_fold ((reach stepk - scale / 2) / ex_r0 p) + expo_cut (maxk * ex_r0 p)).
  Proof using EV FL HB HC LT MK NE OK SC ST.
    intros p g RP SH. set (a := fun k : R * R => ex_kValue p k * (sinc (fst k * (scale / (2 * PI))) * sinc (snd k * (scale / (2 * PI))))).
    destruct (frame2 a) as (M & r & D1 & D2 & D3 & D4 & D5 & D6).
    { intros u v. unfold a. rewrite ex_even. cbn [fst snd]. do 2 f_equal; (match goal with |- sinc (- ?k * ?q) = _ => replace (- k * q) with (- (k * q)) by ring end; apply sinc_even). }
    assert (KE : forall k, conv_pixel (expo_kval p) scale g k = RtoC (a k)). { intro k. unfold conv_pixel, expo_kval. rewrite <- RtoC_mult. f_equal. unfold bx_kValue, pixel_box, a. cbn [bx_width bx_height bx_flux]. ring. }
    exists r. split; [rewrite <- D1; unfold drawFFT; rewrite OK; cbn [bind]; f_equal; unfold drawK; f_equal; f_equal; apply FunctionalExtensionality.functional_extensionality; intro i; apply FunctionalExtensionality.functional_extensionality; intro j; apply KE|]. split; [exact D2|].
    intros x y I. destruct (D6 x y I) as (V & X & Y). eexists. split; [exact V|]. set (px := IZR x * scale) in *. set (py := IZR y * scale) in *. set (B := Rabs (expo_density (ex_flux p) (ex_r0 p) 0 0) * ferr p (scale / 2)).
    pose proof (avg_sum (ex_kValue p) dk (Z.of_nat M) scale px py SC) as AV. match type of AV with is_RInt ?f ?l ?u _ => change (is_RInt f l u (scale ^ 2 * inverse_sum (fun k => RtoC (a k)) dk (Z.of_nat M) px py)) in AV end. rewrite <- (is_RInt_unique _ _ _ _ AV). unfold expo_pixel.
    replace (scale ^ 2 * Rabs (expo_density (ex_flux p) (ex_r0 p) 0 0) * (expo_fold ((reach stepk - scale / 2) / ex_r0 p) + expo_cut (maxk * ex_r0 p))) with (scale * (scale * B)) by (unfold B, ferr; ring).
    apply rint_near; [exact SC|eexists; exact AV|apply (@ex_RInt_continuous R_CompleteNormedModule); intros; apply dens_ci; [exact RP|lra]|]. intros v VV.
    apply rint_near; [exact SC|eexists; apply (avg_in (ex_kValue p) dk (Z.of_nat M) scale px SC)|apply dens_xi, RP|]. intros u UU. apply Rabs_le_between in X, Y. apply expo_near; try assumption; try lra; apply Rabs_le; lra.
  Qed.
End Frame.
