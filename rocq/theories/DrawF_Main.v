(** drawFFT of a Gaussian and of a Gaussian convolved with the pixel. *)
From Coq Require Import ZArith Reals Bool Lra Lia.
From Coquelicot Require Import Coquelicot.
From Verif Require Import Base Array_Model Bounds_Model Bounds_Spec Bounds_Proofs MSum Wrap_Model Wrap_Spec Image_Model Image_Spec Image_Proofs FFT_Model FFT_Spec FFT_Proofs II_Model II_Proofs II_DFT II_Inv GSP_Model Sky_Model Size_Model Size_FT DrawF_Model DrawF_Spec DrawF_Sum DrawF_Poisson DrawF_Gauss.
Open Scope R_scope.
Local Ltac req := match goal with |- ?a = ?b => change (@eq R a b) end.

(** * Sums over |j| <= M *)
Lemma csum_pair : forall n (u v : Z -> R), csum n (fun i => (u i, v i) : C) = (rsum n u, rsum n v).
Proof.
  intros n u v. unfold csum, rsum, zsum. induction (Z.to_nat n) as [|m IH]; [reflexivity|]. cbn [nsum]. rewrite IH. reflexivity.
Qed.
Lemma ctr : forall (f : Z -> R) M, rsum (2 * Z.of_nat M + 1) (fun j => f (j - Z.of_nat M)%Z) = sum_n (fun i => match i with O => f 0%Z | S _ => f (Z.of_nat i) + f (- Z.of_nat i)%Z end) M.
Proof.
  intros f M. induction M as [|M IH]; [rewrite sum_O; cbn [Z.of_nat Z.mul Z.add]; rewrite rsum_1; f_equal|].
  rewrite sum_Sn, <- IH. replace (2 * Z.of_nat (S M) + 1)%Z with (1 + ((2 * Z.of_nat M + 1) + 1))%Z by lia. rewrite rsum_app, rsum_app, !rsum_1 by lia.
  rewrite (rsum_ext (2 * Z.of_nat M + 1) (fun i => f (1 + i - Z.of_nat (S M))%Z) (fun j => f (j - Z.of_nat M)%Z)) by (intros i _; f_equal; lia).
  replace (0 - Z.of_nat (S M))%Z with (- Z.of_nat (S M))%Z by lia. replace (1 + (2 * Z.of_nat M + 1 + 0) - Z.of_nat (S M))%Z with (Z.of_nat (S M)) by lia. unfold plus; cbn [AbelianGroup.plus]. match goal with |- ?a + (?b + ?c) = ?r => change (a + (b + c) = b + (c + a)) end. ring.
Qed.
Lemma sum_scale : forall c (f : nat -> R) M, c * sum_n f M = sum_n (fun i => c * f i) M.
Proof. intros c f M. induction M as [|M IH]; [rewrite !sum_O; reflexivity|]. rewrite !sum_Sn, <- IH. match goal with |- c * plus ?p ?q = _ => change (c * (p + q) = c * p + c * q) end. ring. Qed.
Definition line (a : R -> R) (dk : R) (M : nat) (x : R) : R := sum_n (fun i => har a (2 * PI / dk) dk i x) M.
Lemma line_sum : forall a dk M x, 0 < dk -> (forall k, a (- k) = a k) ->
  csum (2 * Z.of_nat M + 1) (fun j => Cmult (RtoC (a (IZR (j - Z.of_nat M) * dk))) (wave (IZR (j - Z.of_nat M) * dk * x))) = RtoC (2 * PI / dk * line a dk M x).
Proof.
  intros a dk M x DK AE. pose proof PI_RGT_0 as PP.
  transitivity (csum (2 * Z.of_nat M + 1) (fun j => ((fun z => a (IZR z * dk) * cos (IZR z * dk * x)) (j - Z.of_nat M)%Z, (fun z => a (IZR z * dk) * sin (IZR z * dk * x)) (j - Z.of_nat M)%Z) : C)).
  { apply csum_ext. intros j _. unfold Cmult, RtoC, wave. cbn [fst snd]. f_equal; ring. }
  rewrite (csum_pair _ (fun j => (fun z => a (IZR z * dk) * cos (IZR z * dk * x)) (j - Z.of_nat M)%Z) (fun j => (fun z => a (IZR z * dk) * sin (IZR z * dk * x)) (j - Z.of_nat M)%Z)). rewrite (ctr (fun z => a (IZR z * dk) * cos (IZR z * dk * x))), (ctr (fun z => a (IZR z * dk) * sin (IZR z * dk * x))). unfold RtoC, line. f_equal.
  - rewrite sum_scale. apply sum_n_ext. intro i. destruct i as [|i].
    + unfold har. rewrite !Rmult_0_l, cos_0. match goal with |- ?l = _ => change (l = 2 * PI / dk * (a 0 / (2 * PI / dk))) end. field. lra.
    + unfold har. rewrite opp_IZR, <- INR_IZR_INZ. replace (- INR (S i) * dk) with (- (INR (S i) * dk)) by ring. rewrite AE. replace (- (INR (S i) * dk) * x) with (- (INR (S i) * dk * x)) by ring. rewrite cos_neg. match goal with |- ?l = _ => change (l = 2 * PI / dk * (2 * a (INR (S i) * dk) / (2 * PI / dk) * cos (INR (S i) * dk * x))) end. field. lra.
  - transitivity (sum_n (fun _ => 0) M).
    + apply sum_n_ext. intros [|i]; [rewrite !Rmult_0_l, sin_0; req; ring|]. rewrite opp_IZR. replace (- IZR (Z.of_nat (S i)) * dk) with (- (IZR (Z.of_nat (S i)) * dk)) by ring. rewrite AE. replace (- (IZR (Z.of_nat (S i)) * dk) * x) with (- (IZR (Z.of_nat (S i)) * dk * x)) by ring. rewrite sin_neg. req. ring.
    + rewrite sum_n_const. req. ring.
Qed.
Lemma sep_sum : forall F a dk M x y, 0 < dk -> (forall k, a (- k) = a k) ->
  inverse_sum (fun k => RtoC (F * (a (fst k) * a (snd k)))) dk (Z.of_nat M) x y = F * (line a dk M x * line a dk M y).
Proof.
  intros F a dk M x y DK AE. pose proof PI_RGT_0 as PP. unfold inverse_sum. fold csum. set (m := Z.of_nat M). set (A := fun x j => Cmult (RtoC (a (IZR (j - m) * dk))) (wave (IZR (j - m) * dk * x))).
  rewrite (csum_ext _ _ (fun i => Cmult (Cmult (RtoC F) (csum (2 * m + 1) (A x))) (A y i))).
  - rewrite csum_mul. unfold A, m. rewrite !line_sum by assumption. rewrite <- !RtoC_mult. cbn [Re RtoC fst]. field. lra.
  - intros i _. rewrite (csum_ext _ _ (fun j => Cmult (Cmult (RtoC F) (A y i)) (A x j))).
    + rewrite csum_mul. ring.
    + intros j _. unfold A, Cmult, RtoC, wave. cbn [fst snd]. rewrite cos_plus, sin_plus. f_equal; ring.
Qed.

(** * Averages over a pixel *)
Lemma har_avg : forall a L w c i x, 0 < c -> is_RInt (fun u => har a L w i u) (x - c / 2) (x + c / 2) (c * har (fun k => a k * sinc (k * (c / (2 * PI)))) L w i x).
Proof.
  intros a L w c i x CP. assert (SH : forall k, is_RInt (fun u => cos (k * u)) (x - c / 2) (x + c / 2) (c * sinc (k * (c / (2 * PI))) * cos (k * x))).
  { intro k. pose proof (rint_cos k (k * x) c CP) as I. pose proof (is_RInt_comp_lin (fun t => cos (k * t + k * x)) 1 (- x) (x - c / 2) (x + c / 2) (c * sinc (k * (c / (2 * PI))) * cos (k * x))) as CL. cbv beta in CL. replace (1 * (x - c / 2) + - x) with (- (c / 2)) in CL by ring. replace (1 * (x + c / 2) + - x) with (c / 2) in CL by ring. specialize (CL I). eapply is_RInt_ext; [|exact CL]. intros u _. unfold scal; cbn; unfold mult; cbn. rewrite Rmult_1_l. f_equal. ring. }
  destruct i as [|i]; unfold har.
  - apply (is_RInt_ext (fun u => scal (a 0 / L) (cos (0 * u)))); [intros u _; rewrite Rmult_0_l, cos_0; unfold scal; cbn; unfold mult; cbn; req; ring|]. match goal with |- is_RInt _ _ _ ?r => replace r with (scal (a 0 / L) (c * sinc (0 * (c / (2 * PI))) * cos (0 * x))) end; [apply (is_RInt_scal (fun u => cos (0 * u))), SH|]. rewrite (Rmult_0_l x), cos_0. unfold scal; cbn; unfold mult; cbn. unfold Rdiv. req. ring.
  - set (k := INR (S i) * w). apply (is_RInt_ext (fun u => scal (2 * a k / L) (cos (k * u)))); [intros u _; unfold scal; cbn; unfold mult; cbn; reflexivity|]. match goal with |- is_RInt _ _ _ ?r => replace r with (scal (2 * a k / L) (c * sinc (k * (c / (2 * PI))) * cos (k * x))) end; [apply (is_RInt_scal (fun u => cos (k * u))), SH|]. unfold scal; cbn; unfold mult; cbn. unfold Rdiv. req. ring.
Qed.
Lemma line_avg : forall a dk M c x, 0 < c -> is_RInt (line a dk M) (x - c / 2) (x + c / 2) (c * line (fun k => a k * sinc (k * (c / (2 * PI)))) dk M x).
Proof.
  intros a dk M c x CP. unfold line. induction M as [|M IH].
  - rewrite sum_O. apply (is_RInt_ext (fun u => har a (2 * PI / dk) dk 0 u)); [intros u _; rewrite sum_O; reflexivity|]. apply har_avg, CP.
  - rewrite sum_Sn. apply (is_RInt_ext (fun u => plus (sum_n (fun i => har a (2 * PI / dk) dk i u) M) (har a (2 * PI / dk) dk (S M) u))); [intros u _; rewrite sum_Sn; reflexivity|].
    pose proof (is_RInt_plus _ _ _ _ _ _ IH (har_avg a (2 * PI / dk) dk c (S M) x CP)) as P. match type of P with is_RInt _ _ _ (plus ?u ?v) => match goal with |- is_RInt _ _ _ (c * (plus ?p ?q)) => replace (c * (plus p q)) with (plus u v); [exact P|change (c * p + c * q = c * (p + q)); ring] end end.
Qed.
Lemma product_close : forall A B a b G e, 0 <= e -> 0 <= a <= G -> 0 <= b <= G -> Rabs (A - a) <= G * e -> Rabs (B - b) <= G * e -> Rabs (A * B - a * b) <= G * G * both_err e.
Proof.
  intros A B a b G e HE HA HB H1 H2. assert (G0 : 0 <= G) by lra. assert (GE : 0 <= G * e) by (apply Rmult_le_pos; lra). replace (A * B - a * b) with ((A - a) * (B - b) + (a * (B - b) + b * (A - a))) by ring. unfold both_err. replace (G * G * ((1 + e) ^ 2 - 1)) with (G * e * (G * e) + (G * (G * e) + G * (G * e))) by ring.
  eapply Rle_trans; [apply Rabs_triang|]. apply Rplus_le_compat; [rewrite Rabs_mult; apply Rmult_le_compat; try apply Rabs_pos; assumption|]. eapply Rle_trans; [apply Rabs_triang|]. rewrite !Rabs_mult, (Rabs_pos_eq a), (Rabs_pos_eq b) by lra. apply Rplus_le_compat; apply Rmult_le_compat; try apply Rabs_pos; lra.
Qed.

Section Draw.
  Variables (s dk : R) (M : nat) (H K : R).
  Hypothesis SP : 0 < s.
  Hypothesis DK : 0 < dk.
  Hypothesis HP : 0 < H.
  Hypothesis HL : H <= PI / dk.
  Hypothesis KP : 0 < K.
  Hypothesis KM : K <= INR M * (dk * s).
  Lemma gk_even : forall k, gk s (- k) = gk s k. Proof using Type. intro k. unfold gk. f_equal. field. Qed.
  Definition er (d : R) : R := fold_err s H d + cut_err K.
  Lemma qH : 0 < 1 - exp (- ((2 * H / s) ^ 2 / 2)).
  Proof using HP SP. assert (0 < 2 * H / s) by (apply Rdiv_lt_0_compat; lra). assert (0 < (2 * H / s) ^ 2) by (apply pow_lt; lra). assert (exp (- ((2 * H / s) ^ 2 / 2)) < exp 0) by (apply exp_increasing; lra). rewrite exp_0 in *. lra. Qed.
  Lemma er_pos : forall d, 0 <= er d.
  Proof using HP KP SP. intro d. unfold er, fold_err, cut_err. pose proof qH. pose proof (exp_pos (- (((H - d) / s) ^ 2 / 2))). pose proof (exp_pos (- (K ^ 2 / 2))). apply Rplus_le_le_0_compat; apply Rdiv_le_0_compat; try lra. apply Rmult_le_pos; [apply sqrt_pos|lra]. Qed.
  Lemma line_close : forall d x, 0 <= d <= H -> Rabs x <= PI / dk + d -> Rabs (line (gk s) dk M x - gd s x) <= g0 s * er d.
  Proof using DK HL HP KM KP SP.
    intros d x D X. pose proof PI_RGT_0 as PP. assert (LP : 0 < 2 * PI / dk) by (apply Rdiv_lt_0_compat; lra). assert (E2 : 2 * PI / dk = PI / dk + PI / dk) by (field; lra).
    eapply Rle_trans; [apply (gauss_sum s (2 * PI / dk) dk SP LP ltac:(field; lra) M K (PI / dk + d) x KP KM X ltac:(lra))|]. apply Rmult_le_compat_l; [left; apply g0_pos; exact SP|]. unfold er. apply Rplus_le_compat.
    - unfold fold_err. assert (Q : qL s (2 * PI / dk) <= exp (- ((2 * H / s) ^ 2 / 2))). { unfold qL. apply exp_le_of, Ropp_le_contravar. replace (2 * PI / dk * (2 * PI / dk) / (2 * (s * s))) with ((2 * (PI / dk) / s) ^ 2 / 2) by (field; lra). apply Rmult_le_compat_r; [lra|]. apply pow_incr. split; [apply Rdiv_le_0_compat; lra|]. apply Rmult_le_compat_r; [left; apply Rinv_0_lt_compat; lra|lra]. }
      pose proof qH as QH. assert (N : g1 ((2 * PI / dk - (PI / dk + d)) / s) <= exp (- (((H - d) / s) ^ 2 / 2))). { unfold g1. apply exp_le_of, Ropp_le_contravar. replace (2 * PI / dk - (PI / dk + d)) with (PI / dk - d) by lra. assert (I : 0 < / s) by (apply Rinv_0_lt_compat; lra). assert ((H - d) / s <= (PI / dk - d) / s) by (apply Rmult_le_compat_r; lra). assert (0 <= (H - d) / s) by (apply Rmult_le_pos; lra). nra. }
      pose proof (g1_pos ((2 * PI / dk - (PI / dk + d)) / s)). apply Rmult_le_compat; [lra|left; apply Rinv_0_lt_compat; lra|lra|]. apply Rinv_le_contravar; lra.
    - unfold cut_err. right. do 4 f_equal. field.
  Qed.
  Lemma gd_abs : forall x, 0 <= gd s x <= g0 s.
  Proof using SP. intro x. split; [left; apply gd_pos, SP|]. rewrite <- gd_0. apply gd_le; [exact SP|lra|apply Rabs_pos]. Qed.
  Lemma points_close : forall x y, Rabs x <= PI / dk -> Rabs y <= PI / dk -> Rabs (line (gk s) dk M x * line (gk s) dk M y - gd s x * gd s y) <= g0 s * g0 s * both_err (er 0).
  Proof using DK HL HP KM KP SP. intros x y X Y. apply product_close; [apply er_pos|apply gd_abs|apply gd_abs|apply line_close; lra|apply line_close; lra]. Qed.
  Lemma line_cont : forall a x, continuous (line a dk M) x.
  Proof using Type. intros a x. unfold line. apply (sum_cont (har a (2 * PI / dk) dk)). intros i u. apply har_cont. Qed.
  Lemma pixel_close1 : forall c x, 0 < c -> c / 2 <= H -> Rabs x <= PI / dk ->
    Rabs (c * line (fun k => gk s k * sinc (k * (c / (2 * PI)))) dk M x - RInt (gd s) (x - c / 2) (x + c / 2)) <= c * g0 s * er (c / 2) /\ 0 <= RInt (gd s) (x - c / 2) (x + c / 2) <= c * g0 s.
  Proof using DK HL HP KM KP SP.
    intros c x CP CH X. assert (XG : ex_RInt (gd s) (x - c / 2) (x + c / 2)) by (apply (@ex_RInt_continuous R_CompleteNormedModule); intros; apply gd_cont). split.
    - rewrite <- (is_RInt_unique _ _ _ _ (line_avg (gk s) dk M c x CP)). assert (XL : ex_RInt (line (gk s) dk M) (x - c / 2) (x + c / 2)) by (apply (@ex_RInt_continuous R_CompleteNormedModule); intros; apply line_cont).
      change (Rabs (minus (RInt (line (gk s) dk M) (x - c / 2) (x + c / 2)) (RInt (gd s) (x - c / 2) (x + c / 2))) <= c * g0 s * er (c / 2)). rewrite <- (RInt_minus (line (gk s) dk M) (gd s) _ _ XL XG). replace (c * g0 s * er (c / 2)) with ((x + c / 2 - (x - c / 2)) * (g0 s * er (c / 2))) by (req; field).
      apply (abs_RInt_le_const (fun u => minus (line (gk s) dk M u) (gd s u))); [lra|apply @ex_RInt_minus; assumption|]. intros u U. apply (line_close (c / 2) u); [lra|]. apply Rabs_le_between in X. apply Rabs_le. lra.
    - split.
      + apply RInt_ge_0; [lra|exact XG|]. intros u _. apply gd_abs.
      + replace (c * g0 s) with (RInt (fun _ => g0 s) (x - c / 2) (x + c / 2)) by (rewrite RInt_const; unfold scal; cbn; unfold mult; cbn; req; field). apply RInt_le; [lra|exact XG|apply ex_RInt_const|]. intros u _. apply gd_abs.
  Qed.
  Lemma pixels_close : forall c x y, 0 < c -> c / 2 <= H -> Rabs x <= PI / dk -> Rabs y <= PI / dk ->
    Rabs (c ^ 2 * (line (fun k => gk s k * sinc (k * (c / (2 * PI)))) dk M x * line (fun k => gk s k * sinc (k * (c / (2 * PI)))) dk M y) - RInt (gd s) (x - c / 2) (x + c / 2) * RInt (gd s) (y - c / 2) (y + c / 2)) <= c ^ 2 * (g0 s * g0 s * both_err (er (c / 2))).
  Proof using DK HL HP KM KP SP.
    intros c x y CP CH X Y. destruct (pixel_close1 c x CP CH X) as [X1 X2]. destruct (pixel_close1 c y CP CH Y) as [Y1 Y2]. pose proof (product_close _ _ _ _ (c * g0 s) (er (c / 2)) (er_pos _) X2 Y2 X1 Y1) as P. revert P. set (a := line _ dk M x). set (b := line _ dk M y). intro P. replace (c ^ 2 * (a * b)) with (c * a * (c * b)) by ring. replace (c ^ 2 * (g0 s * g0 s * both_err (er (c / 2)))) with (c * g0 s * (c * g0 s) * both_err (er (c / 2))) by ring. exact P.
  Qed.
End Draw.
Lemma g0_sq : forall s, 0 < s -> g0 s * g0 s = 1 / (2 * PI * s ^ 2).
Proof. intros s SP. unfold g0. pose proof PI_RGT_0. pose proof s2p_pos as Q. assert (SS : sqrt (2 * PI) * sqrt (2 * PI) = 2 * PI) by (apply sqrt_sqrt; lra). replace (1 / (s * sqrt (2 * PI)) * (1 / (s * sqrt (2 * PI)))) with (1 / (s ^ 2 * (sqrt (2 * PI) * sqrt (2 * PI)))) by (field; lra). rewrite SS. field. lra. Qed.
Lemma density_sep : forall F s x y, 0 < s -> gauss_density F s x y = F * (gd s x * gd s y).
Proof. intros F s x y SP. unfold gauss_density, gd. replace (F * (g0 s * g1 (x / s) * (g0 s * g1 (y / s)))) with (F * (g0 s * g0 s) * (g1 (x / s) * g1 (y / s))) by ring. rewrite g0_sq by exact SP. unfold g1. rewrite <- exp_plus. pose proof PI_RGT_0. replace (F * (1 / (2 * PI * s ^ 2))) with (F / (2 * PI * s ^ 2)) by (field; lra). do 2 f_equal. field. lra. Qed.
Lemma pixel_sep : forall F s c x y, 0 < s -> 0 < c -> gauss_pixel F s c x y = F * (RInt (gd s) (x - c / 2) (x + c / 2) * RInt (gd s) (y - c / 2) (y + c / 2)).
Proof.
  intros F s c x y SP CP. unfold gauss_pixel. set (X := RInt (gd s) (x - c / 2) (x + c / 2)). assert (XG : forall u v, ex_RInt (gd s) u v) by (intros; apply (@ex_RInt_continuous R_CompleteNormedModule); intros; apply gd_cont).
  apply is_RInt_unique. apply (is_RInt_ext (fun v => scal (F * X) (gd s v))).
  - intros v _. symmetry. apply is_RInt_unique. apply (is_RInt_ext (fun u => scal (F * gd s v) (gd s u))); [intros u _; rewrite density_sep by exact SP; unfold scal; cbn; unfold mult; cbn; req; ring|]. match goal with |- is_RInt _ _ _ ?r => replace r with (scal (F * gd s v) X) by (unfold scal; cbn; unfold mult; cbn; req; ring) end. apply (is_RInt_scal (gd s)). exact (RInt_correct (gd s) _ _ (XG _ _)).
  - match goal with |- is_RInt _ _ _ ?r => replace r with (scal (F * X) (RInt (gd s) (y - c / 2) (y + c / 2))) by (unfold scal; cbn; unfold mult; cbn; req; ring) end. apply (is_RInt_scal (gd s)). exact (RInt_correct (gd s) _ _ (XG _ _)).
Qed.

(** * drawFFT *)
Definition reach (stepk : R) : R := PI / stepk * (1 - / 1000000000000).
Lemma in_period : forall b N x y, (image_N b <= N)%Z -> includesI b x y = true -> Rabs (IZR x) <= IZR N / 2 /\ Rabs (IZR y) <= IZR N / 2.
Proof.
  intros b N x y HN I. apply includesI_iff in I. destruct I as [_ I]. unfold rectZ in I. unfold image_N in HN.
  assert (X : (2 * Z.abs x <= N)%Z) by lia. assert (Y : (2 * Z.abs y <= N)%Z) by lia. apply IZR_le in X, Y. rewrite mult_IZR, abs_IZR in X, Y. lra.
Qed.
Section Frame.
  Variables (minfft maxfft : Z) (maxk stepk scale : R) (im : image R bool unit) (kb : bnd Z) (N : Z) (dk : R).
  Hypothesis HB : okb (ibnd im).
  Hypothesis HC : centred (ibnd im).
  Hypothesis SC : 0 < scale.
  Hypothesis ST : 0 < stepk.
  Hypothesis MK : 0 < maxk.
  Hypothesis EV : Z.even minfft = true.
  Hypothesis NE : minfft <> maxfft.
  Hypothesis LT : (maxfft < 131072)%Z.
  Hypothesis FL : idt im = false.
  Hypothesis OK : makeKImage minfft maxfft maxk stepk scale (ibnd im) = Ok (kb, N, dk).
  Lemma frame : forall F a kval s, 0 < s -> (forall k, a (- k) = a k) -> (forall k, kval k = RtoC (F * (a (fst k) * a (snd k)))) ->
    exists M r, drawFFT minfft maxfft kval maxk stepk scale im = Ok r /\ eqI (ibnd r) (ibnd im) = true /\ 0 < dk /\ reach stepk <= PI / dk /\ maxk * s <= INR M * (dk * s) /\
      forall x y, includesI (ibnd im) x y = true -> getValue r x y = Ok (scale ^ 2 * (F * (line a dk M (IZR x * scale) * line a dk M (IZR y * scale)))) /\ Rabs (IZR x * scale) <= PI / dk /\ Rabs (IZR y * scale) <= PI / dk.
  Proof using EV FL HB HC LT NE OK SC ST.
    intros F a kval s SP AE KV. pose proof PI_RGT_0 as PP.
    assert (HK : hermitian kval). { intros kx ky. rewrite !KV. cbn [fst snd]. rewrite !AE. unfold Cconj, RtoC. cbn [fst snd]. rewrite Ropp_0. reflexivity. }
    destruct (drawFFT_sum minfft maxfft kval maxk stepk scale im kb N dk HK HB HC SC ST EV NE LT OK) as (M & r & D1 & D2 & D3 & D4 & D5 & D6 & D7 & D8 & D9).
    destruct (getGoodImageSize_ge scale stepk SC ST) as [GS _]. apply IZR_le in D5. assert (NS : 0 < IZR N * scale). { apply Rmult_lt_0_compat; [|exact SC]. assert (0 < 2 * PI / (scale * stepk) * (1 - / 1000000000000)); [|lra]. apply Rmult_lt_0_compat; [apply Rdiv_lt_0_compat; [lra|apply Rmult_lt_0_compat; assumption]|lra]. }
    assert (DP : 0 < dk) by (apply (Rmult_lt_reg_r (IZR N * scale)); [exact NS|rewrite D4; lra]). assert (PD : PI / dk = IZR N * scale / 2) by (replace PI with (dk * (IZR N * scale) / 2) by lra; field; lra).
    exists (Z.to_nat M), r. split; [exact D1|]. split; [exact D2|]. split; [exact DP|]. split.
    - rewrite PD. unfold reach. assert (Q : 2 * PI / (scale * stepk) * (1 - / 1000000000000) * scale <= IZR N * scale) by (apply Rmult_le_compat_r; lra). replace (2 * PI / (scale * stepk) * (1 - / 1000000000000) * scale) with (2 * (PI / stepk * (1 - / 1000000000000))) in Q by (field; lra). lra.
    - split; [rewrite INR_IZR_INZ, Z2Nat.id by lia; rewrite <- Rmult_assoc; apply Rmult_le_compat_r; lra|].
      intros x y I. rewrite (D9 x y I), D3 || rewrite (D9 x y I). split.
      + f_equal. rewrite FL. cbn [rcast Tr]. f_equal. rewrite <- (sep_sum F a dk (Z.to_nat M) _ _ DP AE). rewrite Z2Nat.id by lia. unfold inverse_sum. do 2 f_equal. apply csum_ext. intros i _. apply csum_ext. intros j _. rewrite KV. reflexivity.
      + destruct (in_period _ _ _ _ D6 I) as [X Y]. rewrite !Rabs_mult, (Rabs_pos_eq scale), PD by lra. split; nra.
  Qed.
  Lemma ga_k_sep : forall p k, ga_kValue p k = ga_flux p * (gk (ga_sigma p) (fst k) * gk (ga_sigma p) (snd k)).
  Proof using Type. intros p [kx ky]. unfold ga_kValue, gk, ga_sigsq, norm2. cbn [fst snd]. rewrite <- exp_plus. do 2 f_equal. lra || (unfold Rdiv; try field). Qed.
  Lemma gauss_points : forall p, 0 < ga_sigma p -> exists r, drawFFT minfft maxfft (gauss_kval p) maxk stepk scale im = Ok r /\ eqI (ibnd r) (ibnd im) = true /\
    forall x y, includesI (ibnd im) x y = true -> exists v, getValue r x y = Ok v /\
      Rabs (v - scale ^ 2 * gauss_density (ga_flux p) (ga_sigma p) (IZR x * scale) (IZR y * scale)) <=
        scale ^ 2 * Rabs (gauss_density (ga_flux p) (ga_sigma p) 0 0) * both_err (fold_err (ga_sigma p) (reach stepk) 0 + cut_err (maxk * ga_sigma p)).
  Proof using EV FL HB HC LT MK NE OK SC ST.
    intros p SP. set (s := ga_sigma p) in *. destruct (frame (ga_flux p) (gk s) (gauss_kval p) s SP (gk_even s)) as (M & r & D1 & D2 & D3 & D4 & D5 & D6); [intro k; unfold gauss_kval; rewrite ga_k_sep; reflexivity|].
    exists r. split; [exact D1|]. split; [exact D2|]. intros x y I. destruct (D6 x y I) as (V & X & Y). eexists. split; [exact V|].
    pose proof PI_RGT_0 as PP. assert (RP : 0 < reach stepk) by (unfold reach; apply Rmult_lt_0_compat; [apply Rdiv_lt_0_compat; lra|lra]).
    pose proof (points_close s dk M (reach stepk) (maxk * s) SP D3 RP D4 ltac:(apply Rmult_lt_0_compat; lra) D5 _ _ X Y) as P. unfold er in P. rewrite !density_sep by exact SP. rewrite !gd_0. rewrite <- Rmult_minus_distr_l, <- Rmult_minus_distr_l. rewrite !Rabs_mult, (Rabs_pos_eq (scale ^ 2)) by (apply pow_le; lra). rewrite (Rabs_pos_eq (g0 s)) by (left; apply g0_pos, SP). rewrite !Rmult_assoc. rewrite !Rmult_assoc in P. apply Rmult_le_compat_l; [apply pow_le; lra|]. apply Rmult_le_compat_l; [apply Rabs_pos|]. exact P.
  Qed.
  Lemma sinc_even : forall x, sinc (- x) = sinc x.
  Proof using Type. intro x. unfold sinc. destruct (Reqb_spec x 0) as [->|X]; [rewrite Ropp_0; destruct (Reqb_spec 0 0); [reflexivity|lra]|]. destruct (Reqb_spec (- x) 0); [lra|]. replace (PI * - x) with (- (PI * x)) by ring. rewrite sin_neg. pose proof PI_RGT_0. field. split; [exact X|lra]. Qed.
  Lemma gauss_pixels : forall p, 0 < ga_sigma p -> scale / 2 <= reach stepk -> exists r, drawFFT minfft maxfft (pixel_kval p scale) maxk stepk scale im = Ok r /\ eqI (ibnd r) (ibnd im) = true /\
    forall x y, includesI (ibnd im) x y = true -> exists v, getValue r x y = Ok v /\
      Rabs (v - gauss_pixel (ga_flux p) (ga_sigma p) scale (IZR x * scale) (IZR y * scale)) <=
        scale ^ 2 * Rabs (gauss_density (ga_flux p) (ga_sigma p) 0 0) * both_err (fold_err (ga_sigma p) (reach stepk) (scale / 2) + cut_err (maxk * ga_sigma p)).
  Proof using EV FL HB HC LT MK NE OK SC ST.
    intros p SP SH. set (s := ga_sigma p) in *. set (a := fun k => gk s k * sinc (k * (scale / (2 * PI)))).
    destruct (frame (ga_flux p) a (pixel_kval p scale) s SP) as (M & r & D1 & D2 & D3 & D4 & D5 & D6).
    { intro k. unfold a. rewrite gk_even. f_equal. replace (- k * (scale / (2 * PI))) with (- (k * (scale / (2 * PI)))) by ring. apply sinc_even. }
    { intro k. unfold pixel_kval. f_equal. rewrite ga_k_sep. unfold bx_kValue, pixel_box, a. cbn [bx_width bx_height bx_flux]. fold s. ring. }
    exists r. split; [exact D1|]. split; [exact D2|]. intros x y I. destruct (D6 x y I) as (V & X & Y). eexists. split; [exact V|].
    pose proof PI_RGT_0 as PP. assert (RP : 0 < reach stepk) by (unfold reach; apply Rmult_lt_0_compat; [apply Rdiv_lt_0_compat; lra|lra]).
    pose proof (pixels_close s dk M (reach stepk) (maxk * s) SP D3 RP D4 ltac:(apply Rmult_lt_0_compat; lra) D5 scale _ _ SC SH X Y) as P. unfold er in P. fold a in P. rewrite pixel_sep, density_sep, !gd_0 by assumption.
    match goal with |- Rabs (?c * (?F * ?z) - ?F * ?t) <= _ => replace (c * (F * z) - F * t) with (F * (c * z - t)) by ring end. rewrite !Rabs_mult, (Rabs_pos_eq (g0 s)) by (left; apply g0_pos, SP).
    match type of P with Rabs ?z <= ?t => replace (scale ^ 2 * (Rabs (ga_flux p) * (g0 s * g0 s)) * both_err (fold_err s (reach stepk) (scale / 2) + cut_err (maxk * s))) with (Rabs (ga_flux p) * t) by ring end. apply Rmult_le_compat_l; [apply Rabs_pos|exact P].
  Qed.
End Frame.
