(** Poisson summation. *)
From Coq Require Import ZArith Reals Lra Lia.
From Coquelicot Require Import Coquelicot.
Open Scope R_scope.
Local Ltac rr v := match goal with |- is_RInt _ _ _ ?s => replace s with v end.
Local Ltac req := match goal with |- ?a = ?b => change (@eq R a b) end.

(** * A continuous function all whose Fourier coefficients on a period vanish is 0 in the middle *)
Section Unique.
  Variables (E : R -> R) (H w : R).
  Hypothesis HP : 0 < H.
  Hypothesis HW : w * H = PI.
  Hypothesis EC : forall t, - H <= t <= H -> continuous E t.
  Hypothesis E0 : forall (j : Z) c, is_RInt (fun t => E t * cos (IZR j * w * t + c)) (- H) H 0.
  Variable d : R.
  Definition pk (t : R) : R := 1 + cos (w * t) - cos (w * d).
  Lemma pk_int : forall n (j : Z) c, is_RInt (fun t => E t * pk t ^ n * cos (IZR j * w * t + c)) (- H) H 0.
  Proof using E0.
    induction n as [|n IH]; intros j c; [apply (is_RInt_ext (fun t => E t * cos (IZR j * w * t + c))); [intros t _; cbn [pow]; req; ring|apply E0]|].
    apply (is_RInt_ext (fun t => plus (scal (1 - cos (w * d)) (E t * pk t ^ n * cos (IZR j * w * t + c))) (plus (scal (1 / 2) (E t * pk t ^ n * cos (IZR (j + 1) * w * t + c))) (scal (1 / 2) (E t * pk t ^ n * cos (IZR (j - 1) * w * t + c)))))).
    - intros t _. unfold plus, scal; cbn; unfold mult; cbn. rewrite plus_IZR, minus_IZR. replace ((IZR j + 1) * w * t + c) with ((IZR j * w * t + c) + w * t) by ring. replace ((IZR j - 1) * w * t + c) with ((IZR j * w * t + c) - w * t) by ring. set (U := IZR j * w * t + c). rewrite cos_plus, cos_minus. change (pk t ^ S n) with (pk t * pk t ^ n). set (Q := pk t ^ n). unfold pk. req. field.
    - replace 0 with (plus (scal (1 - cos (w * d)) 0) (plus (scal (1 / 2) 0) (scal (1 / 2) 0))) by (unfold plus, scal; cbn; unfold mult; cbn; req; ring).
      apply @is_RInt_plus; [apply (is_RInt_scal (fun t => E t * pk t ^ n * cos (IZR j * w * t + c))), IH|]. apply @is_RInt_plus; [apply (is_RInt_scal (fun t => E t * pk t ^ n * cos (IZR (j + 1) * w * t + c))), IH|apply (is_RInt_scal (fun t => E t * pk t ^ n * cos (IZR (j - 1) * w * t + c))), IH].
  Qed.
  Lemma pk_int0 : forall n, is_RInt (fun t => E t * pk t ^ n) (- H) H 0.
  Proof using E0. intro n. apply (is_RInt_ext (fun t => E t * pk t ^ n * cos (IZR 0 * w * t + 0))); [|apply pk_int]. intros t _. replace (IZR 0 * w * t + 0) with 0 by ring. rewrite cos_0. req. ring. Qed.
  Variables e B : R.
  Hypothesis D : 0 < d < H.
  Hypothesis EP : 0 < e.
  Hypothesis EL : forall t, - d <= t <= d -> e <= E t.
  Hypothesis EB : forall t, - H <= t <= H -> Rabs (E t) <= B.
  Lemma w_pos : 0 < w. Proof using HP HW. apply (Rmult_lt_reg_r H); [exact HP|]. rewrite HW. pose proof PI_RGT_0. lra. Qed.
  Lemma cos_le_of : forall a b, 0 <= a <= b -> b <= H -> cos (w * b) <= cos (w * a).
  Proof using HP HW. intros a b AB BH. pose proof w_pos. apply cos_decr_1; try (apply Rmult_le_pos; lra); try (rewrite <- HW; apply Rmult_le_compat_l; lra). apply Rmult_le_compat_l; lra. Qed.
  Lemma cos_abs : forall t, cos (w * t) = cos (w * Rabs t).
  Proof using Type. intro t. unfold Rabs. destruct (Rcase_abs t); [rewrite Ropp_mult_distr_r_reverse, cos_neg|]; reflexivity. Qed.
  Definition et : R := cos (w * (d / 2)) - cos (w * d).
  Lemma et_pos : 0 < et.
  Proof using D HP HW. unfold et. pose proof w_pos. assert (cos (w * d) < cos (w * (d / 2))); [|lra]. apply cos_decreasing_1; try (apply Rmult_le_pos; lra); try (rewrite <- HW; apply Rmult_le_compat_l; lra). apply Rmult_lt_compat_l; lra. Qed.
  Lemma outer : forall n t, - H <= t <= H -> - B <= E t * pk t ^ n.
  Proof using D EB EL EP HP HW.
    intros n t T. pose proof (EB t T) as EBt. destruct (Rle_dec (Rabs t) d) as [L|L].
    - assert (0 <= E t * pk t ^ n); [|pose proof (Rabs_pos (E t)); lra]. apply Rmult_le_pos; [pose proof (EL t ltac:(apply Rabs_le_between; exact L)); lra|]. apply pow_le. unfold pk. rewrite (cos_abs t). pose proof (cos_le_of (Rabs t) d ltac:(split; [apply Rabs_pos|exact L]) ltac:(lra)). lra.
    - assert (P : Rabs (pk t) <= 1). { unfold pk. rewrite (cos_abs t). assert (TH : Rabs t <= H) by (apply Rabs_le; exact T). pose proof (cos_le_of d (Rabs t) ltac:(lra) TH). pose proof (COS_bound (w * Rabs t)). pose proof (COS_bound (w * d)). apply Rabs_le. lra. }
      assert (Q : Rabs (E t * pk t ^ n) <= B). { rewrite Rabs_mult, <- RPow_abs. apply Rle_trans with (Rabs (E t) * 1); [|lra]. apply Rmult_le_compat_l; [apply Rabs_pos|]. rewrite <- (pow1 n). apply pow_incr. split; [apply Rabs_pos|exact P]. }
      apply Rabs_le_between in Q. lra.
  Qed.
  Lemma inner : forall n t, - (d / 2) <= t <= d / 2 -> e * (1 + et) ^ n <= E t * pk t ^ n.
  Proof using D EL EP HP HW.
    intros n t T. pose proof (EL t ltac:(lra)). pose proof et_pos. apply Rmult_le_compat; [lra|apply pow_le; lra|lra|]. apply pow_incr. split; [lra|]. unfold pk, et. rewrite (cos_abs t). assert (A : Rabs t <= d / 2) by (apply Rabs_le; exact T). pose proof (cos_le_of (Rabs t) (d / 2) ltac:(split; [apply Rabs_pos|exact A]) ltac:(lra)). lra.
  Qed.
  Lemma contradiction : False.
  Proof using D E0 EB EC EL EP HP HW.
    assert (X : forall n a b, - H <= a -> a <= b -> b <= H -> ex_RInt (fun t => E t * pk t ^ n) a b).
    { intros n a b A AB BH. apply (@ex_RInt_continuous R_CompleteNormedModule). rewrite Rmin_left, Rmax_right by lra. intros t T. apply (continuous_mult E (fun t => pk t ^ n)); [apply EC; lra|]. apply (@ex_derive_continuous R_AbsRing R_NormedModule). unfold pk. auto_derive. trivial. }
    assert (LB : forall n a b m, - H <= a -> a <= b -> b <= H -> (forall t, a <= t <= b -> m <= E t * pk t ^ n) -> m * (b - a) <= RInt (fun t => E t * pk t ^ n) a b).
    { intros n a b m A AB BH M. replace (m * (b - a)) with (RInt (fun _ => m) a b) by (rewrite RInt_const; unfold scal; cbn; unfold mult; cbn; req; ring). apply RInt_le; [exact AB|apply ex_RInt_const|apply X; assumption|]. intros t T. apply M. lra. }
    assert (K : forall n, e * (1 + et) ^ n * d <= 2 * B * H).
    { intro n. pose proof (is_RInt_unique _ _ _ _ (pk_int0 n)) as Z.
      rewrite <- (RInt_Chasles (fun t => E t * pk t ^ n) (- H) (- (d / 2)) H) in Z by (apply X; lra). rewrite <- (RInt_Chasles (fun t => E t * pk t ^ n) (- (d / 2)) (d / 2) H) in Z by (apply X; lra).
      pose proof (LB n (- H) (- (d / 2)) (- B) ltac:(lra) ltac:(lra) ltac:(lra) ltac:(intros t T; apply outer; lra)) as L1. pose proof (LB n (d / 2) H (- B) ltac:(lra) ltac:(lra) ltac:(lra) ltac:(intros t T; apply outer; lra)) as L2. pose proof (LB n (- (d / 2)) (d / 2) (e * (1 + et) ^ n) ltac:(lra) ltac:(lra) ltac:(lra) ltac:(intros t T; apply inner; lra)) as L3.
      assert (0 <= B) by (pose proof (EB 0 ltac:(lra)); pose proof (Rabs_pos (E 0)); lra). assert (0 <= B * d) by (apply Rmult_le_pos; lra). replace (e * (1 + et) ^ n * (d / 2 - - (d / 2))) with (e * (1 + et) ^ n * d) in L3 by field. revert Z L1 L2 L3. generalize (RInt (fun t => E t * pk t ^ n) (- H) (- (d / 2))), (RInt (fun t => E t * pk t ^ n) (- (d / 2)) (d / 2)), (RInt (fun t => E t * pk t ^ n) (d / 2) H), (e * (1 + et) ^ n * d). intros I1 I2 I3 K Z L1 L2 L3. change (@eq R (I1 + (I2 + I3)) 0) in Z. lra. }
    pose proof et_pos as ET. destruct (archimed_cor1 (e * et * d / (2 * B * H + 1))) as (n & N1 & N2).
    { assert (0 <= B) by (pose proof (EB 0 ltac:(lra)); pose proof (Rabs_pos (E 0)); lra). apply Rdiv_lt_0_compat; [repeat apply Rmult_lt_0_compat; lra|]. assert (0 <= 2 * B * H) by (repeat apply Rmult_le_pos; lra). lra. }
    specialize (K n). pose proof (poly n et ET) as BE. assert (0 <= B) by (pose proof (EB 0 ltac:(lra)); pose proof (Rabs_pos (E 0)); lra). assert (0 <= 2 * B * H) by (repeat apply Rmult_le_pos; lra).
    assert (NP : 0 < INR n) by (apply lt_0_INR; exact N2). apply (Rmult_lt_compat_r (INR n * (2 * B * H + 1))) in N1; [|apply Rmult_lt_0_compat; lra]. replace (/ INR n * (INR n * (2 * B * H + 1))) with (2 * B * H + 1) in N1 by (field; lra). replace (e * et * d / (2 * B * H + 1) * (INR n * (2 * B * H + 1))) with (e * d * (INR n * et)) in N1 by (field; lra).
    assert (e * d * (INR n * et) <= e * (1 + et) ^ n * d); [|lra]. replace (e * (1 + et) ^ n * d) with (e * d * (1 + et) ^ n) by ring. apply Rmult_le_compat_l; [apply Rmult_le_pos; lra|lra].
  Qed.
End Unique.
Lemma unique_pos : forall (E : R -> R) H w, 0 < H -> w * H = PI -> (forall t, - H <= t <= H -> continuous E t) -> (forall (j : Z) c, is_RInt (fun t => E t * cos (IZR j * w * t + c)) (- H) H 0) -> E 0 <= 0.
Proof.
  intros E H w HP HW EC E0. destruct (Rle_dec (E 0) 0) as [L|L]; [exact L|exfalso]. assert (P : 0 < E 0) by lra.
  assert (E2 : 0 < E 0 / 2) by lra. destruct (proj1 (filterlim_locally (F := locally 0) E (E 0)) (EC 0 ltac:(lra)) (mkposreal (E 0 / 2) E2)) as [dl DL]. set (d := Rmin (dl / 2) (H / 2)). pose proof (cond_pos dl) as DP. assert (D1 : 0 < d) by (unfold d; apply Rmin_glb_lt; lra). assert (D2 : d <= dl / 2) by apply Rmin_l. assert (D3 : d <= H / 2) by apply Rmin_r.
  assert (BD : exists B, forall t, - H <= t <= H -> Rabs (E t) <= B).
  { destruct (continuity_ab_maj (fun t => Rabs (E t)) (- H) H ltac:(lra)) as (m & M & _); [|exists (Rabs (E m)); exact M]. intros t T. apply continuity_pt_filterlim. apply (continuous_comp E Rabs); [apply EC; exact T|apply continuous_Rabs]. }
  destruct BD as [B BD]. apply (contradiction E H w HP HW EC E0 d (E 0 / 2) B); [lra|lra| |exact BD].
  intros t T. assert (Q : ball (E 0) (E 0 / 2) (E t)). { apply DL. change (Rabs (t - 0) < dl). rewrite Rminus_0_r. apply Rle_lt_trans with d; [apply Rabs_le; lra|lra]. } change (Rabs (E t - E 0) < E 0 / 2) in Q. apply Rabs_lt_between in Q. lra.
Qed.
Lemma unique_zero : forall (E : R -> R) H w, 0 < H -> w * H = PI -> (forall t, - H <= t <= H -> continuous E t) -> (forall (j : Z) c, is_RInt (fun t => E t * cos (IZR j * w * t + c)) (- H) H 0) -> E 0 = 0.
Proof.
  intros E H w HP HW EC E0. pose proof (unique_pos E H w HP HW EC E0). pose proof (unique_pos (fun t => - E t) H w HP HW) as N. cbn in N. assert (- E 0 <= 0); [|lra]. apply N.
  - intros t T. apply (continuous_opp E). apply EC; exact T.
  - intros j c. apply (is_RInt_ext (fun t => opp (E t * cos (IZR j * w * t + c)))); [intros t _; unfold opp; cbn; req; ring|]. replace 0 with (opp 0) by (unfold opp; cbn; req; ring). apply @is_RInt_opp, E0.
Qed.

(** * Uniform limits *)
Definition uconv (r : R) (S : nat -> R -> R) (P : R -> R) : Prop := forall eps, 0 < eps -> exists M0, forall M x, (M0 <= M)%nat -> Rabs x <= r -> Rabs (S M x - P x) <= eps.
Lemma tri_abs : forall a b : R, Rabs a <= Rabs (a - b) + Rabs b.
Proof. intros a b. pose proof (Rabs_triang (a - b) b) as T. replace (a - b + b) with a in T by ring. exact T. Qed.
Lemma uconv_cont : forall r (S : nat -> R -> R) (P : R -> R), uconv r S P -> (forall M x, continuous (S M) x) -> forall x, Rabs x < r -> continuous P x.
Proof.
  intros r S P U SC x X. apply filterlim_locally. intro eps. destruct (U (eps / 4) ltac:(pose proof (cond_pos eps); lra)) as [M0 HM].
  assert (E4 : 0 < eps / 4) by (pose proof (cond_pos eps); lra). destruct (proj1 (filterlim_locally (F := locally x) (S M0) (S M0 x)) (SC M0 x) (mkposreal (eps / 4) E4)) as [dl DL].
  assert (DP : 0 < Rmin dl (r - Rabs x)) by (apply Rmin_glb_lt; [apply cond_pos|lra]). exists (mkposreal _ DP). intros y Y. change (Rabs (y - x) < Rmin dl (r - Rabs x)) in Y. assert (Y1 : Rabs (y - x) < dl) by (eapply Rlt_le_trans; [exact Y|apply Rmin_l]). assert (Y2 : Rabs (y - x) < r - Rabs x) by (eapply Rlt_le_trans; [exact Y|apply Rmin_r]).
  specialize (DL y Y1). change (Rabs (S M0 y - S M0 x) < eps / 4) in DL. assert (YR : Rabs y <= r). { pose proof (tri_abs y x) as T. lra. }
  pose proof (HM M0 y ltac:(lia) YR) as A. pose proof (HM M0 x ltac:(lia) ltac:(lra)) as Bx. change (Rabs (P y - P x) < eps). apply Rabs_lt_between in DL. apply Rabs_le_between in A, Bx. pose proof (cond_pos eps). apply Rabs_lt_between. lra.
Qed.
Lemma uconv_int : forall r (S : nat -> R -> R) (P q : R -> R) a b, uconv r S P -> (forall M x, continuous (S M) x) -> (forall x, continuous q x) -> (forall x, Rabs (q x) <= 1) -> - r < a -> a <= b -> b < r ->
  is_lim_seq (fun M => RInt (fun x => S M x * q x) a b) (RInt (fun x => P x * q x) a b).
Proof.
  intros r S P q a b U SC QC QB A AB Br. pose proof (uconv_cont r S P U SC) as PC. apply is_lim_seq_spec. intro eps. destruct (U (eps / 2 / (b - a + 1))) as [M0 HM]. { pose proof (cond_pos eps). apply Rdiv_lt_0_compat; lra. }
  exists M0. intros M HMM. assert (I1 : ex_RInt (fun x => S M x * q x) a b) by (apply (@ex_RInt_continuous R_CompleteNormedModule); intros z _; apply (continuous_mult (S M) q); [apply SC|apply QC]).
  assert (I2 : ex_RInt (fun x => P x * q x) a b). { apply (@ex_RInt_continuous R_CompleteNormedModule). rewrite Rmin_left, Rmax_right by lra. intros z Z. apply (continuous_mult P q); [apply PC, Rabs_lt_between; lra|apply QC]. }
  change (Rabs (minus (RInt (fun x => S M x * q x) a b) (RInt (fun x => P x * q x) a b)) < eps). rewrite <- (RInt_minus (fun x => S M x * q x) (fun x => P x * q x) a b I1 I2). set (c := eps / 2 / (b - a + 1)) in *.
  assert (C0 : 0 < c) by (unfold c; pose proof (cond_pos eps); apply Rdiv_lt_0_compat; lra).
  apply Rle_lt_trans with (c * (b - a)).
  - rewrite Rmult_comm. apply (abs_RInt_le_const (fun x => minus (S M x * q x) (P x * q x))); [exact AB|apply @ex_RInt_minus; assumption|]. intros x X. unfold minus, plus, opp; cbn. replace (S M x * q x + - (P x * q x)) with ((S M x - P x) * q x) by ring. rewrite Rabs_mult. rewrite <- (Rmult_1_r c). apply Rmult_le_compat; [apply Rabs_pos|apply Rabs_pos|apply HM; [exact HMM|apply Rabs_le; lra]|apply QB].
  - assert (E : c * (b - a + 1) = eps / 2) by (unfold c; field; lra). pose proof (cond_pos eps). nra.
Qed.
Lemma m_test : forall r (f : nat -> R -> R) (b : nat -> R), ex_series b -> (forall m x, Rabs x <= r -> Rabs (f m x) <= b m) ->
  (forall x, Rabs x <= r -> ex_series (fun m => f m x)) /\ uconv r (fun M x => sum_n (fun m => f m x) M) (fun x => Series (fun m => f m x)).
Proof.
  intros r f b SB FB. assert (XS : forall x, Rabs x <= r -> ex_series (fun m => f m x)). { intros x X. apply (ex_series_le (V := R_CompleteNormedModule) (fun m => f m x) b); [|exact SB]. intro m. apply FB; exact X. }
  split; [exact XS|]. intros eps HE. destruct SB as [l SB]. pose proof (proj2 (is_lim_seq_spec (sum_n b) (Finite l)) SB (mkposreal eps HE)) as HM. destruct HM as [M0 HM]. exists M0. intros M x HMM X. specialize (HM M HMM). change (Rabs (sum_n b M - l) < eps) in HM.
  assert (SX : ex_series b) by (exists l; exact SB). pose proof (is_series_unique b l SB) as LB.
  assert (T : forall (a : nat -> R), ex_series a -> Series a - sum_n a M = Series (fun k => a (Datatypes.S M + k)%nat)). { intros a XA. rewrite (Series_incr_n a (Datatypes.S M)) by (try lia; exact XA). cbn [pred]. rewrite sum_n_Reals. ring. }
  rewrite Rabs_minus_sym, T by (apply XS; exact X). apply Rle_trans with (Series (fun k => b (Datatypes.S M + k)%nat)).
  - apply Rle_trans with (Series (fun k => Rabs (f (Datatypes.S M + k)%nat x))).
    + apply Series_Rabs. apply (ex_series_le (V := R_CompleteNormedModule) (fun k => Rabs (f (Datatypes.S M + k)%nat x)) (fun k => b (Datatypes.S M + k)%nat)); [|apply (ex_series_incr_n b (Datatypes.S M)), SX]. intro k. change (Rabs (Rabs (f (Datatypes.S M + k)%nat x)) <= b (Datatypes.S M + k)%nat). rewrite Rabs_Rabsolu. apply FB; exact X.
    + apply Series_le; [|apply (ex_series_incr_n b (Datatypes.S M)), SX]. intro k. split; [apply Rabs_pos|apply FB; exact X].
  - rewrite <- T, LB by exact SX. apply Rabs_lt_between in HM. lra.
Qed.

(** * Poisson summation: the images of g at distances of multiples of L add up to a Fourier series *)
Definition imgs (g : R -> R) (L : R) (m : nat) (x : R) : R := match m with O => g x | S _ => g (x + INR m * L) + g (x - INR m * L) end.
Definition har (gh : R -> R) (L w : R) (i : nat) (x : R) : R := match i with O => gh 0 / L | S _ => 2 * gh (INR i * w) / L * cos (INR i * w * x) end.
Section Poisson.
  Variables (g gh : R -> R) (L w : R).
  Hypothesis LP : 0 < L.
  Hypothesis WL : w * L = 2 * PI.
  Hypothesis GC : forall x, continuous g x.
  Hypothesis GE : forall k, gh (- k) = gh k.
  Variables b a : nat -> R.
  Hypothesis SB : ex_series b.
  Hypothesis GB : forall m x, Rabs x <= 2 * L -> Rabs (imgs g L m x) <= b m.
  Hypothesis SA : ex_series a.
  Hypothesis GA : forall i x, Rabs (har gh L w i x) <= a i.
  Hypothesis GF : forall (j : Z) c x0, is_lim_seq (fun M => RInt (fun x => g x * cos (IZR j * w * x + c)) (x0 - L / 2 - INR M * L) (x0 + L / 2 + INR M * L)) (gh (IZR j * w) * cos c).

  Lemma wave_per : forall (j m : Z) x c, cos (IZR j * w * (x - IZR m * L) + c) = cos (IZR j * w * x + c).
  Proof using WL.
    intros j m x c. replace (IZR j * w * (x - IZR m * L) + c) with (IZR j * w * x + c - IZR (j * m) * (w * L)) by (rewrite mult_IZR; ring). rewrite WL.
    generalize (IZR j * w * x + c), (j * m)%Z. intros y k. assert (N : forall n z, cos (z - INR n * (2 * PI)) = cos z). { intros n z. rewrite <- (cos_period (z - INR n * (2 * PI)) n). f_equal. ring. }
    destruct (Z_le_gt_dec 0 k) as [K|K]; [rewrite <- (Z2Nat.id k K), <- INR_IZR_INZ; apply N|]. replace y with (y - IZR k * (2 * PI) - INR (Z.to_nat (- k)) * (2 * PI)) at 2; [symmetry; apply N|]. rewrite INR_IZR_INZ, Z2Nat.id by lia. rewrite opp_IZR. ring.
  Qed.
  Lemma gcos_ex : forall (j : Z) c u v, ex_RInt (fun x => g x * cos (IZR j * w * x + c)) u v.
  Proof using GC. intros j c u v. apply (@ex_RInt_continuous R_CompleteNormedModule). intros z _. apply (continuous_mult g (fun x => cos (IZR j * w * x + c))); [apply GC|]. apply (@ex_derive_continuous R_AbsRing R_NormedModule). auto_derive. trivial. Qed.
  Lemma shifted : forall (j m : Z) c u v, is_RInt (fun x => g (x + IZR m * L) * cos (IZR j * w * x + c)) u v (RInt (fun x => g x * cos (IZR j * w * x + c)) (u + IZR m * L) (v + IZR m * L)).
  Proof using GC WL.
    intros j m c u v. apply (is_RInt_ext (fun x => g (x + IZR m * L) * cos (IZR j * w * (x + IZR m * L) + c))).
    { intros x _. f_equal. rewrite <- (wave_per j m (x + IZR m * L) c). f_equal. ring. }
    pose proof (RInt_correct _ _ _ (gcos_ex j c (u + IZR m * L) (v + IZR m * L))) as I.
    pose proof (is_RInt_comp_lin (fun x => g x * cos (IZR j * w * x + c)) 1 (IZR m * L) u v (RInt (fun x => g x * cos (IZR j * w * x + c)) (u + IZR m * L) (v + IZR m * L))) as CL. cbv beta in CL. rewrite !Rmult_1_l in CL. specialize (CL I).
    eapply is_RInt_ext; [|exact CL]. intros x _. unfold scal; cbn; unfold mult; cbn. rewrite !Rmult_1_l. reflexivity.
  Qed.
  Lemma images_int : forall (j : Z) c x0 M, is_RInt (fun x => sum_n (fun m => imgs g L m x) M * cos (IZR j * w * x + c)) (x0 - L / 2) (x0 + L / 2) (RInt (fun x => g x * cos (IZR j * w * x + c)) (x0 - L / 2 - INR M * L) (x0 + L / 2 + INR M * L)).
  Proof using GC LP WL.
    intros j c x0. set (q := fun x => cos (IZR j * w * x + c)). set (f := fun x => g x * q x). induction M as [|M IH].
    - apply (is_RInt_ext f); [intros x _; rewrite sum_O; reflexivity|]. replace (x0 - L / 2 - INR 0 * L) with (x0 - L / 2) by (cbn [INR]; ring). replace (x0 + L / 2 + INR 0 * L) with (x0 + L / 2) by (cbn [INR]; ring). apply (RInt_correct f), gcos_ex.
    - apply (is_RInt_ext (fun x => plus (sum_n (fun m => imgs g L m x) M * q x) (plus (g (x + IZR (Z.of_nat (S M)) * L) * q x) (g (x + IZR (- Z.of_nat (S M)) * L) * q x)))).
      { intros x _. change (cos (IZR j * w * x + c)) with (q x). rewrite sum_Sn. change (imgs g L (S M) x) with (g (x + INR (S M) * L) + g (x - INR (S M) * L)). rewrite opp_IZR, <- INR_IZR_INZ. replace (x + - INR (S M) * L) with (x - INR (S M) * L) by ring. generalize (sum_n (fun m => imgs g L m x) M), (g (x + INR (S M) * L)), (g (x - INR (S M) * L)), (q x). intros s1 s2 s3 s4. change (s1 * s4 + (s2 * s4 + s3 * s4) = (s1 + (s2 + s3)) * s4). ring. }
      set (D := INR (S M) * L). assert (DE : D = INR M * L + L) by (unfold D; rewrite S_INR; ring).
      match goal with |- is_RInt _ _ _ ?r => change r with (RInt f (x0 - L / 2 - D) (x0 + L / 2 + D)) end.
      replace (RInt f (x0 - L / 2 - D) (x0 + L / 2 + D)) with (plus (RInt f (x0 - L / 2 - INR M * L) (x0 + L / 2 + INR M * L)) (plus (RInt f (x0 - L / 2 + IZR (Z.of_nat (S M)) * L) (x0 + L / 2 + IZR (Z.of_nat (S M)) * L)) (RInt f (x0 - L / 2 + IZR (- Z.of_nat (S M)) * L) (x0 + L / 2 + IZR (- Z.of_nat (S M)) * L)))).
      { apply @is_RInt_plus; [exact IH|]. apply @is_RInt_plus; apply shifted. }
      rewrite opp_IZR, <- INR_IZR_INZ. replace (- INR (S M) * L) with (- D) by (unfold D; ring). fold D.
      assert (X : forall u v, ex_RInt f u v) by (intros u v; apply gcos_ex).
      rewrite <- (RInt_Chasles f (x0 - L / 2 - D) (x0 - L / 2 - INR M * L) (x0 + L / 2 + D)) by apply X. rewrite <- (RInt_Chasles f (x0 - L / 2 - INR M * L) (x0 + L / 2 + INR M * L) (x0 + L / 2 + D)) by apply X.
      replace (x0 - L / 2 + D) with (x0 + L / 2 + INR M * L) by lra. replace (x0 + L / 2 + - D) with (x0 - L / 2 - INR M * L) by lra. replace (x0 - L / 2 + - D) with (x0 - L / 2 - D) by lra. unfold plus; cbn -[INR]. req. ring.
  Qed.
  Lemma one_wave : forall (n : Z) c x0, is_RInt (fun x => cos (IZR n * w * x + c)) (x0 - L / 2) (x0 + L / 2) (if Z.eqb n 0 then L * cos c else 0).
  Proof using LP WL.
    intros n c x0. destruct (Z.eqb_spec n 0) as [->|N].
    - apply (is_RInt_ext (fun _ => cos c)); [intros x _; f_equal; ring|]. replace (L * cos c) with (scal (x0 + L / 2 - (x0 - L / 2)) (cos c)) by (unfold scal; cbn; unfold mult; cbn; req; field). apply (@is_RInt_const R_NormedModule).
    - assert (W : IZR n * w <> 0). { apply Rmult_integral_contrapositive_currified; [apply IZR_neq; exact N|]. intro Z. rewrite Z, Rmult_0_l in WL. pose proof PI_RGT_0. lra. }
      set (F := fun x => sin (IZR n * w * x + c) / (IZR n * w)). replace 0 with (minus (F (x0 + L / 2)) (F (x0 - L / 2))).
      + apply (is_RInt_derive F (fun x => cos (IZR n * w * x + c))); intros x _; [unfold F; auto_derive; [trivial|field; split; intro Z; apply W; rewrite Z; ring]|apply (@ex_derive_continuous R_AbsRing R_NormedModule); auto_derive; trivial].
      + unfold F, minus, plus, opp; cbn. assert (S : sin (IZR n * w * (x0 - L / 2) + c) = sin (IZR n * w * (x0 + L / 2) + c)). { rewrite <- !cos_shift. replace (PI / 2 - (IZR n * w * (x0 - L / 2) + c)) with (IZR (- n) * w * ((x0 + L / 2) - IZR 1 * L) + (PI / 2 - c)) by (rewrite opp_IZR; field). rewrite wave_per. f_equal. rewrite opp_IZR. ring. } rewrite S. req. ring.
  Qed.
  Lemma har_one : forall (j : Z) c x0 i, is_RInt (fun x => har gh L w i x * cos (IZR j * w * x + c)) (x0 - L / 2) (x0 + L / 2) (if Nat.eqb i (Z.abs_nat j) then gh (IZR j * w) * cos c else 0).
  Proof using GE LP WL.
    intros j c x0 [|i].
    - unfold har. rr (scal (gh 0 / L) (if Z.eqb j 0 then L * cos c else 0)).
      + apply (is_RInt_scal (fun x => cos (IZR j * w * x + c))), one_wave.
      + destruct (Z.eqb_spec j 0) as [->|N]; [rewrite Rmult_0_l; change (gh 0 / L * (L * cos c) = gh 0 * cos c); field; lra|]. destruct (Nat.eqb_spec 0 (Z.abs_nat j)) as [Q|Q]; [lia|]. change (gh 0 / L * 0 = 0). ring.
    - set (k := S i). change (har gh L w (S i)) with (fun x => 2 * gh (INR k * w) / L * cos (INR k * w * x)). cbv beta. assert (K : INR k = IZR (Z.of_nat k)) by apply INR_IZR_INZ.
      apply (is_RInt_ext (fun x => scal (gh (INR k * w) / L) (plus (cos (IZR (Z.of_nat k + j) * w * x + c)) (cos (IZR (Z.of_nat k - j) * w * x + - c))))).
      { intros x _. rewrite plus_IZR, minus_IZR, <- K. replace ((INR k + IZR j) * w * x + c) with (INR k * w * x + (IZR j * w * x + c)) by ring. replace ((INR k - IZR j) * w * x + - c) with (INR k * w * x - (IZR j * w * x + c)) by ring. set (V := IZR j * w * x + c). rewrite cos_plus, cos_minus. unfold scal, plus; cbn; unfold mult; cbn. req. field. lra. }
      rr (scal (gh (INR k * w) / L) (plus (if Z.eqb (Z.of_nat k + j) 0 then L * cos c else 0) (if Z.eqb (Z.of_nat k - j) 0 then L * cos (- c) else 0))).
      + apply (is_RInt_scal (fun x => plus (cos (IZR (Z.of_nat k + j) * w * x + c)) (cos (IZR (Z.of_nat k - j) * w * x + - c)))). apply @is_RInt_plus; apply one_wave.
      + rewrite cos_neg. match goal with |- scal ?u (plus ?v ?z) = ?r => change (u * (v + z) = r) end. destruct (Nat.eqb_spec k (Z.abs_nat j)) as [Q|Q].
        * destruct (Z_lt_ge_dec j 0) as [J|J].
          -- replace (Z.eqb (Z.of_nat k + j) 0) with true by (symmetry; apply Z.eqb_eq; lia). replace (Z.eqb (Z.of_nat k - j) 0) with false by (symmetry; apply Z.eqb_neq; lia). replace (gh (INR k * w)) with (gh (IZR j * w)); [req; field; lra|]. rewrite <- GE. f_equal. rewrite K, Q, Zabs2Nat.id_abs, Z.abs_neq, opp_IZR by lia. ring.
          -- replace (Z.eqb (Z.of_nat k + j) 0) with false by (symmetry; apply Z.eqb_neq; subst k; lia). replace (Z.eqb (Z.of_nat k - j) 0) with true by (symmetry; apply Z.eqb_eq; lia). replace (IZR j) with (INR k); [req; field; lra|]. rewrite K. f_equal. lia.
        * replace (Z.eqb (Z.of_nat k + j) 0) with false by (symmetry; apply Z.eqb_neq; lia). replace (Z.eqb (Z.of_nat k - j) 0) with false by (symmetry; apply Z.eqb_neq; lia). req. ring.
  Qed.
  Lemma har_int : forall (j : Z) c x0 M, (Z.abs_nat j <= M)%nat -> is_RInt (fun x => sum_n (fun i => har gh L w i x) M * cos (IZR j * w * x + c)) (x0 - L / 2) (x0 + L / 2) (gh (IZR j * w) * cos c).
  Proof using GE LP WL.
    intros j c x0 M HM. assert (A : forall M, is_RInt (fun x => sum_n (fun i => har gh L w i x) M * cos (IZR j * w * x + c)) (x0 - L / 2) (x0 + L / 2) (if Nat.leb (Z.abs_nat j) M then gh (IZR j * w) * cos c else 0)).
    { induction M0 as [|M0 IH].
      - apply (is_RInt_ext (fun x => har gh L w 0 x * cos (IZR j * w * x + c))); [intros x _; rewrite sum_O; reflexivity|]. pose proof (har_one j c x0 0) as O. destruct (Z.abs_nat j); exact O.
      - apply (is_RInt_ext (fun x => plus (sum_n (fun i => har gh L w i x) M0 * cos (IZR j * w * x + c)) (har gh L w (S M0) x * cos (IZR j * w * x + c)))).
        { intros x _. rewrite sum_Sn. generalize (sum_n (fun i => har gh L w i x) M0), (har gh L w (S M0) x), (cos (IZR j * w * x + c)). intros s1 s2 s3. change (s1 * s3 + s2 * s3 = (s1 + s2) * s3). ring. }
        pose proof (har_one j c x0 (S M0)) as O. pose proof (is_RInt_plus _ _ _ _ _ _ IH O) as P. revert P. destruct (Nat.eqb_spec (S M0) (Z.abs_nat j)) as [Q|Q]; destruct (Nat.leb_spec (Z.abs_nat j) M0) as [U|U]; destruct (Nat.leb_spec (Z.abs_nat j) (S M0)) as [V|V]; try lia; intro P; match type of P with is_RInt _ _ _ ?r => match goal with |- is_RInt _ _ _ ?s => replace s with r; [exact P|unfold plus; cbn; req; ring] end end. }
    specialize (A M). destruct (Nat.leb_spec (Z.abs_nat j) M) as [U|U]; [exact A|lia].
  Qed.
  Lemma imgs_cont : forall m x, continuous (imgs g L m) x.
  Proof using GC.
    intros [|m] x; [apply GC|]. unfold imgs. set (D := INR (S m) * L). apply (continuous_plus (fun x => g (x + D)) (fun x => g (x - D))).
    - apply (continuous_comp (fun x => x + D) g); [|apply GC]. apply (@ex_derive_continuous R_AbsRing R_NormedModule). auto_derive. trivial.
    - apply (continuous_comp (fun x => x - D) g); [|apply GC]. apply (@ex_derive_continuous R_AbsRing R_NormedModule). auto_derive. trivial.
  Qed.
  Lemma har_cont : forall i x, continuous (har gh L w i) x.
  Proof using Type. intros [|i] x; unfold har; [apply continuous_const|]. apply (@ex_derive_continuous R_AbsRing R_NormedModule). generalize (INR (S i)). intro k. auto_derive. trivial. Qed.
  Lemma sum_cont : forall (f : nat -> R -> R), (forall m x, continuous (f m) x) -> forall M x, continuous (fun x => sum_n (fun m => f m x) M) x.
  Proof using Type.
    intros f FC M x. induction M as [|M IH]; [apply (continuous_ext (f O)); [intro y; rewrite sum_O; reflexivity|apply FC]|]. apply (continuous_ext (fun y => plus (sum_n (fun m => f m y) M) (f (S M) y))); [intro y; rewrite sum_Sn; reflexivity|]. apply @continuous_plus; [exact IH|apply FC].
  Qed.
  Lemma poisson : forall x0, Rabs x0 <= L -> ex_series (fun m => imgs g L m x0) /\ ex_series (fun i => har gh L w i x0) /\ Series (fun m => imgs g L m x0) = Series (fun i => har gh L w i x0).
  Proof using GA GB GC GE GF LP SA SB WL.
    intros x0 X0. destruct (m_test (2 * L) (imgs g L) b SB GB) as [XP UP]. destruct (m_test (2 * L) (har gh L w) a SA (fun i x _ => GA i x)) as [XT UT].
    split; [apply XP; lra|]. split; [apply XT; lra|].
    set (P := fun x => Series (fun m => imgs g L m x)) in *. set (T := fun x => Series (fun i => har gh L w i x)) in *. change (P x0 = T x0).
    pose proof (uconv_cont _ _ _ UP (sum_cont _ imgs_cont)) as PC. pose proof (uconv_cont _ _ _ UT (sum_cont _ har_cont)) as TC.
    assert (Z : (fun t => P (x0 + t) - T (x0 + t)) 0 = 0); [|cbv beta in Z; rewrite Rplus_0_r in Z; lra].
    apply (unique_zero (fun t => P (x0 + t) - T (x0 + t)) (L / 2) w); [lra|lra| |].
    - intros t HT. assert (I : Rabs (x0 + t) < 2 * L). { apply Rabs_le_between in X0. apply Rabs_lt_between. lra. }
      apply (continuous_comp (fun t => x0 + t) (fun x => P x - T x)); [apply (@ex_derive_continuous R_AbsRing R_NormedModule); auto_derive; trivial|]. apply (continuous_minus P T); [apply PC|apply TC]; exact I.
    - intros j c. set (c1 := c - IZR j * w * x0). set (q := fun x => cos (IZR j * w * x + c1)).
      assert (QC : forall x, continuous q x) by (intro x; apply (@ex_derive_continuous R_AbsRing R_NormedModule); unfold q; auto_derive; trivial). assert (QB : forall x, Rabs (q x) <= 1) by (intro x; unfold q; apply Rabs_le; pose proof (COS_bound (IZR j * w * x + c1)); lra).
      apply Rabs_le_between in X0.
      pose proof (uconv_int (2 * L) _ P q (x0 - L / 2) (x0 + L / 2) UP (sum_cont _ imgs_cont) QC QB ltac:(lra) ltac:(lra) ltac:(lra)) as L1. pose proof (uconv_int (2 * L) _ T q (x0 - L / 2) (x0 + L / 2) UT (sum_cont _ har_cont) QC QB ltac:(lra) ltac:(lra) ltac:(lra)) as L2.
      assert (E1 : RInt (fun x => P x * q x) (x0 - L / 2) (x0 + L / 2) = gh (IZR j * w) * cos c1).
      { apply is_lim_seq_unique in L1. pose proof (GF j c1 x0) as G. apply (is_lim_seq_ext _ (fun M => RInt (fun x => sum_n (fun m => imgs g L m x) M * q x) (x0 - L / 2) (x0 + L / 2))) in G; [|intro M; symmetry; apply is_RInt_unique, images_int]. apply is_lim_seq_unique in G. rewrite L1 in G. injection G. trivial. }
      assert (E2 : RInt (fun x => T x * q x) (x0 - L / 2) (x0 + L / 2) = gh (IZR j * w) * cos c1).
      { apply is_lim_seq_unique in L2. assert (G : is_lim_seq (fun M => RInt (fun x => sum_n (fun i => har gh L w i x) M * q x) (x0 - L / 2) (x0 + L / 2)) (gh (IZR j * w) * cos c1)). { apply (is_lim_seq_ext_loc (fun _ => gh (IZR j * w) * cos c1)); [|apply is_lim_seq_const]. exists (Z.abs_nat j). intros M HM. symmetry. apply is_RInt_unique, har_int, HM. } apply is_lim_seq_unique in G. rewrite L2 in G. injection G. trivial. }
      assert (XI : forall F, (forall x, Rabs x < 2 * L -> continuous F x) -> ex_RInt (fun x => F x * q x) (x0 - L / 2) (x0 + L / 2)). { intros F FC. apply (@ex_RInt_continuous R_CompleteNormedModule). rewrite Rmin_left, Rmax_right by lra. intros z HZ. apply (continuous_mult F q); [apply FC, Rabs_lt_between; lra|apply QC]. }
      pose proof (is_RInt_minus _ _ _ _ _ _ (RInt_correct _ _ _ (XI P PC)) (RInt_correct _ _ _ (XI T TC))) as I. rewrite E1, E2 in I. match type of I with is_RInt _ _ _ ?r => replace r with 0 in I by (unfold minus, plus, opp; cbn; req; ring) end.
      pose proof (is_RInt_comp_lin (fun x => minus (P x * q x) (T x * q x)) 1 x0 (- (L / 2)) (L / 2) 0) as CL. cbv beta in CL. rewrite !Rmult_1_l in CL. replace (- (L / 2) + x0) with (x0 - L / 2) in CL by ring. replace (L / 2 + x0) with (x0 + L / 2) in CL by ring. specialize (CL I).
      eapply is_RInt_ext; [|exact CL]. intros t _. unfold scal, minus, plus, opp; cbn; unfold mult; cbn. rewrite !Rmult_1_l, (Rplus_comm t x0). unfold q, c1. replace (IZR j * w * (x0 + t) + (c - IZR j * w * x0)) with (IZR j * w * t + c) by ring. req. ring.
  Qed.
End Poisson.
