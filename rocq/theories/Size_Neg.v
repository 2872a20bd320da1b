(** Tables with linear interpolation; the half-integer Bessel functions; the table for shooting a Spergel profile with nu = -1/2. *)
From Coq Require Import ZArith QArith Qreals Reals Bool List Lra Lia.
From Coquelicot Require Import Coquelicot.
From Verif Require Import Base Bounds_Model Bounds_Proofs GSP_Model Sky_Model Util_Model Util_Spec Util_Proofs Size_Model Size_Spec Num_Consts Size_Proofs Size_Moffat Size_Band Size_Spergel.
Import ListNotations.
Open Scope R_scope.

(** * Interpolation in an increasing table *)
Lemma interp_rank : forall search n xp fp x i, searches search -> (1 < n)%nat -> (i < n)%nat ->
  (forall j, (S j < n)%nat -> xp j + interp_eps < xp (S j)) -> (forall j k, (j < k)%nat -> (k < n)%nat -> xp j < xp k /\ fp j < fp k) ->
  xp 0%nat <= x <= xp (n - 1)%nat -> (interp search n x xp fp <= fp i <-> x <= xp i).
Proof.
  intros search n xp fp x i SE N I ST MO X. destruct (SE n xp x) as (S1 & S2 & S3). unfold interp. set (j := search n xp x) in *. assert (EP : 0 < interp_eps) by (unfold interp_eps; lra).
  destruct (Rltb_spec (xp (n - 1)%nat) x) as [l|_]; [lra|]. destruct (Rltb_spec x (xp 0%nat)) as [l|_]; [lra|].
  assert (J1 : (1 <= j)%nat). { destruct j as [|j]; [|lia]. specialize (S3 ltac:(lia)). lra. }
  destruct (Nat.eq_dec j n) as [JN|JN].
  - rewrite JN. replace (Nat.min (Nat.max n 1) (n - 1)) with (n - 1)%nat by lia. pose proof (S2 ltac:(lia)) as E. rewrite JN in E. assert (XE : x = xp (n - 1)%nat) by lra. subst x.
    pose proof (ST (n - 1 - 1)%nat ltac:(lia)) as D. replace (S (n - 1 - 1)) with (n - 1)%nat in D by lia. rewrite (Rabs_pos_eq (xp (n - 1)%nat - xp (n - 1 - 1)%nat)) by lra. destruct (Rltb_spec interp_eps (xp (n - 1)%nat - xp (n - 1 - 1)%nat)) as [l|l]; [|lra].
    replace (fp (n - 1 - 1)%nat + (xp (n - 1)%nat - xp (n - 1 - 1)%nat) / (xp (n - 1)%nat - xp (n - 1 - 1)%nat) * (fp (n - 1)%nat - fp (n - 1 - 1)%nat)) with (fp (n - 1)%nat) by (field; lra).
    destruct (Nat.eq_dec i (n - 1)) as [->|NE]; [split; lra|]. pose proof (MO i (n - 1)%nat ltac:(lia) ltac:(lia)). split; lra.
  - replace (Nat.min (Nat.max j 1) (n - 1)) with j by lia. pose proof (S2 ltac:(lia)) as L. pose proof (S3 ltac:(lia)) as U.
    pose proof (ST (j - 1)%nat ltac:(lia)) as D. replace (S (j - 1)) with j in D by lia. rewrite (Rabs_pos_eq (xp j - xp (j - 1)%nat)) by lra. destruct (Rltb_spec interp_eps (xp j - xp (j - 1)%nat)) as [l|l]; [|lra].
    set (a := xp (j - 1)%nat) in *. set (b := xp j) in *. set (c := fp (j - 1)%nat). set (d := fp j). assert (CD : c < d) by (apply (MO (j - 1)%nat j); lia).
    set (w := (x - a) / (b - a)). assert (W : (b - a) * w = x - a) by (unfold w; field; lra). assert (W0 : 0 <= w) by (unfold w; apply Rmult_le_pos; [lra|apply Rlt_le, Rinv_0_lt_compat; lra]). assert (W1 : w < 1) by nra.
    destruct (le_lt_dec j i) as [JI|JI].
    + assert (b <= xp i /\ d <= fp i) as [B1 B2]. { destruct (Nat.eq_dec i j) as [->|NE]; [split; apply Rle_refl|]. destruct (MO j i ltac:(lia) I). split; unfold b, d; lra. } split; intros _; [lra|nra].
    + destruct (Nat.eq_dec i (j - 1)) as [->|NE].
      * fold a c. split; intro K; [assert (w <= 0) by nra; nra|]. assert (w = 0) by nra. rewrite H. lra.
      * destruct (MO i (j - 1)%nat ltac:(lia) ltac:(lia)) as [B1 B2]. fold a in B1. fold c in B2. split; intro K; [nra|lra].
Qed.

(** * Half-integer orders *)
Definition q0 : R := Rpower 2 (- (1 / 2)) * sqrt PI.
Definition kv0 (nu z : R) : R := if Reqb nu (3 / 2) then q0 * Rpower z (- (1 / 2)) * exp (- z) * (1 + 1 / z) else q0 * Rpower z (- (1 / 2)) * exp (- z).
Definition lg0 (x : R) : R := if Reqb x (1 / 2) then ln (sqrt PI) else if Reqb x (3 / 2) then ln (sqrt PI / 2) else if Reqb x (- (5 / 2)) then ln (8 / 15 * sqrt PI) else ln (4 / 3 * sqrt PI).
Lemma sqrt_pi_pos : 0 < sqrt PI.
Proof. apply sqrt_lt_R0, PI_RGT_0. Qed.
Lemma q0_pos : 0 < q0.
Proof. unfold q0. apply Rmult_lt_0_compat; [apply Rpower_pos|apply sqrt_pi_pos]. Qed.
Lemma half_powers : forall z, 0 < z -> Rpower z (1 / 2) * Rpower z (- (1 / 2)) = 1.
Proof. intros z Z. rewrite <- Rpower_plus. replace (1 / 2 + - (1 / 2)) with 0 by ring. now apply Rpower_O. Qed.
Lemma kv0_low : forall nu z, nu <> 3 / 2 -> kv0 nu z = q0 * Rpower z (- (1 / 2)) * exp (- z).
Proof. intros nu z N. unfold kv0. destruct (Reqb_spec nu (3 / 2)); [contradiction|reflexivity]. Qed.
Lemma kv0_cont : forall nu z, nu <> 3 / 2 -> 0 < z -> continuous (kv0 nu) z.
Proof.
  intros nu z N Z. apply (continuous_ext (fun z => q0 * Rpower z (- (1 / 2)) * exp (- z))); [intro t; symmetry; now apply kv0_low|]. unfold Rpower. apply (@ex_derive_continuous _ R_NormedModule). auto_derive. exact Z.
Qed.
Lemma derive_near : forall (f g : R -> R) z d, 0 < z -> (forall t, 0 < t -> f t = g t) -> is_derive g z d -> is_derive f z d.
Proof.
  intros f g z d Z E D. apply (is_derive_ext_loc g); [|exact D]. exists (mkposreal z Z). intros y B. change (Rabs (y - z) < z) in B. apply Rabs_def2 in B. symmetry. apply E. lra.
Qed.
Lemma right_near : forall (f g : R -> R) l, (forall t, 0 < t -> f t = g t) -> continuous g 0 -> g 0 = l -> filterlim f (at_right 0) (locally l).
Proof.
  intros f g l E K <-. apply (filterlim_ext_loc g).
  - exists (mkposreal 1 Rlt_0_1). intros y _ Y. symmetry. apply E. exact Y.
  - eapply filterlim_filter_le_1; [|exact K]. intros P HP. unfold at_right, within. revert HP. apply filter_imp. auto.
Qed.
Lemma lim_near : forall (f g : R -> R) l, (forall t, 0 < t -> f t = g t) -> is_lim g p_infty l -> is_lim f p_infty l.
Proof. intros f g l E L. apply (is_lim_ext_loc g); [|exact L]. exists 0. intros x X. symmetry. now apply E. Qed.
Lemma bessel_mhalf : bessel_pair (- (1 / 2)) (sqrt PI) (kv0 (- (1 / 2))) (kv0 (- (1 / 2) + 1)).
Proof.
  assert (E : forall z, 0 < z -> Rpower z (- (1 / 2) + 1) * kv0 (- (1 / 2) + 1) z = q0 * exp (- z)).
  { intros z Z. rewrite kv0_low by lra. replace (- (1 / 2) + 1) with (1 / 2) by lra. pose proof (half_powers z Z) as H. set (u := Rpower z (1 / 2)) in *. set (v := Rpower z (- (1 / 2))) in *. replace (u * (q0 * v * exp (- z))) with (u * v * (q0 * exp (- z))) by ring. rewrite H. ring. }
  split; [intros z H; split; [|split]|split].
  - rewrite kv0_low by lra. pose proof q0_pos. pose proof (Rpower_pos z (- (1 / 2))). pose proof (exp_pos (- z)). apply Rmult_lt_0_compat; [apply Rmult_lt_0_compat|]; assumption.
  - apply kv0_cont; lra.
  - apply (derive_near _ (fun z => q0 * exp (- z)) z _ H E). replace (- (Rpower z (- (1 / 2) + 1) * kv0 (- (1 / 2)) z)) with (- (q0 * exp (- z))).
    + auto_derive; [exact I|ring].
    + rewrite <- (E z H). rewrite !kv0_low by lra. reflexivity.
  - apply (right_near _ (fun z => q0 * exp (- z))); [exact E| |].
    + apply (@ex_derive_continuous R_AbsRing R_NormedModule). auto_derive. exact I.
    + rewrite Ropp_0, exp_0. unfold q0. ring.
  - apply (lim_near _ (fun z => q0 * exp (- z))); [exact E|]. replace (Finite 0) with (Rbar_mult q0 0) by (cbn; f_equal; ring). apply is_lim_scal_l. apply (lim_exp_minus (fun x => x)). apply is_lim_id.
Qed.
Lemma Rpower_1half : forall z, 0 < z -> Rpower z (1 / 2 + 1) = z * Rpower z (1 / 2).
Proof. intros z Z. rewrite Rpower_plus, Rpower_1 by exact Z. ring. Qed.
Lemma bessel_half : bessel_pair (1 / 2) (sqrt PI / 2) (kv0 (1 / 2)) (kv0 (1 / 2 + 1)).
Proof.
  assert (E : forall z, 0 < z -> Rpower z (1 / 2 + 1) * kv0 (1 / 2 + 1) z = q0 * ((1 + z) * exp (- z))).
  { intros z Z. rewrite Rpower_1half by exact Z. replace (1 / 2 + 1) with (3 / 2) by lra. unfold kv0. destruct (Reqb_spec (3 / 2) (3 / 2)); [|lra]. pose proof (half_powers z Z) as H. set (u := Rpower z (1 / 2)) in *. set (v := Rpower z (- (1 / 2))) in *.
    replace (z * u * (q0 * v * exp (- z) * (1 + 1 / z))) with (u * v * (q0 * ((1 + z) * exp (- z)))) by (field; lra). rewrite H. ring. }
  split; [intros z H; split; [|split]|split].
  - rewrite kv0_low by lra. pose proof q0_pos. pose proof (Rpower_pos z (- (1 / 2))). pose proof (exp_pos (- z)). apply Rmult_lt_0_compat; [apply Rmult_lt_0_compat|]; assumption.
  - apply kv0_cont; lra.
  - apply (derive_near _ (fun z => q0 * ((1 + z) * exp (- z))) z _ H E). replace (- (Rpower z (1 / 2 + 1) * kv0 (1 / 2) z)) with (- (q0 * z * exp (- z))).
    + auto_derive; [exact I|ring].
    + rewrite Rpower_1half by exact H. rewrite kv0_low by lra. pose proof (half_powers z H) as HP. set (u := Rpower z (1 / 2)) in *. set (v := Rpower z (- (1 / 2))) in *. replace (z * u * (q0 * v * exp (- z))) with (u * v * (q0 * z * exp (- z))) by ring. rewrite HP. ring.
  - apply (right_near _ (fun z => q0 * ((1 + z) * exp (- z)))); [exact E| |].
    + apply (@ex_derive_continuous R_AbsRing R_NormedModule). auto_derive. exact I.
    + rewrite Ropp_0, exp_0. unfold q0. replace (1 / 2) with (- (1 / 2) + 1) at 2 by lra. rewrite Rpower_plus, Rpower_1 by lra. field.
  - apply (lim_near _ (fun z => q0 * ((1 + z) * exp (- z)))); [exact E|]. replace (Finite 0) with (Rbar_mult q0 0) by (cbn; f_equal; ring). apply is_lim_scal_l.
    apply is_lim_spec. intro e. pose proof (cond_pos e) as EP. assert (Z : 0 < 2 / e) by (apply Rmult_lt_0_compat; [lra|apply Rinv_0_lt_compat; lra]). exists (2 / e). intros x X. rewrite Rminus_0_r.
    rewrite Rabs_pos_eq by (apply Rmult_le_pos; [lra|apply Rlt_le, exp_pos]).
    eapply Rle_lt_trans; [apply tail_small; lra|]. apply (Rmult_lt_reg_r (1 + x)); [lra|]. unfold Rdiv at 1. rewrite Rmult_assoc, Rinv_l by lra. assert (2 = e * (2 / e)) by (field; lra). nra.
Qed.
Lemma lg0_half : gammap1 lg0 0 (- (1 / 2)) = sqrt PI.
Proof.
  unfold gammap1, gamma_. destruct (Reqb_spec (- (1 / 2) + 1) 0); [lra|]. destruct (Reqb_spec (- (1 / 2) + 1) 1); [lra|]. destruct (Reqb_spec (- (1 / 2) + 1) 2); [lra|]. destruct (Reqb_spec (- (1 / 2) + 1) 3); [lra|]. destruct (Reqb_spec (- (1 / 2) + 1) 4); [lra|]. destruct (Reqb_spec (- (1 / 2) + 1) 5); [lra|].
  unfold gamma, lg0. replace ((- (1 / 2) + 1) * 1) with (1 / 2) by lra. destruct (Reqb_spec (1 / 2) (1 / 2)); [|lra]. apply exp_ln, sqrt_pi_pos.
Qed.
Lemma lg0_3half : gammap1 lg0 0 (1 / 2) = sqrt PI / 2.
Proof.
  unfold gammap1, gamma_. destruct (Reqb_spec (1 / 2 + 1) 0); [lra|]. destruct (Reqb_spec (1 / 2 + 1) 1); [lra|]. destruct (Reqb_spec (1 / 2 + 1) 2); [lra|]. destruct (Reqb_spec (1 / 2 + 1) 3); [lra|]. destruct (Reqb_spec (1 / 2 + 1) 4); [lra|]. destruct (Reqb_spec (1 / 2 + 1) 5); [lra|].
  unfold gamma, lg0. replace ((1 / 2 + 1) * 1) with (3 / 2) by lra. destruct (Reqb_spec (3 / 2) (1 / 2)); [lra|]. destruct (Reqb_spec (3 / 2) (3 / 2)); [|lra]. apply exp_ln. pose proof sqrt_pi_pos. lra.
Qed.
