(** The lemmas behind C133 to C136. *)
From Coq Require Import ZArith Reals Bool List Lra Lia Arith.
From Coquelicot Require Import Coquelicot.
From Verif Require Import Base Bounds_Model Bounds_Proofs GSP_Model Bes_Model Bes_Spec Bes_K Size_Model Size_Proofs.
From Verif Require Import Akima_Model Akima_Spec Akima_Proofs Akima_Spline Akima_Acc MoffK_Model MoffK_Spec MoffK_Theta MoffK_Proofs MoffK_Int MoffK_Fit MoffK_Maxk MoffK_Pt MoffK_Ends.
Import ListNotations.
Open Scope R_scope.

Lemma norm_axis : forall k, 0 <= k -> sqrt (norm2 (k, 0)) = k.
Proof. intros k K. unfold norm2. cbn [fst snd]. replace (k * k + 0 * 0) with (k * k) by ring. now apply sqrt_square. Qed.
Lemma norm_nonneg : forall q, 0 <= sqrt (norm2 q).
Proof. intro q. apply sqrt_pos. Qed.
Lemma kvalue_0 : forall lgamma olver p, 0 < mo_r0 p -> mo_kValue lgamma olver p (0, 0) = Num (mo_flux p).
Proof.
  intros lgamma olver p R0. pose proof (maxk_pos p R0) as K. rewrite inside_value; [|exact R0|rewrite norm_axis by lra; lra]. rewrite norm_axis by lra. now rewrite interp_at_0.
Qed.
Lemma kvalue_node : forall lgamma olver p i kpos b, 0 < mo_r0 p -> (0 < i < 700)%nat -> sqrt (norm2 kpos) = INR i * (mo_maxk p / 699) -> kv olver (mo_beta p - 1) (sqrt (norm2 kpos) * mo_r0 p) = Num b ->
  mo_kValue lgamma olver p kpos = Num (4 * mo_flux p / (Rpower 2 (mo_beta p) * exp (lgamma (mo_beta p - 1))) * Rpower (sqrt (norm2 kpos) * mo_r0 p) (mo_beta p - 1) * b).
Proof.
  intros lgamma olver p i kpos b R0 I E V. pose proof (maxk_pos p R0) as K. assert (N : (i < n_pts)%nat) by (unfold n_pts; lia). assert (I0 : 0 < INR i) by (apply lt_0_INR; lia). assert (I1 : INR i <= 699) by (rewrite <- n699; apply le_INR; unfold n_pts; lia).
  rewrite inside_value; [|exact R0|]. 2:{ rewrite E. apply Rle_trans with (699 * (mo_maxk p / 699)); [apply Rmult_le_compat_r; lra|lra]. }
  rewrite E. fold (step p). rewrite node_value by (try exact R0; exact N). assert (P : 0 < INR i * step p) by (apply Rmult_lt_0_compat; [exact I0|now apply step_pos]). rewrite node_pos by (try exact R0; exact P).
  rewrite E in V. fold (step p) in V. unfold knu. rewrite V. unfold mo_knorm_bis. f_equal. f_equal. f_equal. cbv zeta. rewrite jpow_pos by lra. field. split; [pose proof (exp_pos (lgamma (mo_beta p - 1))); lra|unfold Rpower; pose proof (exp_pos (mo_beta p * ln 2)); lra].
Qed.
(** A log gamma which is right at half integers *)
Definition lgamma_ex (x : R) : R := let n := Z.to_nat (Int_part x) in ln (sqrt PI * INR (fact (2 * n)) / (4 ^ n * INR (fact n))).
Lemma int_part_half : forall n, Int_part (INR n + 1 / 2) = Z.of_nat n.
Proof.
  intro n. symmetry. unfold Int_part. assert (E : up (INR n + 1 / 2) = (Z.of_nat n + 1)%Z); [|rewrite E; lia]. symmetry. apply tech_up; rewrite plus_IZR, <- INR_IZR_INZ; lra.
Qed.
Lemma lgamma_ex_ok : gamma_half lgamma_ex.
Proof.
  intro n. unfold lgamma_ex. rewrite int_part_half, Nat2Z.id. cbv zeta. apply exp_ln. pose proof PI_RGT_0. apply Rdiv_lt_0_compat; apply Rmult_lt_0_compat; try apply INR_fact_lt_0; [now apply sqrt_lt_R0|apply pow_lt; lra].
Qed.
Lemma kvalue_node_half : forall lgamma olver p n i kpos, gamma_half lgamma -> 0 < mo_r0 p -> mo_beta p = INR n + 3 / 2 -> (n < 50)%nat -> (i < 700)%nat -> sqrt (norm2 kpos) = INR i * (mo_maxk p / 699) ->
  exists v, mo_kValue lgamma olver p kpos = Num v /\ Rabs (v - mo_flux p * moffat_k n (sqrt (norm2 kpos) * mo_r0 p)) <= / 10 ^ 12 * Rabs (mo_flux p).
Proof.
  intros lgamma olver p n i kpos LG R0 B N I E. pose proof (maxk_pos p R0) as K. assert (I' : (i < n_pts)%nat) by (unfold n_pts; lia). pose proof (pos_INR i) as I0. assert (I1 : INR i <= 699) by (rewrite <- n699; apply le_INR; unfold n_pts; lia).
  eexists. split; [apply inside_value; [exact R0|]|].
  - rewrite E. apply Rle_trans with (699 * (mo_maxk p / 699)); [apply Rmult_le_compat_r; lra|lra].
  - rewrite E. fold (step p). rewrite node_value by (try exact R0; exact I'). apply node_close; try assumption. apply Rmult_le_pos; [exact I0|left; now apply step_pos].
Qed.
Lemma kvalue_circular : forall lgamma olver p k1 k2, norm2 k1 = norm2 k2 -> mo_kValue lgamma olver p k1 = mo_kValue lgamma olver p k2.
Proof. intros lgamma olver p k1 k2 E. unfold mo_kValue. now rewrite E. Qed.
Lemma kvalue_continuous : forall lgamma olver p, 0 < mo_r0 p -> mo_flux p <> 0 -> exists f, (forall k, continuity_pt f k) /\ forall kpos, mo_kValue lgamma olver p kpos = Num (f (sqrt (norm2 kpos))).
Proof. intros lgamma olver p R0 F. exists (radial lgamma olver p). split; [intro k; now apply radial_cont|intro kpos; now apply radial_ok]. Qed.
Lemma kvalue_zero_flux : forall lgamma olver p kpos, 0 < mo_r0 p -> mo_flux p = 0 -> mo_maxk p < sqrt (norm2 kpos) -> mo_kValue lgamma olver p kpos = Nan.
Proof. intros lgamma olver p kpos R0 F K. rewrite outside_value by assumption. unfold tail. now rewrite slp_zero_flux. Qed.
Lemma kvalue_inside : forall lgamma olver p n kpos, gamma_half lgamma -> 0 < mo_r0 p -> mo_beta p = INR n + 3 / 2 -> (n < 50)%nat -> sqrt (norm2 kpos) <= mo_maxk p ->
  exists v, mo_kValue lgamma olver p kpos = Num v /\ Rabs (v - mo_flux p * moffat_k n (sqrt (norm2 kpos) * mo_r0 p)) <= Rabs (mo_flux p) * ((mo_maxk p * mo_r0 p / 699) ^ 2 / 2 + 5 / 2 * / 10 ^ 12).
Proof.
  intros lgamma olver p n kpos LG R0 B N K. eexists. split; [now apply inside_value|]. apply table_close; try assumption. split; [apply norm_nonneg|exact K].
Qed.
(** * maxk *)
Lemma maxk_scale : forall p q, 0 < mo_r0 p -> 0 < mo_r0 q -> mo_beta p = mo_beta q -> g_maxk (mo_gs p) = g_maxk (mo_gs q) -> 0 < mo_maxk p /\ mo_maxk p * mo_r0 p = mo_maxk q * mo_r0 q.
Proof. intros p q P Q B T. split; [now apply maxk_pos|]. rewrite !maxk_fit by assumption. now rewrite B, T. Qed.
Lemma at_maxk : forall p n, 0 < mo_r0 p -> (n < 4)%nat -> mo_beta p = INR n + 3 / 2 -> g_maxk (mo_gs p) = 1 / 1000 -> Rabs (moffat_k n (mo_maxk p * mo_r0 p) - 1 / 1000) <= 1 / 10000000.
Proof.
  intros p n R0 N B T. assert (T' : g_maxk (mo_gs p) = / 10 ^ 3) by (rewrite T; field). replace (1 / 1000) with (/ 10 ^ 3) by field.
  destruct n as [|[|[|[|]]]]; [| | | |lia]; cbn [INR] in B.
  - apply near_15, at_15_3; auto. rewrite B. field.
  - apply near_25, at_25_3; auto. rewrite B. field.
  - apply near_35, at_35_3; auto. rewrite B. field.
  - apply near_45, at_45_3; auto. rewrite B. field.
Qed.
(** * Beyond maxk *)
Lemma beyond : forall lgamma olver p n kpos, gamma_half lgamma -> 0 < mo_r0 p -> mo_flux p <> 0 -> mo_beta p = INR n + 3 / 2 -> (n < 50)%nat -> in_range p -> mo_maxk p <= sqrt (norm2 kpos) ->
  mo_kValue lgamma olver p kpos = Num (mo_flux p * (env n (sqrt (norm2 kpos) * mo_r0 p) * (1 + (th n (mo_maxk p * mo_r0 p) - 1) * (mo_maxk p * mo_r0 p) / (sqrt (norm2 kpos) * mo_r0 p)))).
Proof.
  intros lgamma olver p n kpos LG R0 F B N RG K. rewrite radial_ok by assumption. rewrite radial_outside by assumption. f_equal. pose proof (maxk_pos p R0).
  apply tail_half; try assumption; [|lra]. apply (maxk_bounds p R0 RG). rewrite B. pose proof (pos_INR n). lra.
Qed.
Lemma th_01 : forall x, 0 < x -> th 0 x = 1 /\ th 1 x = 1 + 1 / x.
Proof.
  intros x X. pose proof (mk_env 0 x X) as E0. pose proof (mk_env 1 x X) as E1. rewrite mk_0 in E0. rewrite mk_1 in E1. unfold env in E0, E1. rewrite theta_0 in E0. rewrite theta_1 in E1. pose proof (exp_pos (- x)) as P. cbn [pow] in E0, E1. split.
  - apply (Rmult_eq_reg_l (exp (- x))); [|lra]. lra.
  - apply (Rmult_eq_reg_l (exp (- x) * x)); [|apply Rmult_integral_contrapositive; lra]. replace (exp (- x) * x * (1 + 1 / x)) with ((1 + x) * exp (- x)) by (field; lra). lra.
Qed.
Lemma beyond_exact : forall lgamma olver p n kpos, gamma_half lgamma -> 0 < mo_r0 p -> mo_flux p <> 0 -> mo_beta p = INR n + 3 / 2 -> (n < 2)%nat -> in_range p -> mo_maxk p <= sqrt (norm2 kpos) ->
  mo_kValue lgamma olver p kpos = Num (mo_flux p * moffat_k n (sqrt (norm2 kpos) * mo_r0 p)).
Proof.
  intros lgamma olver p n kpos LG R0 F B N RG K. rewrite (beyond lgamma olver p n) by (auto; lia). f_equal. f_equal. pose proof (maxk_pos p R0) as M.
  assert (X1 : 0 < mo_maxk p * mo_r0 p) by now apply Rmult_lt_0_compat. assert (X : 0 < sqrt (norm2 kpos) * mo_r0 p) by (apply Rmult_lt_0_compat; lra). rewrite mk_env by exact X. f_equal.
  set (x1 := mo_maxk p * mo_r0 p) in *. set (x := sqrt (norm2 kpos) * mo_r0 p) in *. destruct (th_01 x1 X1) as [A1 A2]. destruct (th_01 x X) as [C1 C2].
  destruct n as [|[|]]; [| |lia].
  - rewrite A1, C1. field. lra.
  - rewrite A2, C2. field. split; lra.
Qed.
Lemma beyond_bounds : forall lgamma olver p n kpos, gamma_half lgamma -> 0 < mo_r0 p -> mo_flux p <> 0 -> mo_beta p = INR n + 3 / 2 -> (n < 50)%nat -> in_range p -> mo_maxk p <= sqrt (norm2 kpos) ->
  INR n <= mo_maxk p * mo_r0 p ->
  exists r, mo_kValue lgamma olver p kpos = Num (mo_flux p * r) /\ moffat_k n (sqrt (norm2 kpos) * mo_r0 p) <= r <= moffat_k n (mo_maxk p * mo_r0 p).
Proof.
  intros lgamma olver p n kpos LG R0 F B N RG K L. eexists. split; [now apply (beyond lgamma olver p n)|]. pose proof (maxk_pos p R0) as M.
  assert (X1 : 0 < mo_maxk p * mo_r0 p) by now apply Rmult_lt_0_compat. assert (XX : mo_maxk p * mo_r0 p <= sqrt (norm2 kpos) * mo_r0 p) by (apply Rmult_le_compat_r; lra).
  set (x1 := mo_maxk p * mo_r0 p) in *. set (x := sqrt (norm2 kpos) * mo_r0 p) in *. assert (X : 0 < x) by lra. rewrite (mk_env n x X), (mk_env n x1 X1).
  pose proof (th_chord n x1 x X1 XX) as [T1 T2]. pose proof (th_chord n x1 x1 X1 (Rle_refl _)) as [T3 _]. pose proof (env_decr n x1 x X1 L XX) as D. pose proof (env_pos n x X) as E. split.
  - apply Rmult_le_compat_l; lra.
  - apply Rmult_le_compat; try lra. assert (Q : x1 / x <= 1) by (apply (Rmult_le_reg_r x); [exact X|]; unfold Rdiv; rewrite Rmult_assoc, Rinv_l by lra; lra).
    assert ((th n x1 - 1) * (x1 / x) <= (th n x1 - 1) * 1) by (apply Rmult_le_compat_l; lra). unfold Rdiv in *. lra.
Qed.
Lemma beyond_505 : forall lgamma olver p, gamma_half lgamma -> mo_r0 p = 1 -> mo_flux p = 1 -> mo_beta p = 101 / 2 ->
  (g_maxk (mo_gs p) = / 10 ^ 1 -> exists v, mo_kValue lgamma olver p (48, 0) = Num v /\ 1000 <= v) /\
  (g_maxk (mo_gs p) = / 10 ^ 3 -> exists v w, mo_maxk p < 48 /\ mo_kValue lgamma olver p (48, 0) = Num v /\ mo_kValue lgamma olver p (mo_maxk p, 0) = Num w /\ 0 < w /\ 3 * w <= v).
Proof.
  intros lgamma olver p LG R1 F1 B. assert (R0 : 0 < mo_r0 p) by lra. assert (F : mo_flux p <> 0) by lra. assert (Bn : mo_beta p = INR 49 + 3 / 2) by (rewrite B, INR_IZR_INZ; cbn; lra). assert (N : (49 < 50)%nat) by lia.
  pose proof (maxk_pos p R0) as M. split; intro T.
  - assert (RG : in_range p) by (split; rewrite ?B, ?T; lra). destruct (at_505_1 p R0 B T) as [A1 A2]. pose proof A2 as A3. rewrite R1, Rmult_1_r in A3.
    eexists. split; [apply (beyond lgamma olver p 49); try assumption; rewrite norm_axis by lra; lra|]. rewrite F1, norm_axis by lra. rewrite Rmult_1_l. replace (48 * mo_r0 p) with 48 by (rewrite R1; ring). now apply tail_505_1.
  - assert (RG : in_range p) by (split; rewrite ?B, ?T; lra). destruct (at_505_3 p R0 B T) as [A1 A2]. pose proof A2 as A3. rewrite R1, Rmult_1_r in A3.
    do 2 eexists. split; [lra|]. split; [apply (beyond lgamma olver p 49); try assumption; rewrite norm_axis by lra; lra|]. split; [apply (beyond lgamma olver p 49); try assumption; rewrite norm_axis by lra; lra|].
    rewrite !norm_axis by lra. rewrite F1, !Rmult_1_l. replace (48 * mo_r0 p) with 48 by (rewrite R1; ring). set (x1 := mo_maxk p * mo_r0 p) in *. assert (X1 : 0 < x1) by lra.
    replace (1 + (th 49 x1 - 1) * x1 / x1) with (th 49 x1) by (field; lra). rewrite <- mk_env by exact X1. split; [apply mk_pos; lra|]. pose proof (tail_505_3 x1 (conj A1 A2)). lra.
Qed.
