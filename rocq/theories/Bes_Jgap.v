(** The defect of the asymptotic branch of j0 is tiny: polynomial inequalities. *)
From Coq Require Import ZArith QArith Qreals Reals List Bool Lra Lia.
From Coquelicot Require Import Coquelicot.
From Verif Require Import Base Bounds_Model Bounds_Proofs Num_Consts Poly_Check Poly_Q Bes_Model Bes_Spec Bes_Si Poly_Trim Bes_Jfar.
Import ListNotations.
Open Scope R_scope.

Definition zx (p : list Z) : list Z := 0%Z :: p.
Lemma zx_ok : forall p z, zpe (zx p) z = z * zpe p z.
Proof. intros p z. unfold zx. cbn [zpe]. ring. Qed.
(** factored so that one factor of every product has few bits *)
Definition wC := Eval vm_compute in W zC zCd. Definition wS := Eval vm_compute in W zS zSd. Definition w2C := Eval vm_compute in W2 zC zCd. Definition w2S := Eval vm_compute in W2 zS zSd.
Definition C3 (p : list Z) := zmul zCd (zmul zCd (zmul zCd p)). Definition C2 (p : list Z) := zmul zCd (zmul zCd p).
Definition S3 (p : list Z) := zmul zSd (zmul zSd (zmul zSd p)). Definition S2 (p : list Z) := zmul zSd (zmul zSd p).
Definition M1 : list Z := zadd (S2 (zadd (zx (zmul zCd (zscale 24 wC))) (zadd (zx (zx (zscale 16 w2C))) (zmul zCd (zmul zCd zC))))) (C3 (zadd (zmul zSd (zscale 64 zS)) (zx (zscale 128 wS)))).
Definition D1 : list Z := C3 (S2 [4%Z]).
Definition M2 : list Z := zadd (C2 (zadd (zmul zSd (zmul zSd (zscale 9 zS))) (zadd (zx (zmul zSd (zscale 40 wS))) (zx (zx (zscale 16 w2S)))))) (S3 (zscale (-128) wC)).
Definition D2 : list Z := S3 (C2 [4%Z]).
Lemma wC_v : W zC zCd = wC. Proof. vm_cast_no_check (eq_refl wC). Qed.
Lemma wS_v : W zS zSd = wS. Proof. vm_cast_no_check (eq_refl wS). Qed.
Lemma w2C_v : W2 zC zCd = w2C. Proof. vm_cast_no_check (eq_refl w2C). Qed.
Lemma w2S_v : W2 zS zSd = w2S. Proof. vm_cast_no_check (eq_refl w2S). Qed.
Local Ltac expand := repeat (rewrite zpe_add || rewrite zpe_scale || rewrite zx_ok || rewrite zpe_mul).
Lemma D1_pos : forall z, 0 <= z -> 0 < zpe D1 z.
Proof. intros z H. unfold D1, C3, S2. rewrite !zpe_mul. pose proof (zCd_pos z H). pose proof (zSd_pos z H). cbn [zpe]. repeat apply Rmult_lt_0_compat; try assumption; lra. Qed.
Lemma D2_pos : forall z, 0 <= z -> 0 < zpe D2 z.
Proof. intros z H. unfold D2, S3, C2. rewrite !zpe_mul. pose proof (zCd_pos z H). pose proof (zSd_pos z H). cbn [zpe]. repeat apply Rmult_lt_0_compat; try assumption; lra. Qed.
Lemma G1_M : forall z, 0 <= z -> G1 z = zpe M1 z / zpe D1 z.
Proof.
  intros z H. pose proof (zCd_pos z H). pose proof (zSd_pos z H). unfold G1, M1, D1, C3, S2, r0, r1, r2. rewrite wC_v, wS_v, w2C_v. expand. replace (zpe [4%Z] z) with 4 by (cbn [zpe]; ring).
  set (p := zpe zC z). set (q := zpe zCd z) in *. set (r := zpe zS z). set (s := zpe zSd z) in *. set (a := zpe wC z). set (b := zpe w2C z). set (c := zpe wS z). clearbody p q r s a b c. field. split; lra.
Qed.
Lemma G2_M : forall z, 0 <= z -> G2 z = zpe M2 z / zpe D2 z.
Proof.
  intros z H. pose proof (zCd_pos z H). pose proof (zSd_pos z H). unfold G2, M2, D2, S3, C2, r0, r1, r2. rewrite wC_v, wS_v, w2S_v. expand. replace (zpe [4%Z] z) with 4 by (cbn [zpe]; ring).
  set (p := zpe zC z). set (q := zpe zCd z) in *. set (r := zpe zS z). set (s := zpe zSd z) in *. set (a := zpe wC z). set (b := zpe w2S z). set (c := zpe wS z). clearbody p q r s a b c. field. split; lra.
Qed.
(** the bounds, times 10^17 *)
Definition k1 : list Z := [40; 0; 0; 0; 0; 0; 0; 0; 3200]%Z.
Definition k2 : list Z := [1050; -8000; 28000; -56000; 70000; -56000; 28000; -8000; 3600]%Z.
Lemma k1_ok : forall z, zpe k1 z = 40 + 3200 * z ^ 8.
Proof. intro z. unfold k1. cbn [zpe]. ring. Qed.
Lemma k2_ok : forall z, zpe k2 z = 50 + 1000 * (1 - z) ^ 8 + 2600 * z ^ 8.
Proof. intro z. unfold k2. cbn [zpe]. ring. Qed.
Definition m1 := Eval vm_compute in zscale (10 ^ 17) M1. Definition d1 := Eval vm_compute in zmul k1 D1.
Definition m2 := Eval vm_compute in zscale (10 ^ 17) M2. Definition d2 := Eval vm_compute in zmul k2 D2.
Lemma m1_v : zscale (10 ^ 17) M1 = m1. Proof. vm_cast_no_check (eq_refl m1). Qed.
Lemma m2_v : zscale (10 ^ 17) M2 = m2. Proof. vm_cast_no_check (eq_refl m2). Qed.
Lemma d1_v : zmul k1 D1 = d1. Proof. vm_cast_no_check (eq_refl d1). Qed.
Lemma d2_v : zmul k2 D2 = d2. Proof. vm_cast_no_check (eq_refl d2). Qed.
Lemma whole : forall n M p z, pieces n M 0 (small 34 380 0 p) = true -> (0 < n)%nat -> IZR M = INR n -> 0 <= z <= 1 -> 0 <= zpe p z.
Proof.
  intros n M p z H N E Z. assert (K : IZR (2 ^ 0) = 1) by reflexivity. apply (small_pieces n M 0 34 380 0 p z); [lia|lia|exact H|exact N|lra|rewrite K; lra|]. rewrite K, E. pose proof (pos_INR n). nra.
Qed.
Lemma bound : forall m d k z, 0 < zpe d z -> Rabs (zpe (zscale (10 ^ 17) m) z) <= zpe (zmul k d) z -> Rabs (zpe m z / zpe d z) <= zpe k z / 10 ^ 17.
Proof.
  intros m d k z D H. rewrite zpe_scale, zpe_mul, Rabs_mult, (Rabs_pos_eq (IZR _)) in H by (apply IZR_le; lia). replace (IZR (10 ^ 17)) with (10 ^ 17) in H by (rewrite pow_IZR; reflexivity). unfold Rdiv at 1. rewrite Rabs_mult, Rabs_inv, (Rabs_pos_eq (zpe d z)) by lra.
  apply (Rmult_le_reg_r (zpe d z)); [exact D|]. rewrite Rmult_assoc, Rinv_l, Rmult_1_r by lra. assert (0 < 10 ^ 17) by (apply pow_lt; lra). apply (Rmult_le_reg_l (10 ^ 17)); [assumption|]. replace (10 ^ 17 * (zpe k z / 10 ^ 17 * zpe d z)) with (zpe k z * zpe d z) by (field; lra). exact H.
Qed.
Lemma G1_small : forall z, 0 <= z <= 1 -> Rabs (G1 z) <= (40 + 3200 * z ^ 8) / 10 ^ 17.
Proof.
  intros z Z. rewrite G1_M, <- k1_ok by lra. apply bound; [apply D1_pos; lra|]. rewrite m1_v, d1_v. apply both; (apply (whole 2 2); [vm_cast_no_check (eq_refl true)|lia|reflexivity|exact Z]).
Qed.
Lemma G2_small : forall z, 0 <= z <= 1 -> Rabs (G2 z) <= (50 + 1000 * (1 - z) ^ 8 + 2600 * z ^ 8) / 10 ^ 17.
Proof.
  intros z Z. rewrite G2_M, <- k2_ok by lra. apply bound; [apply D2_pos; lra|]. rewrite m2_v, d2_v. apply both; (apply (whole 4 4); [vm_cast_no_check (eq_refl true)|lia|change (INR 4) with (1 + 1 + 1 + 1); lra|exact Z]).
Qed.
(** * The bound of the defect, integrated *)
Definition Psi (t : R) : R := (40 * t + 3200 / 17 * t ^ 17 + 25 * t ^ 2 - 500 / 9 * (1 - t ^ 2) ^ 9 + 1300 / 9 * t ^ 18) / 10 ^ 17.
Definition psi (t : R) : R := (40 + 3200 * t ^ 16 + t * (50 + 1000 * (1 - t ^ 2) ^ 8 + 2600 * t ^ 16)) / 10 ^ 17.
Lemma Psi_derive : forall t, is_derive Psi t (psi t).
Proof. intro t. unfold Psi, psi. auto_derive; [exact Logic.I|]. cbn [Nat.pred INR]. field. Qed.
Lemma Psi_range : forall t, 0 <= t <= 1 -> Psi 1 - Psi t <= 460 / 10 ^ 17.
Proof.
  intros t T. unfold Psi. assert (A : 0 <= t ^ 17) by (apply pow_le; lra). assert (B : 0 <= t ^ 18) by (apply pow_le; lra). assert (C : 0 <= t ^ 2 <= 1) by (cbn [pow]; nra). assert (D : (1 - t ^ 2) ^ 9 <= 1) by (rewrite <- (pow1 9); apply pow_incr; lra).
  replace ((1 - 1 ^ 2) ^ 9) with 0 by ring. rewrite !pow1. set (a := t ^ 17) in *. set (b := t ^ 18) in *. set (c := t ^ 2) in *. set (d := (1 - c) ^ 9) in *. assert (0 < / 10 ^ 17) by (apply Rinv_0_lt_compat, pow_lt; lra). unfold Rdiv. rewrite <- Rmult_minus_distr_r. apply Rmult_le_compat_r; lra.
Qed.
Definition amp : R := one_div_root_pi * (14143 / 10000) / 8.
Definition Gb (x : R) : R := - amp * Psi (8 / x).
Definition gb (x : R) : R := amp * (za x / 8) * psi (8 / x).
Lemma one_pos : 0 < one_div_root_pi < 565 / 1000.
Proof. unfold one_div_root_pi, dec. cbn [fst snd]. lra. Qed.
Lemma Gb_derive : forall x, 0 < x -> is_derive Gb x (gb x).
Proof.
  intros x X. unfold Gb, gb. replace (amp * (za x / 8) * psi (8 / x)) with (- amp * (- (za x / 8) * psi (8 / x))) by ring. apply (is_derive_scal (fun x => Psi (8 / x))). apply (is_derive_comp Psi (fun x => 8 / x) x (psi (8 / x)) (- (za x / 8))); [apply Psi_derive|]. unfold za. auto_derive; [lra|]. field. lra.
Qed.
Lemma circle : forall x, Rabs (cos x + sin x) <= 14143 / 10000 /\ Rabs (sin x - cos x) <= 14143 / 10000.
Proof.
  intro x. pose proof (sin2_cos2 x) as H. unfold Rsqr in H. set (s := sin x) in *. set (c := cos x) in *. assert (Q : forall a, a * a <= 2 -> Rabs a <= 14143 / 10000) by (intros a K; apply Rsqr_incr_0; [rewrite <- Rsqr_abs; unfold Rsqr; lra|apply Rabs_pos|lra]).
  pose proof (Rle_0_sqr (c + s)) as P. pose proof (Rle_0_sqr (s - c)) as N. unfold Rsqr in *. split; apply Q; lra.
Qed.
Lemma defect_small : forall x, 8 <= x -> Rabs (defect x) <= gb x.
Proof.
  intros x X. set (t := 8 / x). assert (T : 0 < t <= 1). { unfold t. split; [apply Rdiv_lt_0_compat; lra|]. apply (Rmult_le_reg_r x); [lra|]. unfold Rdiv. rewrite Rmult_assoc, Rinv_l by lra. lra. }
  assert (Z : za x = t * t) by reflexivity. assert (Z1 : 0 <= t * t <= 1) by nra. pose proof one_pos as O. pose proof (circle x) as [CA CB]. unfold defect, gb, amp. fold t. rewrite Z. pose proof (G1_small (t * t) Z1) as A. pose proof (G2_small (t * t) Z1) as B.
  unfold psi. replace (t ^ 16) with ((t * t) ^ 8) by ring. replace (t ^ 2) with (t * t) by ring. set (g := (40 + 3200 * (t * t) ^ 8) / 10 ^ 17) in *. set (k := (50 + 1000 * (1 - t * t) ^ 8 + 2600 * (t * t) ^ 8) / 10 ^ 17) in *.
  replace ((40 + 3200 * (t * t) ^ 8 + t * (50 + 1000 * (1 - t * t) ^ 8 + 2600 * (t * t) ^ 8)) / 10 ^ 17) with (g + t * k) by (unfold g, k; field; apply pow_nonzero; lra).
  rewrite !Rabs_mult, (Rabs_pos_eq one_div_root_pi), (Rabs_pos_eq (t * t / 64)) by lra. set (o := one_div_root_pi) in *.
  assert (U : Rabs (G1 (t * t) * (cos x + sin x) - t * G2 (t * t) * (sin x - cos x)) <= (g + t * k) * (14143 / 10000)).
  { unfold Rminus at 1. eapply Rle_trans; [apply Rabs_triang|]. rewrite Rabs_Ropp, !Rabs_mult, (Rabs_pos_eq t) by lra. rewrite Rmult_plus_distr_r. apply Rplus_le_compat; apply Rmult_le_compat; try apply Rabs_pos; try assumption.
    - apply Rmult_le_pos; [lra|apply Rabs_pos].
    - apply Rmult_le_compat_l; [lra|exact B]. }
  replace (o * (14143 / 10000) / 8 * (t * t / 8) * (g + t * k)) with (o * (t * t / 64) * ((g + t * k) * (14143 / 10000))) by field. apply Rmult_le_compat_l; [apply Rmult_le_pos; lra|exact U].
Qed.
