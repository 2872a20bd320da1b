(** The Bessel function j0 beyond 8: the defect of the asymptotic branch in Bessel's equation. *)
From Coq Require Import ZArith QArith Qreals Reals List Bool Lra Lia.
From Coquelicot Require Import Coquelicot.
From Verif Require Import Base Bounds_Model Bounds_Proofs Num_Consts Poly_Check Poly_Q Bes_Model Bes_Spec Bes_Si Poly_Trim.
Import ListNotations.
Open Scope R_scope.
Local Ltac rring := match goal with |- ?a = ?b => change (@eq R a b); ring end.
Local Ltac rfield := match goal with |- ?a = ?b => change (@eq R a b); field end.

(** * Oscillations with slowly varying amplitudes *)
Definition osc (A B : R -> R) (x : R) : R := A x * (cos x + sin x) - B x * (sin x - cos x).
Lemma osc_derive : forall (A B : R -> R) x a b, is_derive A x a -> is_derive B x b -> is_derive (osc A B) x ((a - B x) * (cos x + sin x) - (b + A x) * (sin x - cos x)).
Proof.
  intros A B x a b HA HB. unfold osc. auto_derive; [split; [exists a; exact HA|split; [exists b; exact HB|exact Logic.I]]|].
  replace (Derive (fun x => A x) x) with a by (symmetry; apply is_derive_unique; exact HA). replace (Derive (fun x => B x) x) with b by (symmetry; apply is_derive_unique; exact HB). ring.
Qed.
(** * The growth of e'^2 + (1 + 1 / 4 x^2) e^2 *)
Definition stiff (x : R) : R := 1 + 1 / (4 * (x * x)).
Definition energy (e e1 : R -> R) (x : R) : R := e1 x * e1 x + stiff x * (e x * e x).
Lemma energy_pos : forall e e1 x, 0 < x -> 0 <= energy e e1 x.
Proof.
  intros e e1 x X. unfold energy, stiff. assert (0 < 1 / (4 * (x * x))) by (apply Rdiv_lt_0_compat; nra). set (k := 1 / (4 * (x * x))) in *. pose proof (Rle_0_sqr (e1 x)). pose proof (Rle_0_sqr (e x)). unfold Rsqr in *. nra.
Qed.
Lemma energy_derive : forall (e e1 : R -> R) rho x, 0 < x -> is_derive e x (e1 x) -> is_derive e1 x (rho - stiff x * e x) ->
  is_derive (energy e e1) x (2 * e1 x * rho - e x * e x / (2 * (x * x * x))).
Proof.
  intros e e1 rho x X E E1. unfold energy, stiff in *. auto_derive; [repeat split; first [exists (e1 x); exact E|exists (rho - (1 + 1 / (4 * (x * x))) * e x); exact E1|nra]|].
  replace (Derive (fun x => e x) x) with (e1 x) by (symmetry; apply is_derive_unique; exact E). replace (Derive (fun x => e1 x) x) with (rho - (1 + 1 / (4 * (x * x))) * e x) by (symmetry; apply is_derive_unique; exact E1). field. lra.
Qed.
Lemma energy_grows : forall (e e1 rho G g : R -> R) d x0 x, 0 < d -> 0 < x0 <= x ->
  (forall t, x0 <= t -> is_derive e t (e1 t)) -> (forall t, x0 <= t -> is_derive e1 t (rho t - stiff t * e t)) ->
  (forall t, x0 <= t -> is_derive G t (g t)) -> (forall t, x0 <= t -> Rabs (rho t) <= g t) ->
  sqrt (energy e e1 x + d) <= sqrt (energy e e1 x0 + d) + (G x - G x0).
Proof.
  intros e e1 rho G g d x0 x D X E E1 HG B. set (f := fun t => G t - sqrt (energy e e1 t + d)).
  set (f' := fun t => g t - (2 * e1 t * rho t - e t * e t / (2 * (t * t * t))) / (2 * sqrt (energy e e1 t + d))).
  assert (DF : forall t, x0 <= t -> is_derive f t (f' t)).
  { intros t T. pose proof (energy_derive e e1 (rho t) t ltac:(lra) (E t T) (E1 t T)) as H. pose proof (energy_pos e e1 t ltac:(lra)) as P. unfold f, f'. auto_derive.
    - split; [exists (g t); apply HG, T|]. split; [exists (2 * e1 t * rho t - e t * e t / (2 * (t * t * t))); exact H|]. split; [lra|exact Logic.I].
    - replace (Derive (fun x => G x) t) with (g t) by (symmetry; apply is_derive_unique; apply HG, T). replace (Derive (fun x => energy e e1 x) t) with (2 * e1 t * rho t - e t * e t / (2 * (t * t * t))) by (symmetry; apply is_derive_unique; exact H). field.
      split; [lra|]. apply Rgt_not_eq, sqrt_lt_R0. lra. }
  assert (PF : forall t, x0 <= t -> 0 <= f' t).
  { intros t T. pose proof (energy_pos e e1 t ltac:(lra)) as P. unfold f'. set (s := sqrt (energy e e1 t + d)). assert (S : 0 < s) by (apply sqrt_lt_R0; lra). assert (SS : s * s = energy e e1 t + d) by (apply sqrt_sqrt; lra).
    assert (LE : Rabs (e1 t) <= s). { apply Rsqr_incr_0; [|apply Rabs_pos|lra]. rewrite <- Rsqr_abs. unfold Rsqr. rewrite SS. unfold energy, stiff. assert (0 < 1 / (4 * (t * t))) by (apply Rdiv_lt_0_compat; nra). set (k := 1 / (4 * (t * t))) in *. pose proof (Rle_0_sqr (e t)). unfold Rsqr in *. nra. }
    assert (K : 0 <= e t * e t / (2 * (t * t * t))). { apply Rmult_le_pos; [apply Rle_0_sqr|]. left. apply Rinv_0_lt_compat. assert (0 < t * t) by nra. nra. }
    assert (M : e1 t * rho t <= s * g t). { eapply Rle_trans; [apply Rle_abs|]. rewrite Rabs_mult. apply Rmult_le_compat; try apply Rabs_pos; [exact LE|apply B, T]. }
    set (k := e t * e t / (2 * (t * t * t))) in *. assert (U : (2 * e1 t * rho t - k) / (2 * s) <= g t). { apply (Rmult_le_reg_r (2 * s)); [lra|]. unfold Rdiv. rewrite Rmult_assoc, Rinv_l by lra. lra. } lra. }
  destruct (MVT_gen f x0 x f') as [c [C V]].
  - intros t T. rewrite Rmin_left, Rmax_right in T by lra. apply DF. lra.
  - intros t T. rewrite Rmin_left, Rmax_right in T by lra. apply derivable_continuous_pt. exists (f' t). apply is_derive_Reals, DF. lra.
  - rewrite Rmin_left, Rmax_right in C by lra. pose proof (PF c ltac:(lra)) as W. assert (0 <= f x - f x0) by (rewrite V; apply Rmult_le_pos; lra). unfold f in *. lra.
Qed.
(** * Quotients of polynomials *)
Definition W2 (p q : list Z) : list Z := zadd (zmul (zderiv (W p q)) q) (zscale (-2) (zmul (W p q) (zderiv q))).
Definition r0 (p q : list Z) (z : R) : R := zpe p z / zpe q z.
Definition r1 (p q : list Z) (z : R) : R := zpe (W p q) z / (zpe q z * zpe q z).
Definition r2 (p q : list Z) (z : R) : R := zpe (W2 p q) z / (zpe q z * zpe q z * zpe q z).
Lemma W_ok : forall p q z, zpe (W p q) z = zpe (zderiv p) z * zpe q z - zpe p z * zpe (zderiv q) z.
Proof. intros p q z. unfold W, zopp. rewrite zpe_add, zpe_scale, !zpe_mul. ring. Qed.
Lemma W2_ok : forall p q z, zpe (W2 p q) z = zpe (zderiv (W p q)) z * zpe q z - 2 * zpe (W p q) z * zpe (zderiv q) z.
Proof. intros p q z. unfold W2. rewrite zpe_add, zpe_scale, !zpe_mul. ring. Qed.
Lemma r0_derive : forall p q z, zpe q z <> 0 -> is_derive (r0 p q) z (r1 p q z).
Proof.
  intros p q z H. unfold r0, r1. pose proof (zderiv_ok p z) as A. pose proof (zderiv_ok q z) as B. auto_derive; [repeat split; first [exact H|eexists; exact A|eexists; exact B]|].
  replace (Derive (fun x => zpe p x) z) with (zpe (zderiv p) z) by (symmetry; apply is_derive_unique; exact A). replace (Derive (fun x => zpe q x) z) with (zpe (zderiv q) z) by (symmetry; apply is_derive_unique; exact B). rewrite W_ok. field. exact H.
Qed.
Lemma r1_derive : forall p q z, zpe q z <> 0 -> is_derive (r1 p q) z (r2 p q z).
Proof.
  intros p q z H. unfold r1, r2. pose proof (zderiv_ok (W p q) z) as A. pose proof (zderiv_ok q z) as B. auto_derive; [repeat split; first [eexists; exact A|eexists; exact B|apply Rmult_integral_contrapositive_currified; exact H]|].
  replace (Derive (fun x => zpe (W p q) x) z) with (zpe (zderiv (W p q)) z) by (symmetry; apply is_derive_unique; exact A). replace (Derive (fun x => zpe q x) z) with (zpe (zderiv q) z) by (symmetry; apply is_derive_unique; exact B). rewrite W2_ok. field. exact H.
Qed.
Definition zC := Eval vm_compute in scl 20 PC. Definition zCd := Eval vm_compute in scl 20 QC. Definition zS := Eval vm_compute in scl 22 PS. Definition zSd := Eval vm_compute in scl 22 QS.
Lemma zCd_pos : forall z, 0 <= z -> 0 < zpe zCd z.
Proof. intros z H. apply first_pos; [exact H|vm_compute; reflexivity]. Qed.
Lemma zSd_pos : forall z, 0 <= z -> 0 < zpe zSd z.
Proof. intros z H. apply first_pos; [exact H|vm_compute; reflexivity]. Qed.
Lemma rc_r0 : forall z, 0 <= z -> evaluate_rational z PC QC = r0 zC zCd z.
Proof.
  intros z Z. pose proof (zCd_pos z Z) as P. unfold evaluate_rational, r0. change zC with (scl 20 PC). change zCd with (scl 20 QC) in *. rewrite !scl_ok in * by (vm_compute; reflexivity). set (t := 10 ^ 20) in *. assert (0 < t) by (apply pow_lt; lra). set (h := horner QC z) in *. assert (h <> 0) by (intro E; rewrite E in P; lra). field. split; lra.
Qed.
Lemma rs_r0 : forall z, 0 <= z -> evaluate_rational z PS QS = r0 zS zSd z.
Proof.
  intros z Z. pose proof (zSd_pos z Z) as P. unfold evaluate_rational, r0. change zS with (scl 22 PS). change zSd with (scl 22 QS) in *. rewrite !scl_ok in * by (vm_compute; reflexivity). set (t := 10 ^ 22) in *. assert (0 < t) by (apply pow_lt; lra). set (h := horner QS z) in *. assert (h <> 0) by (intro E; rewrite E in P; lra). field. split; lra.
Qed.
(** * The amplitudes as functions of x *)
Definition za (x : R) : R := 8 / x * (8 / x).
Lemma za_derive : forall x, 0 < x -> is_derive za x (- (8 / x * za x / 4)).
Proof. intros x X. unfold za. auto_derive; [lra|]. field. lra. Qed.
Lemma za_pos : forall x, 0 < x -> 0 <= za x.
Proof. intros x X. unfold za. apply Rle_0_sqr. Qed.
Definition Aa (x : R) : R := r0 zC zCd (za x).
Definition Aa1 (x : R) : R := - (8 / x * za x / 4) * r1 zC zCd (za x).
Definition Aa2 (x : R) : R := za x * za x * (3 / 32 * r1 zC zCd (za x) + za x / 16 * r2 zC zCd (za x)).
Definition Ba (x : R) : R := 8 / x * r0 zS zSd (za x).
Definition Ba1 (x : R) : R := - (za x / 8 * r0 zS zSd (za x)) - za x * za x / 4 * r1 zS zSd (za x).
Definition Ba2 (x : R) : R := 8 / x * za x / 64 * (2 * r0 zS zSd (za x) + 10 * za x * r1 zS zSd (za x) + 4 * za x * za x * r2 zS zSd (za x)).
Lemma chain : forall (f : R -> R) f' x, 0 < x -> is_derive f (za x) f' -> is_derive (fun x => f (za x)) x (- (8 / x * za x / 4) * f').
Proof. intros f f' x X H. apply (is_derive_comp f za x f' (- (8 / x * za x / 4))); [exact H|apply za_derive, X]. Qed.
Lemma Aa_derive : forall x, 0 < x -> is_derive Aa x (Aa1 x).
Proof. intros x X. pose proof (zCd_pos _ (za_pos x X)). apply (chain (r0 zC zCd)); [exact X|]. apply r0_derive. lra. Qed.
Local Ltac known H := match type of H with is_derive ?f ?x ?d => replace (Derive (fun y => f y) x) with d by (symmetry; apply is_derive_unique; exact H) end.
Lemma gen1 : forall (p : R -> R) p' x, 0 < x -> is_derive p x p' -> is_derive (fun x => - (8 / x * za x / 4) * p x) x (3 / 32 * (za x * za x) * p x - 8 / x * za x / 4 * p').
Proof. intros p p' x X H. pose proof (za_derive x X) as Z. auto_derive; [repeat split; first [lra|eexists; exact H|eexists; exact Z]|]. known H. known Z. set (a := p x). unfold za. field. lra. Qed.
Lemma gen2 : forall (p : R -> R) p' x, 0 < x -> is_derive p x p' -> is_derive (fun x => 8 / x * p x) x (- (za x / 8 * p x) + 8 / x * p').
Proof. intros p p' x X H. auto_derive; [repeat split; first [lra|eexists; exact H]|]. known H. set (a := p x). unfold za. field. lra. Qed.
Lemma gen3 : forall (p q : R -> R) p' q' x, 0 < x -> is_derive p x p' -> is_derive q x q' ->
  is_derive (fun x => - (za x / 8 * p x) - za x * za x / 4 * q x) x (8 / x * za x / 32 * p x - za x / 8 * p' + 8 / x * (za x * za x) / 8 * q x - za x * za x / 4 * q').
Proof. intros p q p' q' x X H K. pose proof (za_derive x X) as Z. auto_derive; [repeat split; first [lra|eexists; exact H|eexists; exact K|eexists; exact Z]|]. known H. known K. known Z. set (a := p x). set (b := q x). unfold za. field. lra. Qed.
Lemma to_value : forall (f : R -> R) x a b, is_derive f x a -> a = b -> is_derive f x b.
Proof. intros f x a b H <-. exact H. Qed.
Lemma Aa1_derive : forall x, 0 < x -> is_derive Aa1 x (Aa2 x).
Proof.
  intros x X. pose proof (zCd_pos _ (za_pos x X)). assert (D := chain (r1 zC zCd) (r2 zC zCd (za x)) x X ltac:(apply r1_derive; lra)). eapply to_value; [apply (gen1 (fun x => r1 zC zCd (za x)) _ x X D)|].
  unfold Aa2. set (p := r1 zC zCd (za x)). set (q := r2 zC zCd (za x)). unfold za. rfield. lra.
Qed.
Lemma Ba_derive : forall x, 0 < x -> is_derive Ba x (Ba1 x).
Proof.
  intros x X. pose proof (zSd_pos _ (za_pos x X)). assert (D := chain (r0 zS zSd) (r1 zS zSd (za x)) x X ltac:(apply r0_derive; lra)). eapply to_value; [apply (gen2 (fun x => r0 zS zSd (za x)) _ x X D)|].
  unfold Ba1. set (p := r0 zS zSd (za x)). set (q := r1 zS zSd (za x)). unfold za. rfield. lra.
Qed.
Lemma Ba1_derive : forall x, 0 < x -> is_derive Ba1 x (Ba2 x).
Proof.
  intros x X. pose proof (zSd_pos _ (za_pos x X)). assert (D := chain (r0 zS zSd) (r1 zS zSd (za x)) x X ltac:(apply r0_derive; lra)). assert (D1 := chain (r1 zS zSd) (r2 zS zSd (za x)) x X ltac:(apply r1_derive; lra)).
  eapply to_value; [apply (gen3 (fun x => r0 zS zSd (za x)) (fun x => r1 zS zSd (za x)) _ _ x X D D1)|].
  unfold Ba2. set (p := r0 zS zSd (za x)). set (q := r1 zS zSd (za x)). set (r := r2 zS zSd (za x)). unfold za. rfield. lra.
Qed.
(** * The branch times sqrt x, its derivative, the defect *)
Definition u (x : R) : R := one_div_root_pi * osc Aa Ba x.
Definition u1 (x : R) : R := one_div_root_pi * osc (fun x => Aa1 x - Ba x) (fun x => Ba1 x + Aa x) x.
Definition G1 (z : R) : R := 6 * z * r1 zC zCd z + 4 * z * z * r2 zC zCd z + 16 * r0 zS zSd z + 32 * z * r1 zS zSd z + r0 zC zCd z / 4.
Definition G2 (z : R) : R := 9 / 4 * r0 zS zSd z + 10 * z * r1 zS zSd z + 4 * z * z * r2 zS zSd z - 32 * r1 zC zCd z.
Definition defect (x : R) : R := one_div_root_pi * (za x / 64) * (G1 (za x) * (cos x + sin x) - 8 / x * G2 (za x) * (sin x - cos x)).
Lemma u_t3 : forall x, 0 < x -> t3 x = u x / sqrt x.
Proof.
  intros x X. assert (Q : 0 < sqrt x) by (apply sqrt_lt_R0; exact X). unfold t3, u, osc, Aa, Ba, za. cbv zeta. rewrite rc_r0, rs_r0 by (apply Rle_0_sqr). field. lra.
Qed.
Lemma u_derive : forall x, 0 < x -> is_derive u x (u1 x).
Proof.
  intros x X. unfold u, u1. apply (is_derive_scal (osc Aa Ba)). apply (osc_derive Aa Ba x (Aa1 x) (Ba1 x)); [apply Aa_derive, X|apply Ba_derive, X].
Qed.
Lemma u1_derive : forall x, 0 < x -> is_derive u1 x (defect x - stiff x * u x).
Proof.
  intros x X. unfold u1. assert (H := osc_derive (fun x => Aa1 x - Ba x) (fun x => Ba1 x + Aa x) x (Aa2 x - Ba1 x) (Ba2 x + Aa1 x)).
  match goal with |- is_derive _ _ ?d => replace d with (one_div_root_pi * ((Aa2 x - Ba1 x - (Ba1 x + Aa x)) * (cos x + sin x) - (Ba2 x + Aa1 x + (Aa1 x - Ba x)) * (sin x - cos x))) end.
  - apply (is_derive_scal (osc (fun x => Aa1 x - Ba x) (fun x => Ba1 x + Aa x))). apply H; [apply (is_derive_minus Aa1 Ba); [apply Aa1_derive, X|apply Ba_derive, X]|apply (is_derive_plus Ba1 Aa); [apply Ba1_derive, X|apply Aa_derive, X]].
  - unfold defect, u, osc, Aa, Aa1, Aa2, Ba, Ba1, Ba2, G1, G2, stiff. set (a0 := r0 zC zCd (za x)). set (a1 := r1 zC zCd (za x)). set (a2 := r2 zC zCd (za x)). set (b0 := r0 zS zSd (za x)). set (b1 := r1 zS zSd (za x)). set (b2 := r2 zS zSd (za x)). unfold za. field. lra.
Qed.
