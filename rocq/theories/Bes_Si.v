(** The sine integral: the rational approximations against Si. *)
From Coq Require Import ZArith QArith Qreals Reals List Bool Lra Lia.
From Coquelicot Require Import Coquelicot.
From Verif Require Import Base Bounds_Model Bounds_Proofs Num_Consts Poly_Check Poly_Q Interp_Spec Interp_Lanczos Bes_Model Poly_Trim.
Import ListNotations.
Open Scope R_scope.

(** integer multiples of the decimal polynomials *)
Definition scl (places : nat) (l : list (Z * nat)) : list Z := map (fun c => (fst c * 10 ^ Z.of_nat (places - snd c))%Z) l.
Lemma scl_ok : forall places l y, forallb (fun c => (snd c <=? places)%nat) l = true -> zpe (scl places l) y = 10 ^ places * horner l y.
Proof.
  intro places. induction l as [|c l IH]; intros y; cbn [forallb scl map zpe horner]; [intros _; ring|]. rewrite andb_true_iff. intros [A B]. specialize (IH y B). unfold scl in IH. rewrite IH. apply Nat.leb_le in A. unfold dec. rewrite mult_IZR, <- pow_IZR.
  assert (E : 10 ^ places = 10 ^ (places - snd c) * 10 ^ snd c) by (rewrite <- pow_add; f_equal; lia). rewrite E. assert (10 ^ snd c <> 0) by (apply pow_nonzero; lra). field. assumption.
Qed.
Lemma p10 : forall places, 10 ^ places <> 0.
Proof. intro. apply pow_nonzero. lra. Qed.
Definition zN := Eval vm_compute in scl 18 f_num. Definition zD := Eval vm_compute in scl 18 f_den. Definition zNg := Eval vm_compute in scl 15 g_num. Definition zDg := Eval vm_compute in scl 15 g_den. Definition zS := Eval vm_compute in scl 33 si_num. Definition zSd := Eval vm_compute in scl 33 si_den.
Lemma zpe_first : forall a p x, 0 <= x -> forallb (Z.leb 0) p = true -> IZR a <= zpe (a :: p) x.
Proof. intros a p x X H. cbn [zpe]. pose proof (zpe_pos p x X H) as P. assert (0 <= x * zpe p x) by (apply Rmult_le_pos; assumption). lra. Qed.
Lemma first_pos : forall p x, 0 <= x -> (0 <? hd 0 p)%Z && forallb (Z.leb 0) p = true -> 0 < zpe p x.
Proof. intros [|a p] x X H; apply andb_true_iff in H; destruct H as [A B]; [discriminate A|]. cbn [hd forallb] in *. apply andb_true_iff in B. apply Z.ltb_lt, IZR_lt in A. eapply Rlt_le_trans; [exact A|]. apply zpe_first; tauto. Qed.
Lemma zD_pos : forall y, 0 <= y -> 0 < zpe zD y.
Proof. intros y Y. apply first_pos; [exact Y|vm_compute; reflexivity]. Qed.
Lemma zDg_pos : forall y, 0 <= y -> 0 < zpe zDg y.
Proof. intros y Y. apply first_pos; [exact Y|vm_compute; reflexivity]. Qed.
Lemma zSd_pos : forall y, 0 <= y -> 0 < zpe zSd y.
Proof. intros y Y. apply first_pos; [exact Y|vm_compute; reflexivity]. Qed.
Lemma f_z : forall x, f_pade x (x * x) = zpe zN (1 / (x * x)) / (x * zpe zD (1 / (x * x))).
Proof.
  intro x. unfold f_pade. change zN with (scl 18 f_num). change zD with (scl 18 f_den). rewrite !scl_ok by (vm_compute; reflexivity). set (N := horner f_num _). set (D := horner f_den _). pose proof (p10 18). set (t := 10 ^ 18) in *. unfold Rdiv. rewrite (Rmult_comm x (t * D)), !Rmult_assoc. rewrite (Rinv_mult t), (Rmult_comm D x). replace (t * (N * (/ t * / (x * D)))) with ((t * / t) * (N * / (x * D))) by ring. rewrite Rinv_r by assumption. ring.
Qed.
Lemma g_z : forall x, g_pade x (x * x) = 1 / (x * x) * zpe zNg (1 / (x * x)) / zpe zDg (1 / (x * x)).
Proof.
  intro x. unfold g_pade. change zNg with (scl 15 g_num). change zDg with (scl 15 g_den). rewrite !scl_ok by (vm_compute; reflexivity). set (N := horner g_num _). set (D := horner g_den _). set (y := 1 / (x * x)). pose proof (p10 15). set (t := 10 ^ 15) in *. unfold Rdiv. rewrite (Rinv_mult t). replace (y * (t * N) * (/ t * / D)) with ((t * / t) * (y * N * / D)) by ring. rewrite Rinv_r by assumption. ring.
Qed.
Lemma s_z : forall x, si_small_pade x (x * x) = x * zpe zS (x * x) / zpe zSd (x * x).
Proof.
  intro x. unfold si_small_pade. change zS with (scl 33 si_num). change zSd with (scl 33 si_den). rewrite !scl_ok by (vm_compute; reflexivity). set (N := horner si_num _). set (D := horner si_den _). pose proof (p10 33). set (t := 10 ^ 33) in *. unfold Rdiv. rewrite (Rinv_mult t). replace (x * (t * N) * (/ t * / D)) with ((t * / t) * (x * N * / D)) by ring. rewrite Rinv_r by assumption. ring.
Qed.

(** * The defect of the large branch *)
Lemma zderiv_from_ok : forall p k x, is_derive (fun x => x ^ S k * zpe p x) x (x ^ k * zpe (zderiv_from (Z.of_nat (S k)) p) x).
Proof.
  induction p as [|a p IH]; intros k x; cbn [zderiv_from].
  - cbn [zpe]. apply (is_derive_ext (fun _ => 0)); [intro t; change (0 = t ^ S k * 0); ring|]. replace (x ^ k * 0) with 0 by ring. apply (@is_derive_const R_AbsRing R_NormedModule).
  - specialize (IH (S k) x). replace (Z.of_nat (S k) + 1)%Z with (Z.of_nat (S (S k))) by lia. cbn [zpe]. set (p' := zderiv_from _ p) in *.
    apply (is_derive_ext (fun x => IZR a * x ^ S k + x ^ S (S k) * zpe p x)). { intro t. change (@eq R (IZR a * t ^ S k + t ^ S (S k) * zpe p t) (t ^ S k * (IZR a + t * zpe p t))). cbn [pow]. ring. }
    assert (EE : IZR a * (INR (S k) * x ^ k) + x ^ S k * zpe p' x = x ^ k * (IZR (Z.of_nat (S k) * a) + x * zpe p' x)) by (rewrite mult_IZR, <- INR_IZR_INZ; cbn [pow]; ring). rewrite <- EE.
    apply (is_derive_plus (fun x => IZR a * x ^ S k)); [|exact IH]. auto_derive; [exact Logic.I|]. change (IZR a * (1 * (INR (S k) * x ^ k)) = IZR a * (INR (S k) * x ^ k)). ring.
Qed.
Lemma zderiv_ok : forall p x, is_derive (zpe p) x (zpe (zderiv p) x).
Proof.
  intros [|a p] x; unfold zderiv; cbn [tl]; [cbn; apply (@is_derive_const R_AbsRing R_NormedModule)|]. pose proof (zderiv_from_ok p 0 x) as H. change (Z.of_nat 1) with 1%Z in H.
  assert (K : is_derive (fun x => IZR a + x ^ 1 * zpe p x) x (0 + x ^ 0 * zpe (zderiv_from 1 p) x)) by (apply (is_derive_plus (fun _ => IZR a)); [apply (@is_derive_const R_AbsRing R_NormedModule)|exact H]).
  apply (is_derive_ext (fun x => IZR a + x ^ 1 * zpe p x)); [intro t; cbn [zpe pow]; match goal with |- ?a = ?b => change (@eq R a b) end; ring|]. refine (eq_ind _ (fun z => is_derive _ x z) K _ _). cbn [pow]. match goal with |- ?a = ?b => change (@eq R a b) end. ring.
Qed.
Lemma inner : forall p x, 0 < x -> is_derive (fun x => zpe p (1 / (x * x))) x (- 2 * (1 / (x * x)) / x * zpe (zderiv p) (1 / (x * x))).
Proof.
  intros p x X. apply (is_derive_comp (zpe p) (fun x => 1 / (x * x))); [apply zderiv_ok|]. auto_derive; [nra|]. field. lra.
Qed.
Definition zopp := zscale (-1).
Definition W (p q : list Z) : list Z := zadd (zmul (zderiv p) q) (zopp (zmul p (zderiv q))).
Definition zDD := zmul zD zD. Definition zGG := zmul zDg zDg.
Definition num1 : list Z := zadd (zadd (zopp (zmul (zmul zN zD) zDg)) (zscale (-2) (0%Z :: zmul (W zN zD) zDg))) (zmul zNg zDD).
Definition den1 : list Z := zmul zDD zDg.
Definition num2 : list Z := zadd (zadd (zmul zN zGG) (zopp (zmul zD zGG))) (zadd (zscale 2 (0%Z :: zmul (zmul zNg zDg) zD)) (zscale 2 (0%Z :: 0%Z :: zmul (W zNg zDg) zD))).
Definition den2 : list Z := zmul zGG zD.
Definition large (x : R) : R := PI / 2 - f_pade x (x * x) * cos x - g_pade x (x * x) * sin x.
Lemma large_derive : forall x, 0 < x -> let y := 1 / (x * x) in
  is_derive large x (sin x / x + sin x / x * (zpe num2 y / zpe den2 y) - cos x * (y * (zpe num1 y / zpe den1 y))).
Proof.
  intros x X y. assert (Y : 0 <= y) by (unfold y; apply Rlt_le, Rdiv_lt_0_compat; nra). pose proof (zD_pos y Y) as PD. pose proof (zDg_pos y Y) as PG.
  pose proof (inner zN x X) as HN. pose proof (inner zD x X) as HD. pose proof (inner zNg x X) as HNg. pose proof (inner zDg x X) as HDg. fold y in HN, HD, HNg, HDg.
  set (n := fun x => zpe zN (1 / (x * x))) in *. set (d := fun x => zpe zD (1 / (x * x))) in *. set (ng := fun x => zpe zNg (1 / (x * x))) in *. set (dg := fun x => zpe zDg (1 / (x * x))) in *.
  apply (is_derive_ext (fun x => PI / 2 - n x / (x * d x) * cos x - 1 / (x * x) * ng x / dg x * sin x)). { intro t. unfold large. rewrite f_z, g_z. reflexivity. }
  assert (DX : d x = zpe zD y) by reflexivity. assert (GX : dg x = zpe zDg y) by reflexivity. assert (NX : n x = zpe zN y) by reflexivity. assert (NGX : ng x = zpe zNg y) by reflexivity.
  auto_derive. { assert (x * d x <> 0) by (rewrite DX; nra). assert (dg x <> 0) by (rewrite GX; lra). assert (x * x <> 0) by nra. repeat split; try assumption; eexists; eassumption. }
  replace (Derive (fun x => n x) x) with (- 2 * y / x * zpe (zderiv zN) y) by (symmetry; apply is_derive_unique; exact HN). replace (Derive (fun x => d x) x) with (- 2 * y / x * zpe (zderiv zD) y) by (symmetry; apply is_derive_unique; exact HD).
  replace (Derive (fun x => ng x) x) with (- 2 * y / x * zpe (zderiv zNg) y) by (symmetry; apply is_derive_unique; exact HNg). replace (Derive (fun x => dg x) x) with (- 2 * y / x * zpe (zderiv zDg) y) by (symmetry; apply is_derive_unique; exact HDg).
  rewrite DX, GX, NX, NGX. unfold num1, num2, den1, den2, W, zopp, zDD, zGG.
  repeat (rewrite zpe_add || rewrite zpe_mul || rewrite zpe_scale || (progress cbn [zpe])).
  generalize dependent (zpe zD y). intros D0 PD _. generalize dependent (zpe zDg y). intros G0 PG _. generalize (zpe zN y) (zpe zNg y) (zpe (zderiv zN) y) (zpe (zderiv zD) y) (zpe (zderiv zNg) y) (zpe (zderiv zDg) y) (sin x) (cos x). intros. unfold y. field. repeat split; lra.
Qed.
(** the defects on 0 <= y <= 1/16 *)
Lemma both : forall p q x, 0 <= zpe (zadd q p) x -> 0 <= zpe (zadd q (zopp p)) x -> Rabs (zpe p x) <= zpe q x.
Proof. intros p q x A B. unfold zopp in B. rewrite zpe_add in A, B. rewrite zpe_scale in B. apply Rabs_le. lra. Qed.
Lemma ratio : forall c n d y, (0 < c)%Z -> 0 < zpe d y -> Rabs (zpe (zscale c n) y) <= zpe d y -> Rabs (zpe n y / zpe d y) <= 1 / IZR c.
Proof.
  intros c n d y C D H. apply IZR_lt in C. rewrite zpe_scale, Rabs_mult, (Rabs_pos_eq (IZR c)) in H by lra. unfold Rdiv. rewrite Rabs_mult, Rabs_inv, (Rabs_pos_eq (zpe d y)) by lra. apply (Rmult_le_reg_r (zpe d y)); [exact D|]. rewrite Rmult_assoc, Rinv_l, Rmult_1_r, Rmult_1_l by lra.
  apply (Rmult_le_reg_l (IZR c)); [exact C|]. rewrite <- Rmult_assoc, Rinv_r by lra. lra.
Qed.
Lemma den1_pos : forall y, 0 <= y -> 0 < zpe den1 y.
Proof. intros y Y. unfold den1, zDD. rewrite !zpe_mul. pose proof (zD_pos y Y). pose proof (zDg_pos y Y). repeat apply Rmult_lt_0_compat; assumption. Qed.
Lemma den2_pos : forall y, 0 <= y -> 0 < zpe den2 y.
Proof. intros y Y. unfold den2, zGG. rewrite !zpe_mul. pose proof (zD_pos y Y). pose proof (zDg_pos y Y). repeat apply Rmult_lt_0_compat; assumption. Qed.
Definition num1v := Eval vm_compute in num1. Definition den1v := Eval vm_compute in den1. Definition num2v := Eval vm_compute in num2. Definition den2v := Eval vm_compute in den2.
Lemma num1_v : num1 = num1v. Proof. vm_cast_no_check (eq_refl num1v). Qed.
Lemma den1_v : den1 = den1v. Proof. vm_cast_no_check (eq_refl den1v). Qed.
Lemma num2_v : num2 = num2v. Proof. vm_cast_no_check (eq_refl num2v). Qed.
Lemma den2_v : den2 = den2v. Proof. vm_cast_no_check (eq_refl den2v). Qed.
Lemma sixteenth : forall y, y <= 1 / 16 -> IZR (2 ^ 4) * y <= 1.
Proof. intros y Y. replace (IZR (2 ^ 4)) with 16 by reflexivity. lra. Qed.
Lemma defect1 : forall y, 0 <= y <= 1 / 16 -> Rabs (zpe num1 y / zpe den1 y) <= 1 / 10 ^ 14.
Proof.
  intros y Y. replace (1 / 10 ^ 14) with (1 / IZR 100000000000000) by lra. apply ratio; [lia|apply den1_pos; lra|]. rewrite num1_v, den1_v.
  apply both; apply (small_dyadic 6 30 150 4); try lia; try lra; try (apply sixteenth; lra); vm_cast_no_check (eq_refl true).
Qed.
Lemma defect2 : forall y, 0 <= y <= 1 / 16 -> Rabs (zpe num2 y / zpe den2 y) <= 1 / 10 ^ 15.
Proof.
  intros y Y. replace (1 / 10 ^ 15) with (1 / IZR 1000000000000000) by lra. apply ratio; [lia|apply den2_pos; lra|]. rewrite num2_v, den2_v.
  apply both; apply (small_dyadic 5 30 140 4); try lia; try lra; try (apply sixteenth; lra); vm_cast_no_check (eq_refl true).
Qed.
Lemma defect2_far : forall y, 0 <= y <= 1 / 16 -> Rabs (zpe num2 y / zpe den2 y) <= 1 / 10 ^ 11 * y.
Proof.
  intros y Y. pose proof (den2_pos y ltac:(lra)) as D. assert (H : Rabs (zpe (zscale 100000000000 num2) y) <= zpe (0%Z :: den2) y).
  { rewrite num2_v, den2_v. apply both; apply (small_dyadic 5 30 140 4); try lia; try lra; try (apply sixteenth; lra); vm_cast_no_check (eq_refl true). }
  rewrite zpe_scale, Rabs_mult, Rabs_pos_eq in H by lra. cbn [zpe] in H. unfold Rdiv at 1. rewrite Rabs_mult, Rabs_inv, (Rabs_pos_eq (zpe den2 y)) by lra. apply (Rmult_le_reg_r (zpe den2 y)); [exact D|]. rewrite Rmult_assoc, Rinv_l, Rmult_1_r by lra. lra.
Qed.
(** bounding by the derivative *)
Lemma within : forall (f b : R -> R) (f' b' : R -> R) x y, x <= y -> (forall t, x <= t <= y -> is_derive f t (f' t)) -> (forall t, x <= t <= y -> is_derive b t (b' t)) -> (forall t, x <= t <= y -> Rabs (f' t) <= b' t) -> Rabs (f y - f x) <= b y - b x.
Proof.
  intros f b f' b' x y X F B H.
  assert (G : forall h h', (forall t, x <= t <= y -> is_derive h t (h' t)) -> (forall t, x <= t <= y -> 0 <= h' t) -> h x <= h y).
  { intros h h' D P. destruct (MVT_gen h x y h') as (c & C1 & C2).
    - intros t [A1 A2]. apply D. rewrite Rmin_left in A1 by lra. rewrite Rmax_right in A2 by lra. lra.
    - intros t [A1 A2]. rewrite Rmin_left in A1 by lra. rewrite Rmax_right in A2 by lra. apply continuity_pt_filterlim, @ex_derive_continuous. exists (h' t). apply D. lra.
    - rewrite Rmin_left in C1 by lra. rewrite Rmax_right in C1 by lra. specialize (P c C1). assert (0 <= h' c * (y - x)) by (apply Rmult_le_pos; lra). lra. }
  assert (A1 : b x - f x <= b y - f y). { apply (G (fun t => b t - f t) (fun t => b' t - f' t)). intros t T. apply (is_derive_minus b f); auto. intros t T. specialize (H t T). apply Rabs_le_between in H. lra. }
  assert (A2 : b x + f x <= b y + f y). { apply (G (fun t => b t + f t) (fun t => b' t + f' t)). intros t T. apply (is_derive_plus b f); auto. intros t T. specialize (H t T). apply Rabs_le_between in H. lra. }
  apply Rabs_le. lra.
Qed.
Section Error.
Variable Si : R -> R.
Hypothesis SI : Si_of Si.
Lemma Si_derive : forall x, x <> 0 -> is_derive Si x (sin x / x).
Proof.
  intros x X. pose proof (si_deriv Si SI x) as H. refine (eq_ind _ (fun z => is_derive Si x z) H _ _). pose proof PI_RGT_0. unfold sincR. destruct (Req_EM_T (x / PI) 0) as [e|e]; [elim X; apply (Rmult_eq_reg_r (/ PI)); [unfold Rdiv in e; lra|apply Rinv_neq_0_compat; lra]|]. replace (PI * (x / PI)) with x by (field; lra). reflexivity.
Qed.
Definition gap (x : R) : R := large x - Si x.
Lemma gap_derive : forall x, 0 < x -> let y := 1 / (x * x) in is_derive gap x (sin x / x * (zpe num2 y / zpe den2 y) - cos x * (y * (zpe num1 y / zpe den1 y))).
Proof.
  intros x X y. pose proof (large_derive x X) as L. pose proof (Si_derive x ltac:(lra)) as S. fold y in L. set (a := zpe num2 y / zpe den2 y) in *. set (b := zpe num1 y / zpe den1 y) in *. assert (K : is_derive gap x ((sin x / x + sin x / x * a - cos x * (y * b)) - sin x / x)) by exact (is_derive_minus large Si x _ _ L S).
  replace (sin x / x * a - cos x * (y * b)) with ((sin x / x + sin x / x * a - cos x * (y * b)) - sin x / x) by ring. exact K.
Qed.
Lemma gap_slope : forall x e, 4 <= x -> Rabs (zpe num2 (1 / (x * x)) / zpe den2 (1 / (x * x))) <= e -> let y := 1 / (x * x) in
  Rabs (sin x / x * (zpe num2 y / zpe den2 y) - cos x * (y * (zpe num1 y / zpe den1 y))) <= e / x + 1 / 10 ^ 14 * y.
Proof.
  intros x e X E y. assert (Y : 0 <= y <= 1 / 16). { unfold y, Rdiv. rewrite !Rmult_1_l. split; [apply Rlt_le, Rinv_0_lt_compat; nra|apply Rinv_le_contravar; nra]. } pose proof (defect1 y Y) as D1. fold y in E. set (d1 := zpe num1 y / zpe den1 y) in *. set (d2 := zpe num2 y / zpe den2 y) in *.
  assert (S : Rabs (sin x) <= 1) by (apply Rabs_le; pose proof (SIN_bound x); lra). assert (C : Rabs (cos x) <= 1) by (apply Rabs_le; pose proof (COS_bound x); lra).
  eapply Rle_trans; [apply Rabs_triang|]. rewrite Rabs_Ropp, !Rabs_mult. unfold Rdiv at 1. rewrite Rabs_mult, Rabs_inv, (Rabs_pos_eq x), (Rabs_pos_eq y) by lra. assert (IX : 0 < / x) by (apply Rinv_0_lt_compat; lra). apply Rplus_le_compat.
  - apply Rle_trans with (1 * / x * e); [|unfold Rdiv; lra]. apply Rmult_le_compat; [apply Rmult_le_pos; [apply Rabs_pos|lra]|apply Rabs_pos| |exact E]. apply Rmult_le_compat_r; lra.
  - apply Rle_trans with (1 * (y * (1 / 10 ^ 14))); [|lra]. apply Rmult_le_compat; [apply Rabs_pos|apply Rmult_le_pos; [lra|apply Rabs_pos]|exact C|]. apply Rmult_le_compat_l; lra.
Qed.
Lemma gap_near : forall x, 4 <= x <= 100 -> Rabs (gap x - gap 4) <= 1 / 10 ^ 14 * (1 / 4) + 1 / 10 ^ 15 * 4.
Proof.
  intros x X. pose proof (within gap (fun t => 1 / 10 ^ 15 * ln t - 1 / 10 ^ 14 * (1 / t)) _ (fun t => 1 / 10 ^ 15 / t + 1 / 10 ^ 14 * (1 / (t * t))) 4 x (proj1 X) (fun t T => gap_derive t ltac:(lra))) as H.
  eapply Rle_trans; [apply H|].
  - intros t T. auto_derive; [repeat split; lra|]. field. lra.
  - intros t T. apply gap_slope; [lra|]. apply defect2. unfold Rdiv. rewrite !Rmult_1_l. split; [apply Rlt_le, Rinv_0_lt_compat; nra|apply Rinv_le_contravar; nra].
  - cbn beta. assert (L : ln x - ln 4 <= 4).
    { assert (E1 : 9 / 4 <= exp 1). { pose proof (exp_ineq1 (1 / 2) ltac:(lra)) as Q. assert (EE : exp 1 = exp (1 / 2) * exp (1 / 2)) by (rewrite <- exp_plus; f_equal; field). rewrite EE. nra. }
      assert (E4 : 25 <= exp 4). { assert (EE : exp 4 = (exp 1 * exp 1) * (exp 1 * exp 1)) by (rewrite <- !exp_plus; f_equal; ring). assert (Q2 : 81 / 16 <= exp 1 * exp 1) by nra. rewrite EE. nra. }
      rewrite <- ln_div by lra. apply Rle_trans with (ln (exp 4)); [|rewrite ln_exp; lra]. apply Rcomplements.ln_le; [apply Rdiv_lt_0_compat; lra|]. lra. }
    assert (0 <= 1 / x) by (apply Rlt_le, Rdiv_lt_0_compat; lra). lra.
Qed.
Lemma gap_far : forall x, 100 <= x -> Rabs (gap x - gap 100) <= 1 / 10 ^ 11 * (1 / 2) * (1 / 10000) + 1 / 10 ^ 14 * (1 / 100).
Proof.
  intros x X. pose proof (within gap (fun t => - (1 / 10 ^ 11 * (1 / 2) * (1 / (t * t))) - 1 / 10 ^ 14 * (1 / t)) _ (fun t => 1 / 10 ^ 11 * (1 / (t * t)) / t + 1 / 10 ^ 14 * (1 / (t * t))) 100 x X (fun t T => gap_derive t ltac:(lra))) as H.
  eapply Rle_trans; [apply H|].
  - intros t T. auto_derive; [repeat split; try lra; nra|]. field. lra.
  - intros t T. apply gap_slope; [lra|]. apply defect2_far. unfold Rdiv. rewrite !Rmult_1_l. split; [apply Rlt_le, Rinv_0_lt_compat; nra|apply Rinv_le_contravar; nra].
  - cbn beta. assert (0 <= 1 / x) by (apply Rlt_le, Rdiv_lt_0_compat; lra). assert (0 <= 1 / (x * x)) by (apply Rlt_le, Rdiv_lt_0_compat; nra). replace (1 / (100 * 100)) with (1 / 10000) by lra. lra.
Qed.
End Error.
