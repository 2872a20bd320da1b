(** The Bessel function j0 for all arguments: the values at 8, the error beyond. *)
From Coq Require Import ZArith QArith Qreals Reals List Bool Lra Lia.
From Coquelicot Require Import Coquelicot.
From Verif Require Import Base Bounds_Model Bounds_Proofs Num_Consts Poly_Check Poly_Q Bes_Model Bes_Spec Bes_Si Bes_Si2 Poly_Trim Bes_J Bes_Jode Bes_Jfar Bes_Jgap.
Import ListNotations.
Open Scope R_scope.

(** * Decimals with 24 places, off by at most e *)
Definition at24 (x : R) (n : Z) (e : R) : Prop := Rabs (x - IZR n / 10 ^ 24) <= e / 10 ^ 24.
Lemma at24_mul : forall x y n m k e f g, at24 x n e -> at24 y m f -> Rabs (IZR n / 10 ^ 24) <= 3 -> Rabs (IZR m / 10 ^ 24) <= 3 -> 0 <= e <= 10 ^ 24 -> 0 <= f ->
  Rabs (IZR n / 10 ^ 24 * (IZR m / 10 ^ 24) - IZR k / 10 ^ 24) <= 1 / 10 ^ 24 -> 3 * e + 4 * f + 1 <= g -> at24 (x * y) k g.
Proof.
  unfold at24. intros x y n m k e f g X Y A B E F K G. set (a := IZR n / 10 ^ 24) in *. set (b := IZR m / 10 ^ 24) in *. set (c := IZR k / 10 ^ 24) in *. assert (P : 0 < 10 ^ 24) by (apply pow_lt; lra). assert (E1 : e / 10 ^ 24 <= 1) by (apply (Rmult_le_reg_r (10 ^ 24)); [exact P|]; unfold Rdiv; rewrite Rmult_assoc, Rinv_l by lra; lra).
  replace (x * y - c) with ((x - a) * b + (x * (y - b) + (a * b - c))) by ring. eapply Rle_trans; [apply Rabs_triang|]. eapply Rle_trans; [apply Rplus_le_compat_l, Rabs_triang|]. rewrite !Rabs_mult. assert (V : Rabs x <= 4). { replace x with ((x - a) + a) by ring. eapply Rle_trans; [apply Rabs_triang|]. lra. }
  assert (T1 : Rabs (x - a) * Rabs b <= e / 10 ^ 24 * 3) by (apply Rmult_le_compat; try apply Rabs_pos; assumption). assert (T2 : Rabs x * Rabs (y - b) <= 4 * (f / 10 ^ 24)) by (apply Rmult_le_compat; try apply Rabs_pos; assumption).
  assert (T3 : (3 * e + 4 * f + 1) / 10 ^ 24 <= g / 10 ^ 24) by (apply Rmult_le_compat_r; [left; apply Rinv_0_lt_compat, P|exact G]). unfold Rdiv in *. set (i := / 10 ^ 24) in *. lra.
Qed.
Local Ltac dec24 := unfold at24 in *; apply Rabs_le; lra.
Lemma lit24 : forall n, Q2R (n # 10 ^ 24) = IZR n / 10 ^ 24.
Proof. intro n. unfold Q2R. cbn [Qnum Qden]. change (Zpos (10 ^ 24)) with (10 ^ Z.of_nat 24)%Z. rewrite <- pow_IZR. reflexivity. Qed.
(** * cos 8, sin 8 *)
Lemma trig2 : at24 (cos 2) (-416146836547142386997568) 8 /\ at24 (sin 2) 909297426825681695396020 8.
Proof.
  destruct (taylor 14 2 ltac:(lra)) as [C1 S1]. destruct (taylor 15 2 ltac:(lra)) as [C2 S2]. cbn [Nat.odd Nat.even negb below] in *. replace 2 with (Q2R 2) in C1, S1, C2, S2 by (unfold Q2R; cbn; field). rewrite <- qev_ok in C1, S1, C2, S2. replace (Q2R 2) with 2 in C1, S1, C2, S2 by (unfold Q2R; cbn; field).
  assert (A : Q2R (qev (cosp 14) 2) <= Q2R (-416146836547142386997561 # 10 ^ 24)) by (apply Qle_R; vm_compute; reflexivity). assert (B : Q2R (-416146836547142386997575 # 10 ^ 24) <= Q2R (qev (cosp 15) 2)) by (apply Qle_R; vm_compute; reflexivity).
  assert (C : Q2R (qev (sinp 14) 2) <= Q2R (909297426825681695396027 # 10 ^ 24)) by (apply Qle_R; vm_compute; reflexivity). assert (D : Q2R (909297426825681695396013 # 10 ^ 24) <= Q2R (qev (sinp 15) 2)) by (apply Qle_R; vm_compute; reflexivity).
  rewrite lit24 in A, B, C, D. split; dec24.
Qed.
Lemma trig_double : forall x c s c' s' e f, at24 (cos x) c e -> at24 (sin x) s e -> 0 <= e <= 1000 -> Rabs (IZR c / 10 ^ 24) <= 3 -> Rabs (IZR s / 10 ^ 24) <= 3 -> 16 * e + 4 <= f ->
  Rabs (2 * (IZR c / 10 ^ 24 * (IZR c / 10 ^ 24)) - 1 - IZR c' / 10 ^ 24) <= 1 / 10 ^ 24 -> Rabs (2 * (IZR s / 10 ^ 24 * (IZR c / 10 ^ 24)) - IZR s' / 10 ^ 24) <= 1 / 10 ^ 24 ->
  at24 (cos (2 * x)) c' f /\ at24 (sin (2 * x)) s' f.
Proof.
  intros x c s c' s' e f C S E BC BS F KC KS. rewrite cos_2a_cos, sin_2a. unfold at24 in *. set (a := IZR c / 10 ^ 24) in *. set (b := IZR s / 10 ^ 24) in *. set (a' := IZR c' / 10 ^ 24) in *. set (b' := IZR s' / 10 ^ 24) in *.
  assert (P : 0 < / 10 ^ 24) by (apply Rinv_0_lt_compat, pow_lt; lra). assert (F' : (16 * e + 4) / 10 ^ 24 <= f / 10 ^ 24) by (apply Rmult_le_compat_r; [lra|exact F]). assert (E1 : e / 10 ^ 24 <= 1) by lra. assert (E0 : 0 <= e / 10 ^ 24) by (apply Rmult_le_pos; lra). pose proof (COS_bound x) as Q. pose proof (SIN_bound x) as Q'. assert (MC : Rabs (cos x) <= 1) by (apply Rabs_le; lra). assert (MS : Rabs (sin x) <= 1) by (apply Rabs_le; lra).
  assert (ca : Rabs (a - cos x) <= e / 10 ^ 24) by (rewrite Rabs_minus_sym; exact C). split.
  - replace (2 * cos x * cos x - 1 - a') with (2 * ((cos x - a) * (cos x + a)) + (2 * (a * a) - 1 - a')) by ring. eapply Rle_trans; [apply Rabs_triang|]. rewrite !Rabs_mult, (Rabs_pos_eq 2) by lra.
    assert (Rabs (cos x + a) <= 4) by (eapply Rle_trans; [apply Rabs_triang|]; lra). assert (T : Rabs (cos x - a) * Rabs (cos x + a) <= e / 10 ^ 24 * 4) by (apply Rmult_le_compat; try apply Rabs_pos; assumption). unfold Rdiv in *. set (i := / 10 ^ 24) in *. lra.
  - replace (2 * sin x * cos x - b') with (2 * ((sin x - b) * cos x + b * (cos x - a)) + (2 * (b * a) - b')) by ring. eapply Rle_trans; [apply Rabs_triang|]. rewrite Rabs_mult, (Rabs_pos_eq 2) by lra. pose proof (Rabs_triang ((sin x - b) * cos x) (b * (cos x - a))) as V. rewrite !Rabs_mult in V.
    assert (T : Rabs (sin x - b) * Rabs (cos x) <= e / 10 ^ 24 * 1) by (apply Rmult_le_compat; try apply Rabs_pos; assumption). assert (T' : Rabs b * Rabs (cos x - a) <= 3 * (e / 10 ^ 24)) by (apply Rmult_le_compat; try apply Rabs_pos; assumption). unfold Rdiv in *. set (i := / 10 ^ 24) in *. lra.
Qed.
Local Ltac abs_lit := apply Rabs_le; lra.
Lemma trig8 : at24 (cos 8) (-145500033808613525868841) 3000 /\ at24 (sin 8) 989358246623381777808124 3000.
Proof.
  destruct trig2 as [C2 S2]. destruct (trig_double 2 (-416146836547142386997568) 909297426825681695396020 (-653643620863611914639168) (-756802495307928251372639) 8 132 C2 S2) as [C4 S4]; [lra|abs_lit|abs_lit|lra|abs_lit|abs_lit|].
  replace 8 with (2 * (2 * 2)) by ring. apply (trig_double (2 * 2) (-653643620863611914639168) (-756802495307928251372639) (-145500033808613525868841) 989358246623381777808124 132 3000 C4 S4); [lra|abs_lit|abs_lit|lra|abs_lit|abs_lit].
Qed.
(** * The amplitudes at 8 *)
Lemma za_8 : za 8 = 1. Proof. unfold za. field. Qed.
Lemma amps : at24 (Aa 8) 998926852336329737458358 1 /\ at24 (Ba 8) (-15488193571220894225935) 1 /\ at24 (Aa1 8) 262331184735065203735 1 /\ at24 (Ba1 8) 1903238961609009767131 1.
Proof.
  unfold Aa, Ba, Aa1, Ba1, r0, r1. rewrite za_8, wC_v, wS_v. unfold zC, zCd, zS, zSd, wC, wS. cbn [zpe]. repeat split; dec24.
Qed.
(** * sqrt 8 *)
Lemma root8 : at24 (sqrt 8) 2828427124746190097603377 1 /\ at24 (/ sqrt 8) 353553390593273762200422 1.
Proof.
  assert (Q : 0 < sqrt 8) by (apply sqrt_lt_R0; lra). assert (QQ : sqrt 8 * sqrt 8 = 8) by (apply sqrt_sqrt; lra). set (s := sqrt 8) in *. assert (H : / s = s / 8) by (apply (Rmult_eq_reg_r s); [|lra]; rewrite Rinv_l by lra; unfold Rdiv; rewrite (Rmult_comm s), Rmult_assoc, QQ; field).
  assert (L : 28284271247461900976033765 / 10 ^ 25 <= s). { apply Rsqr_incr_0; [unfold Rsqr; rewrite QQ; lra|lra|lra]. } assert (U : s <= 28284271247461900976033775 / 10 ^ 25). { apply Rsqr_incr_0; [unfold Rsqr; rewrite QQ; lra|lra|lra]. } rewrite H. split; dec24.
Qed.
(** * J0 and x J0' at 8 *)
Lemma J_near : forall J, J0_of J -> forall x, 0 <= x <= 8 -> Rabs (zpe Jz (x / 8 * (x / 8)) / 2 ^ 80 - J x) <= 2 / 10 ^ 20.
Proof.
  intros J HJ x X. pose proof (Jp_close J HJ x ltac:(rewrite Rabs_pos_eq; lra)) as A. pose proof (Jz_close (x / 8 * (x / 8)) ltac:(split; nra)) as B. replace (64 * (x / 8 * (x / 8))) with (x * x) in B by field.
  replace (zpe Jz (x / 8 * (x / 8)) / 2 ^ 80 - J x) with ((zpe Jz (x / 8 * (x / 8)) / 2 ^ 80 - qpe Jp (x * x)) + (qpe Jp (x * x) - J x)) by ring. eapply Rle_trans; [apply Rabs_triang|]. replace (2 / 10 ^ 20) with (1 / 10 ^ 20 + 1 / 10 ^ 20) by lra. apply Rplus_le_compat; assumption.
Qed.
Lemma J_8 : forall J, J0_of J -> at24 (J 8) 171650807137553906090869 30000.
Proof.
  intros J HJ. pose proof (J_near J HJ 8 ltac:(lra)) as H. replace (8 / 8 * (8 / 8)) with 1 in H by field. assert (E : zpe Jz 1 = IZR (fold_right Z.add 0%Z Jz)). { generalize Jz. induction l as [|a l IH]; [reflexivity|]. cbn [zpe fold_right]. rewrite IH, plus_IZR. ring. }
  rewrite E in H. replace (fold_right Z.add 0%Z Jz) with (ltac:(let v := eval vm_compute in (fold_right Z.add 0%Z Jz) in exact v)) in H by (vm_compute; reflexivity). apply Rabs_le_between in H. dec24.
Qed.
Definition Jzi : list Q := Eval vm_compute in qint (qof Jz).
Lemma Jzi_v : qint (qof Jz) = Jzi. Proof. vm_cast_no_check (eq_refl Jzi). Qed.
Lemma w_8 : forall J, J0_of J -> at24 (w 8) (-1877090774831316995050213) 2000000.
Proof.
  intros J HJ. set (g := fun x => - (32 / 2 ^ 80) * qpe (qint (qof Jz)) (x / 8 * (x / 8))). assert (D : forall x, is_derive g x (- x * (zpe Jz (x / 8 * (x / 8)) / 2 ^ 80))).
  { intro x. unfold g. rewrite <- qof_ok. replace (- x * (qpe (qof Jz) (x / 8 * (x / 8)) / 2 ^ 80)) with (- (32 / 2 ^ 80) * ((x / 32) * qpe (qof Jz) (x / 8 * (x / 8)))) by (field; apply pow_nonzero; lra).
    apply (is_derive_scal (fun x => qpe (qint (qof Jz)) (x / 8 * (x / 8)))). apply (is_derive_comp (qpe (qint (qof Jz))) (fun x => x / 8 * (x / 8))); [apply qint_ok|]. auto_derive; [exact Logic.I|field]. }
  assert (H : Rabs ((w 8 - g 8) - (w 0 - g 0)) <= 2 / 10 ^ 20 * 32 - 2 / 10 ^ 20 * 0).
  { replace 32 with (8 * 8 / 2) by field. replace 0 with (0 * 0 / 2) at 3 by field. apply (within (fun x => w x - g x) (fun x => 2 / 10 ^ 20 * (x * x / 2)) (fun x => - (x * J x) - (- x * (zpe Jz (x / 8 * (x / 8)) / 2 ^ 80))) (fun x => 2 / 10 ^ 20 * x)); [lra| | |].
    - intros t T. apply (is_derive_minus w g); [apply w_derive, HJ|apply D].
    - intros t T. auto_derive; [exact Logic.I|field].
    - intros t T. replace (- (t * J t) - - t * (zpe Jz (t / 8 * (t / 8)) / 2 ^ 80)) with (t * (zpe Jz (t / 8 * (t / 8)) / 2 ^ 80 - J t)) by ring. rewrite Rabs_mult, (Rabs_pos_eq t), Rmult_comm by lra. apply Rmult_le_compat_r; [lra|]. apply J_near; [exact HJ|lra]. }
  rewrite w_0 in H. unfold g in H. replace (0 / 8 * (0 / 8)) with 0 in H by field. rewrite qint_0 in H. replace (8 / 8 * (8 / 8)) with (Q2R 1) in H by (rewrite RMicromega.Q2R_1; field). rewrite Jzi_v, <- qev_ok in H.
  assert (A : Q2R (qev Jzi 1) = 75938476165771475115997647387721 / 1070845776) by (replace (qev Jzi 1) with (75938476165771475115997647387721 # 1070845776)%Q by (vm_compute; reflexivity); reflexivity).
  rewrite A in H. apply Rabs_le_between in H. dec24.
Qed.
(** * The error and its derivative at 8 *)
Lemma at24_add : forall x y n m e f, at24 x n e -> at24 y m f -> at24 (x + y) (n + m) (e + f).
Proof. unfold at24. intros x y n m e f X Y. rewrite plus_IZR. apply Rabs_le_between in X. apply Rabs_le_between in Y. apply Rabs_le. unfold Rdiv in *. set (i := / 10 ^ 24) in *. lra. Qed.
Lemma at24_sub : forall x y n m e f, at24 x n e -> at24 y m f -> at24 (x - y) (n - m) (e + f).
Proof. unfold at24. intros x y n m e f X Y. rewrite minus_IZR. apply Rabs_le_between in X. apply Rabs_le_between in Y. apply Rabs_le. unfold Rdiv in *. set (i := / 10 ^ 24) in *. lra. Qed.
Lemma o_24 : at24 one_div_root_pi 564189583547756286948079 1.
Proof. unfold one_div_root_pi, dec. cbn [fst snd]. dec24. Qed.
Local Ltac times := first [lra|abs_lit].
Lemma start_e : forall J, J0_of J -> Rabs (u 8 - v J 8) <= 1 / 10 ^ 17.
Proof.
  intros J HJ. destruct trig8 as [C S]. destruct amps as [A0 [B0 [A1 B1]]]. destruct root8 as [Q _]. pose proof (J_8 J HJ) as J8. pose proof o_24 as O. unfold u, v, osc.
  assert (P : at24 (cos 8 + sin 8) 843858212814768251939283 (3000 + 3000)) by exact (at24_add _ _ _ _ _ _ C S). assert (M : at24 (sin 8 - cos 8) 1134858280431995303676965 (3000 + 3000)) by exact (at24_sub _ _ _ _ _ _ S C).
  assert (X1 : at24 (Aa 8 * (cos 8 + sin 8)) 842952628345217120187321 50000) by (eapply at24_mul; [exact A0|exact P|times..]).
  assert (X2 : at24 (Ba 8 * (sin 8 - cos 8)) (-17576904723233628406514) 50000) by (eapply at24_mul; [exact B0|exact M|times..]).
  assert (Y : at24 (Aa 8 * (cos 8 + sin 8) - Ba 8 * (sin 8 - cos 8)) 860529533068450748593835 (50000 + 50000)) by exact (at24_sub _ _ _ _ _ _ X1 X2). assert (E : at24 (one_div_root_pi * (Aa 8 * (cos 8 + sin 8) - Ba 8 * (sin 8 - cos 8))) 485501798892434400147932 500000) by (eapply at24_mul; [exact O|exact Y|times..]).
  assert (F : at24 (sqrt 8 * J 8) 485501798892434399531232 200000) by (eapply at24_mul; [exact Q|exact J8|times..]). unfold at24 in E, F. apply Rabs_le_between in E. apply Rabs_le_between in F. apply Rabs_le. lra.
Qed.
Lemma start_e1 : forall J, J0_of J -> Rabs (u1 8 - v1 J 8) <= 5 / 10 ^ 17.
Proof.
  intros J HJ. destruct trig8 as [C S]. destruct amps as [A0 [B0 [A1 B1]]]. destruct root8 as [_ Q]. pose proof (J_8 J HJ) as J8. pose proof (w_8 J HJ) as W8. pose proof o_24 as O. unfold u1, v1, osc.
  assert (P : at24 (cos 8 + sin 8) 843858212814768251939283 (3000 + 3000)) by exact (at24_add _ _ _ _ _ _ C S). assert (M : at24 (sin 8 - cos 8) 1134858280431995303676965 (3000 + 3000)) by exact (at24_sub _ _ _ _ _ _ S C). assert (A : at24 (Aa1 8 - Ba 8) 15750524755955959429670 (1 + 1)) by exact (at24_sub _ _ _ _ _ _ A1 B0). assert (B : at24 (Ba1 8 + Aa 8) 1000830091297938747225489 (1 + 1)) by exact (at24_add _ _ _ _ _ _ B1 A0).
  assert (X1 : at24 ((Aa1 8 - Ba 8) * (cos 8 + sin 8)) 13291209671455759797603 50000) by (eapply at24_mul; [exact A|exact P|times..]).
  assert (X2 : at24 ((Ba1 8 + Aa 8) * (sin 8 - cos 8)) 1135800316414975633440971 50000) by (eapply at24_mul; [exact B|exact M|times..]).
  assert (Y : at24 ((Aa1 8 - Ba 8) * (cos 8 + sin 8) - (Ba1 8 + Aa 8) * (sin 8 - cos 8)) (-1122509106743519873643368) (50000 + 50000)) by exact (at24_sub _ _ _ _ _ _ X1 X2). assert (E : at24 (one_div_root_pi * ((Aa1 8 - Ba 8) * (cos 8 + sin 8) - (Ba1 8 + Aa 8) * (sin 8 - cos 8))) (-633307945462190385838300) 500000) by (eapply at24_mul; [exact O|exact Y|times..]).
  assert (H : at24 (w 8 + J 8 / 2) (-1791265371262540042004779) 2100000) by (unfold at24 in *; apply Rabs_le_between in J8; apply Rabs_le_between in W8; apply Rabs_le; lra).
  assert (F : at24 (/ sqrt 8 * (w 8 + J 8 / 2)) (-633307945462190357769795) 10000000) by (eapply at24_mul; [exact Q|exact H|times..]). unfold at24 in E, F. apply Rabs_le_between in E. apply Rabs_le_between in F. apply Rabs_le. lra.
Qed.
(** * Beyond 8 *)
Lemma t3_far : forall J, J0_of J -> forall x, 8 <= x -> sqrt x * Rabs (t3 x - J x) <= 53 / 10 ^ 17.
Proof.
  intros J HJ x X. set (e := fun x => u x - v J x). set (e1 := fun x => u1 x - v1 J x). set (d := 1 / 10 ^ 34). assert (D0 : 0 < d) by (unfold d; lra).
  pose proof (energy_grows e e1 defect Gb gb d 8 x D0 ltac:(lra)) as H. assert (H' : sqrt (energy e e1 x + d) <= sqrt (energy e e1 8 + d) + (Gb x - Gb 8)).
  { apply H.
    - intros t T. unfold e, e1. apply (is_derive_minus u (v J)); [apply u_derive; lra|apply v_derive; [exact HJ|lra]].
    - intros t T. unfold e, e1. apply (to_value (fun x => u1 x - v1 J x) t (minus (defect t - stiff t * u t) (- (1 + 1 / (4 * (t * t))) * v J t))); [apply (is_derive_minus u1 (v1 J)); [apply u1_derive; lra|apply v1_derive; [exact HJ|lra]]|].
      change ((defect t - stiff t * u t) - (- (1 + 1 / (4 * (t * t))) * v J t) = defect t - stiff t * (u t - v J t)). unfold stiff. ring.
    - intros t T. apply Gb_derive. lra.
    - intros t T. apply defect_small, T. }
  clear H. assert (S0 : sqrt (energy e e1 8 + d) <= 6 / 10 ^ 17).
  { rewrite <- (sqrt_square (6 / 10 ^ 17)) by lra. apply sqrt_le_1_alt. pose proof (start_e J HJ) as A. pose proof (start_e1 J HJ) as B. apply Rabs_le_between in A. apply Rabs_le_between in B. unfold energy, stiff, e, e1, d. set (p := u 8 - v J 8) in *. set (q := u1 8 - v1 J 8) in *.
    assert (p * p <= 1 / 10 ^ 17 * (1 / 10 ^ 17)) by nra. assert (q * q <= 5 / 10 ^ 17 * (5 / 10 ^ 17)) by nra. lra. }
  set (t := 8 / x). assert (T : 0 <= t <= 1). { unfold t. split; [left; apply Rdiv_lt_0_compat; lra|]. apply (Rmult_le_reg_r x); [lra|]. unfold Rdiv. rewrite Rmult_assoc, Rinv_l by lra. lra. }
  assert (GB : Gb x - Gb 8 <= 47 / 10 ^ 17). { unfold Gb. fold t. replace (8 / 8) with 1 by field. pose proof (Psi_range t T) as P. replace (- amp * Psi t - - amp * Psi 1) with (amp * (Psi 1 - Psi t)) by ring. pose proof one_pos as O. assert (A : 0 < amp <= 1 / 10) by (unfold amp; lra). assert (amp * (Psi 1 - Psi t) <= amp * (460 / 10 ^ 17)) by (apply Rmult_le_compat_l; lra). lra. }
  assert (EX : Rabs (e x) <= 53 / 10 ^ 17).
  { assert (K : sqrt (energy e e1 x + d) <= 53 / 10 ^ 17) by lra. eapply Rle_trans; [|exact K].
    rewrite <- sqrt_Rsqr_abs. apply sqrt_le_1_alt. unfold energy, stiff, Rsqr. assert (0 < 1 / (4 * (x * x))) by (apply Rdiv_lt_0_compat; nra). pose proof (Rle_0_sqr (e1 x)). pose proof (Rle_0_sqr (e x)). unfold Rsqr in *. nra. }
  assert (Q : 28 / 10 <= sqrt x). { rewrite <- (sqrt_square (28 / 10)) by lra. apply sqrt_le_1_alt. lra. }
  rewrite u_t3 by lra. replace (u x / sqrt x - J x) with (e x / sqrt x) by (unfold e, v; field; lra). unfold Rdiv at 1. rewrite Rabs_mult, Rabs_inv, (Rabs_pos_eq (sqrt x)) by lra. replace (sqrt x * (Rabs (e x) * / sqrt x)) with (Rabs (e x)) by (field; lra). exact EX.
Qed.
Lemma t3_close : forall J, J0_of J -> forall x, 8 <= x -> Rabs (t3 x - J x) <= 2 / 10 ^ 16.
Proof.
  intros J HJ x X. pose proof (t3_far J HJ x X) as H. assert (Q : 28 / 10 <= sqrt x). { rewrite <- (sqrt_square (28 / 10)) by lra. apply sqrt_le_1_alt. lra. } pose proof (Rabs_pos (t3 x - J x)). nra.
Qed.
Lemma j0_t3 : forall x, 8 < Rabs x -> j0 x = t3 (Rabs x).
Proof.
  intros x h. unfold j0. cbv zeta. destruct (Req_EM_T (Rabs x) 0) as [z|z]; [lra|]. unfold Rleb. destruct (Rltb_spec 4 (Rabs x)) as [l|l]; [|lra]. destruct (Rltb_spec 8 (Rabs x)) as [k|k]; [reflexivity|lra].
Qed.
Lemma J_abs : forall J, J0_of J -> forall x, J (Rabs x) = J x.
Proof. intros J HJ x. unfold Rabs. destruct (Rcase_abs x); [apply J_even, HJ|reflexivity]. Qed.
Lemma j0_everywhere : forall J, J0_of J -> forall x, Rabs (j0 x - J x) <= 2 / 10 ^ 16.
Proof.
  intros J HJ x. destruct (Rle_lt_dec (Rabs x) 8) as [h|h]; [apply j0_close; assumption|]. rewrite <- (J_abs J HJ x), (j0_t3 x h). apply t3_close; [exact HJ|lra].
Qed.
Lemma j0_far : forall J, J0_of J -> forall x, 8 < Rabs x -> Rabs (j0 x - J x) <= 53 / 10 ^ 17 / sqrt (Rabs x).
Proof.
  intros J HJ x h. rewrite <- (J_abs J HJ x), (j0_t3 x h). pose proof (t3_far J HJ (Rabs x) ltac:(lra)) as H. assert (Q : 0 < sqrt (Rabs x)) by (apply sqrt_lt_R0; lra). apply (Rmult_le_reg_l (sqrt (Rabs x))); [exact Q|]. replace (sqrt (Rabs x) * (53 / 10 ^ 17 / sqrt (Rabs x))) with (53 / 10 ^ 17) by (field; lra). exact H.
Qed.
