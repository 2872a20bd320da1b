(** Temme's series at orders 1/2 and -1/2: the state after m rounds, in closed form. *)
From Coq Require Import ZArith QArith Qreals Reals List Bool Lra Lia.
From Coquelicot Require Import Coquelicot.
From Verif Require Import Base Bounds_Model Bounds_Proofs Num_Consts Poly_Q Bes_Model Bes_Spec Bes_K Bes_K2.
Import ListNotations.
Open Scope R_scope.
Local Ltac rring := match goal with |- ?a = ?b => change (@eq R a b); ring end.

(** * Sums of the hyperbolic functions *)
Fixpoint T (j : nat) (z : R) : R := match j with O => 1 | S O => z | S (S j' as j1) => T j' z + z ^ j / INR (fact j) end.
Lemma T_SS : forall j z, T (S (S j)) z = T j z + z ^ S (S j) / INR (fact (S (S j))).
Proof. reflexivity. Qed.
Lemma pow_derive : forall n z, is_derive (fun z => z ^ S n / INR (fact (S n))) z (z ^ n / INR (fact n)).
Proof.
  intros n z. assert (H : is_derive (fun z => z ^ S n) z (INR (S n) * z ^ n)) by (auto_derive; [exact Logic.I|]; change (match n with O => 1 | S _ => INR n + 1 end) with (INR (S n)); unfold pred; ring).
  apply (is_derive_scal (fun z => z ^ S n) z (/ INR (fact (S n)))) in H. apply (is_derive_ext (fun z => / INR (fact (S n)) * z ^ S n)); [intro t; unfold Rdiv; rring|]. refine (eq_ind _ (fun w => is_derive _ z w) H _ _). change (@eq R (/ INR (fact (S n)) * (INR (S n) * z ^ n)) (z ^ n / INR (fact n))). rewrite fact_simpl, mult_INR. assert (A := INR_fact_neq_0 n). assert (B : INR (S n) <> 0) by (apply not_0_INR; lia). field. split; assumption.
Qed.
Lemma T_derive : forall j z, is_derive (T (S j)) z (T j z).
Proof.
  assert (G : forall j, (forall z, is_derive (T (S j)) z (T j z)) /\ (forall z, is_derive (T (S (S j))) z (T (S j) z))).
  { induction j as [|j [IH1 IH2]].
    - split; intro z; [apply (@is_derive_id R_AbsRing)|]. apply (is_derive_ext (fun z => 1 + z ^ 2 / INR (fact 2))); [intro t; reflexivity|]. pose proof (is_derive_plus (fun _ => 1) (fun z => z ^ 2 / INR (fact 2)) z _ _ (@is_derive_const R_AbsRing R_NormedModule 1 z) (pow_derive 1 z)) as H. refine (eq_ind _ (fun w => is_derive _ z w) H _ _). change (0 + z ^ 1 / 1 = z). field.
    - split; [exact IH2|]. intro z. apply (is_derive_ext (fun z => T (S j) z + z ^ S (S (S j)) / INR (fact (S (S (S j)))))); [intro t; symmetry; apply T_SS|]. rewrite T_SS. apply (is_derive_plus (T (S j))); [apply IH1|apply pow_derive]. }
  intro j. apply G.
Qed.
Definition hyp (j : nat) : R -> R := if Nat.even j then cosh else sinh.
Lemma hyp_derive : forall j z, is_derive (hyp (S j)) z (hyp j z).
Proof.
  intros j z. unfold hyp. rewrite Nat.even_succ, <- Nat.negb_even. destruct (Nat.even j); cbn [negb]; unfold sinh, cosh; auto_derive; try exact Logic.I; field.
Qed.
Lemma T_0 : forall j, T (S j) 0 = if Nat.even j then 0 else 1.
Proof.
  assert (G : forall j, T (S j) 0 = (if Nat.even j then 0 else 1) /\ T (S (S j)) 0 = (if Nat.even (S j) then 0 else 1)).
  { induction j as [|j [IH1 IH2]]; [split; cbn; [reflexivity|field]|]. split; [exact IH2|]. rewrite T_SS, IH1. cbn [pow]. change (Nat.even (S (S j))) with (Nat.even j). unfold Rdiv. destruct (Nat.even j); ring. }
  intro j. apply G.
Qed.
Lemma hyp_0 : forall j, hyp (S j) 0 = if Nat.even j then 0 else 1.
Proof. intro j. unfold hyp. rewrite Nat.even_succ, <- Nat.negb_even. destruct (Nat.even j); cbn [negb]; [apply sinh_0|apply cosh_0]. Qed.
Lemma exp_2 : exp 2 <= 9.
Proof. replace 2 with (1 + 1) by ring. rewrite exp_plus. pose proof exp_le_3. pose proof (exp_pos 1). nra. Qed.
Lemma cosh_bounds : forall z, 0 <= z <= 2 -> 1 <= cosh z <= 5 /\ 0 <= sinh z.
Proof.
  intros z Z. assert (E : 1 <= exp z <= 9). { split; [rewrite <- exp_0; destruct (proj1 Z) as [L|L]; [left; apply exp_increasing, L|rewrite <- L; right; reflexivity]|]. eapply Rle_trans; [|apply exp_2]. destruct (proj2 Z) as [L|L]; [left; apply exp_increasing, L|rewrite L; right; reflexivity]. }
  unfold cosh, sinh. rewrite exp_Ropp. assert (F : 0 < / exp z <= 1) by (split; [apply Rinv_0_lt_compat; lra|rewrite <- Rinv_1; apply Rinv_le_contravar; lra]). assert (M : exp z * / exp z = 1) by (apply Rinv_r; lra). split; [|lra]. split; [|lra]. set (i := / exp z) in *. nra.
Qed.
(** the rest of the sum *)
Lemma rest : forall j z, 0 <= z <= 2 -> 0 <= hyp j z - T j z <= 5 * (z ^ S (S j) / INR (fact (S (S j)))).
Proof.
  assert (Q : forall n z, is_derive (fun z => 5 * (z ^ S n / INR (fact (S n)))) z (5 * (z ^ n / INR (fact n)))) by (intros n z; apply (is_derive_scal (fun z => z ^ S n / INR (fact (S n))) z 5), pow_derive).
  assert (SB : forall z, 0 <= z <= 2 -> sinh z <= 5 * (z ^ 1 / INR (fact 1))).
  { intros z Z. apply (grows2 sinh (fun z => 5 * (z ^ 1 / INR (fact 1))) cosh (fun z => 5 * (z ^ 0 / INR (fact 0))) z); [lra|rewrite sinh_0; cbn; field|intro t; apply (hyp_derive 0)|apply Q|]. intros t H. cbn. pose proof (cosh_bounds t ltac:(lra)). lra. }
  induction j as [|j IH]; intros z Z.
  - change (hyp 0 z - T 0 z) with (cosh z - 1). pose proof (cosh_bounds z Z) as CB. split; [lra|]. apply (grows2 (fun z => cosh z - 1) (fun z => 5 * (z ^ 2 / INR (fact 2))) sinh (fun z => 5 * (z ^ 1 / INR (fact 1))) z); [lra|rewrite cosh_0; cbn; field| |apply Q|].
    + intro t. unfold cosh, sinh. auto_derive; [exact Logic.I|field].
    + intros t H. apply SB. lra.
  - assert (D : forall t, is_derive (fun z => hyp (S j) z - T (S j) z) t (hyp j t - T j t)) by (intro t; apply (is_derive_minus (hyp (S j)) (T (S j))); [apply hyp_derive|apply T_derive]). assert (Z0 : hyp (S j) 0 - T (S j) 0 = 0) by (rewrite hyp_0, T_0; ring). split.
    + apply (grows2 (fun _ => 0) (fun z => hyp (S j) z - T (S j) z) (fun _ => 0) (fun t => hyp j t - T j t) z); [lra|symmetry; exact Z0|intro t; apply (@is_derive_const R_AbsRing R_NormedModule)|exact D|]. intros t H. apply IH. lra.
    + apply (grows2 (fun z => hyp (S j) z - T (S j) z) (fun z => 5 * (z ^ S (S (S j)) / INR (fact (S (S (S j)))))) (fun t => hyp j t - T j t) (fun z => 5 * (z ^ S (S j) / INR (fact (S (S j))))) z); [lra| |exact D|apply Q|].
      * rewrite Z0. rewrite pow_i by lia. unfold Rdiv. ring.
      * intros t H. apply IH. lra.
Qed.
(** * The terms *)
Section Terms.
Variable z : R.
Definition ta (m : nat) : R := z ^ (2 * m) / INR (fact (2 * m)).
Definition tb (m : nat) : R := z ^ (2 * m) / INR (fact (2 * m + 1)).
Fixpoint tp (m : nat) : R := match m with O => 1 | S k => tp k * (z * z / 4) / (INR m * INR m - 1 / 4) end.
Lemma ta_S : forall m, ta (S m) = ta m * (z * z) / (2 * INR (S m) * (2 * INR (S m) - 1)).
Proof.
  intro m. unfold ta. replace (2 * S m)%nat with (S (S (2 * m))) by lia. rewrite !fact_simpl, !mult_INR. cbn [pow]. assert (A := INR_fact_neq_0 (2 * m)). assert (E1 : INR (S (S (2 * m))) = 2 * INR (S m)) by (rewrite !S_INR, mult_INR; change (INR 2) with 2; ring). assert (E2 : INR (S (2 * m)) = 2 * INR (S m) - 1) by (rewrite !S_INR, mult_INR; change (INR 2) with 2; ring). rewrite E1, E2. pose proof (pos_INR m). rewrite S_INR. field. repeat split; lra.
Qed.
Lemma tb_a : forall m, tb m * (2 * INR m + 1) = ta m.
Proof. intro m. unfold ta, tb. rewrite Nat.add_1_r, fact_simpl, mult_INR. assert (A := INR_fact_neq_0 (2 * m)). assert (E : INR (S (2 * m)) = 2 * INR m + 1) by (rewrite S_INR, mult_INR; change (INR 2) with 2; ring). rewrite E. pose proof (pos_INR m). field. split; lra. Qed.
Definition sC := sum_f_R0 ta. Definition sD := sum_f_R0 tb. Definition sE := sum_f_R0 (fun k => 2 * INR k * ta k). Definition sP := sum_f_R0 tp. Definition sF := sum_f_R0 (fun k => 2 * INR k * tp k).
Lemma sC_T : forall m, sC m = T (2 * m) z.
Proof.
  induction m as [|m IH]; [unfold sC, ta; cbn; field|]. unfold sC in *. cbn [sum_f_R0]. rewrite IH. unfold ta. replace (2 * S m)%nat with (S (S (2 * m))) by lia. rewrite T_SS. reflexivity.
Qed.
Lemma sD_T : forall m, z * sD m = T (2 * m + 1) z.
Proof.
  induction m as [|m IH]; [unfold sD, tb; cbn; field|]. unfold sD in *. cbn [sum_f_R0]. rewrite Rmult_plus_distr_l, IH. unfold tb. replace (2 * S m + 1)%nat with (S (S (2 * m + 1))) by lia. rewrite T_SS. f_equal. replace (2 * S m)%nat with (S (2 * m + 1)) by lia. cbn [pow]. unfold Rdiv. ring.
Qed.
Lemma sE_T : forall m, sE (S m) = z * T (2 * m + 1) z.
Proof.
  assert (K : forall m, 2 * INR (S m) * ta (S m) = z * z ^ (2 * m + 1) / INR (fact (2 * m + 1))).
  { intro m. unfold ta. replace (2 * S m)%nat with (S (2 * m + 1)) by lia. rewrite fact_simpl, mult_INR. assert (A := INR_fact_neq_0 (2 * m + 1)). assert (E : INR (S (2 * m + 1)) = 2 * INR (S m)) by (rewrite !S_INR, plus_INR, mult_INR; change (INR 2) with 2; change (INR 1) with 1; ring). rewrite E. cbn [pow]. pose proof (pos_INR m). rewrite S_INR. field. split; lra. }
  induction m as [|m IH].
  - unfold sE. cbn [sum_f_R0]. rewrite K. change (INR 0) with 0. cbn. field.
  - unfold sE in *. cbn [sum_f_R0] in *. rewrite IH, K. replace (2 * S m + 1)%nat with (S (S (2 * m + 1))) by lia. rewrite T_SS. unfold Rdiv. ring.
Qed.
(** ** Bounds, 0 < z <= 2 *)
Hypothesis Z : 0 < z <= 2.
Lemma zz : 0 < z * z <= 4. Proof. nra. Qed.
Lemma ta_pos : forall m, 0 < ta m.
Proof. intro m. unfold ta. apply Rdiv_lt_0_compat; [apply pow_lt; lra|apply INR_fact_lt_0]. Qed.
Lemma ta_third : forall m, ta (S (S m)) <= ta (S m) / 3.
Proof.
  intro m. rewrite (ta_S (S m)). assert (N : 2 <= INR (S (S m))) by (rewrite !S_INR; pose proof (pos_INR m); lra). pose proof (ta_pos (S m)) as P. pose proof zz. set (i := INR (S (S m))) in *. assert (D : 12 <= 2 * i * (2 * i - 1)) by nra. apply (Rmult_le_reg_r (2 * i * (2 * i - 1))); [lra|]. replace (ta (S m) * (z * z) / (2 * i * (2 * i - 1)) * (2 * i * (2 * i - 1))) with (ta (S m) * (z * z)) by (field; nra). nra.
Qed.
Lemma ta_1 : ta 1 <= 2. Proof. unfold ta. cbn. nra. Qed.
Lemma ta_geo : forall m, ta (S m) <= 2 / 3 ^ m.
Proof. induction m as [|m IH]; [pose proof ta_1; cbn; lra|]. pose proof (ta_third m). cbn [pow]. assert (0 < 3 ^ m) by (apply pow_lt; lra). replace (2 / (3 * 3 ^ m)) with (2 / 3 ^ m / 3) by (field; lra). lra. Qed.
Lemma tb_pos : forall m, 0 < tb m.
Proof. intro m. unfold tb. apply Rdiv_lt_0_compat; [apply pow_lt; lra|apply INR_fact_lt_0]. Qed.
Lemma tb_third : forall m, tb (S m) <= ta (S m) / 3.
Proof. intro m. rewrite <- tb_a. rewrite S_INR. pose proof (pos_INR m). pose proof (tb_pos (S m)). nra. Qed.
Lemma restC : forall m, 0 <= cosh z - sC (S m) <= 5 / 3 * ta (S m).
Proof.
  intro m. rewrite sC_T. pose proof (rest (2 * S m) z ltac:(lra)) as H. assert (E : hyp (2 * S m) z = cosh z) by (unfold hyp; rewrite Nat.even_mul; reflexivity). rewrite E in H. split; [lra|]. assert (K : z ^ S (S (2 * S m)) / INR (fact (S (S (2 * S m)))) = ta (S (S m))) by (unfold ta; replace (2 * S (S m))%nat with (S (S (2 * S m))) by lia; reflexivity). rewrite K in H. pose proof (ta_third m). lra.
Qed.
Lemma restD : forall m, 0 <= sinh z - z * sD (S m) <= z * (1 / 3 * ta (S m)).
Proof.
  intro m. rewrite sD_T. pose proof (rest (2 * S m + 1) z ltac:(lra)) as H. assert (E : hyp (2 * S m + 1) z = sinh z) by (unfold hyp; rewrite Nat.add_1_r, Nat.even_succ, Nat.odd_mul; reflexivity). rewrite E in H. split; [lra|].
  assert (K : z ^ S (S (2 * S m + 1)) / INR (fact (S (S (2 * S m + 1)))) = z * tb (S (S m))) by (unfold tb; replace (2 * S (S m) + 1)%nat with (S (S (2 * S m + 1))) by lia; replace (2 * S (S m))%nat with (S (2 * S m + 1)) by lia; cbn [pow]; unfold Rdiv; ring). rewrite K in H.
  assert (B : tb (S (S m)) <= ta (S (S m)) / 5). { rewrite <- (tb_a (S (S m))), !S_INR. pose proof (pos_INR m). pose proof (tb_pos (S (S m))). nra. } pose proof (ta_third m). eapply Rle_trans; [apply H|]. replace (5 * (z * tb (S (S m)))) with (z * (5 * tb (S (S m)))) by ring. apply Rmult_le_compat_l; lra.
Qed.
Lemma restE : forall m, 0 <= z * sinh z - sE (S m) <= z * z * (5 / 3 * ta (S m)).
Proof.
  intro m. rewrite sE_T. pose proof (rest (2 * m + 1) z ltac:(lra)) as H. assert (E : hyp (2 * m + 1) z = sinh z) by (unfold hyp; rewrite Nat.add_1_r, Nat.even_succ, Nat.odd_mul; reflexivity). rewrite E in H. assert (K : z ^ S (S (2 * m + 1)) / INR (fact (S (S (2 * m + 1)))) = z * tb (S m)) by (unfold tb; replace (2 * S m + 1)%nat with (S (S (2 * m + 1))) by lia; replace (2 * S m)%nat with (S (2 * m + 1)) by lia; cbn [pow]; unfold Rdiv; ring). rewrite K in H. pose proof (tb_third m) as B. replace (z * sinh z - z * T (2 * m + 1) z) with (z * (sinh z - T (2 * m + 1) z)) by ring. split; [apply Rmult_le_pos; lra|]. rewrite Rmult_assoc. apply Rmult_le_compat_l; [lra|]. eapply Rle_trans; [apply H|]. replace (5 * (z * tb (S m))) with (z * (5 * tb (S m))) by ring. apply Rmult_le_compat_l; lra.
Qed.
Lemma tp_pos : forall m, 0 < tp m.
Proof. induction m as [|m IH]; [cbn; lra|]. cbn [tp]. pose proof zz. assert (N : 1 <= INR (S m)) by (rewrite S_INR; pose proof (pos_INR m); lra). apply Rdiv_lt_0_compat; [apply Rmult_lt_0_compat; lra|nra]. Qed.
Lemma tp_1 : tp 1 = z * z / 3. Proof. cbn [tp]. change (INR 1) with 1. field. Qed.
Lemma tp_next : forall m, tp (S (S m)) * INR (S (S m)) <= 8 / 15 * (tp (S m) * INR (S m)) /\ tp (S (S m)) <= 4 / 15 * tp (S m).
Proof.
  intro m. change (tp (S (S m))) with (tp (S m) * (z * z / 4) / (INR (S (S m)) * INR (S (S m)) - 1 / 4)). pose proof zz. pose proof (tp_pos (S m)) as P. assert (E : INR (S (S m)) = INR (S m) + 1) by (rewrite (S_INR (S m)); reflexivity). assert (N : 1 <= INR (S m)) by (rewrite S_INR; pose proof (pos_INR m); lra). rewrite E. set (i := INR (S m)) in *. assert (D : 15 / 4 <= (i + 1) * (i + 1) - 1 / 4) by nra. set (d := (i + 1) * (i + 1) - 1 / 4) in *.
  assert (B : tp (S m) * (z * z / 4) / d <= tp (S m) / d) by (unfold Rdiv at 1 3; apply Rmult_le_compat_r; [left; apply Rinv_0_lt_compat; lra|nra]). split.
  - eapply Rle_trans; [apply Rmult_le_compat_r; [lra|exact B]|]. apply (Rmult_le_reg_r d); [lra|]. replace (tp (S m) / d * (i + 1) * d) with (tp (S m) * (i + 1)) by (field; lra). assert (Y : i + 1 <= 8 / 15 * i * d). { unfold d. assert (0 <= (i - 1) * (i - 1)) by nra. assert (0 <= (i - 1) * ((i - 1) * (i - 1))) by (apply Rmult_le_pos; lra). nra. } replace (8 / 15 * (tp (S m) * i) * d) with (tp (S m) * (8 / 15 * i * d)) by ring. apply Rmult_le_compat_l; lra.
  - eapply Rle_trans; [exact B|]. apply (Rmult_le_reg_r d); [lra|]. replace (tp (S m) / d * d) with (tp (S m)) by (field; lra). nra.
Qed.
Lemma tp_bound : forall m, tp (S m) <= 4 / 3.
Proof. induction m as [|m IH]; [rewrite tp_1; pose proof zz; lra|]. pose proof (proj2 (tp_next m)). lra. Qed.
Lemma sP_bound : forall m, 0 <= sP (S m) <= 3.
Proof.
  intro m. split; [apply cond_pos_sum; intro; left; apply tp_pos|]. assert (G : sP (S m) + 1 / 2 * tp (S m) <= 3).
  { induction m as [|m IH]; [unfold sP; cbn [sum_f_R0]; rewrite tp_1; cbn [tp]; pose proof zz; lra|]. unfold sP in *. change (sum_f_R0 tp (S (S m))) with (sum_f_R0 tp (S m) + tp (S (S m))). pose proof (proj2 (tp_next m)). pose proof (tp_pos (S m)). lra. }
  pose proof (tp_pos (S m)). lra.
Qed.
Lemma sF_bound : forall m, 0 <= sF (S m) <= 2 * (z * z).
Proof.
  intro m. split; [apply cond_pos_sum; intro k; pose proof (tp_pos k); pose proof (pos_INR k); nra|]. assert (G : sF (S m) + 2 * (2 * (tp (S m) * INR (S m))) <= 2 * (z * z)).
  { induction m as [|m IH]; [unfold sF; cbn [sum_f_R0]; rewrite tp_1; change (INR 0) with 0; change (INR 1) with 1; right; field|]. unfold sF in *. change (sum_f_R0 (fun k => 2 * INR k * tp k) (S (S m))) with (sum_f_R0 (fun k => 2 * INR k * tp k) (S m) + 2 * INR (S (S m)) * tp (S (S m))). pose proof (proj1 (tp_next m)). pose proof (tp_pos (S m)). pose proof (pos_INR (S m)). assert (0 <= tp (S m) * INR (S m)) by (apply Rmult_le_pos; lra). lra. }
  pose proof (tp_pos (S m)). pose proof (pos_INR (S m)). assert (0 <= tp (S m) * INR (S m)) by (apply Rmult_le_pos; lra). lra.
Qed.
End Terms.
