(** Proofs about the Fourier values of the Moffat profile. *)
From Coq Require Import ZArith Reals Bool List Lra Lia Arith.
From Coquelicot Require Import Coquelicot.
From Verif Require Import Base Bounds_Model Bounds_Proofs GSP_Model Bes_Model Bes_Spec Bes_K Bes_K2 Bes_T3 Size_Model Size_Proofs Size_Spergel.
From Verif Require Import Akima_Model Akima_Spec Akima_Proofs Akima_Spline Akima_Acc MoffK_Model MoffK_Spec MoffK_Theta.
Import ListNotations.
Open Scope R_scope.

(** * The table *)
Lemma n3 : (3 <= n_pts)%nat.
Proof. apply Nat.leb_le. vm_compute. reflexivity. Qed.
Lemma n699 : INR (n_pts - 1) = 699.
Proof. rewrite INR_IZR_INZ. f_equal. Qed.
Local Opaque n_pts.
Lemma nth_map_seq : forall (g : nat -> R) n i, (i < n)%nat -> nth i (map g (seq 0 n)) 0 = g i.
Proof. intros g n i L. rewrite (nth_indep _ 0 (g 0%nat)) by now rewrite map_length, seq_length. rewrite map_nth, seq_nth by exact L. reflexivity. Qed.
Lemma last_map_seq : forall (g : nat -> R) n, (0 < n)%nat -> List.last (map g (seq 0 n)) 0 = g (n - 1)%nat.
Proof. intros g [|n] L; [lia|]. rewrite seq_S, map_app. cbn [map Nat.add Nat.sub]. rewrite last_last. now rewrite Nat.sub_0_r. Qed.
Section Table.
  Variable lgamma : R -> R.
  Variable olver : R -> R -> R.
  Variable p : moffat.
  Hypothesis R0 : 0 < mo_r0 p.
  Notation km := (mo_maxk p).
  Notation r0 := (mo_r0 p).
  Lemma maxk_pos : 0 < km.
  Proof using R0. unfold mo_maxk. apply Rdiv_lt_0_compat; [apply exp_pos|exact R0]. Qed.
  Definition step : R := km / 699.
  Lemma step_pos : 0 < step.
  Proof using R0. unfold step. pose proof maxk_pos. lra. Qed.
  Lemma table_k_length : length (table_k p) = n_pts.
  Proof using Type. unfold table_k. now rewrite map_length, seq_length. Qed.
  Lemma table_k_nth : forall i, (i < n_pts)%nat -> nth i (table_k p) 0 = INR i * step.
  Proof using Type. intros i L. unfold table_k. rewrite nth_map_seq by exact L. unfold linspace, step. rewrite n699. field. Qed.
  Lemma table_k_last : List.last (table_k p) 0 = km.
  Proof using Type. pose proof n3. unfold table_k. rewrite last_map_seq, linspace_end by lia. reflexivity. Qed.
  Lemma table_k_end : nth (length (table_k p) - 1) (table_k p) 0 = km.
  Proof using Type. pose proof n3. rewrite table_k_length, table_k_nth, n699 by lia. unfold step. field. Qed.
  Lemma table_k_0 : nth 0 (table_k p) 0 = 0.
  Proof using Type. pose proof n3. rewrite table_k_nth by lia. change (INR 0) with 0. ring. Qed.
  Definition node (k : R) : R := untrunc_func olver (mo_beta p) k (mo_knorm_bis lgamma p) (mo_knorm p) r0.
  Notation vals := (table_vals lgamma olver p).
  Lemma vals_length : length vals = n_pts.
  Proof using Type. unfold table_vals. rewrite map_length. apply table_k_length. Qed.
  Lemma vals_nth : forall i, (i < n_pts)%nat -> nth i vals 0 = node (INR i * step).
  Proof using Type. intros i L. unfold table_vals. rewrite (nth_indep _ 0 (node 0)) by (rewrite map_length, table_k_length; exact L). rewrite map_nth, table_k_nth by exact L. reflexivity. Qed.
  Lemma vals_last : List.last vals 0 = node km.
  Proof using Type.
    pose proof n3. unfold table_vals, table_k. rewrite map_map, last_map_seq, linspace_end by lia. reflexivity.
  Qed.
  Lemma tab : table (table_k p) vals.
  Proof using R0.
    pose proof n3. split; [now rewrite table_k_length, vals_length|]. split; [rewrite table_k_length; lia|]. intros i L. rewrite table_k_length in L.
    rewrite !table_k_nth by lia. rewrite S_INR. pose proof step_pos. lra.
  Qed.
  Lemma even_k : evenly (table_k p).
  Proof using R0. pose proof n3. exists step. split; [apply step_pos|]. intros i L. rewrite table_k_length in L. rewrite !table_k_nth by lia. change (INR 0) with 0. ring. Qed.
  Lemma inside_value : forall kpos, sqrt (norm2 kpos) <= km -> mo_kValue lgamma olver p kpos = Num (interp (table_k p) vals true false (sqrt (norm2 kpos))).
  Proof using R0.
    intros kpos L. unfold mo_kValue. cbv zeta. rewrite table_k_last. destruct (Rltb_spec km (sqrt (norm2 kpos))); [lra|]. f_equal.
    rewrite <- (interp_fixed (table_k p) vals tab true (sqrt (norm2 kpos)) even_k). reflexivity.
  Qed.
  Lemma outside_value : forall kpos, km < sqrt (norm2 kpos) -> mo_kValue lgamma olver p kpos = tail lgamma olver p (sqrt (norm2 kpos)).
  Proof using R0.
    intros kpos L. unfold mo_kValue. cbv zeta. rewrite table_k_last. pose proof maxk_pos. destruct (Rltb_spec km (sqrt (norm2 kpos))); [|lra]. destruct (Rltb_spec 0 (sqrt (norm2 kpos))); [reflexivity|lra].
  Qed.
  Lemma node_value : forall i, (i < n_pts)%nat -> interp (table_k p) vals true false (INR i * step) = node (INR i * step).
  Proof using R0.
    intros i L. rewrite <- (table_k_nth i L). rewrite (interp_data (table_k p) vals tab) by (rewrite table_k_length; exact L). rewrite (vals_nth i L), (table_k_nth i L). reflexivity.
  Qed.
  Lemma node_0 : node 0 = mo_flux p.
  Proof using Type. unfold node, untrunc_func. cbv zeta. destruct (Rltb_spec 0 0); [lra|reflexivity]. Qed.
  Lemma node_pos : forall k, 0 < k -> node k = mo_knorm_bis lgamma p * Rpower (k * r0) (mo_beta p - 1) * knu olver (mo_beta p - 1) (k * r0).
  Proof using R0. intros k K. unfold node, untrunc_func. cbv zeta. destruct (Rltb_spec 0 k); [|lra]. rewrite jpow_pos by now apply Rmult_lt_0_compat. reflexivity. Qed.
  (** * The continuation *)
  Definition amp (k : R) : R := mo_knorm_bis lgamma p * exp ((mo_beta p - 1) * ln (k * r0)) * exp (- (k * r0)) * sqrt (PI / 2 / (k * r0)).
  Lemma amp_ok : forall k, 0 < k -> asymp_func (mo_beta p) k (mo_knorm_bis lgamma p) r0 = amp k.
  Proof using R0. intros k K. unfold asymp_func, amp. cbv zeta. rewrite jpow_pos by now apply Rmult_lt_0_compat. reflexivity. Qed.
  Lemma knorm_bis_0 : mo_flux p <> 0 -> mo_knorm_bis lgamma p <> 0.
  Proof using Type.
    intro F. unfold mo_knorm_bis. cbv zeta. rewrite jpow_pos by lra. unfold Rpower. apply Rmult_integral_contrapositive. split; [lra|]. apply Rinv_neq_0_compat.
    apply Rgt_not_eq, Rmult_lt_0_compat; apply exp_pos.
  Qed.
  Lemma amp_0 : forall k, 0 < k -> mo_flux p <> 0 -> amp k <> 0.
  Proof using R0.
    intros k K F. pose proof (knorm_bis_0 F). assert (P : 0 < k * r0) by now apply Rmult_lt_0_compat. pose proof PI_RGT_0.
    assert (S : 0 < sqrt (PI / 2 / (k * r0))) by (apply sqrt_lt_R0, Rdiv_lt_0_compat; lra).
    unfold amp. pose proof (exp_pos ((mo_beta p - 1) * ln (k * r0))) as E1. pose proof (exp_pos (- (k * r0))) as E2.
    revert H S E1 E2. generalize (mo_knorm_bis lgamma p) (exp ((mo_beta p - 1) * ln (k * r0))) (exp (- (k * r0))) (sqrt (PI / 2 / (k * r0))). intros a b c d A D C' E.
    repeat apply Rmult_integral_contrapositive_currified; lra.
  Qed.
  Lemma slp_ok : mo_flux p <> 0 -> slp lgamma olver p = Num ((node km / amp km - 1) * km * r0).
  Proof using R0.
    intro F. unfold slp. cbv zeta. pose proof maxk_pos as M. rewrite table_k_last, vals_last, amp_ok by exact M. unfold fdiv. destruct (Reqb_spec (amp km) 0) as [E|_]; [|reflexivity].
    exfalso. now apply (amp_0 km M F).
  Qed.
  Lemma slp_zero_flux : mo_flux p = 0 -> slp lgamma olver p = Nan.
  Proof using R0.
    intro F. unfold slp. cbv zeta. pose proof maxk_pos as M. rewrite table_k_last, vals_last, amp_ok by exact M.
    assert (B : mo_knorm_bis lgamma p = 0) by (unfold mo_knorm_bis; cbv zeta; rewrite F; unfold Rdiv; ring).
    assert (A : amp km = 0) by (unfold amp; rewrite B; ring). assert (N : node km = 0) by (rewrite node_pos, B by exact M; ring). rewrite A, N. unfold fdiv.
    destruct (Reqb_spec 0 0); [reflexivity|lra].
  Qed.
  Definition tailf (k : R) : R := amp k * (1 + (node km / amp km - 1) * km * r0 / k / r0).
  Lemma tail_ok : forall k, 0 < k -> mo_flux p <> 0 -> tail lgamma olver p k = Num (tailf k).
  Proof using R0. intros k K F. unfold tail. cbv zeta. rewrite slp_ok by exact F. rewrite amp_ok by exact K. reflexivity. Qed.
  Lemma tail_joins : mo_flux p <> 0 -> tailf km = node km.
  Proof using R0. intro F. unfold tailf. pose proof maxk_pos as M. pose proof (amp_0 km M F). field. repeat split; lra. Qed.
  Lemma tailf_cont : forall k, 0 < k -> continuity_pt tailf k.
  Proof using R0.
    intros k K. apply continuity_pt_filterlim, @ex_derive_continuous. unfold tailf, amp. set (c := (node km / _ - 1) * km * r0). clearbody c.
    assert (P : 0 < k * r0) by now apply Rmult_lt_0_compat. pose proof PI_RGT_0. assert (0 < PI / 2 / (k * r0)) by (apply Rdiv_lt_0_compat; lra).
    auto_derive. assert (0 < / (k * r0)) by now apply Rinv_0_lt_compat. unfold Rdiv in *. repeat split; try lra; auto.
  Qed.
  (** * Continuity *)
  Definition radial (k : R) : R := if Rle_dec k 0 then mo_flux p else if Rle_dec k km then interp (table_k p) vals true false k else tailf k.
  Lemma interp_at_0 : interp (table_k p) vals true false 0 = mo_flux p.
  Proof using R0. pose proof n3. rewrite <- node_0. replace 0 with (INR 0 * step) by (change (INR 0) with 0; ring). apply node_value. lia. Qed.
  Lemma interp_at_km : interp (table_k p) vals true false km = node km.
  Proof using R0. pose proof n3. replace km with (INR (n_pts - 1) * step) by (rewrite n699; unfold step; field). apply node_value. lia. Qed.
  Lemma radial_inside : forall k, 0 <= k <= km -> radial k = interp (table_k p) vals true false k.
  Proof using R0. intros k K. unfold radial. destruct (Rle_dec k 0); [|destruct (Rle_dec k km); [reflexivity|lra]]. replace k with 0 by lra. symmetry. apply interp_at_0. Qed.
  Lemma radial_outside : forall k, km <= k -> mo_flux p <> 0 -> radial k = tailf k.
  Proof using R0.
    intros k K F. pose proof maxk_pos. unfold radial. destruct (Rle_dec k 0); [lra|]. destruct (Rle_dec k km); [|reflexivity]. replace k with km by lra. rewrite interp_at_km. symmetry. now apply tail_joins.
  Qed.
  Lemma radial_ok : forall kpos, mo_flux p <> 0 -> mo_kValue lgamma olver p kpos = Num (radial (sqrt (norm2 kpos))).
  Proof using R0.
    intros kpos F. pose proof (sqrt_pos (norm2 kpos)). pose proof maxk_pos. destruct (Rle_lt_dec (sqrt (norm2 kpos)) km) as [L|L].
    - rewrite inside_value, radial_inside by lra. reflexivity.
    - rewrite outside_value, tail_ok, radial_outside by (auto; lra). reflexivity.
  Qed.
  Lemma hermite_cont : forall x0 y0 s0 x1 y1 s1 t, continuity_pt (hermite x0 y0 s0 x1 y1 s1) t.
  Proof using Type. intros. apply derivable_continuous_pt. exists (dhermite x0 y0 s0 x1 y1 s1 t). apply hermite_deriv. Qed.
  Lemma radial_cont : mo_flux p <> 0 -> forall k, continuity_pt radial k.
  Proof using R0.
    intros F k. pose proof maxk_pos as M. pose proof n3 as N. pose proof step_pos as SP. pose proof tab as TB.
    assert (K0 := table_k_0). assert (KE := table_k_end). assert (KL := table_k_length).
    assert (CI : forall t, 0 <= t <= km -> exists q, continuity_pt q t /\ exists e, 0 < e /\ (forall u, t <= u < t + e -> u <= km -> interp (table_k p) vals true false u = q u)).
    { intros t T0. destruct (Rlt_le_dec t km) as [L|L].
      - destruct (bracket (table_k p) t (length (table_k p) - 1)) as (i & I1 & I2); [rewrite KL; lia|lra|rewrite KE; lra|].
        exists (piece (table_k p) vals i). split; [apply hermite_cont|]. exists (nth (S i) (table_k p) 0 - t). split; [lra|]. intros u U _. apply interp_piece; [exact TB|rewrite KL in *; lia|lra].
      - exists (fun _ => node km). split; [apply continuity_pt_const; intros a b; reflexivity|]. exists 1. split; [lra|]. intros u U V. replace u with km by lra. apply interp_at_km. }
    assert (CL : forall t, 0 < t <= km -> exists q, continuity_pt q t /\ exists e, 0 < e /\ (forall u, t - e < u <= t -> interp (table_k p) vals true false u = q u)).
    { intros t T0. destruct (Rlt_le_dec t km) as [L|L].
      - destruct (local (table_k p) vals TB t) as (i & j & e & E & I1 & I2 & I3 & _); [unfold Akima_Spline.last; rewrite KE, K0; lra|].
        exists (piece (table_k p) vals i). split; [apply hermite_cont|]. exists e. split; [exact E|]. intros u U. apply interp_piece; auto.
      - exists (piece (table_k p) vals (n_pts - 2)). split; [apply hermite_cont|]. exists step. split; [exact SP|].
        assert (A : nth (n_pts - 2) (table_k p) 0 = km - step).
        { rewrite table_k_nth by lia. replace (n_pts - 2)%nat with (n_pts - 1 - 1)%nat by lia. rewrite minus_INR by lia. rewrite n699. change (INR 1) with 1. unfold step. field. }
        assert (B : nth (S (n_pts - 2)) (table_k p) 0 = km) by (rewrite <- KE, KL; f_equal; lia).
        intros u U. apply interp_piece; [exact TB|rewrite KL; lia|]. rewrite A, B. lra. }
    destruct (Rlt_le_dec k 0) as [c0|c0].
    { apply (glue_cont _ (fun _ => mo_flux p) (fun _ => mo_flux p) k (- k)); try lra; try (apply continuity_pt_const; intros a b; reflexivity).
      - intros t T0. unfold radial. destruct (Rle_dec t 0); [reflexivity|lra].
      - intros t T0. unfold radial. destruct (Rle_dec t 0); [reflexivity|lra]. }
    destruct (Req_dec k 0) as [->|K].
    { destruct (CI 0 ltac:(lra)) as (q & Q & e & E & H). apply (glue_cont _ (fun _ => mo_flux p) q 0 (Rmin e km)); [apply Rmin_glb_lt; lra| | | |exact Q].
      - intros t T0. unfold radial. destruct (Rle_dec t 0); [reflexivity|lra].
      - intros t T0. pose proof (Rmin_l e km). pose proof (Rmin_r e km). rewrite radial_inside by lra. apply H; lra.
      - apply continuity_pt_const. intros a b. reflexivity. }
    destruct (Rlt_le_dec k km) as [L|L].
    { destruct (CI k ltac:(lra)) as (q & Q & e & E & H). destruct (CL k ltac:(lra)) as (q' & Q' & e' & E' & H').
      set (d := Rmin (Rmin e e') (Rmin k (km - k))). pose proof (Rmin_l (Rmin e e') (Rmin k (km - k))) as D1. pose proof (Rmin_r (Rmin e e') (Rmin k (km - k))) as D2. pose proof (Rmin_l e e'). pose proof (Rmin_r e e'). pose proof (Rmin_l k (km - k)). pose proof (Rmin_r k (km - k)). fold d in D1, D2.
      apply (glue_cont _ q' q k d); [unfold d; repeat apply Rmin_glb_lt; lra| | |exact Q'|exact Q].
      - intros t T0. rewrite radial_inside by lra. apply H'. lra.
      - intros t T0. rewrite radial_inside by lra. apply H; lra. }
    destruct (Req_dec k km) as [->|K2].
    { destruct (CL km ltac:(lra)) as (q' & Q' & e' & E' & H'). pose proof (Rmin_l e' km). pose proof (Rmin_r e' km).
      apply (glue_cont _ q' tailf km (Rmin e' km)); [apply Rmin_glb_lt; lra| | |exact Q'|apply tailf_cont; lra].
      - intros t T0. rewrite radial_inside by lra. apply H'. lra.
      - intros t T0. apply radial_outside; [lra|exact F]. }
    apply (glue_cont _ tailf tailf k (k - km)); [lra| | |apply tailf_cont; lra|apply tailf_cont; lra]; intros t T0; apply radial_outside; auto; lra.
  Qed.
End Table.

(** * Half-integer beta *)
Section Half.
  Variable lgamma : R -> R.
  Hypothesis LG : gamma_half lgamma.
  Variable olver : R -> R -> R.
  Variable p : moffat.
  Hypothesis R0 : 0 < mo_r0 p.
  Variable n : nat.
  Hypothesis B : mo_beta p = INR n + 3 / 2.
  Hypothesis N50 : (n < 50)%nat.
  Notation km := (mo_maxk p).
  Notation r0 := (mo_r0 p).
  Lemma power_half : forall x, 0 < x -> Rpower x (INR n + 1 / 2) = x ^ n * sqrt x.
  Proof using Type. intros x X. rewrite Rpower_plus, Rpower_pow by exact X. replace (1 / 2) with (/ 2) by field. rewrite Rpower_sqrt by exact X. reflexivity. Qed.
  Lemma norm_half : forall x, 0 < x -> mo_knorm_bis lgamma p * Rpower x (INR n + 1 / 2) * sqrt (PI / (2 * x)) = mo_flux p * x ^ n / theta n 0.
  Proof using LG B.
    intros x X. unfold mo_knorm_bis. cbv zeta. rewrite jpow_pos by lra. rewrite B. replace (INR n + 3 / 2 - 1) with (INR n + 1 / 2) by field. rewrite LG.
    replace (INR n + 3 / 2) with ((INR n + 1 / 2) + 1) by field. rewrite Rpower_plus, Rpower_1 by lra. rewrite !power_half by lra. rewrite theta_at_0.
    pose proof PI_RGT_0 as PP. rewrite sqrt_div_alt by lra. rewrite sqrt_mult by lra. assert (S2 : sqrt 2 * sqrt 2 = 2) by (apply sqrt_sqrt; lra).
    assert (A2 : 0 < sqrt 2) by (apply sqrt_lt_R0; lra). assert (A3 : 0 < sqrt PI) by (apply sqrt_lt_R0; lra). assert (A4 : 0 < sqrt x) by (apply sqrt_lt_R0; lra).
    replace (4 ^ n) with (2 ^ n * 2 ^ n) by (rewrite <- Rpow_mult_distr; f_equal; ring). assert (A5 : 0 < 2 ^ n) by (apply pow_lt; lra).
    pose proof (INR_fact_lt_0 n) as F1. pose proof (INR_fact_lt_0 (2 * n)) as F2. revert S2 A2 A3 A4 A5 F1 F2. generalize (sqrt 2) (sqrt PI) (sqrt x) (2 ^ n) (INR (fact n)) (INR (fact (2 * n))).
    intros s t u v a b S2 A2 A3 A4 A5 F1 F2. replace (mo_flux p * 4) with (mo_flux p * 2 * (s * s)) by (rewrite S2; ring). field. repeat split; lra.
  Qed.
  Lemma node_half : forall k, 0 < k -> exists r, node lgamma olver p k = mo_flux p * moffat_k n (k * r0) * (1 + r) /\ Rabs r <= / 10 ^ 12 /\ (2 < k * r0 -> r = 0).
  Proof using R0 LG B N50.
    intros k K. set (x := k * r0). assert (X : 0 < x) by (unfold x; now apply Rmult_lt_0_compat). rewrite node_pos by (auto). fold x. rewrite B. replace (INR n + 3 / 2 - 1) with (INR n + 1 / 2) by field.
    assert (T : mo_knorm_bis lgamma p * Rpower x (INR n + 1 / 2) * K_half n x = mo_flux p * moffat_k n x).
    { rewrite K_th. transitivity (mo_knorm_bis lgamma p * Rpower x (INR n + 1 / 2) * sqrt (PI / (2 * x)) * exp (- x) * th n x); [ring|]. rewrite norm_half by exact X.
      unfold moffat_k. rewrite (theta_th n x) by lra. field. pose proof (theta_pos n 0 ltac:(lra)). lra. }
    pose proof (K_pos n x X) as KP. unfold knu. destruct (kv_close olver n x N50 X) as (v & E & H). exists (v / K_half n x - 1).
    rewrite E. split; [|split].
    - rewrite <- T. field. lra.
    - replace (v / K_half n x - 1) with ((v - K_half n x) / K_half n x) by (field; lra). unfold Rdiv. rewrite Rabs_mult, (Rabs_pos_eq (/ _)) by (left; now apply Rinv_0_lt_compat).
      apply (Rmult_le_reg_r (K_half n x)); [exact KP|]. rewrite Rmult_assoc, Rinv_l by lra. lra.
    - intro X2. rewrite kv_half in E by assumption. injection E as <-. field. lra.
  Qed.
  Lemma node_close : forall k, 0 <= k -> Rabs (node lgamma olver p k - mo_flux p * moffat_k n (k * r0)) <= / 10 ^ 12 * Rabs (mo_flux p).
  Proof using R0 LG B N50.
    intros k K. assert (P : 0 <= / 10 ^ 12) by (left; apply Rinv_0_lt_compat, pow_lt; lra). destruct (Req_dec k 0) as [->|K0].
    - rewrite node_0, Rmult_0_l, mk_at_0, Rmult_1_r, Rminus_eq_0, Rabs_R0. apply Rmult_le_pos; [exact P|apply Rabs_pos].
    - destruct (node_half k ltac:(lra)) as (r & -> & H & _). replace (mo_flux p * moffat_k n (k * r0) * (1 + r) - mo_flux p * moffat_k n (k * r0)) with (r * (mo_flux p * moffat_k n (k * r0))) by ring.
      assert (Q : 0 <= k * r0) by (apply Rmult_le_pos; lra). pose proof (mk_pos n _ Q). pose proof (mk_le_1 n _ Q). rewrite !Rabs_mult, (Rabs_pos_eq (moffat_k _ _)) by lra.
      apply Rmult_le_compat; [apply Rabs_pos|apply Rmult_le_pos; [apply Rabs_pos|lra]|exact H|]. rewrite <- (Rmult_1_r (Rabs (mo_flux p))) at 2. apply Rmult_le_compat_l; [apply Rabs_pos|lra].
  Qed.
  Lemma table_close : forall k, 0 <= k <= km -> Rabs (interp (table_k p) (table_vals lgamma olver p) true false k - mo_flux p * moffat_k n (k * r0)) <=
    Rabs (mo_flux p) * ((km * r0 / 699) ^ 2 / 2 + 5 / 2 * / 10 ^ 12).
  Proof using R0 LG B N50.
    intros k K. pose proof (step_pos p R0) as SP. pose proof n3 as N3.
    set (f1 := fun k => mo_flux p * (r0 * dmk n (k * r0))). set (f2 := fun k => mo_flux p * (r0 * (r0 * ddmk n (k * r0)))).
    assert (H := interp_error (table_k p) (table_vals lgamma olver p) (tab lgamma olver p R0) (fun k => mo_flux p * moffat_k n (k * r0)) f1 f2 (step p) (step p) (Rabs (mo_flux p) * (r0 * r0)) (/ 10 ^ 12 * Rabs (mo_flux p))).
    rewrite (table_k_0 p), (table_k_end p), (table_k_length p) in H. eapply Rle_trans; [apply H; clear H|].
    - intros t T0. unfold f1. pose proof (dmk_ok n (t * r0)) as D. auto_derive; [eexists; exact D|]. replace (Derive (fun u => moffat_k n u) (t * r0)) with (dmk n (t * r0)) by (symmetry; apply is_derive_unique; exact D). ring.
    - intros t T0. unfold f1, f2. pose proof (ddmk_ok n (t * r0)) as D. auto_derive; [eexists; exact D|]. replace (Derive (fun u => dmk n u) (t * r0)) with (ddmk n (t * r0)) by (symmetry; apply is_derive_unique; exact D). ring.
    - intros t T0. unfold f2. assert (Q : 0 <= t * r0) by (apply Rmult_le_pos; lra). pose proof (ddmk_small n _ Q) as D. rewrite !Rabs_mult, (Rabs_pos_eq r0) by lra.
      apply Rmult_le_compat_l; [apply Rabs_pos|]. apply Rmult_le_compat_l; [lra|]. revert D. generalize (Rabs (ddmk n (t * r0))). intros d D. assert (r0 * d <= r0 * 1) by (apply Rmult_le_compat_l; lra). lra.
    - exact SP.
    - intros i L. rewrite !table_k_nth by lia. rewrite S_INR. lra.
    - intros i L. rewrite vals_nth, table_k_nth by lia. apply node_close. apply Rmult_le_pos; [apply pos_INR|lra].
    - exact K.
    - right. unfold step. pose proof (maxk_pos p R0). match goal with |- ?a = ?b => change (@eq R a b) end. field. lra.
  Qed.
  (** ** Beyond maxk *)
  Hypothesis X2 : 2 < km * r0.
  Lemma amp_half : forall k, 0 < k -> amp lgamma p k = mo_flux p * (exp (- (k * r0)) * (k * r0) ^ n / theta n 0).
  Proof using R0 LG B.
    intros k K. assert (X : 0 < k * r0) by now apply Rmult_lt_0_compat. unfold amp. fold (Rpower (k * r0) (mo_beta p - 1)). rewrite B. replace (INR n + 3 / 2 - 1) with (INR n + 1 / 2) by field.
    replace (PI / 2 / (k * r0)) with (PI / (2 * (k * r0))) by (field; lra). transitivity (mo_knorm_bis lgamma p * Rpower (k * r0) (INR n + 1 / 2) * sqrt (PI / (2 * (k * r0))) * exp (- (k * r0))); [ring|].
    rewrite norm_half by exact X. field. pose proof (theta_pos n 0 ltac:(lra)). lra.
  Qed.
  Lemma node_km : node lgamma olver p km = mo_flux p * moffat_k n (km * r0).
  Proof using R0 LG B N50 X2. destruct (node_half km (maxk_pos p R0)) as (r & E & _ & Z). rewrite E, (Z X2). ring. Qed.
  Definition env (x : R) : R := exp (- x) * x ^ n / theta n 0.
  Lemma env_pos : forall x, 0 < x -> 0 < env x.
  Proof using Type. intros x X. unfold env. apply Rdiv_lt_0_compat; [|apply theta_pos; lra]. apply Rmult_lt_0_compat; [apply exp_pos|now apply pow_lt]. Qed.
  Lemma mk_env : forall x, 0 < x -> moffat_k n x = env x * th n x.
  Proof using Type. intros x X. unfold moffat_k, env. rewrite (theta_th n x) by lra. field. pose proof (theta_pos n 0 ltac:(lra)). lra. Qed.
  Lemma tail_half : forall k, 0 < k -> mo_flux p <> 0 -> tailf lgamma olver p k = mo_flux p * (env (k * r0) * (1 + (th n (km * r0) - 1) * (km * r0) / (k * r0))).
  Proof using R0 LG B N50 X2.
    intros k K F. pose proof (maxk_pos p R0) as M. unfold tailf. rewrite !amp_half, node_km by assumption. rewrite mk_env by lra. fold (env (k * r0)) (env (km * r0)). pose proof (env_pos (km * r0) ltac:(lra)).
    field. repeat split; lra.
  Qed.
End Half.

(** The correction 1 + s / x is a chord of a convex function of 1 / x. *)
Lemma coeff_ge0 : forall n k, 0 <= bessel_coeff n k.
Proof.
  intros n k. unfold bessel_coeff. destruct (k <=? n)%nat; [|lra]. left. apply Rdiv_lt_0_compat; [apply INR_fact_lt_0|]. apply Rmult_lt_0_compat; apply INR_fact_lt_0.
Qed.
Lemma th_chord : forall n x1 x, 0 < x1 -> x1 <= x -> 1 <= th n x <= 1 + (th n x1 - 1) * x1 / x.
Proof.
  intros n x1 x X1 X. destruct n as [|n]; [rewrite !th_0; unfold Rdiv; lra|]. unfold th. rewrite !sum_first, !coeff_0. cbn [pow].
  set (S1 := sum_f_R0 _ n). match goal with |- context [1 / 1 + ?s] => match s with S1 => fail 1 | _ => idtac end end.
  assert (A : 0 <= S1). { unfold S1. apply cond_pos_sum. intro k. apply Rmult_le_pos; [apply coeff_ge0|]. left. apply Rinv_0_lt_compat. change (2 * x * (2 * x) ^ k) with ((2 * x) ^ S k). apply pow_lt. lra. }
  split; [lra|].
  assert (B : S1 <= x1 / x * sum_f_R0 (fun k => bessel_coeff (S n) (S k) / (2 * x1 * (2 * x1) ^ k)) n).
  { unfold S1. rewrite scal_sum. apply sum_Rle. intros k K. pose proof (coeff_ge0 (S n) (S k)) as C.
    assert (Px : 0 < (2 * x) ^ k) by (apply pow_lt; lra). assert (P1 : 0 < (2 * x1) ^ k) by (apply pow_lt; lra). assert (L : (2 * x1) ^ k <= (2 * x) ^ k) by (apply pow_incr; lra).
    assert (D1 : bessel_coeff (S n) (S k) / (2 * x * (2 * x) ^ k) = bessel_coeff (S n) (S k) / (2 * x) * / (2 * x) ^ k) by (field; lra).
    assert (D2 : bessel_coeff (S n) (S k) / (2 * x1 * (2 * x1) ^ k) * (x1 / x) = bessel_coeff (S n) (S k) / (2 * x) * / (2 * x1) ^ k) by (field; lra).
    rewrite D1, D2. apply Rmult_le_compat_l; [apply Rmult_le_pos; [exact C|left; apply Rinv_0_lt_compat; lra]|]. now apply Rinv_le_contravar. }
  eapply Rle_trans; [apply Rplus_le_compat_l; exact B|]. right. field. lra.
Qed.
Lemma env_decr : forall n x1 x, 0 < x1 -> INR n <= x1 -> x1 <= x -> env n x <= env n x1.
Proof.
  intros n x1 x X1 N X. unfold env. apply Rmult_le_compat_r; [left; apply Rinv_0_lt_compat, theta_pos; lra|].
  apply (drop (fun t => exp (- t) * t ^ n) (fun t => - (exp (- t) * (t ^ n - INR n * t ^ pred n)))); [exact X| |].
  - intros t T. auto_derive; [auto|]. ring.
  - intros t T. pose proof (exp_pos (- t)). assert (0 <= exp (- t) * (t ^ n - INR n * t ^ pred n)); [|lra]. apply Rmult_le_pos; [lra|].
    destruct n as [|n]; [cbn; lra|]. change (pred (S n)) with n. change (t ^ S n) with (t * t ^ n). assert (0 < t ^ n) by (apply pow_lt; lra). assert (0 <= (t - INR (S n)) * t ^ n) by (apply Rmult_le_pos; lra). lra.
Qed.
