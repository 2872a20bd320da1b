(** Properties C133 (Fourier values of the Moffat profile), C134 (accuracy of Akima tables), C135 (maxk of the Moffat
    profile) and C136 (Fourier values beyond maxk). *)
From Coq Require Import ZArith Reals Bool List Lra Lia Arith.
From Coquelicot Require Import Coquelicot.
From Verif Require Import Base GSP_Model Bes_Model Bes_Spec Size_Model Size_Proofs Akima_Model Akima_Spec Akima_Acc.
From Verif Require Import MoffK_Model MoffK_Spec MoffK_Theta MoffK_Int MoffK_Fit MoffK_Maxk MoffK_Ends MoffK_Final.
Import ListNotations.
Open Scope R_scope.

Definition gs_thr (t : R) : gsp R :=
  GSP 128 8192 (5 / 1000) 5 t (1 / 100000) (1 / 100000) 1 (1 / 10000) (1 / 1000000) (1 / 1000000) (1 / 100000000) (1 / 100000).
Definition mof_ex (n : nat) (flux t : R) : moffat := Mof (INR n + 3 / 2) 2 flux (gs_thr t).
Example ex_accepted : forall n flux t, t <= 1 / 10 -> exists p, moffat_new (py (INR n + 3 / 2)) (Some 2) None None (py 0) flux (gs_thr t) = Ok p /\
  mo_r0 p = 2 /\ mo_beta p = INR n + 3 / 2 /\ mo_flux p = flux /\ mo_gs p = gs_thr t.
Proof. intros n flux t T. refine (proj1 (moffat_back (py (INR n + 3 / 2)) 2 flux (gs_thr t) _ _)); [cbn [py nv]; pose proof (pos_INR n); lra|exact T]. Qed.

(** * C133 *)
(** The value at k = 0 is the flux. *)
Theorem C133_flux : forall lgamma olver p, 0 < mo_r0 p -> mo_kValue lgamma olver p (0, 0) = Num (mo_flux p).
Proof. exact kvalue_0. Qed.
Print Assumptions C133_flux.
(** It depends on |k| only. *)
Theorem C133_circular : forall lgamma olver p k1 k2, norm2 k1 = norm2 k2 -> mo_kValue lgamma olver p k1 = mo_kValue lgamma olver p k2.
Proof. exact kvalue_circular. Qed.
Print Assumptions C133_circular.
(** At the other nodes of the table it is the analytic transform 4 flux / (2^beta Gamma(beta-1)) (k r0)^(beta-1) K_(beta-1)(k r0). *)
Theorem C133_nodes : forall lgamma olver p i kpos b, 0 < mo_r0 p -> (0 < i < 700)%nat -> sqrt (norm2 kpos) = INR i * (mo_maxk p / 699) -> kv olver (mo_beta p - 1) (sqrt (norm2 kpos) * mo_r0 p) = Num b ->
  mo_kValue lgamma olver p kpos = Num (4 * mo_flux p / (Rpower 2 (mo_beta p) * exp (lgamma (mo_beta p - 1))) * Rpower (sqrt (norm2 kpos) * mo_r0 p) (mo_beta p - 1) * b).
Proof. exact kvalue_node. Qed.
Print Assumptions C133_nodes.
(** For beta = n + 3/2 the nodes agree with the transform in closed form to 1e-12. *)
Theorem C133_half_integer : forall lgamma olver p n i kpos, gamma_half lgamma -> 0 < mo_r0 p -> mo_beta p = INR n + 3 / 2 -> (n < 50)%nat -> (i < 700)%nat -> sqrt (norm2 kpos) = INR i * (mo_maxk p / 699) ->
  exists v, mo_kValue lgamma olver p kpos = Num v /\ Rabs (v - mo_flux p * moffat_k n (sqrt (norm2 kpos) * mo_r0 p)) <= / 10 ^ 12 * Rabs (mo_flux p).
Proof. exact kvalue_node_half. Qed.
Print Assumptions C133_half_integer.
(** With a flux it is a number everywhere and continuous, also across maxk where the table ends. *)
Theorem C133_continuous : forall lgamma olver p, 0 < mo_r0 p -> mo_flux p <> 0 ->
  exists f, (forall k, continuity_pt f k) /\ forall kpos, mo_kValue lgamma olver p kpos = Num (f (sqrt (norm2 kpos))).
Proof. exact kvalue_continuous. Qed.
Print Assumptions C133_continuous.
(** With flux 0 it is nan at every k beyond maxk, not 0. *)
Theorem C133_zero_flux_refuted : forall lgamma olver,
  (forall p kpos, 0 < mo_r0 p -> mo_flux p = 0 -> mo_maxk p < sqrt (norm2 kpos) -> mo_kValue lgamma olver p kpos = Nan) /\
  ~ (forall beta r0 gs p kpos, 0 < r0 -> moffat_new beta (Some r0) None None (py 0) 0 gs = Ok p -> exists v, mo_kValue lgamma olver p kpos = Num v).
Proof.
  intros lgamma olver. split; [intros; now apply kvalue_zero_flux|]. intro H. destruct (ex_accepted 1 0 (1 / 1000) ltac:(lra)) as (p & E & R2 & B & F & G).
  assert (R0 : 0 < mo_r0 p) by lra. destruct (maxk_scale p p R0 R0 eq_refl eq_refl) as [M _]. destruct (H (py (INR 1 + 3 / 2)) 2 (gs_thr (1 / 1000)) p (mo_maxk p + 1, 0) ltac:(lra) E) as [v V].
  rewrite kvalue_zero_flux in V; [discriminate|exact R0|exact F|]. rewrite norm_axis; lra.
Qed.
Print Assumptions C133_zero_flux_refuted.
Example C133_ex : mo_kValue lgamma_ex (fun _ _ => 0) (mof_ex 1 3 (1 / 1000)) (0, 0) = Num 3 /\
  exists v, mo_kValue lgamma_ex (fun _ _ => 0) (mof_ex 1 3 (1 / 1000)) (mo_maxk (mof_ex 1 3 (1 / 1000)), 0) = Num v /\ 0.0029 <= v <= 0.0031.
Proof.
  assert (R0 : 0 < mo_r0 (mof_ex 1 3 (1 / 1000))) by (cbn; lra). split; [now apply kvalue_0|]. set (p := mof_ex 1 3 (1 / 1000)) in *. destruct (maxk_scale p p R0 R0 eq_refl eq_refl) as [M _].
  destruct (kvalue_node_half lgamma_ex (fun _ _ => 0) p 1 699 (mo_maxk p, 0) lgamma_ex_ok R0 eq_refl ltac:(lia) ltac:(lia)) as (v & V & D). { rewrite norm_axis by lra. rewrite INR_IZR_INZ. cbn [Z.of_nat Pos.of_succ_nat Pos.succ]. lra. }
  exists v. split; [exact V|]. rewrite norm_axis in D by lra. pose proof (at_maxk p 1 R0 ltac:(lia) eq_refl eq_refl) as A. change (mo_flux p) with 3 in D. rewrite (Rabs_pos_eq 3) in D by lra. apply Rabs_le_between in D. apply Rabs_le_between in A. lra.
Qed.

(** * C134 *)
(** A function with |f''| <= M, tabulated with errors up to e at spacings between g and h: its Akima table is within
    M h^2 / 2 + e (1 + 3/2 h/g) of it. *)
Theorem C134_accuracy : forall x y, table x y -> forall (f f1 f2 : R -> R) g h M e,
  (forall t, nth 0 x 0 <= t <= nth (length x - 1) x 0 -> is_derive f t (f1 t)) -> (forall t, nth 0 x 0 <= t <= nth (length x - 1) x 0 -> is_derive f1 t (f2 t)) ->
  (forall t, nth 0 x 0 <= t <= nth (length x - 1) x 0 -> Rabs (f2 t) <= M) -> 0 < g -> (forall i, (S i < length x)%nat -> g <= nth (S i) x 0 - nth i x 0 <= h) ->
  (forall i, (i < length x)%nat -> Rabs (nth i y 0 - f (nth i x 0)) <= e) ->
  forall j t, nth 0 x 0 <= t <= nth (length x - 1) x 0 -> Rabs (interp x y j false t - f t) <= M * (h * h) / 2 + e * (1 + 3 / 2 * (h / g)).
Proof. exact interp_error. Qed.
Print Assumptions C134_accuracy.
(** The Moffat profile between its nodes *)
Theorem C134_moffat : forall lgamma olver p n kpos, gamma_half lgamma -> 0 < mo_r0 p -> mo_beta p = INR n + 3 / 2 -> (n < 50)%nat -> sqrt (norm2 kpos) <= mo_maxk p ->
  exists v, mo_kValue lgamma olver p kpos = Num v /\ Rabs (v - mo_flux p * moffat_k n (sqrt (norm2 kpos) * mo_r0 p)) <= Rabs (mo_flux p) * ((mo_maxk p * mo_r0 p / 699) ^ 2 / 2 + 5 / 2 * / 10 ^ 12).
Proof. exact kvalue_inside. Qed.
Print Assumptions C134_moffat.
Example C134_ex : forall j t, 0 <= t <= 3 -> Rabs (interp [0; 1; 2; 3] [0; 1; 4; 9] j false t - t * t) <= 1.
Proof.
  intros j t T. apply Rle_trans with (2 * (1 * 1) / 2 + 0 * (1 + 3 / 2 * (1 / 1))); [|lra].
  apply (interp_error [0; 1; 2; 3] [0; 1; 4; 9]) with (f := fun t => t * t) (f1 := fun t => 2 * t) (f2 := fun _ => 2); cbn [length Nat.sub nth]; try lra.
  - repeat split; cbn [length]; try lia. intros i I. cbn [length] in I. destruct i as [|[|[|]]]; [| | |lia]; cbn [nth]; lra.
  - intros u _. auto_derive; [exact I|ring].
  - intros u _. auto_derive; [exact I|ring].
  - intros u _. rewrite Rabs_pos_eq; lra.
  - intros i I. destruct i as [|[|[|]]]; [| | |lia]; cbn [nth]; lra.
  - intros i I. destruct i as [|[|[|[|]]]]; [| | | |lia]; cbn [nth]; match goal with |- Rabs ?a <= 0 => replace a with 0 by ring end; rewrite Rabs_R0; lra.
Qed.

(** * C135 *)
(** maxk is positive, inversely proportional to the scale radius and independent of the flux. *)
Theorem C135_scale : forall p q, 0 < mo_r0 p -> 0 < mo_r0 q -> mo_beta p = mo_beta q -> g_maxk (mo_gs p) = g_maxk (mo_gs q) -> 0 < mo_maxk p /\ mo_maxk p * mo_r0 p = mo_maxk q * mo_r0 q.
Proof. exact maxk_scale. Qed.
Print Assumptions C135_scale.
(** Neither the seventeen inner fractions nor the outer one have a pole in the range of the fit. *)
Theorem C135_no_pole : forall p, in_range p ->
  List.Forall (fun row => 0 < pade_den row (bcoord (mo_beta p))) fit_table /\
  0 < pade_den (map (fun row => pade_func row (bcoord (mo_beta p))) fit_table) (tcoord (g_maxk (mo_gs p))).
Proof. intros p [B T]. destruct (fit_range _ _ (bcoord_range _ B) (tcoord_range _ T)) as (A & C & _). exact (conj A C). Qed.
Print Assumptions C135_no_pole.
(** 1/2 < maxk r0 < 200 for all beta in [1.100001, 100] and thresholds in [1e-12, 0.1]. *)
Theorem C135_range : forall p, 0 < mo_r0 p -> in_range p -> 1 / 2 < mo_maxk p * mo_r0 p < 200 /\ (3 / 2 <= mo_beta p -> 2 < mo_maxk p * mo_r0 p).
Proof. exact maxk_bounds. Qed.
Print Assumptions C135_range.
(** Full statement: the transform at maxk is the maxk threshold, to 1e-4 of it, for all beta and thresholds in range.
    Proved for the default threshold and beta = 3/2, 5/2, 7/2, 9/2. *)
Theorem C135_threshold_partial : forall p n, 0 < mo_r0 p -> (n < 4)%nat -> mo_beta p = INR n + 3 / 2 -> g_maxk (mo_gs p) = 1 / 1000 ->
  Rabs (moffat_k n (mo_maxk p * mo_r0 p) - 1 / 1000) <= 1 / 10000000.
Proof. exact at_maxk. Qed.
Print Assumptions C135_threshold_partial.
(** A beta beyond the fit is accepted: at beta = 1000.5 the transform at maxk is 1, not 1e-3. *)
Theorem C135_large_beta_refuted : exists p, moffat_new (py (2001 / 2)) (Some 2) None None (py 0) 1 (gs_thr (1 / 1000)) = Ok p /\
  mo_beta p = INR 999 + 3 / 2 /\ 1 - / 10 ^ 6 <= moffat_k 999 (mo_maxk p * mo_r0 p).
Proof.
  destruct (moffat_back (py (2001 / 2)) 2 1 (gs_thr (1 / 1000)) ltac:(cbn [py nv]; lra) ltac:(cbn; lra)) as ((p & E & R2 & B & F & G) & _). exists p. split; [exact E|]. cbn [py nv] in B.
  split; [rewrite B, INR_IZR_INZ; cbn [Z.of_nat Pos.of_succ_nat Pos.succ]; lra|]. apply large_beta; [lra|exact B|]. rewrite G. cbn [gs_thr g_maxk]. field.
Qed.
Print Assumptions C135_large_beta_refuted.
(** A threshold below the fit is accepted: at 1e-23 and beta = 3/2 the transform at maxk exceeds 0.04. *)
Theorem C135_small_threshold_refuted : exists p, moffat_new (py (3 / 2)) (Some 2) None None (py 0) 1 (gs_thr (/ 10 ^ 23)) = Ok p /\
  4 / 100 <= moffat_k 0 (mo_maxk p * mo_r0 p).
Proof.
  destruct (moffat_back (py (3 / 2)) 2 1 (gs_thr (/ 10 ^ 23)) ltac:(cbn [py nv]; lra) ltac:(cbn [gs_thr g_maxk]; lra)) as ((p & E & R2 & B & F & G) & _). exists p. split; [exact E|].
  apply small_threshold; [lra|exact B|]. rewrite G. reflexivity.
Qed.
Print Assumptions C135_small_threshold_refuted.
Example C135_ex : in_range (mof_ex 1 3 (1 / 1000)) /\ 9.2 < mo_maxk (mof_ex 1 3 (1 / 1000)) * 2 < 9.3.
Proof.
  split; [split; cbn; lra|]. pose proof (MoffK_Pt.at_25_3 (mof_ex 1 3 (1 / 1000)) ltac:(cbn; lra) ltac:(cbn; lra) ltac:(cbn [mof_ex mo_gs gs_thr g_maxk]; field)) as H. cbn [mof_ex mo_r0] in H. lra.
Qed.

(** * C136 *)
(** Beyond maxk the first-order continuation is the exact transform for beta = 3/2 and 5/2. *)
Theorem C136_exact : forall lgamma olver p n kpos, gamma_half lgamma -> 0 < mo_r0 p -> mo_flux p <> 0 -> mo_beta p = INR n + 3 / 2 -> (n < 2)%nat -> in_range p -> mo_maxk p <= sqrt (norm2 kpos) ->
  mo_kValue lgamma olver p kpos = Num (mo_flux p * moffat_k n (sqrt (norm2 kpos) * mo_r0 p)).
Proof. exact beyond_exact. Qed.
Print Assumptions C136_exact.
(** For beta = n + 3/2 it lies between the transform and the transform at maxk as long as n <= maxk r0. *)
Theorem C136_bounds : forall lgamma olver p n kpos, gamma_half lgamma -> 0 < mo_r0 p -> mo_flux p <> 0 -> mo_beta p = INR n + 3 / 2 -> (n < 50)%nat -> in_range p -> mo_maxk p <= sqrt (norm2 kpos) ->
  INR n <= mo_maxk p * mo_r0 p ->
  exists r, mo_kValue lgamma olver p kpos = Num (mo_flux p * r) /\ moffat_k n (sqrt (norm2 kpos) * mo_r0 p) <= r <= moffat_k n (mo_maxk p * mo_r0 p).
Proof. exact beyond_bounds. Qed.
Print Assumptions C136_bounds.
(** Otherwise it can exceed the flux: beta = 50.5 with threshold 0.1 gives over a thousand times the flux. *)
Theorem C136_bounded_refuted : forall lgamma olver, gamma_half lgamma -> exists p, moffat_new (py (101 / 2)) (Some 1) None None (py 0) 1 (gs_thr (1 / 10)) = Ok p /\ in_range p /\
  exists v, mo_kValue lgamma olver p (48, 0) = Num v /\ 1000 * mo_flux p <= v.
Proof.
  intros lgamma olver LG. destruct (moffat_back (py (101 / 2)) 1 1 (gs_thr (1 / 10)) ltac:(cbn [py nv]; lra) ltac:(cbn [gs_thr g_maxk]; lra)) as ((p & E & R1 & B & F & G) & _). exists p. split; [exact E|]. cbn [py nv] in B.
  assert (T : g_maxk (mo_gs p) = / 10 ^ 1) by (rewrite G; cbn [gs_thr g_maxk]; field). split; [split; rewrite ?B, ?T; lra|]. destruct (beyond_505 lgamma olver p LG R1 F B) as [H _]. destruct (H T) as (v & V & L). exists v. split; [exact V|]. rewrite F. lra.
Qed.
Print Assumptions C136_bounded_refuted.
(** With the default threshold it rises beyond maxk to three times its value there. *)
Theorem C136_decreasing_refuted : forall lgamma olver, gamma_half lgamma -> exists p, moffat_new (py (101 / 2)) (Some 1) None None (py 0) 1 (gs_thr (1 / 1000)) = Ok p /\ in_range p /\
  exists v w, mo_maxk p < 48 /\ mo_kValue lgamma olver p (48, 0) = Num v /\ mo_kValue lgamma olver p (mo_maxk p, 0) = Num w /\ 0 < w /\ 3 * w <= v.
Proof.
  intros lgamma olver LG. destruct (moffat_back (py (101 / 2)) 1 1 (gs_thr (1 / 1000)) ltac:(cbn [py nv]; lra) ltac:(cbn [gs_thr g_maxk]; lra)) as ((p & E & R1 & B & F & G) & _). exists p. split; [exact E|]. cbn [py nv] in B.
  assert (T : g_maxk (mo_gs p) = / 10 ^ 3) by (rewrite G; cbn [gs_thr g_maxk]; field). split; [split; rewrite ?B, ?T; lra|]. exact (proj2 (beyond_505 lgamma olver p LG R1 F B) T).
Qed.
Print Assumptions C136_decreasing_refuted.
Example C136_ex : gamma_half lgamma_ex /\ mo_kValue lgamma_ex (fun _ _ => 0) (mof_ex 1 3 (1 / 1000)) (6, 0) = Num (3 * (13 * exp (- (12)))).
Proof.
  split; [exact lgamma_ex_ok|]. destruct C135_ex as [RG M]. set (p := mof_ex 1 3 (1 / 1000)) in *. rewrite (beyond_exact lgamma_ex (fun _ _ => 0) p 1 (6, 0) lgamma_ex_ok ltac:(cbn; lra) ltac:(cbn; lra) eq_refl ltac:(lia) RG); rewrite norm_axis by lra; [|lra].
  rewrite mk_1. unfold p, mof_ex. cbn [mo_r0 mo_flux]. replace (6 * 2) with 12 by ring. f_equal.
Qed.
