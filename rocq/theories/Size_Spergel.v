(** Spergel profiles, for Bessel functions that are what they should be. *)
From Coq Require Import ZArith QArith Qreals Reals Bool List Lra Lia.
From Coquelicot Require Import Coquelicot.
From Verif Require Import Base Bounds_Model Bounds_Proofs GSP_Model Sky_Model Util_Model Util_Spec Util_Proofs Size_Model Size_Spec Num_Consts Size_Proofs Size_Moffat Size_Band.
Import ListNotations.
Open Scope R_scope.

Lemma bisect_strict : forall f n l h, l < h -> l < bisect_for_root f l h n <= h.
Proof.
  intros f n l h H. rewrite bisect_hi. generalize (f l) (f h). revert l h H. induction n as [|n IH]; intros l h H fl fh; cbn [fori]; [cbn [hi]; lra|].
  rewrite step_eq. destruct (Rltb_spec (f ((l + h) / 2) * fh) 0) as [c|c].
  - pose proof (IH ((l + h) / 2) h ltac:(lra) (f ((l + h) / 2)) fh). lra.
  - pose proof (IH l ((l + h) / 2) ltac:(lra) fl (f ((l + h) / 2))). lra.
Qed.

Lemma linspace_end : forall a b n, (1 < n)%nat -> linspace a b n (n - 1) = b.
Proof. intros a b n N. unfold linspace. assert (INR (n - 1) <> 0) by (apply not_0_INR; lia). field. exact H. Qed.
Lemma linspace_0 : forall a b n, (1 < n)%nat -> linspace a b n 0 = a.
Proof. intros a b n N. unfold linspace. cbn [INR]. assert (INR (n - 1) <> 0) by (apply not_0_INR; lia). field. exact H. Qed.
Lemma linspace_lt : forall a b n i j, (1 < n)%nat -> a < b -> (i < j)%nat -> linspace a b n i < linspace a b n j.
Proof.
  intros a b n i j N AB IJ. unfold linspace. assert (P : 0 < INR (n - 1)) by (apply lt_0_INR; lia). apply Rplus_lt_compat_l. apply Rmult_lt_compat_r; [now apply Rinv_0_lt_compat|]. apply Rmult_lt_compat_l; [lra|]. now apply lt_INR.
Qed.
Lemma linspace_ge1 : forall b n i, (1 < n)%nat -> 0 < b -> (1 <= i)%nat -> b / INR (n - 1) <= linspace 0 b n i.
Proof.
  intros b n i N B I1. unfold linspace. assert (P : 0 < INR (n - 1)) by (apply lt_0_INR; lia). rewrite Rplus_0_l, Rminus_0_r. apply Rmult_le_compat_r; [now apply Rlt_le, Rinv_0_lt_compat|]. apply le_INR in I1. cbn [INR] in I1. nra.
Qed.
Lemma jpow_0 : forall y, y <> 0 -> jpow 0 y = 0.
Proof. intros y Y. unfold jpow. destruct (Reqb_spec 0 0); [|lra]. destruct (Reqb_spec y 0); [contradiction|reflexivity]. Qed.
Lemma Rpower_nat : forall n : nat, Rpower 2 (INR n) = 2 ^ n.
Proof. intro n. apply Rpower_pow. lra. Qed.
Section Bessel.
Variables (kv : R -> R -> R) (lgamma : R -> R) (inf nu G : R).
Hypothesis NU : -1 < nu.
Hypothesis BP : bessel_pair nu G (kv nu) (kv (nu + 1)).
Hypothesis HG : gammap1 lgamma inf nu = G.
Let T z := Rpower z (nu + 1) * kv (nu + 1) z.
Let T0 := Rpower 2 nu * G.

Lemma T_derive : forall z, 0 < z -> is_derive T z (- (Rpower z (nu + 1) * kv nu z)).
Proof. intros z Z. destruct BP as [H _]. apply (H z Z). Qed.
Lemma T_decr : forall a b, 0 < a -> a < b -> T b < T a.
Proof.
  intros a b A B. assert (D : forall z, a <= z <= b -> is_derive T z (- (Rpower z (nu + 1) * kv nu z))) by (intros z Z; apply T_derive; lra).
  destruct (MVT_gen T a b (fun z => - (Rpower z (nu + 1) * kv nu z))) as [c [C E]].
  - intros z Z. rewrite Rmin_left, Rmax_right in Z by lra. apply D. lra.
  - intros z Z. rewrite Rmin_left, Rmax_right in Z by lra. apply (continuity_pt_filterlim T z). apply (@ex_derive_continuous _ R_NormedModule). eexists. apply D. lra.
  - rewrite Rmin_left, Rmax_right in C by lra. destruct BP as [H _]. destruct (H c ltac:(lra)) as [K _]. pose proof (Rmult_lt_0_compat _ _ (Rpower_pos c (nu + 1)) K) as M. cbv beta in E. set (m := Rpower c (nu + 1) * kv nu c) in *. clearbody m. nra.
Qed.
Lemma T_pos : forall z, 0 < z -> 0 < T z.
Proof.
  intros z Z. destruct BP as [_ [_ L]]. assert (N : 0 <= T (z + 1)).
  { destruct (Rle_lt_dec 0 (T (z + 1))) as [l|l]; [exact l|]. exfalso. apply is_lim_spec in L. destruct (L (mkposreal _ (Ropp_0_gt_lt_contravar _ l))) as [M HM]. cbn [pos] in HM.
    specialize (HM (Rmax (M + 1) (z + 2))). pose proof (Rmax_l (M + 1) (z + 2)). pose proof (Rmax_r (M + 1) (z + 2)). specialize (HM ltac:(lra)). rewrite Rminus_0_r in HM. fold (T (Rmax (M + 1) (z + 2))) in HM.
    pose proof (T_decr (z + 1) (Rmax (M + 1) (z + 2)) ltac:(lra) ltac:(lra)). apply Rabs_def2 in HM. lra. }
  pose proof (T_decr z (z + 1) Z ltac:(lra)). lra.
Qed.
Lemma T_below : forall z, 0 < z -> T z < T0.
Proof.
  intros z Z. destruct BP as [_ [L _]]. assert (N : T (z / 2) <= T0).
  { destruct (Rle_lt_dec (T (z / 2)) T0) as [l|l]; [exact l|]. exfalso. assert (E : 0 < T (z / 2) - T0) by lra.
    pose proof (proj1 (filterlim_locally _ _) L (mkposreal _ E)) as [d Hd]. set (w := Rmin (d / 2) (z / 4)). pose proof (cond_pos d) as DP.
    assert (W : 0 < w) by (unfold w; apply Rmin_glb_lt; lra). pose proof (Rmin_l (d / 2) (z / 4)) as W1. pose proof (Rmin_r (d / 2) (z / 4)) as W2. fold w in W1, W2.
    assert (B : ball 0 d w). { change (Rabs (w - 0) < d). rewrite Rminus_0_r, Rabs_pos_eq by lra. lra. }
    specialize (Hd w B W). change (Rabs (T w - T0) < T (z / 2) - T0) in Hd. apply Rabs_def2 in Hd. pose proof (T_decr w (z / 2) W ltac:(lra)). lra. }
  pose proof (T_decr (z / 2) z ltac:(lra) ltac:(lra)). lra.
Qed.
Lemma T0_pos : 0 < T0.
Proof. pose proof (T_pos 1 ltac:(lra)). pose proof (T_below 1 ltac:(lra)). lra. Qed.
Lemma fnup1 : forall z, 1 / 10 ^ 10 < z -> fz_nup1 kv lgamma inf z nu = T z.
Proof. intros z Z. unfold fz_nup1. destruct (Rltb_spec (1 / 10 ^ 10) z); [|lra]. rewrite jpow_pos by lra. reflexivity. Qed.
Lemma small_0 : fz_nup1 kv lgamma inf 0 nu = T0.
Proof.
  unfold fz_nup1. destruct (Rltb_spec (1 / 10 ^ 10) 0); [lra|]. unfold fsmallz_nup1, T0. rewrite <- HG. unfold gammap1, gamma_.
  assert (ZL : z2lz 0 = 0) by (unfold z2lz; destruct (Rltb_spec (1 / 10 ^ 40) 0); [lra|reflexivity]).
  destruct (Reqb_spec nu 0) as [->|n0].
  { destruct (Reqb_spec (0 + 1) 0); [lra|]. destruct (Reqb_spec (0 + 1) 1); [|lra]. rewrite Rpower_O by lra. unfold f1. rewrite ZL. lra. }
  destruct (Reqb_spec nu 1) as [->|n1].
  { destruct (Reqb_spec (1 + 1) 0); [lra|]. destruct (Reqb_spec (1 + 1) 1); [lra|]. destruct (Reqb_spec (1 + 1) 2); [|lra]. rewrite Rpower_1 by lra. unfold f2. rewrite ZL. lra. }
  destruct (Reqb_spec nu 2) as [->|n2].
  { destruct (Reqb_spec (2 + 1) 0); [lra|]. destruct (Reqb_spec (2 + 1) 1); [lra|]. destruct (Reqb_spec (2 + 1) 2); [lra|]. destruct (Reqb_spec (2 + 1) 3); [|lra].
    replace 2 with (INR 2) at 2 by (cbn; lra). rewrite Rpower_nat. unfold f3. lra. }
  destruct (Reqb_spec nu 3) as [->|n3].
  { destruct (Reqb_spec (3 + 1) 0); [lra|]. destruct (Reqb_spec (3 + 1) 1); [lra|]. destruct (Reqb_spec (3 + 1) 2); [lra|]. destruct (Reqb_spec (3 + 1) 3); [lra|]. destruct (Reqb_spec (3 + 1) 4); [|lra].
    replace 3 with (INR 3) by (cbn; lra). rewrite Rpower_nat. unfold f4. lra. }
  destruct (Reqb_spec nu 4) as [->|n4].
  { destruct (Reqb_spec (4 + 1) 0); [lra|]. destruct (Reqb_spec (4 + 1) 1); [lra|]. destruct (Reqb_spec (4 + 1) 2); [lra|]. destruct (Reqb_spec (4 + 1) 3); [lra|]. destruct (Reqb_spec (4 + 1) 4); [lra|]. destruct (Reqb_spec (4 + 1) 5); [|lra].
    replace 4 with (INR 4) by (cbn; lra). rewrite Rpower_nat. unfold f5. lra. }
  unfold fnup1_small. rewrite (jpow_0 (2 * (1 + nu))) by lra. rewrite !(jpow_pos 2) by lra. unfold gammap1, gamma_. unfold Rdiv. rewrite !Rmult_0_l, !Rmult_0_r. unfold Rdiv. rewrite !Rmult_0_l. ring.
Qed.
Lemma frac_at : forall z a, 1 / 10 ^ 10 < z -> fluxfraction kv lgamma inf z nu a = 1 - T z / T0 - a.
Proof. intros z a Z. unfold fluxfraction. rewrite fnup1, HG, jpow_pos by lra. reflexivity. Qed.
Lemma frac_0 : forall a, fluxfraction kv lgamma inf 0 nu a = - a.
Proof. intro a. unfold fluxfraction. rewrite small_0, HG, jpow_pos by lra. fold T0. pose proof T0_pos. field. lra. Qed.
Lemma ratio_lt : forall a b, a < b -> a / T0 < b / T0.
Proof. intros a b H. apply Rmult_lt_compat_r; [apply Rinv_0_lt_compat, T0_pos|exact H]. Qed.
Lemma frac_incr : forall a b c, 1 / 10 ^ 10 < a -> a < b -> fluxfraction kv lgamma inf a nu c < fluxfraction kv lgamma inf b nu c.
Proof. intros a b c A B. rewrite !frac_at by lra. pose proof (ratio_lt _ _ (T_decr a b ltac:(lra) B)). lra. Qed.
Lemma frac_range : forall z, 1 / 10 ^ 10 < z -> 0 < fluxfraction kv lgamma inf z nu 0 < 1.
Proof.
  intros z Z. rewrite frac_at by lra. pose proof (ratio_lt _ _ (T_below z ltac:(lra))) as A. pose proof (ratio_lt _ _ (T_pos z ltac:(lra))) as B. pose proof T0_pos as P. replace (0 / T0) with 0 in B by (field; lra). replace (T0 / T0) with 1 in A by (field; lra). lra.
Qed.

(** the flux between two radii and beyond one *)
Lemma sp_between : forall p a b, sp_nu p = nu -> 0 < sp_r0 p -> 1 / 10 ^ 10 * sp_r0 p < a -> a <= b ->
  is_RInt (fun t => 2 * PI * t * sp_xValue kv lgamma inf p (t, 0)) a b (sp_flux p * ((T (a / sp_r0 p) - T (b / sp_r0 p)) / T0)).
Proof.
  intros p a b N S A B. set (s := sp_r0 p) in *. pose proof T0_pos as P0. assert (POS : forall t, a <= t -> 1 / 10 ^ 10 < t / s).
  { intros t H. apply (Rmult_lt_reg_r s); [lra|]. replace (t / s * s) with t by (field; lra). lra. }
  assert (I : 0 < 1 / 10 ^ 10) by lra.
  apply (is_RInt_ext (fun t => sp_flux p / (T0 * s) * (Rpower (t / s) (nu + 1) * kv nu (t / s)))).
  { intros t H. rewrite Rmin_left, Rmax_right in H by lra. pose proof (POS t ltac:(lra)) as Q. unfold sp_xValue, norm2, sp_inv_r0. cbn [fst snd]. fold s. assert (TP : 0 < t) by nra.
    rewrite sqrt_self by lra. replace (t * (1 / s)) with (t / s) by (field; lra). destruct (Reqb_spec (t / s) 0); [lra|]. unfold fz_nu. destruct (Rltb_spec (1 / 10 ^ 10) (t / s)); [|lra]. rewrite N. rewrite jpow_pos by lra.
    unfold sp_xnorm, sp_shootxnorm, sp_inv_r0_sq, sp_inv_r0. fold s. rewrite N, HG, jpow_pos by lra. fold T0. rewrite Rpower_plus, Rpower_1 by lra. generalize (Rpower (t / s) nu) (kv nu (t / s)). intros u v.
    match goal with |- @eq _ ?x ?y => change (@eq R x y) end. pose proof PI_RGT_0. unfold T0. assert (Rpower 2 nu <> 0) by (apply Rgt_not_eq, Rpower_pos). assert (G <> 0) by (intro Z; unfold T0 in P0; rewrite Z in P0; lra). field. repeat split; lra. }
  set (F := fun t => - (sp_flux p / T0) * T (t / s)).
  replace (sp_flux p * ((T (a / s) - T (b / s)) / T0)) with (F b - F a) by (unfold F; field; lra).
  assert (DT : forall t, a <= t -> is_derive (fun t => T (t / s)) t (/ s * - (Rpower (t / s) (nu + 1) * kv nu (t / s)))).
  { intros t H. apply (is_derive_comp T (fun t => t / s) t). { apply T_derive. pose proof (POS t H). lra. } auto_derive; [exact Logic.I|]. field. lra. }
  apply rint_of; [exact B| |].
  - intros t H. unfold F. replace (sp_flux p / (T0 * s) * (Rpower (t / s) (nu + 1) * kv nu (t / s))) with (- (sp_flux p / T0) * (/ s * - (Rpower (t / s) (nu + 1) * kv nu (t / s)))) by (field; lra).
    apply @is_derive_scal. apply DT. lra.
  - intros t H. pose proof (POS t ltac:(lra)) as Q. apply (continuous_mult (fun _ => sp_flux p / (T0 * s))); [apply continuous_const|]. apply (continuous_mult (fun t => Rpower (t / s) (nu + 1))).
    + unfold Rpower. apply (@ex_derive_continuous _ R_NormedModule). auto_derive. unfold Rdiv in Q. lra.
    + apply (continuous_comp (fun t => t / s) (kv nu)). * apply (@ex_derive_continuous _ R_NormedModule). auto_derive. exact Logic.I. * destruct BP as [H0 _]. apply H0. lra.
Qed.
Lemma sp_beyond : forall p r, sp_nu p = nu -> 0 < sp_r0 p -> 1 / 10 ^ 10 * sp_r0 p < r ->
  flux_beyond (sp_xValue kv lgamma inf p) r (sp_flux p * (1 - fluxfraction kv lgamma inf (r / sp_r0 p) nu 0)).
Proof.
  intros p r N S A. set (s := sp_r0 p) in *. pose proof T0_pos as P0. assert (Q : 1 / 10 ^ 10 < r / s). { apply (Rmult_lt_reg_r s); [lra|]. replace (r / s * s) with r by (field; lra). lra. }
  rewrite frac_at by exact Q. unfold flux_beyond. apply (is_lim_ext_loc (fun b => sp_flux p / T0 * (T (r / s) - T (b / s)))).
  { exists r. intros b B. unfold flux_between. symmetry. erewrite is_RInt_unique; [|apply sp_between; [exact N|exact S|exact A|lra]]. fold s. field. lra. }
  replace (sp_flux p * (1 - (1 - T (r / s) / T0 - 0))) with (sp_flux p / T0 * (T (r / s) - 0)) by (field; lra).
  apply (is_lim_scal_l (fun b => T (r / s) - T (b / s)) (sp_flux p / T0) p_infty (T (r / s) - 0)). apply (is_lim_minus' (fun _ => T (r / s))); [apply is_lim_const|].
  destruct BP as [_ [_ L]]. apply is_lim_spec. apply is_lim_spec in L. intro e. destruct (L e) as [M HM]. exists (M * s). intros x X. apply HM. apply (Rmult_lt_reg_r s); [lra|]. replace (x / s * s) with x by (field; lra). exact X.
Qed.
(** ** The radius that holds a share of the flux *)
Lemma radius_holds : forall alpha h n, 0 < alpha < 1 -> 1 / 10 ^ 10 < h -> h / 2 ^ n <= 1 / 10 ^ 10 -> 0 < fluxfraction kv lgamma inf h nu alpha ->
  (forall k x, dyadic 0 h k x -> 0 < x < h -> fluxfraction kv lgamma inf x nu alpha <> 0) ->
  2 / 10 ^ 10 < bisect_for_root (fun z => fluxfraction kv lgamma inf z nu alpha) 0 h n ->
  alpha < fluxfraction kv lgamma inf (bisect_for_root (fun z => fluxfraction kv lgamma inf z nu alpha) 0 h n) nu 0.
Proof.
  intros alpha h n A H W F ND B. set (f := fun z => fluxfraction kv lgamma inf z nu alpha) in *. assert (SG : f 0 * f h < 0) by (unfold f at 1; rewrite frac_0; unfold f; nra).
  assert (E : forall z, f z = fluxfraction kv lgamma inf z nu 0 - alpha) by (intro z; unfold f, fluxfraction; ring).
  destruct (bisect_general f n 0 h ltac:(lra) SG) as [[a [A1 [A2 [A3 [A4 A5]]]]] | [k [x [_ [D [X [Z _]]]]]]]; [|now destruct (ND k x D X)].
  set (r := bisect_for_root f 0 h n) in *. rewrite Rminus_0_r in A4. assert (a0 : 1 / 10 ^ 10 < a) by lra. pose proof (frac_incr a r alpha a0 A2) as I. fold (f a) in I. fold (f r) in I. pose proof (E r). nra.
Qed.
Lemma spergel_stepk : forall p f, sp_nu p = nu -> 0 < sp_r0 p -> 0 < g_fold (sp_gs p) < 1 ->
  0 < fluxfraction kv lgamma inf 40 nu (1 - g_fold (sp_gs p)) ->
  (forall k x, dyadic 0 40 k x -> 0 < x < 40 -> fluxfraction kv lgamma inf x nu (1 - g_fold (sp_gs p)) <> 0) ->
  2 / 10 ^ 10 < flux_radius kv lgamma inf (1 - g_fold (sp_gs p)) nu 0 40 ->
  flux_beyond (sp_xValue kv lgamma inf p) (PI / sp_stepk kv lgamma inf p) f -> Rabs f <= g_fold (sp_gs p) * Rabs (sp_flux p) /\ g_hlr (sp_gs p) * sp_half_light_radius p <= PI / sp_stepk kv lgamma inf p.
Proof.
  intros p f N S T1 H ND B F. set (t := g_fold (sp_gs p)) in *. unfold sp_stepk in *. fold t in F |- *. rewrite N in F |- *. set (z := flux_radius kv lgamma inf (1 - t) nu 0 40) in *.
  set (r := Rmax (z * sp_r0 p) (g_hlr (sp_gs p) * sp_half_light_radius p)) in *. assert (R1 : z * sp_r0 p <= r) by apply Rmax_l. assert (R2 : g_hlr (sp_gs p) * sp_half_light_radius p <= r) by apply Rmax_r.
  assert (RP : 0 < r) by nra. replace (PI / (PI / r)) with r in F |- * by (pose proof PI_RGT_0; field; lra). split; [|exact R2].
  assert (RB : 1 / 10 ^ 10 * sp_r0 p < r) by nra. pose proof (sp_beyond p r N S RB) as E. unfold flux_beyond in *. apply is_lim_unique in F. apply is_lim_unique in E. rewrite F in E. injection E as ->.
  set (q := r / sp_r0 p) in *. assert (Q : z <= q) by (apply (Rmult_le_reg_r (sp_r0 p)); [lra|]; unfold q; replace (r / sp_r0 p * sp_r0 p) with r by (field; lra); lra).
  pose proof (radius_holds (1 - t) 40 75 ltac:(lra) ltac:(lra) ltac:(lra) H ND B) as K. fold (flux_radius kv lgamma inf (1 - t) nu 0 40) in K. fold z in K.
  assert (K2 : fluxfraction kv lgamma inf z nu 0 <= fluxfraction kv lgamma inf q nu 0) by (destruct Q as [Q| <-]; [apply Rlt_le, frac_incr; lra|lra]).
  pose proof (frac_range q ltac:(lra)) as Q2. set (c := fluxfraction kv lgamma inf q nu 0) in *. rewrite Rabs_mult, (Rabs_pos_eq (1 - c)), Rmult_comm by lra. apply Rmult_le_compat_r; [apply Rabs_pos|lra].
Qed.
(** ** The table for shooting, nu > 0 *)
Lemma pos_table : forall p n, sp_nu p = nu -> (1 < n)%nat -> 1 / 10 ^ 10 * INR (n - 1) < sp_zmax kv lgamma inf p ->
  sp_pos_cdf kv lgamma inf n p 0 = 0 /\ sp_pos_cdf kv lgamma inf n p (n - 1) = 1 /\ (forall i j, (i < j)%nat -> sp_pos_cdf kv lgamma inf n p i < sp_pos_cdf kv lgamma inf n p j).
Proof.
  intros p n N H Z. assert (P : 1 <= INR (n - 1)) by (change 1 with (INR 1); apply le_INR; lia). unfold sp_pos_cdf, sp_z_cdf. rewrite N. set (z := sp_zmax kv lgamma inf p) in *.
  assert (Z0 : 1 / 10 ^ 10 < z) by nra. pose proof (frac_range z Z0) as FR. set (m := fluxfraction kv lgamma inf z nu 0) in *. unfold reducedfluxfraction. repeat split.
  - rewrite linspace_0 by exact H. rewrite frac_0. field. lra.
  - rewrite linspace_end by exact H. fold m. field. lra.
  - intros i j IJ. apply Rmult_lt_compat_r; [apply Rinv_0_lt_compat; lra|].
    assert (G1 : forall k, (1 <= k)%nat -> 1 / 10 ^ 10 < linspace 0 z n k).
    { intros k K. eapply Rlt_le_trans; [|apply linspace_ge1; [exact H|lra|exact K]]. apply (Rmult_lt_reg_r (INR (n - 1))); [lra|]. replace (z / INR (n - 1) * INR (n - 1)) with z by (field; lra). exact Z. }
    destruct i as [|i].
    + rewrite linspace_0 by exact H. rewrite frac_0. pose proof (frac_range (linspace 0 z n j) (G1 j ltac:(lia))). lra.
    + apply frac_incr; [apply G1; lia|]. apply linspace_lt; [exact H|lra|exact IJ].
Qed.
End Bessel.
