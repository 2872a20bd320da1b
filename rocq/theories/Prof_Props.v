(** Properties C38-C45 and C84-C88: profile trees. *)
From Coq Require Import Reals Bool String List Lra Lia Psatz Permutation.
From Coquelicot Require Import Complex.
From Verif Require Import Base Bounds_Model Bounds_Proofs Geo_Model Geo_Proofs GSP_Model GSP_Spec GSP_Proofs Prof_Model Prof_Spec Prof_Proofs Prof_Draw Prof_Combine Prof_Conv.
Import ListNotations.
Open Scope R_scope.

(** * Concrete profiles for the examples: a Gaussian with sigma 1 and a hard-edged unit Box *)
Definition g0 : gspR :=
  GSP 128 8192 (5 / 1000) 5 (1 / 1000) (1 / 100000) (1 / 100000) 1 (1 / 10000) (1 / 1000000) (1 / 1000000) (1 / 100000000) (1 / 100000).
Definition gauss (f : R) (g : gspR) : leafdata :=
  LeafData (fun x => Ok (f * (/ (2 * PI) * exp (- (fst x ^ 2 + snd x ^ 2) / 2)))) (fun k => RtoC (f * exp (- (fst k ^ 2 + snd k ^ 2) / 2)))
           f (0, 0) 0 (sqrt (- 2 * ln (g_maxk g))) 1 (f / (2 * PI)) false true true true.
Definition box (f : R) (g : gspR) : leafdata :=
  LeafData (fun x => Ok (if Rltb (2 * Rabs (fst x)) 1 && Rltb (2 * Rabs (snd x)) 1 then f else 0)) (fun k => RtoC f)
           f (0, 0) 0 100 1 f true false true true.
Definition G (f : R) : prof := PLeaf true gauss f g0.
Definition B (f : R) : prof := PLeaf true box f g0.

(** * C38 *)
(** After any sequence of operations, in any order: the value at the place a point has moved to is
    the old value times the change in brightness; the Fourier amplitude is the old one at the
    adjoint wave number times a phase; the flux follows; the centroid moves with the points. *)
Theorem C38_operations_in_sequence : forall ops p, nonsingular p -> flux_linear p -> all_sensible (flux p) ops ->
  let q := fold_left apply ops p in
  (forall x, xValue q (path ops x) = scale_res (fst (effect (flux p) ops)) (xValue p x)) /\
  (exists c, flux q = c * flux p /\ (forall k k', adjoint (path ops) k k' ->
     kValue q k = Cmult (Cmult (RtoC c) (expi (- (fst k * fst (path ops (0, 0)) + snd k * snd (path ops (0, 0)))))) (kValue p k'))) /\
  flux q = snd (effect (flux p) ops) /\ centroid q = path ops (centroid p).
Proof. exact apply_list. Qed.
Print Assumptions C38_operations_in_sequence.

Example C38_witness : exists ops p, nonsingular p /\ flux_linear p /\ all_sensible (flux p) ops /\
  path ops (1, 0) <> path (rev ops) (1, 0) /\ fst (effect (flux p) ops) = 3 / 8 /\ snd (effect (flux p) ops) = 6.
Proof.
  exists [Shift 1 0; Expand 2; ScaleFlux 3; Expand 2; WithFlux 6], (G 1). split; [split; exact I|]. split.
  - split; [|exact I]. intros f g. unfold gauss. cbn [lf_flux lf_x lf_k lf_cen]. split; [reflexivity|]. split; [|split; [|reflexivity]].
    + intros x. cbn [scale_res]. f_equal. ring.
    + intros k. rewrite <- RtoC_mult. f_equal. ring.
  - unfold G. cbn [flux gauss lf_flux all_sensible sensible brightens magnifies rev app]. split; [repeat split; lra|]. split; [|split].
    + unfold path. cbn [fold_left moves fst snd]. intros E. injection E. lra.
    + cbn [effect brightens magnifies fst snd]. field.
    + cbn [effect brightens magnifies fst snd]. field.
Qed.

(** * C39 *)
(** The value drawn in the pixel at the image [M u + off] of a point [u]. *)
Theorem C39_drawing_is_evaluation : forall p scale M off fs u, nonsingular p -> mdet M <> 0 ->
  drawReal p scale (Some M) off fs (fst (mapp M u) + fst off, snd (mapp M u) + snd off) = scale_res (fs * scale ^ 2 / Rabs (mdet M)) (xValue p u) /\
  drawReal p scale None off fs (fst u + fst off, snd u + snd off) = scale_res (fs * scale ^ 2) (xValue p u).
Proof.
  intros p scale M off fs u N D. split.
  - rewrite drawReal_spec by auto. cbn [jac_or_eye]. f_equal. f_equal. apply inv_of_moves. auto.
  - rewrite drawReal_spec by auto. cbn [jac_or_eye]. rewrite mdet_I, Rabs_R1. f_equal; [lra|]. f_equal.
    replace (fst u + fst off, snd u + snd off) with (vadd (mapp mI u) off) by (rewrite mapp_I; reflexivity). apply inv_of_moves. rewrite mdet_I. lra.
Qed.
Print Assumptions C39_drawing_is_evaluation.
Example C39_witness : exists p, nonsingular p /\
  drawReal p (1 / 2) (Some (Mat 2 1 0 2)) (1, 0) 3 (1, 0) = Ok (3 * (1 / 2) ^ 2 / 4 * (/ (2 * PI) * 5 * exp (- (1 ^ 2 + 1 ^ 2) / 2) * (5 / 2) + 7)).
Proof.
  set (p := PSum [PTr (G 5) (Mat 1 0 0 2) (1, 2) (5 / 2) g0 true; B 7] g0 true). exists p.
  assert (N : nonsingular p). { unfold nonsingular, p. cbn [everywhere fold_right G B]. unfold mdet. cbn [m00 m01 m10 m11]. repeat split; auto. lra. }
  assert (D : mdet (Mat 2 1 0 2) <> 0) by (unfold mdet; cbn; lra). split; auto.
  pose proof (proj1 (C39_drawing_is_evaluation p (1 / 2) (Mat 2 1 0 2) (1, 0) 3 (0, 0) N D)) as E.
  replace (fst (mapp (Mat 2 1 0 2) (0, 0)) + fst (1, 0), snd (mapp (Mat 2 1 0 2) (0, 0)) + snd (1, 0)) with (1, 0) in E.
  2:{ unfold mapp. cbn [fst snd m00 m01 m10 m11]. f_equal; ring. }
  rewrite E. clear E. replace (mdet (Mat 2 1 0 2)) with 4 by (unfold mdet; cbn; ring). rewrite Rabs_right by lra.
  unfold p. cbn [xValue map sumres G B gauss box lf_x bind scale_res fst snd]. unfold mapp, minv, vsub, mdet. cbn [fst snd m00 m01 m10 m11].
  rewrite Rabs_R0. destruct (Rltb_spec (2 * 0) 1); [|lra]. cbn [andb bind scale_res]. f_equal.
  match goal with |- context [exp ?e] => replace e with (- (1 ^ 2 + 1 ^ 2) / 2) by field end. ring.
Qed.

(** * C40 *)
(** The value drawn at wave number [k] is kValue at the wave number adjoint to the jacobian. *)
Theorem C40_fourier_drawing_is_evaluation : forall p k, no_deconvolution p ->
  drawK p None k = kValue p k /\ forall M k', adjoint (mapp M) k k' -> drawK p (Some M) k = kValue p k'.
Proof.
  intros p k N. split.
  - rewrite drawK_spec by auto. cbn [jac_or_eye]. f_equal. unfold mapp, mT, mI. cbn [fst snd m00 m01 m10 m11]. destruct k. cbn [fst snd]. f_equal; ring.
  - intros M k' Ad. rewrite drawK_spec by auto. cbn [jac_or_eye]. f_equal. symmetry. apply (adjoint_linear (mapp M) M (0, 0)); auto.
    intros x. unfold vadd. cbn [fst snd]. rewrite !Rplus_0_r. apply surjective_pairing.
Qed.
Print Assumptions C40_fourier_drawing_is_evaluation.
Example C40_witness : no_deconvolution (PConv [PTr (G 5) (Mat 1 0 0 2) (1, 2) (5 / 2) g0 true; PSum [B 7; G 2] g0 true] g0 true) /\
  adjoint (mapp (Mat 2 1 0 2)) (1, 1) (2, 3).
Proof. split; [repeat split|]. intros [x y]. unfold mapp. cbn [fst snd m00 m01 m10 m11]. ring. Qed.

(** * C41 *)
Theorem C41_flux_is_amplitude_at_zero : forall p, flux_ok p -> kValue p (0, 0) = RtoC (flux p).
Proof. exact kValue_0. Qed.
Print Assumptions C41_flux_is_amplitude_at_zero.
(** Adding sums fluxes, amplitudes and surface brightnesses of the arguments; convolving
    multiplies fluxes and amplitudes. *)
Theorem C41_sum_adds : forall l gs s, Forall plain l -> mkSum l gs true = Ok s ->
  flux s = sumR (map flux l) /\ (forall k, kValue s k = sumC (map (fun o => kValue o k) l)) /\
  (forall x, agree (xValue s x) (sumres (map (fun o => xValue o x) l))).
Proof. exact mkSum_values. Qed.
Print Assumptions C41_sum_adds.
Theorem C41_convolution_multiplies : forall rs l gs s, Forall plain l -> mkConv rs l gs true = Ok s ->
  flux s = prodR (map flux l) /\ (forall k, kValue s k = prodC (map (fun o => kValue o k) l)).
Proof. exact mkConv_values. Qed.
Print Assumptions C41_convolution_multiplies.
Theorem C41_with_flux : forall p f, nonsingular p -> flux_linear p -> flux p <> 0 -> flux (apply p (WithFlux f)) = f.
Proof.
  intros p f N L F. destruct (apply_props p (WithFlux f) N L F) as (_ & _ & E & _). rewrite E. cbn [brightens magnifies]. field. auto.
Qed.
Print Assumptions C41_with_flux.
Lemma plain_G : forall f, plain (G f).
Proof. intros f. split; [exists g0; split; cbn; auto|split; [|exact I]]. intros g'. unfold gauss. cbn. auto. Qed.
Lemma plain_B : forall f, plain (B f).
Proof. intros f. split; [exists g0; split; cbn; auto|split; [|exact I]]. intros g'. unfold box. cbn. auto. Qed.
Example C41_witness : Forall plain [G 3; PSum [B 2; G 1] g0 true; G (- 1)] /\
  (exists s, mkSum [G 3; PSum [B 2; G 1] g0 true; G (- 1)] None true = Ok s /\ flux s = 5) /\
  (exists c, mkConv RSNone [G 3; PSum [B 2; G 1] g0 true; G (- 1)] None true = Ok c /\ flux c = - 9) /\
  flux_ok (PConv [G 3; PDec (B 2) g0 true] g0 true).
Proof.
  assert (P : Forall plain [G 3; PSum [B 2; G 1] g0 true; G (- 1)]).
  { repeat constructor; try apply plain_G. all: try (cbn; intros; auto; fail). exists g0. split; [split; [|split]; auto; repeat constructor|]. cbn. auto. }
  split; [exact P|]. split; [|split].
  - destruct (mkSum [G 3; PSum [B 2; G 1] g0 true; G (- 1)] None true) as [s|] eqn:E.
    + exists s. split; auto. rewrite (proj1 (mkSum_values _ _ _ P E)). cbn. lra.
    + rewrite mkSum_eq in E. destruct (combineR_ok (map gsparams (flat [G 3; PSum [B 2; G 1] g0 true; G (- 1)]))) as (g & Eg & _); [discriminate|]. rewrite Eg in E. discriminate.
  - destruct (mkConv_spec RSNone [G 3; PSum [B 2; G 1] g0 true; G (- 1)] None true) as [[(_ & L & _) _]|(_ & g & _ & E)]; try discriminate.
    { cbn in L. lia. } eexists. split; [exact E|]. rewrite (proj1 (mkConv_values _ _ _ _ P E)). cbn. lra.
  - assert (KG : lf_k (gauss 3 g0) (0, 0) = RtoC (lf_flux (gauss 3 g0))).
    { cbn. f_equal. replace (- (0 * (0 * 1) + 0 * (0 * 1)) / 2) with 0 by field. rewrite exp_0. ring. }
    unfold flux_ok. cbn [everywhere fold_right G B]. repeat split; auto; cbn; lra.
Qed.

(** * C42 *)
Theorem C42_difference_is_flux : forall p, nonempty p -> positive_flux p - negative_flux p = flux p.
Proof. exact pn_diff. Qed.
Print Assumptions C42_difference_is_flux.
(** Non-negative only if no leaf has negative flux and no flux ratio is negative (next theorem). *)
Theorem C42_non_negative_partial : forall p, pn_ok p -> 0 <= positive_flux p /\ 0 <= negative_flux p.
Proof. exact pn_nonneg. Qed.
Print Assumptions C42_non_negative_partial.
(** A profile multiplied by -1, or made with negative flux, reports negative "positive flux". *)
Theorem C42_negative_flux_refuted :
  positive_flux (apply (G 1) (ScaleFlux (- 1))) = - 1 /\ negative_flux (apply (G 1) (ScaleFlux (- 1))) = 0 /\
  positive_flux (apply (G 1) (WithFlux (- 1))) = - 1.
Proof.
  unfold positive_flux, negative_flux. cbn [apply]. rewrite mkTransform_default. unfold G. cbn [pnflux fst snd]. rewrite mdet_I, Rabs_R1. cbn. lra.
Qed.
Print Assumptions C42_negative_flux_refuted.
Example C42_witness : exists p, nonempty p /\ pn_ok p /\ positive_flux p = 10 /\ negative_flux p = 1.
Proof.
  set (L := fun (f : R) (g : gspR) => LeafData (fun _ => Ok 0) (fun _ => RtoC f) f (0, 0) 1 1 1 1 false false true true).
  exists (PConv [PSum [G 5; PLeaf false L 4 g0] g0 true; PTr (G 2) mI (0, 0) (1 / 2) g0 true] g0 true).
  split; [repeat split|]. split.
  - unfold pn_ok. cbn [everywhere fold_right G]. repeat split; cbn; lra.
  - unfold positive_flux, negative_flux. cbn [pnflux map fst snd G gauss lf_flux lf_neg calc_pn fold_left]. rewrite mdet_I, Rabs_R1. unfold L. cbn. lra.
Qed.

(** * C43 *)
Theorem C43_sum_order : forall l l' gs pg s, Permutation l l' -> mkSum l gs pg = Ok s -> exists s', mkSum l' gs pg = Ok s' /\ alike s s'.
Proof. exact mkSum_perm. Qed.
Print Assumptions C43_sum_order.
(** A Sum among the arguments can be replaced by its own arguments: the very same object results. *)
Theorem C43_sum_nesting : forall l1 m l2 s, Forall (fun o => exists h, uniform h o) m -> (forall l g pg, In (PSum l g pg) m -> l <> []) ->
  mkSum m None true = Ok s -> mkSum (l1 ++ s :: l2) None true = mkSum (l1 ++ m ++ l2) None true.
Proof. intros l1 m l2 s U N E. apply mkSum_nest; auto. apply flat_nonempty; auto. intros ->. discriminate. Qed.
Print Assumptions C43_sum_nesting.
(** With propagate_gsparams=False an inner Sum's own gsparams are dropped when it is taken apart, so
    nesting is visible: Add(a, Add(b, c, gsparams=g1, propagate_gsparams=False)). *)
Definition g1 : gspR := gset maxk_threshold (1 / 1000000) g0.
Theorem C43_unpropagated_refuted : exists s, mkSum [G 1; G 2] (Some g1) false = Ok s /\ gsparams s = g1 /\
  exists t, mkSum [B 1; s] None true = Ok t /\ gsparams t = g0.
Proof.
  exists (PSum [G 1; G 2] g1 false). split; [reflexivity|]. split; [reflexivity|]. rewrite mkSum_eq.
  assert (E : gspR_combine (map gsparams (flat [B 1; PSum [G 1; G 2] g1 false])) = Ok g0).
  { unfold gspR_combine. cbn [flat flat_map app map gsparams G B combine]. cbn [forallb].
    change (gsp_eqb Reqb g0 g0) with (gspR_eqb g0 g0). rewrite gspR_eqb_refl. reflexivity. }
  rewrite E. cbn [bind]. eexists. split; reflexivity.
Qed.
Print Assumptions C43_unpropagated_refuted.
Example C43_witness : exists m s, Forall (fun o => exists h, uniform h o) m /\ length m = 2%nat /\ (forall l g pg, In (PSum l g pg) m -> l <> []) /\ mkSum m None true = Ok s.
Proof.
  exists [G 1; PLeaf true box 2 g1]. destruct (combineR_ok (map gsparams (flat [G 1; PLeaf true box 2 g1]))) as (g & Eg & _); [discriminate|].
  rewrite mkSum_eq, Eg. cbn [bind]. eexists. split; [|split; [reflexivity|split; [intros l h pg [E|[E|[]]]; discriminate|reflexivity]]].
  repeat constructor; [exists g0|exists g1]; split; cbn; auto.
Qed.

(** * C44 *)
(** Exactly when the constructor raises, and what it makes otherwise. *)
Theorem C44_convolution_decision : forall rs l gs pg, l <> [] -> rs <> RSOther ->
  let raises := wants_real_space rs l /\ (length l <= 2)%nat /\ Forall (fun o => is_analytic_x o = true) l in
  (raises /\ mkConv rs l gs pg = Err NotImplementedErr) \/
  (~ raises /\ exists g, (match gs with Some h => g = h | None => gspR_combine (map gsparams l) = Ok g end) /\
     mkConv rs l gs pg = Ok (PConv (if pg then map (withGSP g) l else l) g pg)).
Proof. exact mkConv_spec. Qed.
Print Assumptions C44_convolution_decision.
Theorem C44_bad_arguments : forall l gs pg rs, mkConv rs [] gs pg = Err TypeError /\ (l <> [] -> mkConv RSOther l gs pg = Err TypeError).
Proof. intros l gs pg rs. split; [reflexivity|]. intros N. destruct l; [congruence|reflexivity]. Qed.
Print Assumptions C44_bad_arguments.
Theorem C44_order_irrelevant : forall rs l l' gs pg, Permutation l l' ->
  match mkConv rs l gs pg, mkConv rs l' gs pg with
  | Ok p, Ok p' => alike p p'
  | Err e, Err e' => e = e'
  | _, _ => False
  end.
Proof. exact mkConv_perm. Qed.
Print Assumptions C44_order_irrelevant.
(** Convolve of one or two hard-edged analytic profiles raises with the default arguments, so
    drawImage of any hard-edged analytic profile raises with the default method 'auto', and with
    method 'real_space' of any analytic profile: the pixel is hard-edged and analytic. *)
Theorem C44_default_raises_refuted : forall img pixel g, is_analytic_x img = true -> has_hard_edges pixel = true -> is_analytic_x pixel = true ->
  choose_route MRealSpace img pixel g = Err NotImplementedErr /\
  (has_hard_edges img = true -> mkConv RSNone [img; pixel] None true = Err NotImplementedErr /\ choose_route MAuto img pixel g = Err NotImplementedErr).
Proof.
  intros img pixel g A HP AP. rewrite !choose_spec. cbv zeta. rewrite A, HP, AP. split; [reflexivity|]. intros HI. rewrite HI. split; [|reflexivity].
  unfold mkConv, decide_real_space. cbn [length forallb Nat.leb Nat.ltb]. rewrite A, HP, AP, HI. reflexivity.
Qed.
Print Assumptions C44_default_raises_refuted.
Example C44_witness : mkConv RSNone [B 1; B 2] None true = Err NotImplementedErr /\ (exists c, mkConv RSNone [G 1; B 2] None true = Ok c) /\
  (exists c, mkConv RSNone [B 1; B 2; B 3] None true = Ok c) /\ mkConv (RSBool true) [G 1; B 2] None true = Err NotImplementedErr /\
  choose_route MAuto (PSum [G 1; B 1] g0 true) (B 1) g0 = Err NotImplementedErr.
Proof.
  split; [reflexivity|]. split.
  { destruct (mkConv_spec RSNone [G 1; B 2] None true) as [[([W|(_ & _ & W)] & _) _]|(_ & g & _ & E)]; try discriminate; eauto. inversion W. discriminate. }
  split.
  { destruct (mkConv_spec RSNone [B 1; B 2; B 3] None true) as [[(_ & L & _) _]|(_ & g & _ & E)]; try discriminate; eauto. cbn in L. lia. }
  split; reflexivity.
Qed.

(** * C45 *)
Theorem C45_deconvolution_inverts : forall p q g pg g' pg' k, 0 < flux p -> 0 < g_kacc g -> flux p * g_kacc g <= Cmod (kValue p k) ->
  kValue (PConv [PDec p g pg; q; p] g' pg') k = kValue q k.
Proof. exact dec_conv. Qed.
Print Assumptions C45_deconvolution_inverts.
(** Where the amplitude is too small to divide by, nothing is amplified. *)
Theorem C45_never_amplifies : forall p q g pg g' pg' k, 0 < flux p -> 0 < g_kacc g ->
  Cmod (kValue (PConv [PDec p g pg; q; p] g' pg') k) <= Cmod (kValue q k).
Proof. exact dec_conv_low. Qed.
Print Assumptions C45_never_amplifies.
Theorem C45_twice : forall p g pg g' pg' k, 0 < flux p -> 0 < g_kacc g -> 0 < g_kacc g' ->
  flux p * g_kacc g <= Cmod (kValue p k) -> Cmod (kValue p k) <= flux p / g_kacc g' ->
  kValue (PDec (PDec p g pg) g' pg') k = kValue p k.
Proof. exact dec_dec. Qed.
Print Assumptions C45_twice.
(** Drawing agrees with evaluation inside maxk except where the amplitude is exactly the threshold. *)
Theorem C45_drawing_partial : forall p g pg k, no_deconvolution p -> norm k <= maxk p -> Cmod (kValue p k) <> flux p * g_kacc g ->
  drawK (PDec p g pg) None k = kValue (PDec p g pg) k.
Proof.
  intros p g pg k N L E. rewrite dec_draw by auto. cbn [jac_or_eye]. replace (mapp (mT mI) k) with k.
  2:{ unfold mapp, mT, mI. cbn [fst snd m00 m01 m10 m11]. destruct k. cbn [fst snd]. f_equal; ring. }
  cbv zeta. destruct (Reqb_spec (Cmod (kValue p k)) (flux p * g_kacc g)) as [e|e]; [contradiction|].
  destruct (Rltb_spec (maxk p ^ 2) (fst k ^ 2 + snd k ^ 2)) as [l|l]; auto. exfalso.
  pose proof (norm_sqr k) as Q. unfold dotp in Q. pose proof (norm_pos k). nra.
Qed.
Print Assumptions C45_drawing_partial.
(** The full statement is false: beyond maxk the drawn value is 0; at the threshold the phase is
    lost; and with negative flux the threshold is negative, so small amplitudes are divided by. *)
Definition phased (f : R) (g : gspR) : leafdata :=
  LeafData (fun x => Ok 0) (fun k => if Reqb (fst k) 0 then RtoC f else Cmult (RtoC (f * g_kacc g)) (0, 1)) f (0, 0) 0 2 1 1 false false false true.
Theorem C45_drawing_refuted :
  (exists k, maxk (PDec (PLeaf false phased 1 g0) g0 true) < norm k /\ drawK (PDec (PLeaf false phased 1 g0) g0 true) None k = RtoC 0 /\ kValue (PDec (PLeaf false phased 1 g0) g0 true) k <> RtoC 0) /\
  (exists k, norm k <= maxk (PDec (PLeaf false phased 1 g0) g0 true) /\ drawK (PDec (PLeaf false phased 1 g0) g0 true) None k <> kValue (PDec (PLeaf false phased 1 g0) g0 true) k) /\
  (forall p g pg k, flux p < 0 -> 0 < g_kacc g -> kValue (PDec p g pg) k = Cdiv (RtoC 1) (kValue p k)).
Proof.
  assert (D : no_deconvolution (PLeaf false phased 1 g0)) by (repeat split).
  assert (ME : forall k, mapp (mT mI) k = k). { intros [a b]. unfold mapp, mT, mI. cbn [fst snd m00 m01 m10 m11]. f_equal; ring. }
  assert (KI : Cmod (Cmult (RtoC (1 * g_kacc g0)) (0, 1)) = 1 * g_kacc g0).
  { rewrite Cmod_mult, Cmod_R. unfold Cmod. cbn [fst snd]. replace (0 ^ 2 + 1 ^ 2) with 1 by ring. rewrite sqrt_1. cbn [g0 g_kacc]. rewrite Rabs_right; lra. }
  split; [|split].
  - exists (3, 0). split; [|split].
    + cbn [maxk phased lf_maxk]. unfold norm, hypot. cbn [fst snd]. replace (3 * 3 + 0 * 0) with (3 * 3) by ring. rewrite sqrt_square; lra.
    + rewrite dec_draw by auto. cbn [jac_or_eye]. rewrite ME. cbv zeta. cbn [fst snd maxk phased lf_maxk]. destruct (Rltb_spec (2 ^ 2) (3 ^ 2 + 0 ^ 2)) as [l|l]; [reflexivity|lra].
    + cbn [kValue phased lf_k flux lf_flux fst]. destruct (Reqb_spec 3 0) as [e|e]; [lra|]. cbv zeta. rewrite KI.
      destruct (Rltb_spec (1 * g_kacc g0) (1 * g_kacc g0)) as [l|l]; [lra|]. intros Z. apply (f_equal Cmod) in Z. rewrite Cmod_div, KI, !Cmod_R, Rabs_R1, Rabs_R0 in Z.
      * cbn [g0 g_kacc] in Z. lra.
      * intros Y. apply (f_equal Cmod) in Y. rewrite KI, Cmod_R, Rabs_R0 in Y. cbn [g0 g_kacc] in Y. lra.
  - exists (1, 0). split.
    + cbn [maxk phased lf_maxk]. unfold norm, hypot. cbn [fst snd]. replace (1 * 1 + 0 * 0) with (1 * 1) by ring. rewrite sqrt_square; lra.
    + rewrite dec_draw by auto. cbn [jac_or_eye]. rewrite ME. cbv zeta. cbn [fst snd maxk phased lf_maxk kValue lf_k flux lf_flux].
      destruct (Rltb_spec (2 ^ 2) (1 ^ 2 + 0 ^ 2)) as [l|l]; [lra|]. destruct (Reqb_spec 1 0) as [e|e]; [lra|]. rewrite KI.
      destruct (Reqb_spec (1 * g_kacc g0) (1 * g_kacc g0)) as [e1|e1]; [|lra]. destruct (Rltb_spec (1 * g_kacc g0) (1 * g_kacc g0)) as [l2|l2]; [lra|].
      intros Z. assert (Y : Cmult (RtoC (1 / (1 * g_kacc g0))) (Cmult (RtoC (1 * g_kacc g0)) (0, 1)) = RtoC 1).
      { rewrite Z. unfold Cdiv. rewrite Cmult_1_l. apply Cinv_l. intros Y. apply (f_equal Cmod) in Y. rewrite KI, Cmod_R, Rabs_R0 in Y. cbn [g0 g_kacc] in Y. lra. }
      apply (f_equal fst) in Y. cbn in Y. lra.
  - intros p g pg k F A. cbn [kValue]. cbv zeta. destruct (Rltb_spec (Cmod (kValue p k)) (flux p * g_kacc g)) as [l|l]; auto. exfalso. pose proof (Cmod_ge_0 (kValue p k)). nra.
Qed.
Print Assumptions C45_drawing_refuted.
Example C45_witness : 0 < flux (G 2) /\ 0 < g_kacc g0 /\ flux (G 2) * g_kacc g0 <= Cmod (kValue (G 2) (1, 0)).
Proof.
  cbn [flux G gauss lf_flux g0 g_kacc kValue lf_k fst snd]. split; [lra|]. split; [lra|]. rewrite Cmod_R, Rabs_right.
  - pose proof (exp_ineq1_le (- (1 ^ 2 + 0 ^ 2) / 2)). lra.
  - pose proof (exp_pos (- (1 ^ 2 + 0 ^ 2) / 2)). lra.
Qed.

(** * C84 *)
(** A Convolution among the arguments can be replaced by its arguments. *)
Theorem C84_convolution_nesting : forall l1 m l2 c, Forall (fun o => exists h, uniform h o) m -> mkConv (RSBool false) m None true = Ok c ->
  exists p q, mkConv (RSBool false) (l1 ++ c :: l2) None true = Ok p /\ mkConv (RSBool false) (l1 ++ m ++ l2) None true = Ok q /\
    gsparams p = gsparams q /\
    (forall k, kValue p k = kValue q k) /\ flux p = flux q /\ centroid p = centroid q /\ pnflux p = pnflux q /\ maxk p = maxk q /\
    is_axisymmetric p = is_axisymmetric q /\ is_analytic_k p = is_analytic_k q /\
    (Forall (fun o => forall g, stepk (withGSP g o) <> 0) m -> stepk p = stepk q) /\
    (Forall (fun o => forall g, flux (withGSP g o) <> 0) m -> (forall g, sumR (map (fun o => flux (withGSP g o) / max_sb (withGSP g o)) m) <> 0) -> max_sb p = max_sb q).
Proof.
  intros l1 m l2 c U E. destruct (mkConv_nest l1 m l2 c U E) as (g & E1 & E2). rewrite E1, E2. eexists. eexists. split; [reflexivity|]. split; [reflexivity|]. split; [reflexivity|].
  assert (N : map (withGSP g) m <> []). { apply map_nonempty. intros ->. discriminate. }
  destruct (conv_nest (map (withGSP g) l1) (map (withGSP g) m) (map (withGSP g) l2) g g true true N) as (A1 & A2 & A3 & A4 & A5 & A6 & A7 & A8 & A9).
  do 7 (split; [assumption|]). split.
  - intros H. apply A8. apply Forall_forall. intros x Hx. apply in_map_iff in Hx. destruct Hx as (o & <- & Ho). rewrite Forall_forall in H. apply (H o Ho).
  - intros H S0. apply A9.
    + apply Forall_forall. intros x Hx. apply in_map_iff in Hx. destruct Hx as (o & <- & Ho). rewrite Forall_forall in H. apply (H o Ho).
    + rewrite map_map. apply S0.
Qed.
Print Assumptions C84_convolution_nesting.
Example C84_witness : Forall (fun o => exists h, uniform h o) [G 2; B 3] /\ (exists c, mkConv (RSBool false) [G 2; B 3] None true = Ok c) /\
  Forall (fun o => forall g, stepk (withGSP g o) <> 0) [G 2; B 3].
Proof.
  split; [repeat constructor; exists g0; split; cbn; auto|]. split.
  - destruct (mkConv_spec (RSBool false) [G 2; B 3] None true) as [[([W|(W & _)] & _) _]|(_ & g & _ & E)]; try discriminate; eauto.
  - repeat constructor; intros g; unfold G, B; cbn [withGSP gsparams]; destruct (gspR_eqb g g0); cbn; lra.
Qed.

(** * C85 *)
Theorem C85_axisymmetric_is_sound : forall p, leaves (fun d => lf_axi d = true -> radial (lf_x d) /\ radial (lf_k d)) p -> is_axisymmetric p = true ->
  radial (xValue p) /\ radial (kValue p).
Proof. exact axi_leaf_ok. Qed.
Print Assumptions C85_axisymmetric_is_sound.
Example C85_witness : exists p, leaves (fun d => lf_axi d = true -> radial (lf_x d) /\ radial (lf_k d)) p /\ is_axisymmetric p = true /\ is_axisymmetric (apply p (Shift 1 0)) = false.
Proof.
  exists (PSum [PTr (G 2) (Mat 3 (- 4) 4 3) (0, 0) 5 g0 true; G 1] g0 true). split; [|split].
  - assert (R0 : forall f, radial (lf_x (gauss f g0)) /\ radial (lf_k (gauss f g0))). { intros f. split; intros x y E; unfold gauss; cbn [lf_x lf_k]; rewrite E; reflexivity. }
    unfold leaves. cbn [everywhere fold_right G]. repeat split; apply R0.
  - cbn [is_axisymmetric forallb G gauss lf_axi m00 m01 m10 m11 fst snd]. 
    destruct (Reqb_spec 3 3); [|lra]. destruct (Reqb_spec (-4) (- (4))); [|lra]. destruct (Reqb_spec 0 0); [|lra]. reflexivity.
  - cbn [apply]. rewrite mkTransform_default. cbn [is_axisymmetric fst snd]. destruct (Reqb_spec 1 0); [lra|]. rewrite !andb_false_r. reflexivity.
Qed.

(** * C86 *)
(** With the default propagation, whatever is built has one set of gsparams throughout. *)
Theorem C86_uniform_gsparams : 
  (forall h o J off fr gs, uniform h o -> uniform (match gs with Some g => g | None => h end) (mkTransform o J off fr gs true)) /\
  (forall h o gs, uniform h o -> uniform (match gs with Some g => g | None => h end) (mkDec o gs true)) /\
  (forall l gs s, Forall (fun o => exists h, uniform h o) l -> mkSum l gs true = Ok s -> uniform (gsparams s) s) /\
  (forall rs l gs s, Forall (fun o => exists h, uniform h o) l -> mkConv rs l gs true = Ok s -> uniform (gsparams s) s) /\
  (forall h p o, uniform h p -> uniform h (apply p o)).
Proof.
  split; [exact uniform_mkTransform|]. split; [exact uniform_mkDec|]. split; [exact uniform_mkSum|]. split; [exact uniform_mkConv|exact uniform_apply].
Qed.
Print Assumptions C86_uniform_gsparams.
(** withGSParams with keywords changes the named fields everywhere in the tree and nothing else. *)
Theorem C86_with_gsparams : forall dflt h kw p, plain p -> uniform h p -> NoDup (map fst kw) ->
  (forall k, In k (map fst kw) -> exists f, In (k, f) all_fields) ->
  exists q g, withGSParams dflt None kw p = Ok q /\ uniform g q /\
    (forall n f, In (n, f) all_fields -> (forall v, In (n, v) kw -> gget f g = v) /\ (~ In n (map fst kw) -> gget f g = gget f h)) /\
    flux q = flux p /\ centroid q = centroid p /\ (forall x, xValue q x = xValue p x) /\ (forall k, kValue q k = kValue p k).
Proof.
  intros dflt h kw p P U ND K. destruct (withParams_spec R kw h ND K) as (g & E & S0). exists (withGSP g p), g.
  unfold withGSParams, check. rewrite (uniform_gs h p U), E. cbn [bind]. split; [reflexivity|]. split; [eapply uniform_withGSP; eauto|]. split; [|apply plain_values; auto].
  intros n f I. exact (S0 n f I).
Qed.
Print Assumptions C86_with_gsparams.
(** Given together with an equal GSParams object the keywords are ignored, even misspelt ones. *)
Theorem C86_keywords_ignored_refuted : forall dflt p kw, withGSParams dflt (Some (gsparams p)) kw p = Ok p.
Proof. intros. unfold withGSParams. rewrite gspR_eqb_refl. reflexivity. Qed.
Print Assumptions C86_keywords_ignored_refuted.
(** Transforming with new gsparams a Transformation made with propagate_gsparams=False gives an
    object that claims to propagate but whose component keeps the old ones. *)
Theorem C86_mixed_refuted : let t := mkTransform (G 1) mI (1, 0) 1 None false in
  match mkTransform t mI (0, 1) 1 (Some g1) true with
  | PTr o _ _ _ g pg => g = g1 /\ pg = true /\ gsparams o = g0 /\ maxk o <> maxk (withGSP g1 o)
  | _ => False
  end.
Proof.
  assert (NE : gspR_eqb g1 g0 = false). { destruct (gspR_eqb_spec g1 g0) as [e|e]; auto. exfalso. apply (f_equal (gget maxk_threshold)) in e. unfold g1 in e. rewrite gget_gset in e. cbn in e. lra. }
  cbv zeta. change (mkTransform (G 1) mI (1, 0) 1 None false) with (PTr (G 1) mI (1, 0) 1 g0 false).
  unfold mkTransform. rewrite withGSP_unfold. cbn [gsparams]. rewrite NE.
  split; [reflexivity|]. split; [reflexivity|]. split; [reflexivity|]. unfold G. rewrite withGSP_unfold. cbn [gsparams]. rewrite NE. cbn [maxk gauss lf_maxk].
  change (g_maxk g1) with (gget maxk_threshold g1). unfold g1. rewrite gget_gset. cbn [field_eqb g0 g_maxk].
  intros E. assert (L1 : ln (1 / 1000000) < ln (1 / 1000)) by (apply ln_increasing; lra). assert (L2 : ln (1 / 1000) < 0) by (rewrite <- ln_1; apply ln_increasing; lra).
  apply sqrt_inj in E; lra.
Qed.
Print Assumptions C86_mixed_refuted.
Example C86_witness : plain (G 2) /\ uniform g0 (G 2) /\ NoDup (map fst [("maxk_threshold", 1 / 5)]%string) /\ In ("maxk_threshold"%string, maxk_threshold) all_fields.
Proof. split; [apply plain_G|]. split; [split; cbn; auto|]. split; [repeat constructor; auto|]. cbn. tauto. Qed.

(** * C87 *)
(** If beyond its maxk every leaf's amplitude is below a fraction [thr] of its flux, so is that of
    any tree of transformations, sums and convolutions of them. *)
Theorem C87_maxk_bounds_amplitude : forall thr p, 0 <= thr -> band_ok thr p ->
  0 < flux p /\ (forall k, Cmod (kValue p k) <= flux p) /\ (forall k, maxk p < norm k -> Cmod (kValue p k) <= thr * flux p).
Proof. exact tree_banded. Qed.
Print Assumptions C87_maxk_bounds_amplitude.
(** The images of the leaves' discs of radius pi/stepk lie in the disc of radius pi/stepk of the tree. *)
Theorem C87_stepk_covers : forall p, step_ok p -> 0 < stepk p /\ forall x, inside p x -> norm x <= PI / stepk p.
Proof. exact stepk_disc. Qed.
Print Assumptions C87_stepk_covers.
Lemma gauss_banded : forall f, 0 < f -> banded (1 / 1000) (G f).
Proof.
  intros f F. unfold banded, G. cbn [flux kValue maxk gauss lf_flux lf_k lf_maxk g0 g_maxk]. split; auto.
  assert (A : forall t, Cmod (RtoC (f * exp t)) = f * exp t). { intros t. rewrite Cmod_R, Rabs_right; auto. pose proof (exp_pos t). nra. }
  split; intros k; rewrite A.
  - assert (exp (- (fst k ^ 2 + snd k ^ 2) / 2) <= exp 0). { destruct (Rle_lt_or_eq_dec (- (fst k ^ 2 + snd k ^ 2) / 2) 0) as [l|l]; [nra| |]. - left. apply exp_increasing. auto. - rewrite l. lra. }
    rewrite exp_0 in H. nra.
  - intros H. assert (L2 : ln (1 / 1000) < 0) by (rewrite <- ln_1; apply ln_increasing; lra).
    assert (S0 : - 2 * ln (1 / 1000) < norm k * norm k). { rewrite <- (sqrt_sqrt (- 2 * ln (1 / 1000))) by lra. pose proof (sqrt_pos (- 2 * ln (1 / 1000))). nra. }
    rewrite norm_sqr in S0. unfold dotp in S0. assert (exp (- (fst k ^ 2 + snd k ^ 2) / 2) <= exp (ln (1 / 1000))) by (left; apply exp_increasing; nra).
    rewrite exp_ln in H0 by lra. nra.
Qed.
Example C87_witness : exists p, band_ok (1 / 1000) p /\ step_ok (apply (G 1) (Shift 2 1)) /\ flux p = 9.
Proof.
  exists (PConv [PSum [G 1; PTr (G 2) mI (1, 0) 1 g0 true] g0 true; G 3] g0 true). split; [|split].
  - unfold band_ok. cbn [everywhere fold_right]. unfold G at 1 2 3. cbn [everywhere]. fold (G 1). fold (G 2). fold (G 3).
    repeat split; try discriminate; try (apply gauss_banded; lra); try lra. rewrite mdet_I. lra.
  - cbn [apply]. rewrite mkTransform_default. unfold G. split; [rewrite mdet_I; lra|]. split; [|exact I]. cbn. lra.
  - cbn [flux map G gauss lf_flux]. rewrite mdet_I, Rabs_R1. cbn. lra.
Qed.

(** * C88 *)
(** What drawImage does for each method. *)
Theorem C88_route : forall m img pixel g,
  choose_route m img pixel g =
  let hard := has_hard_edges img && has_hard_edges pixel in
  let ana := is_analytic_x img && is_analytic_x pixel in
  let conv := PConv [withGSP g img; withGSP g pixel] g true in
  match m with
  | MAuto => if hard && ana then Err NotImplementedErr else Ok (RtFFT conv)
  | MFFT => Ok (RtFFT conv)
  | MRealSpace => if ana then Err NotImplementedErr else Ok (RtFFT conv)
  | MNoPixel => Ok (if is_analytic_x img then RtReal img else RtFFT img)
  end.
Proof. exact choose_spec. Qed.
Print Assumptions C88_route.
(** A profile that claims to be analytic can be evaluated and drawn in real space, if no
    convolution in it is of a single object. *)
Theorem C88_analytic_is_drawable_partial : forall p scale M off fs x, x_ok p -> mdet M <> 0 -> is_analytic_x p = true ->
  (exists v, xValue p x = Ok v) /\ exists v, drawReal p scale (Some M) off fs x = Ok v.
Proof.
  intros p scale M off fs x X D A. split; [apply anx_sound; auto|].
  rewrite drawReal_spec; auto.
  - destruct (anx_sound p X A (mapp (minv (jac_or_eye (Some M))) (vsub x off))) as [v E]. rewrite E. cbn [scale_res]. eauto.
  - unfold nonsingular. eapply every_impl; [|exact X]. intros []; auto.
Qed.
Print Assumptions C88_analytic_is_drawable_partial.
(** The full statement is false for Convolve([p]). *)
Theorem C88_single_convolution_refuted : forall p, is_analytic_x p = true -> has_hard_edges p = false ->
  exists c, mkConv RSNone [p] None true = Ok c /\ is_analytic_x c = true /\
    (forall pixel g, choose_route MNoPixel c pixel g = Ok (RtReal c)) /\
    forall scale jac off fs x, xValue c x = Err NotImplementedErr /\ drawReal c scale jac off fs x = Err NotImplementedErr.
Proof.
  intros p A H. exists (PConv [p] (gsparams p) true).
  assert (E : mkConv RSNone [p] None true = Ok (PConv [p] (gsparams p) true)).
  { unfold mkConv, decide_real_space. cbn [length forallb Nat.leb Nat.ltb]. rewrite H. cbn [andb bind map gspR_combine combine]. unfold gspR_combine, combine. cbn [bind]. rewrite withGSP_same. reflexivity. }
  split; auto. split; [exact A|]. split.
  - intros pixel g. rewrite choose_spec. cbv zeta. cbn [is_analytic_x]. rewrite A. reflexivity.
  - intros. split; reflexivity.
Qed.
Print Assumptions C88_single_convolution_refuted.
Example C88_witness : x_ok (PSum [G 1; PTr (B 2) mI (1, 2) 3 g0 true] g0 true) /\ is_analytic_x (PSum [G 1; PTr (B 2) mI (1, 2) 3 g0 true] g0 true) = true /\
  is_analytic_x (G 1) = true /\ has_hard_edges (G 1) = false.
Proof.
  split; [|repeat split]. unfold x_ok. cbn [everywhere fold_right G B]. repeat split; auto; try (intros; eexists; reflexivity). rewrite mdet_I. lra.
Qed.
