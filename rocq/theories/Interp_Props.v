(** C65, C66, C96 - C99: interpolants. *)
From Coq Require Import ZArith Reals Bool List String Ascii Lra Lia.
From Coquelicot Require Import Coquelicot.
From Verif Require Import Base Bounds_Model Bounds_Proofs FFT_Model FFT_Proofs Sky_Model Interp_Model Interp_Spec Akima_Spline Interp_Kernels Interp_Smooth Interp_Lanczos Interp_Proofs Interp_Names.
Import ListNotations.
Open Scope R_scope.

(** * C65: kernels *)
Definition proper (i : interpolant) : Prop := match i with Delta => False | Lanczos n _ => (1 <= n)%Z | _ => True end.
Theorem C65_cardinal : forall kva K i, proper i -> cardinal (xval kva K i).
Proof.
  intros kva K [| | | | | |n b] H; cbn [xval]; [contradiction|exact cardinal_nearest|exact cardinal_sinc|exact cardinal_linear|exact cardinal_cubic|exact cardinal_quintic|now apply lanczos_cardinal].
Qed.
Print Assumptions C65_cardinal.
Theorem C65_even : forall kva K i, even (xval kva K i).
Proof.
  intros kva K [| | | | | |n b]; cbn [xval]; [|exact nea_even|exact sinc_even|exact lin_even|exact cub_even|exact qui_even|apply lanczos_xval_even].
  intro x. change (delta_xval kva (- x) = delta_xval kva x). unfold delta_xval. now rewrite Rabs_Ropp.
Qed.
Print Assumptions C65_even.
(** Outside its range a kernel vanishes; Sinc, which is not compact, is within the accuracy there. *)
Theorem C65_range : forall kva K i, proper i -> 0 < kva ->
  forall x, xrange kva i < Rabs x -> match i with SincInt => Rabs (xval kva K i x) <= kva | _ => xval kva K i x = 0 end.
Proof.
  intros kva K [| | | | | |n b] H A x R; cbn [xval xrange] in *; [contradiction|now apply nea_out|apply sinc_tail; [exact A|lra]| | | |now apply lanczos_supp].
  - apply (supp linear_xval lin_even 1); [lra|intros; now apply lin_out|exact R].
  - apply (supp cubic_xval cub_even 2); [lra|intros; now apply cub_out|exact R].
  - apply (supp quintic_xval qui_even 3); [lra|intros; now apply qui_out|exact R].
Qed.
Print Assumptions C65_range.
(** Delta is not of this kind: its value at 0 is not one and it is a box wider than its range. *)
Theorem C65_delta_refuted : forall kva K, 0 < kva < 1 -> ~ cardinal (xval kva K Delta) /\ ~ supported (xval kva K Delta) (xrange kva Delta) /\ supported (xval kva K Delta) (kva / 2).
Proof.
  intros kva K A. cbn [xval xrange]. assert (I : 1 < 1 / kva) by (apply (Rmult_lt_reg_r kva); [lra|]; unfold Rdiv; rewrite Rmult_assoc, Rinv_l by lra; lra). split; [|split].
  - intros [H _]. change (delta_xval kva 0 = 1) in H. unfold delta_xval in H. rewrite Rabs_R0 in H. destruct (Rltb_spec (1 / 2 * kva) 0); lra.
  - intro H. specialize (H (kva / 4)). change (0 < Rabs (kva / 4) -> delta_xval kva (kva / 4) = 0) in H. unfold delta_xval in H. rewrite Rabs_pos_eq in H by lra. destruct (Rltb_spec (1 / 2 * kva) (kva / 4)); [lra|]. specialize (H ltac:(lra)). lra.
  - intros x H. change (delta_xval kva x = 0). unfold delta_xval. destruct (Rltb_spec (1 / 2 * kva) (Rabs x)); [reflexivity|lra].
Qed.
Print Assumptions C65_delta_refuted.
(** Linear reproduces lines, Cubic parabolas and Quintic quartics; one coefficient gives the sum of the translates. *)
Theorem C65_reproduces : forall kva K,
  reproduces (xval kva K Linear) (xrange kva Linear) 2 (fun _ => True) /\ reproduces (xval kva K Cubic) (xrange kva Cubic) 3 (fun _ => True) /\
  reproduces (xval kva K Quintic) (xrange kva Quintic) 5 (fun _ => True) /\ reproduces (xval kva K Nearest) (xrange kva Nearest) 1 (fun t => forall n : Z, t <> IZR n + 1 / 2).
Proof. intros. exact (conj reproduces_linear (conj reproduces_cubic (conj reproduces_quintic reproduces_nearest))). Qed.
Print Assumptions C65_reproduces.
Theorem C65_smooth : forall kva K, C1 (xval kva K Cubic) /\ C1 (xval kva K Quintic) /\ (forall x, continuity_pt (xval kva K Linear) x) /\ (forall x, continuity_pt (xval kva K SincInt) x).
Proof.
  intros. split; [exact cubic_C1|]. split; [exact quintic_C1|]. split; [exact linear_cont|]. intro x. apply (cont_ext _ sincR); [exact sinc_is|]. apply continuity_pt_filterlim, sincR_cont.
Qed.
Print Assumptions C65_smooth.
Example C65_cubic_half : cubic_xval (1 / 2) = 9 / 16 /\ cubic_xval (-3 / 2) = - (1 / 16).
Proof.
  split; [rewrite cub_1 by lra; unfold cubic_one; field|]. replace (-3 / 2) with (- (3 / 2)) by field. rewrite cub_even, cub_2 by lra. unfold cubic_two. field.
Qed.
Example C65_parabola : sum_between (-2) 3 (fun k => peval [1; 0; 2] (IZR k) * cubic_xval (1 / 2 - IZR k)) = 3 / 2.
Proof. rewrite (reproduces_cubic [1; 0; 2] (1 / 2)); [unfold peval; cbn; field|cbn; lia|exact I|lra|lra]. Qed.

(** * C66: Lanczos *)
Theorem C66_closed_forms : forall n conserve_dc K x, (1 <= n)%Z -> lanczos_xval n conserve_dc K x = lanczos (IZR n) x / (if conserve_dc then dc K x else 1).
Proof. exact lanczos_xval_ok. Qed.
Print Assumptions C66_closed_forms.
(** The correction leaves the values at the integers alone. *)
Theorem C66_dc_at_integers : forall K (m : Z), dc K (IZR m) = 1.
Proof. exact dc_int. Qed.
Print Assumptions C66_dc_at_integers.
Example C66_third : lanczos_xval 3 false (fun _ => 0) (3 / 2) = lanczos 3 (3 / 2).
Proof. rewrite lanczos_xval_ok by lia. field. Qed.
Example C66_half : lanczos_xval 1 true (fun _ => 1 / 100) (1 / 2) = (2 / PI * (2 / PI)) / (1 - 3 * (4 / 100)).
Proof.
  pose proof PI_RGT_0. unfold lanczos_xval, lanczos_sincx, lanczos_factor. cbv zeta. rewrite Rabs_pos_eq by lra. destruct (Rltb_spec (1 / 2) 1); [|lra].
  replace (1 / 2 / 1) with (1 / 2) by field. assert (S : sinc (1 / 2) = 2 / PI).
  { unfold sinc. destruct (Reqb_spec (1 / 2) 0); [lra|]. replace (PI * (1 / 2)) with (PI / 2) by field. rewrite sin_PI2. field. lra. }
  rewrite S. replace (2 / PI * (PI * (1 / 2))) with 1 by (field; lra). field. lra.
Qed.

(** * C96: Fourier transforms *)
Theorem C96_transforms : forall kva K i k v, In i [Nearest; Linear; Cubic; Quintic] -> kval i k = Some v -> transform (xval kva K i) (xrange kva i) k v.
Proof.
  intros kva K i k v [<-|[<-|[<-|[<-|[]]]]] H; injection H as <-; cbn [xval xrange]; [apply nearest_transform|apply linear_transform|apply cubic_transform|apply quintic_transform].
Qed.
Print Assumptions C96_transforms.
Theorem C96_sinc : (forall kva K x, is_RInt (fun u => sinc_uval u * cos (2 * PI * x * u)) (- (1 / 2)) (1 / 2) (xval kva K SincInt x)) /\ (forall u, 1 / 2 < Rabs u -> sinc_uval u = 0).
Proof. exact (conj (fun _ _ => sinc_band) sinc_uval_out). Qed.
Print Assumptions C96_sinc.
Theorem C96_lanczos : forall si n u, Si_of si -> (1 <= n)%Z -> transform (lanczos (IZR n)) (IZR n) (2 * PI * u) (gs_raw_uval si n u).
Proof. intros si n u S N. exact (lanczos_transform si S n u N). Qed.
Print Assumptions C96_lanczos.
(** There is such a function Si. *)
Example C96_si : exists si, Si_of si.
Proof.
  exists (fun x => RInt (fun t => sincR (t / PI)) 0 x). intro x. apply (RInt_correct (V := R_CompleteNormedModule)). apply (ex_RInt_continuous (V := R_CompleteNormedModule)). intros z _. apply scaled_cont.
Qed.
Example C96_flux : forall k, k = 0 -> kval Cubic k = Some 1 /\ kval Quintic k = Some 1.
Proof.
  intros k ->. pose proof PI_RGT_0. unfold kval, uval, cubic_uval, quintic_uval. cbv zeta. replace (0 / 2 / PI) with 0 by (field; lra). rewrite Rabs_R0, sinc_0, Rmult_0_r, cos_0. split; f_equal; ring.
Qed.

(** * C97: integrals *)
Theorem C97_unit_integrals : forall kva K i l j v, In i [Nearest; Linear; Cubic] -> unit_integrals i = Some l -> nth_error l j = Some v -> unit_integral (xval kva K i) j v.
Proof.
  intros kva K i l j v [<-|[<-|[<-|[]]]] H; injection H as <-; intro N; cbn [xval].
  - destruct j as [|[|j]]; try discriminate; try (destruct j; discriminate); injection N as <-. exact ui_nearest.
  - destruct j as [|[|[|j]]]; try discriminate; try (destruct j; discriminate); injection N as <-; [exact ui_linear0|exact ui_linear1].
  - destruct j as [|[|[|[|j]]]]; try discriminate; try (destruct j; discriminate); injection N as <-; [exact ui_cubic0|exact ui_cubic1|exact ui_cubic2].
Qed.
Print Assumptions C97_unit_integrals.
Theorem C97_sinc : forall kva K si j, Si_of si -> unit_integral (xval kva K SincInt) j (sinc_unit_integral si j).
Proof. intros kva K. exact ui_sinc. Qed.
Print Assumptions C97_sinc.
(** For Quintic the stored values are only near the integrals. *)
Theorem C97_quintic_partial : forall kva K l j v, unit_integrals Quintic = Some l -> nth_error l j = Some v ->
  exists w, unit_integral (xval kva K Quintic) j w /\ Rabs (v - w) < 2 / 100000000.
Proof.
  intros kva K l j v H N. injection H as <-. cbn [xval]. destruct j as [|[|[|[|j]]]]; try discriminate; try (destruct j; discriminate); injection N as <-;
    [exists (10051 / 11520); split; [exact ui_quintic0|] | exists (3379 / 46080); split; [exact ui_quintic1|] | exists (- (251 / 23040)); split; [exact ui_quintic2|] | exists (61 / 46080); split; [exact ui_quintic3|]];
    apply Rabs_def1; lra.
Qed.
Print Assumptions C97_quintic_partial.
Theorem C97_quintic_refuted : forall kva K, exists l v, unit_integrals Quintic = Some l /\ nth_error l 0 = Some v /\ ~ unit_integral (xval kva K Quintic) 0 v /\
  (forall w, unit_integral (xval kva K Quintic) 0 w -> 1 / 100000000 < Rabs (v - w)).
Proof.
  intros kva K. eexists. eexists. split; [reflexivity|]. split; [reflexivity|]. cbn [xval].
  assert (U : forall w, unit_integral quintic_xval 0 w -> w = 10051 / 11520) by (intros w H; rewrite <- (is_RInt_unique _ _ _ _ H); apply is_RInt_unique, ui_quintic0).
  split; [intro H; apply U in H; lra|]. intros w H. rewrite (U w H). rewrite Rabs_left; lra.
Qed.
Print Assumptions C97_quintic_refuted.
(** Positive and negative fluxes: exact, and for Quintic to the eighteen digits of the constants *)
Theorem C97_fluxes : forall kva K i p n, In i [Nearest; Linear; Cubic; Quintic] -> positive_flux i = Some p -> negative_flux i = Some n ->
  exists p' n', is_RInt (positive_part (xval kva K i)) (- xrange kva i) (xrange kva i) p' /\ is_RInt (negative_part (xval kva K i)) (- xrange kva i) (xrange kva i) n' /\
    p' - n' = 1 /\ (i <> Quintic -> p = p' /\ n = n') /\ Rabs (p - p') < 1 / 1000000000000000000 /\ p - n = 1.
Proof.
  assert (Z : forall a, Rabs (a - a) < 1 / 1000000000000000000) by (intro a; rewrite Rminus_diag_eq, Rabs_R0 by reflexivity; lra).
  intros kva K i p n [<-|[<-|[<-|[<-|[]]]]] H J; injection H as <-; injection J as <-; cbn [xval xrange].
  - exists 1, 0. destruct pos_nearest as [A B]. repeat split; auto; lra.
  - exists 1, 0. destruct pos_linear as [A B]. repeat split; auto; lra.
  - exists (13 / 12), (1 / 12). destruct pos_cubic as [A B]. repeat split; auto; lra.
  - exists quintic_flux, (quintic_flux - 1). destruct pos_quintic as [A B]. repeat split; auto; try contradiction; try lra. exact flux_const.
Qed.
Print Assumptions C97_fluxes.
Example C97_cubic_list : unit_integrals Cubic = Some [161 / 192; 3 / 32; - (5 / 384)] /\ 161 / 192 + 2 * (3 / 32 - 5 / 384) = 1.
Proof. split; [reflexivity|field]. Qed.

(** * C98: the range in Fourier space *)
Theorem C98_within_accuracy : forall kva i r k v, In i [Nearest; Linear; SincInt] -> 0 < kva -> krange kva i = Some r -> r < Rabs k -> kval i k = Some v -> Rabs v <= kva.
Proof.
  intros kva i r k v I A R B V. pose proof PI_RGT_0 as P. assert (U : Rabs (k / 2 / PI) = Rabs k / 2 / PI) by apply abs_arg.
  assert (W : forall c, 2 * PI * c < Rabs k -> c < Rabs (k / 2 / PI)).
  { intros c C. rewrite U. apply (Rmult_lt_reg_l (2 * PI)); [lra|]. replace (2 * PI * (Rabs k / 2 / PI)) with (Rabs k) by (field; lra). exact C. }
  destruct I as [<-|[<-|[<-|[]]]]; injection R as <-; injection V as <-; apply W in B.
  - apply sinc_tail; [exact A|lra].
  - apply linear_tail; [exact A|lra].
  - rewrite sinc_uval_out by exact B. rewrite Rabs_R0. lra.
Qed.
Print Assumptions C98_within_accuracy.
(** Cubic and Quintic exceed the accuracy by at most a term of the next order in 1/k ... *)
Theorem C98_cubic_quintic_partial : forall kva i r k v, In i [Cubic; Quintic] -> 0 < kva -> krange kva i = Some r -> r < Rabs k -> kval i k = Some v ->
  Rabs v <= kva + match i with Cubic => 3 / (Rabs k / 2) ^ 4 | _ => 19 / (Rabs k / 2) ^ 4 + 54 / (Rabs k / 2) ^ 5 + 55 / (Rabs k / 2) ^ 6 end.
Proof.
  intros kva i r k v I A R B V. pose proof PI_RGT_0 as P. assert (U : Rabs (k / 2 / PI) = Rabs k / 2 / PI) by apply abs_arg.
  assert (W : forall c, 2 * PI * c < Rabs k -> c <= Rabs (k / 2 / PI)).
  { intros c C. rewrite U. apply Rlt_le. apply (Rmult_lt_reg_l (2 * PI)); [lra|]. replace (2 * PI * (Rabs k / 2 / PI)) with (Rabs k) by (field; lra). exact C. }
  assert (T : Rabs k / 2 = PI * Rabs (k / 2 / PI)) by (rewrite U; field; lra). rewrite T.
  destruct I as [<-|[<-|[]]]; injection R as <-; injection V as <-; apply W in B.
  - apply cubic_tail; assumption.
  - rewrite <- !Rplus_assoc. apply quintic_tail; assumption.
Qed.
Print Assumptions C98_cubic_quintic_partial.
(** ... and Cubic does exceed it, however small the accuracy asked for. *)
Theorem C98_cubic_refuted : forall e, 0 < e -> exists kva r k v, 0 < kva < e /\ krange kva Cubic = Some r /\ r <= k /\ kval Cubic k = Some v /\ kva < v.
Proof.
  intros e E. pose proof PI_RGT_0 as P. destruct (cubic_over e E) as [kva [u [A [B C]]]]. exists kva. eexists. exists (2 * PI * u), (cubic_uval u). split; [exact A|]. split; [reflexivity|]. split.
  - apply Rmult_le_compat_l; [lra|exact B].
  - split; [|exact C]. unfold kval, uval. f_equal. f_equal. field. lra.
Qed.
Print Assumptions C98_cubic_refuted.
Example C98_linear : krange (1 / 100) Linear = Some 20.
Proof. unfold krange, urange, option_map. f_equal. replace (1 / 100) with (1 / 10 * (1 / 10)) by field. rewrite sqrt_square by lra. pose proof PI_RGT_0. field. lra. Qed.

(** * C99: names *)
Open Scope string_scope.
Theorem C99_case_insensitive : forall s t, same_letters s t -> from_name s = from_name t.
Proof. exact from_name_same. Qed.
Print Assumptions C99_case_insensitive.
Theorem C99_names : from_name "delta" = Ok Delta /\ from_name "nearest" = Ok Nearest /\ from_name "sinc" = Ok SincInt /\ from_name "linear" = Ok Linear /\
  from_name "cubic" = Ok Cubic /\ from_name "quintic" = Ok Quintic.
Proof. repeat split. Qed.
Print Assumptions C99_names.
(** "lanczosN", "lanczosNT" and "lanczosNF" for any numeral N from 1 to 30 *)
Theorem C99_lanczos : forall ds, ds <> [] -> List.Forall (fun d => d < 10)%nat ds -> (1 <= value ds <= 30)%Z ->
  from_name ("lanczos" ++ numeral ds) = Ok (Lanczos (value ds) true) /\ from_name ("lanczos" ++ numeral ds ++ "t") = Ok (Lanczos (value ds) true) /\
  from_name ("lanczos" ++ numeral ds ++ "f") = Ok (Lanczos (value ds) false).
Proof.
  intros ds N F B. destruct (from_lanczos ds N F) as [H1 [H2 H3]]. rewrite H1, H2, H3. unfold lanczos_named.
  destruct (Z.leb_spec 1 (value ds)), (Z.leb_spec (value ds) 30); try lia. auto.
Qed.
Print Assumptions C99_lanczos.
Theorem C99_others_rejected : forall s, ~ In (lower s) ["quintic"; "linear"; "cubic"; "nearest"; "delta"; "sinc"] -> String.prefix "lanczos" (lower s) = false -> from_name s = Err GalSimValueError.
Proof. exact from_other. Qed.
Print Assumptions C99_others_rejected.
(** An order outside the tables escapes as a KeyError instead of a GalSimValueError. *)
Theorem C99_order_refuted : forall ds, ds <> [] -> List.Forall (fun d => d < 10)%nat ds -> (value ds = 0 \/ 30 < value ds)%Z -> from_name ("lanczos" ++ numeral ds) = Err KeyError.
Proof.
  intros ds N F B. destruct (from_lanczos ds N F) as [H1 _]. rewrite H1. unfold lanczos_named. destruct (Z.leb_spec 1 (value ds)), (Z.leb_spec (value ds) 30); try lia; reflexivity.
Qed.
Print Assumptions C99_order_refuted.
Example C99_mixed : from_name "Lanczos12F" = Ok (Lanczos 12 false) /\ from_name "LANCZOS3t" = Ok (Lanczos 3 true) /\ from_name "lanczos" = Err GalSimValueError /\
  from_name "lanczos31" = Err KeyError /\ from_name "CuBiC" = Ok Cubic /\ same_letters "CuBiC" "cubic".
Proof.
  repeat split. repeat constructor; unfold same_char; cbn; lia.
Qed.
