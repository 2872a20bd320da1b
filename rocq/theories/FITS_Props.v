(** C60 - C62, C107 - C112: FITS headers, tangent-plane systems, distortions. *)
From Coq Require Import ZArith Reals Bool Ascii String List Lra Lia.
From Coquelicot Require Import Coquelicot.
From Verif Require Import Base Bounds_Model Bounds_Proofs Geo_Model Geo_Proofs Angle_Model Angle_Spec Angle_Proofs Sky_Model Sky_Spec Sky_Proofs Sky_Proj Sky_More Util_Model Util_Spec Util_Proofs WCS_Model.
From Verif Require Import FITS_Spec FITS_Model FITS_Path FITS_Poly FITS_Newton FITS_Proofs FITS_Head FITS_Read FITS_Std FITS_Same FITS_More FITS_Coef FITS_Kind.
Import ListNotations.
Open Scope R_scope.

(** * C60: TanWCS *)
(** The full statement, for which see [C60_refuted]: for every affine transform the sky position of a pixel is the
    tangent-plane deprojection of its place under the transform. *)
Definition tan_honours (m : mat) (o wo : vec) (c : coord) (units : R) (p : vec) : Prop :=
  let q := posToWorld (WAff m o wo) p in f_radec (tan_wcs m o wo c units) p = deproject_ c Gnomonic (units * fst q) (units * snd q).
Theorem C60_tan_partial : forall m o wo c units p, mdet m <> 0 -> units <> 0 -> fst wo = 0 -> tan_honours m o wo c units p.
Proof.
  intros m o wo c units p D U Z. unfold tan_honours, f_radec. rewrite tan_uv by assumption. change (f_proj (tan_wcs m o wo c units)) with Gnomonic. change (f_center (tan_wcs m o wo c units)) with c.
  cbn [fst snd]. unfold posToWorld, local_wcs, origin, world_origin, l_u, l_v, mapp, vadd, vsub. cbn [fst snd]. rewrite Z. f_equal; ring.
Qed.
Print Assumptions C60_tan_partial.
Example C60_ex : mdet (Mat 1 2 0 1) <> 0 /\ arcsec <> 0 /\ fst (0, 3) = 0.
Proof. unfold mdet. cbn [m00 m01 m10 m11 fst]. pose proof arcsec_pos. repeat split; lra. Qed.
(** What it does in general: the first coordinate of the world origin is taken with the wrong sign. *)
Theorem C60_tan_value : forall m o wo c units p, mdet m <> 0 -> units <> 0 ->
  let q := posToWorld (WAff m o (- fst wo, snd wo)) p in f_radec (tan_wcs m o wo c units) p = deproject_ c Gnomonic (units * fst q) (units * snd q).
Proof.
  intros m o wo c units p D U. cbv zeta. unfold f_radec. rewrite tan_uv by assumption. change (f_proj (tan_wcs m o wo c units)) with Gnomonic. change (f_center (tan_wcs m o wo c units)) with c.
  cbn [fst snd]. unfold posToWorld, local_wcs, origin, world_origin, l_u, l_v, mapp, vadd, vsub. cbn [fst snd]. f_equal; ring.
Qed.
Print Assumptions C60_tan_value.
Lemma tan_inj : forall c u v u' v', deproject_ c Gnomonic u v = deproject_ c Gnomonic u' v' -> (u, v) = (u', v').
Proof.
  intros c u v u' v' E. pose proof (project_deproject c Gnomonic u v I) as Q1. pose proof (project_deproject c Gnomonic u' v' I) as Q2. rewrite E in Q1.
  destruct (deproject_ c Gnomonic u' v') as [ra dec]. rewrite Q1 in Q2. exact Q2.
Qed.
(** Wherever that coordinate is not zero, the pixel is somewhere else on the sky. *)
Theorem C60_refuted : forall m o wo c units p, mdet m <> 0 -> units <> 0 -> fst wo <> 0 -> ~ tan_honours m o wo c units p.
Proof.
  intros m o wo c units p D U N E. unfold tan_honours in E. cbv zeta in E. rewrite C60_tan_value in E by assumption. cbv zeta in E.
  apply tan_inj in E. apply (f_equal fst) in E. cbn [fst] in E. revert E. unfold posToWorld, local_wcs, origin, world_origin, l_u, l_v, mapp, vadd, vsub. cbn [fst snd].
  intro Q. apply Rmult_eq_reg_l in Q; [lra|exact U].
Qed.
Print Assumptions C60_refuted.
Example C60_refuted_ex : mdet mI <> 0 /\ radians <> 0 /\ fst (1, 0) <> 0.
Proof. unfold mdet, mI, radians. cbn [m00 m01 m10 m11 fst]. repeat split; lra. Qed.

(** * C61: TPV coefficients *)
(** The full statement, for which see [C61_refuted]: every pair of square matrices that is written is read back as the
    same polynomials. Shown when the highest power has a coefficient in the second half of its row. *)
Definition survives (a b : list (list R)) (h : header) : Prop := exists d, read_tpv (write_pv (a, b) h) = Ok d /\ forall p, apply_ab p d = apply_ab p (a, b).
Theorem C61_tpv_partial : forall h n d a b, (n <= 8)%nat -> square n a -> square n b -> (forall x k, h (KPv x k) = None) ->
  (forall i j, (d < i + j)%nat -> low n (coef a) i j = 0 /\ low n (coef b) i j = 0) ->
  (exists j, (j <= d)%nat /\ (d <= 2 * j + 1)%nat /\ (low n (coef a) (d - j)%nat j <> 0 \/ low n (coef b) j (d - j)%nat <> 0)) ->
  (exists i j, low n (coef a) i j <> 0) -> (exists i j, low n (coef b) i j <> 0) -> survives a b h.
Proof. intros h n d a b N SA SB F H1 H2 H3 H4. exact (tpv_round_trip h n d a b N SA SB F (conj H1 (conj H2 (conj H3 H4)))). Qed.
Print Assumptions C61_tpv_partial.
Example C61_ex : let a := [[0; 0; 1]; [1; 0; 0]; [0; 0; 0]] in let b := [[0; 1; 0]; [0; 0; 0]; [0; 0; 0]] in
  square 3 a /\ square 3 b /\ (forall i j, (2 < i + j)%nat -> low 3 (coef a) i j = 0 /\ low 3 (coef b) i j = 0) /\
  (2 <= 2)%nat /\ (2 <= 2 * 2 + 1)%nat /\ low 3 (coef a) (2 - 2)%nat 2%nat <> 0 /\ low 3 (coef b) 0%nat 1%nat <> 0.
Proof.
  cbv zeta. repeat split; try (repeat constructor; fail); try (unfold low; destruct (Nat.ltb_spec (i + j) 3); [lia|reflexivity]); try lia; cbn; lra.
Qed.
(** x + x^2, y comes back as x, y: the coefficient of x^2 is written but not read. *)
Theorem C61_refuted : exists a b, square 3 a /\ square 3 b /\ (forall x y, apply_ab (x, y) (a, b) = (x + x ^ 2, y)) /\ ~ survives a b empty.
Proof.
  exists ax2, by1. split; [split; [reflexivity|repeat constructor]|]. split; [split; [reflexivity|repeat constructor]|]. destruct lost as (d & RD & V & W). split; [exact W|].
  intros (d' & RD' & E). rewrite RD in RD'. injection RD' as <-. specialize (E (1, 0)). rewrite V, W in E. apply (f_equal fst) in E. cbn [fst] in E. lra.
Qed.
Print Assumptions C61_refuted.
(** Where PV1 is all zero, or nothing is given at all (the identity), reading fails. *)
Theorem C61_zero_refuted : forall h, (forall k, hget0 h (KPv X1 k) = Ok 0) -> (forall k, exists r, hget0 h (KPv X2 k) = Ok r) -> forall d, read_tpv h <> Ok d.
Proof. exact tpv_zero. Qed.
Print Assumptions C61_zero_refuted.
Example C61_zero_ex : (forall k, hget0 empty (KPv X1 k) = Ok 0) /\ (forall k, exists r, hget0 empty (KPv X2 k) = Ok r).
Proof. split; intro k; [reflexivity|]. exists 0. reflexivity. Qed.

(** * C62: origins, matrices, inversion *)
Theorem C62_shift : forall w o p, f_radec (f_shift w o) (vadd p o) = f_radec w p /\ f_local (f_shift w o) (vadd p o) = f_local w p.
Proof. intros w o p. split; [apply shift_radec|apply shift_local]. Qed.
Print Assumptions C62_shift.
Theorem C62_shift_back : forall w o ra dec, f_xy (f_shift w o) ra dec = bind (f_xy w ra dec) (fun p => Ok (vadd p o)).
Proof. intros w o ra dec. destruct (f_xy w ra dec) as [p|e] eqn:E; cbn [bind]; [now apply shift_xy|now apply shift_xy_err]. Qed.
Print Assumptions C62_shift_back.
(** Without distortion the pixel is found again, *)
Theorem C62_pixel_sky_pixel : forall w p, f_pv w = None -> f_ab w = None -> mdet (f_cd w) <> 0 ->
  plane_ok (f_proj w) (fst (f_uv w p) * fst (f_uv w p) + snd (f_uv w p) * snd (f_uv w p)) ->
  f_xy w (fst (f_radec w p)) (snd (f_radec w p)) = Ok p.
Proof. exact pixel_sky_pixel. Qed.
Print Assumptions C62_pixel_sky_pixel.
(** and so is the point on the sky. *)
Theorem C62_sky_pixel_sky : forall w ra dec, f_pv w = None -> f_ab w = None -> mdet (f_cd w) <> 0 ->
  sky_ok (f_proj w) (v3dot (sky ra dec) (sky (cra (f_center w)) (cdec (f_center w)))) ->
  exists p, f_xy w ra dec = Ok p /\ latitude (snd (f_radec w p)) /\ sky (fst (f_radec w p)) (snd (f_radec w p)) = sky ra dec.
Proof. exact sky_pixel_sky. Qed.
Print Assumptions C62_sky_pixel_sky.
Definition tan1 : fwcs := FW "TAN" (3, 4) (Mat 0 1 2 0) (mkC 1 0) None None None.
Example C62_round_ex : mdet (f_cd tan1) <> 0 /\ plane_ok (f_proj tan1) 7 /\ sky_ok (f_proj tan1) (v3dot (sky 1 0) (sky (cra (f_center tan1)) (cdec (f_center tan1)))).
Proof.
  unfold mdet, tan1. cbn [f_cd f_center cra cdec m00 m01 m10 m11]. repeat split; [lra|]. cbn [sky_ok]. unfold v3dot, sky. cbn. rewrite cos_0, sin_0. pose proof (sin2_cos2 1) as H. unfold Rsqr in H. nra.
Qed.
(** The full statement about matrices, for which see the two refutations below: CD as given, else CDELT_i PC_ij with the
    defaults of the standard. Shown for the sets of keys in common use. *)
Theorem C62_matrix_partial : forall h, four KCd (given h)
  \/ (four KCd (absent h) /\ given h (KCdelt X1) /\ given h (KCdelt X2) /\ (four KPc (given h) \/ four KPc (absent h)))
  \/ (four KCd (absent h) /\ absent h (KCdelt X1) /\ absent h (KCdelt X2) /\ four KPc (absent h)) ->
  exists m, read_cd h = Ok m /\ std_matrix h m.
Proof. exact matrix_ok. Qed.
Print Assumptions C62_matrix_partial.
Example C62_matrix_ex : let h := hsets empty [(KCdelt X1, VR 2); (KCdelt X2, VZ 3); (KPc X1 X1, VR 1); (KPc X1 X2, VR 5); (KPc X2 X1, VR 6); (KPc X2 X2, VR 7)] in
  four KCd (absent h) /\ given h (KCdelt X1) /\ given h (KCdelt X2) /\ four KPc (given h).
Proof. repeat split. Qed.
(** PC1_2 without PC1_1 is ignored; *)
Theorem C62_pc_lost_refuted : exists h, (forall k, h k = None \/ given h k) /\ four KCd (absent h) /\ given h (KCdelt X1) /\ given h (KCdelt X2) /\ given h (KPc X1 X2) /\
  exists m, read_cd h = Ok m /\ ~ std_matrix h m.
Proof. exact matrix_pc_lost. Qed.
Print Assumptions C62_pc_lost_refuted.
(** so are all four without CDELT. *)
Theorem C62_pc_alone_refuted : exists h, (forall k, h k = None \/ given h k) /\ four KCd (absent h) /\ four KPc (given h) /\ exists m, read_cd h = Ok m /\ ~ std_matrix h m.
Proof. exact matrix_pc_alone. Qed.
Print Assumptions C62_pc_alone_refuted.
(** The same angles in other units give the same system. *)
Theorem C62_units : forall tnx h n1 n2 k1 k2 l1 l2 q1 q2 r1 r2 m, from_name (txt n1) = Ok k1 -> from_name (txt n2) = Ok k2 -> from_name (txt l1) = Ok q1 -> from_name (txt l2) = Ok q2 ->
  k1 <> 0 -> k2 <> 0 -> q1 <> 0 -> q2 <> 0 -> tnx (in_units h n1 n2 k1 k2 r1 r2 m) = tnx (in_units h l1 l2 q1 q2 r1 r2 m) ->
  read_header tnx (in_units h n1 n2 k1 k2 r1 r2 m) = read_header tnx (in_units h l1 l2 q1 q2 r1 r2 m).
Proof. exact same_units. Qed.
Print Assumptions C62_units.
Example C62_units_ex : from_name (txt "deg") = Ok degrees /\ from_name (txt "arcsec") = Ok arcsec /\ degrees <> 0 /\ arcsec <> 0.
Proof. pose proof degrees_pos. pose proof arcsec_pos. repeat split; lra. Qed.
(** Without CUNIT the unit is the degree. *)
Theorem C62_default_units : forall tnx h, absent h (KCunit X1) -> let h' := hset (hset h (KCunit X1) (VS "deg"%string)) (KCunit X2) (VS "deg"%string) in tnx h = tnx h' -> read_header tnx h = read_header tnx h'.
Proof. exact default_units. Qed.
Print Assumptions C62_default_units.
(** What is read has the projection named in the header, once with RA and once with DEC. *)
Theorem C62_projection_named : forall tnx h w, read_header tnx h = Ok w ->
  exists t, (h (KCtype X1) = Some (VS ("RA---" ++ t)) /\ h (KCtype X2) = Some (VS ("DEC--" ++ t)) \/ h (KCtype X1) = Some (VS ("DEC--" ++ t)) /\ h (KCtype X2) = Some (VS ("RA---" ++ t)))%string /\ In (t, f_proj w) kinds.
Proof. exact read_kind. Qed.
Print Assumptions C62_projection_named.
Example C62_named_ex : forall tnx, absent (tpv_head 2 3) (KCunit X1) /\ exists w, read_header tnx (tpv_head 2 3) = Ok w.
Proof. intro tnx. split; [reflexivity|]. destruct (read_tpv_head tnx 2 3 ltac:(lra) ltac:(lra)) as (d & RD & _). eexists. exact RD. Qed.
(** Inversion: where it does not raise, the answer is mapped to within the second-order term of the last step, of
    length at most 2e-12, from the point asked for. [bend] bounds the second derivatives. *)
Theorem C62_inversion : forall n u v ab abp x y B, square n (fst ab) -> square n (snd ab) -> invert_ab u v ab abp = Ok (x, y) ->
  (forall x0 y0, Rabs (x - x0) <= 2 / 10 ^ 12 -> Rabs (y - y0) <= 2 / 10 ^ 12 -> warp_det n ab (x0, y0) <> 0) -> Rabs x + 2 / 10 ^ 12 <= B -> Rabs y + 2 / 10 ^ 12 <= B ->
  Rabs (fst (warp n ab (x, y)) - u) <= bend n (low n (coef (fst ab))) B * (2 / 10 ^ 12 * (2 / 10 ^ 12)) / 2 /\
  Rabs (snd (warp n ab (x, y)) - v) <= bend n (low n (coef (snd ab))) B * (2 / 10 ^ 12 * (2 / 10 ^ 12)) / 2.
Proof.
  intros n u v ab abp x y B S1 S2 E D BX BY. destruct (inverts n u v ab abp x y S1 S2 E) as (x0 & y0 & X & Y & K). apply K; [apply D; assumption|assumption|assumption].
Qed.
Print Assumptions C62_inversion.
(** For linear distortions the answer is exact. *)
Theorem C62_inversion_linear : forall n u v ab abp x y, (n <= 2)%nat -> square n (fst ab) -> square n (snd ab) -> invert_ab u v ab abp = Ok (x, y) ->
  (forall x0 y0, warp_det n ab (x0, y0) <> 0) -> warp n ab (x, y) = (u, v).
Proof.
  intros n u v ab abp x y N S1 S2 E D. destruct (inverts n u v ab abp x y S1 S2 E) as (x0 & y0 & X & Y & K).
  specialize (K (D x0 y0) (Rmax (Rabs x + tolerance) (Rabs y + tolerance)) (Rmax_l _ _) (Rmax_r _ _)). rewrite !no_bend in K by exact N.
  destruct K as [K1 K2]. assert (Z : forall a b, Rabs (a - b) <= 0 * (tolerance * tolerance) / 2 -> a = b).
  { intros a b H. pose proof (Rabs_pos (a - b)). assert (Q : Rabs (a - b) = 0) by lra. destruct (Req_dec (a - b) 0) as [e|e]; [lra|]. apply Rabs_no_R0 in e. contradiction. }
  rewrite (surjective_pairing (warp n ab (x, y))). f_equal; now apply Z.
Qed.
Print Assumptions C62_inversion_linear.
Definition quad : dist := ([[0; 0; 0]; [1; 0; 0]; [/ 100; 0; 0]], [[0; 1; 0]; [0; 0; 0]; [0; 0; 0]]).
Lemma fixed_fori : forall A (f : A -> A) n a, f a = a -> fori n f a = a.
Proof. intros A f n a H. induction n as [|n IH]; [reflexivity|]. rewrite fori_last, IH. exact H. Qed.
Example C62_inversion_ex : square 3 (fst quad) /\ square 3 (snd quad) /\ invert_ab (101 / 100) 2 quad (Some ([[1; 0]; [0; 0]], [[2; 0]; [0; 0]])) = Ok (1, 2) /\
  (forall x0 y0, Rabs (1 - x0) <= 2 / 10 ^ 12 -> Rabs (2 - y0) <= 2 / 10 ^ 12 -> warp_det 3 quad (x0, y0) <> 0).
Proof.
  assert (SA : square 3 (fst quad)) by (split; [reflexivity|repeat constructor]). assert (SB : square 3 (snd quad)) by (split; [reflexivity|repeat constructor]).
  split; [exact SA|]. split; [exact SB|]. split.
  - unfold invert_ab. 
    assert (F : newton_step (101 / 100) 2 quad (NT 1 2 0 0) = NT 1 2 0 0).
    { unfold newton_step. cbn [n_x n_y n_dx n_dy].
      assert (H1 : horner2d_at 1 2 (fst quad) true = 101 / 100) by (unfold horner2d_at, polyval, quad; cbn; field).
      assert (H2 : horner2d_at 1 2 (snd quad) true = 2) by (unfold horner2d_at, polyval, quad; cbn; field).
      rewrite H1, H2. f_equal; unfold Rdiv; ring. }
    assert (H1 : horner2d_at (101 / 100) 2 [[1; 0]; [0; 0]] false = 1) by (unfold horner2d_at, polyval; cbn; field).
    assert (H2 : horner2d_at (101 / 100) 2 [[2; 0]; [0; 0]] false = 2) by (unfold horner2d_at, polyval; cbn; field).
    cbn [fst snd]. rewrite H1, H2, fixed_fori by exact F. cbn [n_x n_y n_dx n_dy]. rewrite Rabs_R0, Rmax_left by lra.
    destruct (Rltb_spec tolerance 0) as [l|l]; [unfold tolerance in l; lra|reflexivity].
  - intros x0 y0 X _. unfold warp_det. cbv zeta. rewrite !slope_x_val, !slope_y_val. unfold surf_x, surf_y, sumf, low, coef, quad. cbn [fst snd seq map fold_right Nat.ltb Nat.leb Nat.add nth dpow pow INR].
    apply Rabs_le_between in X. assert (0 < x0) by lra. lra.
Qed.

(** * C107: headers written and read back *)
Theorem C107_plain : forall tnx w h, In (f_type w) ["TAN"; "STG"; "ZEA"; "ARC"]%string -> latitude (cdec (f_center w)) -> f_pv w = None -> f_ab w = None -> f_abp w = None ->
  h (KPv X1 1) = None -> read_header tnx (write_header w h) = Ok w.
Proof. exact plain_round_trip. Qed.
Print Assumptions C107_plain.
Theorem C107_sip : forall tnx w h ab n, In (f_type w) ["TAN-SIP"; "STG-SIP"; "ZEA-SIP"; "ARC-SIP"]%string -> latitude (cdec (f_center w)) ->
  f_pv w = None -> f_ab w = Some ab -> (2 <= n)%nat -> square n (fst ab) -> square n (snd ab) ->
  match f_abp w with Some abp => exists m, (2 <= m)%nat /\ square m (fst abp) /\ square m (snd abp) | None => h (KOrder SAP) = None end ->
  (forall s i j, h (KSip s i j) = None) -> read_header tnx (write_header w h) = Ok w.
Proof. intros tnx w h ab n T L P A N S1 S2 Q F. exact (sip_round_trip tnx w h ab T L P A (ex_intro _ n (conj N (conj S1 S2))) Q F). Qed.
Print Assumptions C107_sip.
Example C107_sip_ex : let w := FW "TAN-SIP" (3, 4) (Mat 0 1 2 0) (mkC 1 1) None (Some quad) None in
  In (f_type w) ["TAN-SIP"; "STG-SIP"; "ZEA-SIP"; "ARC-SIP"]%string /\ latitude (cdec (f_center w)) /\ square 3 (fst quad) /\ square 3 (snd quad).
Proof. cbn [f_type f_center cdec]. unfold latitude. pose proof PI_4. pose proof PI2_1. repeat split; try (left; reflexivity); try (repeat constructor; fail); lra. Qed.
(** TPV: the full statement is that the same sky positions come back for all coefficients; what stands in the way is in
    C61. *)
Theorem C107_tpv_partial : forall tnx w h n d a b, f_type w = "TPV"%string -> latitude (cdec (f_center w)) -> f_pv w = Some (a, b) -> f_ab w = None -> f_abp w = None ->
  (n <= 8)%nat -> square n a -> square n b -> (forall x k, h (KPv x k) = None) ->
  (forall i j, (d < i + j)%nat -> low n (coef a) i j = 0 /\ low n (coef b) i j = 0) ->
  (exists j, (j <= d)%nat /\ (d <= 2 * j + 1)%nat /\ (low n (coef a) (d - j)%nat j <> 0 \/ low n (coef b) j (d - j)%nat <> 0)) ->
  (exists i j, low n (coef a) i j <> 0) -> (exists i j, low n (coef b) i j <> 0) ->
  exists w', read_header tnx (write_header w h) = Ok w' /\ forall p, f_uv w' p = f_uv w p /\ f_radec w' p = f_radec w p.
Proof. intros tnx w h n d a b T L P A Q N SA SB F H1 H2 H3 H4. exact (tpv_header_round_trip tnx w h n d a b T L P A Q N SA SB F (conj H1 (conj H2 (conj H3 H4)))). Qed.
Print Assumptions C107_tpv_partial.
(** Writing over a header that has PV keys does not remove them, and the system read is another one. *)
Theorem C107_stale_refuted : forall tnx, exists w h w', In (f_type w) ["TAN"; "STG"; "ZEA"; "ARC"]%string /\ latitude (cdec (f_center w)) /\ f_pv w = None /\ f_ab w = None /\ f_abp w = None /\
  read_header tnx (write_header w h) = Ok w' /\ f_uv w' (1, 0) <> f_uv w (1, 0).
Proof.
  intro tnx. destruct (stale_keys tnx) as (w' & RW & N). exists tan0, stale, w'. split; [left; reflexivity|]. split; [unfold latitude, tan0; cbn [f_center cdec]; pose proof PI_RGT_0; lra|]. auto.
Qed.
Print Assumptions C107_stale_refuted.

(** * C108: the local Jacobian *)
(** Along any path over the image the point on the sky moves with the velocity the Jacobian gives: u = -east, v = north,
    in arcsec. *)
Theorem C108_local : forall w (x y : R -> R) t dx dy,
  match f_pv w with Some d => exists n, triangular n (fst d) /\ triangular n (snd d) | None => True end ->
  match f_ab w with Some d => exists n, triangular n (fst d) /\ triangular n (snd d) | None => True end ->
  is_derive x t dx -> is_derive y t dy ->
  let uv := f_uv w (x t, y t) in plane_ok (f_proj w) (fst uv * fst uv + snd uv * snd uv) -> cos (snd (f_radec w (x t, y t))) <> 0 ->
  let J := f_local w (x t, y t) in
  moves (fun s => f_radec w (x s, y s)) t (- (m00 J * dx + m01 J * dy) * arcsec) ((m10 J * dx + m11 J * dy) * arcsec).
Proof. exact local_is_derivative. Qed.
Print Assumptions C108_local.
Example C108_ex : triangular 3 (fst quad) /\ triangular 3 (snd quad) /\ is_derive (fun s => 2 * s + 1) 5 2 /\ plane_ok Stereographic 9 /\ cos 0 <> 0.
Proof.
  assert (T : forall m, square 3 m -> (forall i j, (i < 3)%nat -> (j < 3)%nat -> (3 <= i + j)%nat -> coef m i j = 0) -> triangular 3 m).
  { intros m [L F] H. split; [split; assumption|]. intros i j K. destruct (Nat.lt_ge_cases i 3) as [a|a]; [destruct (Nat.lt_ge_cases j 3) as [b|b]; [now apply H|]|].
    - unfold coef. apply nth_overflow. rewrite (square_row 3 m i (conj L F) a). exact b.
    - unfold coef. rewrite (nth_overflow m) by lia. destruct j; reflexivity. }
  split; [|split; [|split; [|split; [exact I|rewrite cos_0; lra]]]].
  - apply T; [split; [reflexivity|repeat constructor]|]. intros i j Hi Hj K. unfold coef, quad. do 3 (destruct i as [|i]; [do 3 (destruct j as [|j]; [try lia; reflexivity|]); lia|]). lia.
  - apply T; [split; [reflexivity|repeat constructor]|]. intros i j Hi Hj K. unfold coef, quad. do 3 (destruct i as [|i]; [do 3 (destruct j as [|j]; [try lia; reflexivity|]); lia|]). lia.
  - auto_derive; [exact I|ring].
Qed.

(** * C109: linear headers *)
(** CRPIX, CRVAL and CD or CDELT mean what the standard says, whatever class is returned. *)
Theorem C109_linear_partial : forall h, (h "CTYPE1" = Some (HS "LINEAR") \/ h "CTYPE1" = None /\ h "CDELT1" <> None)%string -> (forall k, In k linear_keys -> numeric h k) ->
  (h "CD1_1" = None \/ forall k, In k ["CD1_1"; "CD1_2"; "CD2_1"; "CD2_2"] -> h k <> None)%string -> (forall k, In k ["PC1_1"; "PC1_2"; "PC2_1"; "PC2_2"]%string -> h k = None) ->
  exists w, fits_linear h = Some (Ok w) /\ forall p, posToWorld w p = std_point h p.
Proof. exact linear_ok. Qed.
Print Assumptions C109_linear_partial.
Example C109_ex : let h := lset (lset (lset lempty "CDELT1" (HR 2)) "CRPIX1" (HZ 3)) "CRVAL2" (HR 5) in
  h "CTYPE1"%string = None /\ h "CDELT1"%string <> None /\ (forall k, In k linear_keys -> numeric h k) /\ h "CD1_1"%string = None /\ (forall k, In k ["PC1_1"; "PC1_2"; "PC2_1"; "PC2_2"]%string -> h k = None).
Proof.
  cbv zeta. split; [reflexivity|]. split; [discriminate|]. split; [|split; [reflexivity|]]; intros k K; cbn [In linear_keys] in K.
  - repeat (destruct K as [<-|K]; [exact I|]). destruct K.
  - repeat (destruct K as [<-|K]; [reflexivity|]). destruct K.
Qed.
(** The classes chosen for scaled headers are the same map. *)
Theorem C109_simplify : forall m o wo p, posToWorld (simplify (WAff m o wo)) p = posToWorld (WAff m o wo) p.
Proof. intros. rewrite simplify_world. unfold posToWorld, l_u, l_v, mapp, vadd, vsub, local_wcs, origin, world_origin. reflexivity. Qed.
Print Assumptions C109_simplify.
(** PC keys are ignored; *)
Theorem C109_pc_refuted : exists h, h "CTYPE1"%string = Some (HS "LINEAR"%string) /\ h "CD1_1"%string = None /\ (forall k, In k linear_keys -> numeric h k) /\
  exists w, fits_linear h = Some (Ok w) /\ posToWorld w (0, 1) <> std_point h (0, 1).
Proof. exact linear_pc. Qed.
Print Assumptions C109_pc_refuted.
(** so is a CD matrix in a header without CTYPE1. *)
Theorem C109_cd_refuted : exists h, h "CTYPE1"%string = None /\ (forall k, In k linear_keys -> numeric h k) /\ (forall k, In k ["PC1_1"; "PC1_2"; "PC2_1"; "PC2_2"]%string -> h k = None) /\
  (forall k, In k ["CD1_1"; "CD1_2"; "CD2_1"; "CD2_2"]%string -> h k <> None) /\ exists w, fits_linear h = Some (Ok w) /\ posToWorld w (1, 0) <> std_point h (1, 0).
Proof. exact linear_no_type. Qed.
Print Assumptions C109_cd_refuted.

(** * C110: TNX surfaces *)
Theorem C110_tnx_partial : forall c1 P1 c2 P2 xa xb ya yb p xa' xb' ya' yb' p', (c1 = 1%Z /\ P1 = cheb \/ c1 = 2%Z /\ P1 = leg) -> (c2 = 1%Z /\ P2 = cheb \/ c2 = 2%Z /\ P2 = leg) ->
  xa <> xb -> ya <> yb -> xa' <> xb' -> ya' <> yb' ->
  exists d, tnx_dist (parse_tnx c1 xa xb ya yb p) (parse_tnx c2 xa' xb' ya' yb' p') = Ok d /\
    forall x y, apply_ab (x, y) d = (x + tnx_surface P1 xa xb ya yb p x y, y + tnx_surface P2 xa' xb' ya' yb' p' x y).
Proof. exact tnx_value. Qed.
Print Assumptions C110_tnx_partial.
Example C110_ex : cheb 3 2 = 26 /\ leg 2 3 = 13 /\ tnx_surface cheb 0 2 0 4 [0; 0; 1; 0; 5] 3 1 = 7 + 5 * (- / 2).
Proof. unfold tnx_surface, sumf, cheb, leg, normal. cbn. repeat split; field. Qed.
(** The third surface type of the format, plain polynomials, is refused with a TypeError. *)
Theorem C110_polynomial_refuted : forall xa xb ya yb p q, tnx_dist (parse_tnx 3 xa xb ya yb p) q = Err TypeError.
Proof. intros. apply tnx_code3. lia. Qed.
Print Assumptions C110_polynomial_refuted.

(** * C111: the world axes in the other order *)
(** Shown without TPV and TNX, for which see [C111_tpv_refuted]. *)
Theorem C111_axes_partial : forall tnx h w, read_header tnx h = Ok w -> f_pv w = None -> four KCd (given h) -> (absent h (KCunit X1) -> absent h (KCunit X2)) -> (forall a k, absent h (KPv a k)) ->
  read_header tnx (exchanged h) = Ok w.
Proof. exact axes_exchanged. Qed.
Print Assumptions C111_axes_partial.
Example C111_ex : forall tnx, read_header tnx (write_header tan1 empty) = Ok tan1 /\ four KCd (given (write_header tan1 empty)) /\ (forall a k, absent (write_header tan1 empty) (KPv a k)) /\
  given (exchanged (write_header tan1 empty)) (KCd X1 X1) /\ number (exchanged (write_header tan1 empty)) (KCd X1 X1) 0 = 2.
Proof.
  intro tnx. split; [apply plain_round_trip; try reflexivity; [left; reflexivity|unfold latitude, tan1; cbn [f_center cdec]; pose proof PI_RGT_0; lra]|]. split; [repeat split|]. split; [|split; reflexivity].
  intros a k. reflexivity.
Qed.
(** PV1 is taken to go with the right ascension also where that is the second axis: the header and its exchanged form
    are read as different systems. *)
Theorem C111_tpv_refuted : forall tnx, exists h w w', read_header tnx h = Ok w /\ read_header tnx (exchanged h) = Ok w' /\ f_uv w (1, 0) <> f_uv w' (1, 0).
Proof.
  intro tnx. destruct (read_tpv_head tnx 2 1 ltac:(lra) ltac:(lra)) as (d & RD & V). destruct (read_tpv_head_exchanged tnx 2 1 ltac:(lra) ltac:(lra)) as (d' & RD' & V').
  eexists _, _, _. split; [exact RD|]. split; [exact RD'|]. unfold f_uv, apply_opt. cbn [f_crpix f_cd f_pv f_ab]. cbv zeta.
  replace (mapp (Mat 1 0 0 1) (vsub (1, 0) (0, 0))) with (1, 0) by (unfold mapp, vsub; cbn [fst snd m00 m01 m10 m11]; f_equal; ring). rewrite V, V'. cbn [fst snd]. intro E. apply (f_equal fst) in E. cbn [fst] in E.
  pose proof degrees_pos. unfold radians in E. lra.
Qed.
Print Assumptions C111_tpv_refuted.

(** * C112: what distortion coefficients mean *)
(** SIP: u = x + sum of A_i_j x^i y^j over i + j <= A_ORDER, v = y + the same with B; likewise for AP, BP. *)
Theorem C112_sip : forall h a b na nb, h (KOrder a) = Some (VZ na) -> h (KOrder b) = Some (VZ nb) -> (1 <= Nat.max na nb)%nat ->
  (forall s i j, absent h (KSip s i j) \/ given h (KSip s i j)) -> (forall i j, (na < i + j)%nat -> number h (KSip a i j) 0 = 0) -> (forall i j, (nb < i + j)%nat -> number h (KSip b i j) 0 = 0) ->
  exists d, read_sip_pair h a b = Ok d /\ forall x y, apply_ab (x, y) d = (x + sip_sum na (fun i j => number h (KSip a i j) 0) x y, y + sip_sum nb (fun i j => number h (KSip b i j) 0) x y).
Proof. exact sip_read. Qed.
Print Assumptions C112_sip.
Theorem C112_sip_pairs : forall h ab abp, read_sip h = Ok (ab, abp) -> read_sip_pair h SA SB = Ok ab /\
  match abp with Some d => read_sip_pair h SAP SBP = Ok d /\ h (KOrder SAP) <> None | None => h (KOrder SAP) = None end.
Proof.
  intros h ab abp. unfold read_sip. destruct (read_sip_pair h SA SB) as [d|e]; cbn [bind]; [|discriminate]. unfold has. destruct (h (KOrder SAP)) as [v|].
  - destruct (read_sip_pair h SAP SBP) as [q|e]; cbn [bind]; [|discriminate]. intro H. injection H as <- <-. repeat split. discriminate.
  - intro H. injection H as <- <-. auto.
Qed.
Print Assumptions C112_sip_pairs.
Example C112_sip_ex : let h := hsets empty [(KOrder SA, VZ 2); (KOrder SB, VZ 1); (KSip SA 1 1, VR 3)] in
  h (KOrder SA) = Some (VZ 2) /\ h (KOrder SB) = Some (VZ 1) /\ sip_sum 2 (fun i j => number h (KSip SA i j) 0) 5 7 = 105.
Proof. cbv zeta. repeat split. unfold sip_sum, sumf, number. cbn. ring. Qed.
(** TPV: the sum over the 40 terms of the convention, with x and y exchanged for the second axis. The full statement is
    that this holds for all headers; what stands in the way is C61 and the default of PV1_1 and PV2_1. *)
Theorem C112_tpv_partial : forall h d, (forall a k, absent h (KPv a k) \/ given h (KPv a k)) -> given h (KPv X1 1) -> given h (KPv X2 1) ->
  (forall a k, (k < 40)%nat -> radial k -> tpv_number h a k = 0) -> (d <= 7)%nat -> (forall a k, (k < 40)%nat -> (d < degree k)%nat -> tpv_number h a k = 0) ->
  (forall a, exists k, (k < 40)%nat /\ tpv_number h a k <> 0) ->
  (exists a k i j, (k < 40)%nat /\ nth k tpv_terms (Rad 0) = Mono i j /\ (i + j)%nat = d /\ (i <= j + 1)%nat /\ tpv_number h a k <> 0) ->
  exists dd, read_tpv h = Ok dd /\ forall x y, apply_ab (x, y) dd = (tpv_sum (tpv_number h X1) x y, tpv_sum (tpv_number h X2) y x).
Proof. exact tpv_meaning. Qed.
Print Assumptions C112_tpv_partial.
Example C112_tpv_ex : let h := tpv_head 2 3 in (forall a k, absent h (KPv a k) \/ given h (KPv a k)) /\ given h (KPv X1 1) /\ given h (KPv X2 1) /\ tpv_number h X1 1 <> 0 /\ nth 1 tpv_terms (Rad 0) = Mono 1 0.
Proof.
  cbv zeta. destruct (tpv_head_pv11 2 3) as (A & B & C0). split; [|repeat split]; [|unfold tpv_number, number; rewrite A; lra].
  intros a k. unfold absent, given. destruct (Nat.eq_dec k 1) as [->|N]; [|left; now apply C0]. right. destruct a; [rewrite A|rewrite B]; exact I.
Qed.
(** Radial terms are refused. *)
Theorem C112_radial_refused : forall h a k, (forall a k, absent h (KPv a k) \/ given h (KPv a k)) -> (k < 40)%nat -> radial k -> tpv_number h a k <> 0 -> read_tpv h = Err NotImplementedErr.
Proof. exact radial_refused. Qed.
Print Assumptions C112_radial_refused.
Example C112_radial_ex : radial 11 /\ tpv_number (hsets empty [(KPv X2 11, VR 1)]) X2 11 <> 0.
Proof. split; [exact I|]. unfold tpv_number, number. cbn. lra. Qed.
(** PV1_1 where not given is taken as 0 instead of 1. *)
Theorem C112_default_refuted : exists h dd, (forall a k, absent h (KPv a k) \/ given h (KPv a k)) /\ (forall a k, (k < 40)%nat -> radial k -> tpv_number h a k = 0) /\
  read_tpv h = Ok dd /\ (forall x y, (tpv_sum (tpv_number h X1) x y, tpv_sum (tpv_number h X2) y x) = (x + y, y)) /\ forall x y, apply_ab (x, y) dd = (y, y).
Proof. exact tpv_default. Qed.
Print Assumptions C112_default_refuted.
