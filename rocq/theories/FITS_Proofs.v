(** Positions, origins and slopes of FITS world coordinate systems. *)
From Coq Require Import ZArith Reals Bool List String Lra Lia.
From Coquelicot Require Import Coquelicot.
From Verif Require Import Base Bounds_Model Bounds_Proofs Geo_Model Geo_Proofs Angle_Model Sky_Model Sky_Spec Sky_Proofs Sky_Proj Sky_Jac Sky_Rot Sky_More Util_Model Util_Spec Util_Proofs.
From Verif Require Import FITS_Spec FITS_Model FITS_Path FITS_Poly FITS_Newton.
Import ListNotations.
Open Scope R_scope.

(** * The sky position of a point moving in the plane *)
Lemma path_open : forall p (u v : R -> R) (t du dv : R), plane_ok p (u t * u t + v t * v t) -> is_derive u t du -> is_derive v t dv ->
  locally t (fun s => plane_ok p (u s * u s + v s * v s)).
Proof.
  intros p u v t du dv H U V.
  assert (CT : continuous (fun s => u s * u s + v s * v s) t).
  { apply (ex_derive_continuous (fun s => u s * u s + v s * v s)). apply (ex_derive_plus (fun s => u s * u s) (fun s => v s * v s)).
    - apply (ex_derive_mult u u); exists du; exact U.
    - apply (ex_derive_mult v v); exists dv; exact V. }
  destruct p; cbn [plane_ok] in *.
  - apply filter_forall. trivial.
  - apply filter_forall. trivial.
  - apply (CT (fun y => y < 4)). apply (open_lt 4). exact H.
  - apply (CT (fun y => y < PI * PI)). apply (open_lt (PI * PI)). exact H.
Qed.
Theorem deproject_path : forall c p (u v : R -> R) (t du dv : R), is_derive u t du -> is_derive v t dv ->
  plane_ok p (u t * u t + v t * v t) -> cos (snd (deproject_ c p (u t) (v t))) <> 0 ->
  let J := jac_deproject_ c p (u t) (v t) in
  moves (fun s => deproject_ c p (u s) (v s)) t (- (m00 J * du + m01 J * dv)) (m10 J * du + m11 J * dv).
Proof.
  intros c p u v t du dv U V H NC J. unfold moves. pose proof (path_open p u v t du dv H U V) as OP.
  destruct (cs_path p u v t du dv H U V) as [FD GD]. cbv zeta in FD, GD.
  destruct (jac_cs_val p (u t) (v t)) as [JC [JS [DCV [DSV [FS GS]]]]]. destruct (jac_cs_val p (v t) (u t)) as [JC' [JS' _]].
  pose proof (sky_comb c p (u t) (v t) H) as P. destruct (deproject_ c p (u t) (v t)) as [ra dec] eqn:DE. cbn [snd] in NC. destruct P as [P L].
  assert (H' : plane_ok p (v t * v t + u t * u t)) by (rewrite Rplus_comm; exact H).
  pose proof (cs_orth p (u t) (v t) H) as OU. pose proof (cs_orth p (v t) (u t) H') as OV. cbv zeta in OU, OV.
  rewrite JC, JS in OU. rewrite JC', JS', <- DCV, <- DSV, <- FS, <- GS in OV. clear DCV DSV FS GS JC' JS' H'.
  unfold J, jac_deproject_. cbn [m00 m01 m10 m11 get_aux a_sindec a_cosdec]. rewrite JC, JS.
  set (j := jac_cs p (u t) (v t)) in *. set (x := csf p (v t) (u t)) in *. set (q := csg p (v t) (u t)) in *.
  set (dc := j_dcdu j * du + j_dcdv j * dv) in *. set (ds := j_dsdu j * du + j_dsdv j * dv) in *.
  intro w. apply is_derive_Reals.
  destruct (velocity c x (u t * q) (v t * q) dc (du * q + u t * ds) (dv * q + v t * ds) ra dec P L NC) as [_ VV].
  { unfold dc, ds. transitivity (du * (x * j_dcdu j + u t * q * (q + u t * j_dsdu j) + v t * q * (v t * j_dsdu j)) + dv * (x * j_dcdv j + v t * q * (q + v t * j_dsdv j) + u t * q * (u t * j_dsdv j))); [ring|]. rewrite OU, OV. ring. }
  match goal with |- is_derive _ _ (v3dot w ?e) => replace e with (comb c dc (du * q + u t * ds) (dv * q + v t * ds)) end.
  2:{ rewrite VV. unfold dc, ds, Rdiv. f_equal; f_equal; ring. }
  rewrite dot_comb.
  apply (is_derive_ext_loc (fun s => v3dot w (cT c) * csf p (v s) (u s) + (- v3dot w (cE c)) * (u s * csg p (v s) (u s)) + v3dot w (cN c) * (v s * csg p (v s) (u s)))).
  { revert OP. apply filter_imp. intros s T. pose proof (sky_comb c p (u s) (v s) T) as Q.
    destruct (deproject_ c p (u s) (v s)) as [ra' dec']. destruct Q as [Q _]. cbn [fst snd]. rewrite Q, dot_comb. reflexivity. }
  apply derive_dot; [exact FD| |].
  - apply (is_derive_mult u (fun s => csg p (v s) (u s))); [exact U|exact GD|intros; apply Rmult_comm].
  - apply (is_derive_mult v (fun s => csg p (v s) (u s))); [exact V|exact GD|intros; apply Rmult_comm].
Qed.

(** * The chain of _uv and _local *)
Definition vmoves (f : R -> vec) (t : R) (d : vec) : Prop := is_derive (fun s => fst (f s)) t (fst d) /\ is_derive (fun s => snd (f s)) t (snd d).
Lemma vm_sub : forall f t d k, vmoves f t d -> vmoves (fun s => vsub (f s) k) t d.
Proof.
  intros f t d k [A B]. split; cbn [vsub fst snd].
  - replace (fst d) with (minus (fst d) 0) by (unfold minus, plus, opp; cbn; ring). apply (is_derive_minus (fun s => fst (f s)) (fun _ => fst k)); [exact A|apply (is_derive_const (fst k))].
  - replace (snd d) with (minus (snd d) 0) by (unfold minus, plus, opp; cbn; ring). apply (is_derive_minus (fun s => snd (f s)) (fun _ => snd k)); [exact B|apply (is_derive_const (snd k))].
Qed.
Lemma vm_mapp : forall f t d m, vmoves f t d -> vmoves (fun s => mapp m (f s)) t (mapp m d).
Proof.
  intros f t d m [A B]. split; cbn [mapp fst snd].
  - apply (is_derive_plus (fun s => m00 m * fst (f s)) (fun s => m01 m * snd (f s))); [apply (is_derive_scal (fun s => fst (f s)))|apply (is_derive_scal (fun s => snd (f s)))]; assumption.
  - apply (is_derive_plus (fun s => m10 m * fst (f s)) (fun s => m11 m * snd (f s))); [apply (is_derive_scal (fun s => fst (f s)))|apply (is_derive_scal (fun s => snd (f s)))]; assumption.
Qed.
Lemma low_triangular : forall n m i j, triangular n m -> low n (coef m) i j = coef m i j.
Proof. intros n m i j [_ T]. unfold low. destruct (Nat.ltb_spec (i + j) n); [reflexivity|]. now rewrite T. Qed.
Lemma surface_low : forall n m x y, triangular n m -> surface n (low n (coef m)) x y = surface n (coef m) x y.
Proof. intros n m x y T. apply sumf_ext. intros i _. apply sumf_ext. intros j _. now rewrite low_triangular. Qed.
Definition good (d : option dist) : Prop := match d with Some d => exists n, triangular n (fst d) /\ triangular n (snd d) | None => True end.
Lemma dist_value_ok : forall n d p, triangular n (fst d) -> triangular n (snd d) -> dist_value d p = apply_ab p d.
Proof.
  intros n d p A B. pose proof A as [SA _]. pose proof B as [SB _]. rewrite (apply_ab_warp n) by assumption. unfold dist_value, warp. rewrite (proj1 SA).
  now rewrite !mdotv_value, !surface_low by assumption.
Qed.
Lemma vm_dist : forall n dd f t d, triangular n (fst dd) -> triangular n (snd dd) -> vmoves f t d ->
  vmoves (fun s => apply_ab (f s) dd) t (mapp (dist_jac dd (f t)) d).
Proof.
  intros n dd f t d A B [X Y]. pose proof A as [SA _]. pose proof B as [SB _].
  assert (E : forall s, warp n dd (f s) = apply_ab (f s) dd) by (intro; symmetry; now apply apply_ab_warp).
  unfold dist_jac. rewrite (proj1 SA), !mdotv_dx, !mdotv_dy by assumption. split; cbn [mapp fst snd m00 m01 m10 m11].
  - apply (is_derive_ext (fun s => surface n (coef (fst dd)) (fst (f s)) (snd (f s)))); [intro s; rewrite <- E; cbn [warp fst]; now rewrite surface_low|].
    apply (surface_path n (coef (fst dd)) (fun s => fst (f s)) (fun s => snd (f s))); assumption.
  - apply (is_derive_ext (fun s => surface n (coef (snd dd)) (fst (f s)) (snd (f s)))); [intro s; rewrite <- E; cbn [warp snd]; now rewrite surface_low|].
    apply (surface_path n (coef (snd dd)) (fun s => fst (f s)) (fun s => snd (f s))); assumption.
Qed.
Definition opt_jac (o : option dist) (p : vec) : mat := match o with Some d => dist_jac d p | None => mI end.
Lemma vm_opt : forall o f t d, good o -> vmoves f t d -> vmoves (fun s => apply_opt o (f s)) t (mapp (opt_jac o (f t)) d).
Proof.
  intros [dd|] f t d G H; unfold apply_opt, opt_jac.
  - destruct G as (n & A & B). now apply (vm_dist n).
  - destruct d as [d1 d2]. unfold mI. destruct H as [X Y]. cbn [fst snd] in *.
    split; cbn [mapp m00 m01 m10 m11 fst snd]; [replace (1 * d1 + 0 * d2) with d1 by ring|replace (0 * d1 + 1 * d2) with d2 by ring]; assumption.
Qed.
Definition uv_jac (w : fwcs) (p : vec) : mat :=
  let p1 := vsub p (f_crpix w) in
  let p2 := mapp (f_cd w) (apply_opt (f_ab w) p1) in
  let j := mdot (opt_jac (f_pv w) p2) (mdot (f_cd w) (opt_jac (f_ab w) p1)) in
  let k := degrees / radians in
  Mat (m00 j * - k) (m01 j * - k) (m10 j * k) (m11 j * k).
Lemma mdot_mI_r : forall m, mdot m mI = m.
Proof. intros [a b c d]. unfold mdot, mI; cbn [m00 m01 m10 m11]. apply mat_eq; ring. Qed.
Lemma mdot_mI_l : forall m, mdot mI m = m.
Proof. intros [a b c d]. unfold mdot, mI; cbn [m00 m01 m10 m11]. apply mat_eq; ring. Qed.
Lemma f_local_chain : forall w p, good (f_pv w) -> good (f_ab w) ->
  f_local w p = mscale (mdot (jac_deproject_ (f_center w) (f_proj w) (fst (f_uv w p)) (snd (f_uv w p))) (uv_jac w p)) (radians / arcsec).
Proof.
  intros w p GP GA. unfold f_local, f_uv, uv_jac. destruct (f_ab w) as [ab|], (f_pv w) as [pv|]; unfold apply_opt, opt_jac.
  - destruct GP as (n & P1 & P2), GA as (n' & A1 & A2). rewrite (dist_value_ok n' ab), (dist_value_ok n pv), mdot_mI_r by assumption. reflexivity.
  - destruct GA as (n' & A1 & A2). rewrite (dist_value_ok n') by assumption. rewrite mdot_mI_r, mdot_mI_l. reflexivity.
  - destruct GP as (n & P1 & P2). rewrite (dist_value_ok n) by assumption. reflexivity.
  - rewrite mdot_mI_r, mdot_mI_l. reflexivity.
Qed.
Lemma uv_moves : forall w f t d, good (f_pv w) -> good (f_ab w) -> vmoves f t d -> vmoves (fun s => f_uv w (f s)) t (mapp (uv_jac w (f t)) d).
Proof.
  intros w f t d GP GA H. apply (vm_sub _ _ _ (f_crpix w)) in H. apply (vm_opt (f_ab w) _ _ _ GA) in H. apply (vm_mapp _ _ _ (f_cd w)) in H. apply (vm_opt (f_pv w) _ _ _ GP) in H.
  unfold uv_jac, f_uv. set (ja := opt_jac (f_ab w) _) in *. set (jp := opt_jac (f_pv w) _) in *. destruct H as [X Y].
  set (k := degrees / radians) in *. split; cbn [fst snd].
  - cbn [mapp m00 m01 fst snd mdot]. match goal with |- is_derive _ _ ?e => replace e with (- k * fst (mapp jp (mapp (f_cd w) (mapp ja d)))) by (destruct d; cbn [mapp fst snd m00 m01 m10 m11 mdot]; ring) end.
    eapply is_derive_ext; [|apply (is_derive_scal _ t (- k) _ X)]. intro s. cbn [mapp fst snd]. apply Rmult_comm.
  - cbn [mapp m10 m11 fst snd mdot]. match goal with |- is_derive _ _ ?e => replace e with (k * snd (mapp jp (mapp (f_cd w) (mapp ja d)))) by (destruct d; cbn [mapp fst snd m00 m01 m10 m11 mdot]; ring) end.
    eapply is_derive_ext; [|apply (is_derive_scal _ t k _ Y)]. intro s. cbn [mapp fst snd]. apply Rmult_comm.
Qed.
Lemma arcsec_pos : 0 < arcsec. Proof. unfold arcsec. pose proof PI_RGT_0. lra. Qed.
Lemma degrees_pos : 0 < degrees. Proof. unfold degrees. pose proof PI_RGT_0. lra. Qed.
Theorem local_is_derivative : forall w x y (t dx dy : R), good (f_pv w) -> good (f_ab w) -> is_derive x t dx -> is_derive y t dy ->
  let uv := f_uv w (x t, y t) in plane_ok (f_proj w) (fst uv * fst uv + snd uv * snd uv) -> cos (snd (f_radec w (x t, y t))) <> 0 ->
  let J := f_local w (x t, y t) in
  moves (fun s => f_radec w (x s, y s)) t (- (m00 J * dx + m01 J * dy) * arcsec) ((m10 J * dx + m11 J * dy) * arcsec).
Proof.
  intros w x y t dx dy GP GA X Y uv H NC J.
  destruct (uv_moves w (fun s => (x s, y s)) t (dx, dy) GP GA (conj X Y)) as [U V].
  pose proof (deproject_path (f_center w) (f_proj w) _ _ t _ _ U V H NC) as D. cbv zeta beta in D. unfold J. rewrite f_local_chain by assumption. cbv zeta beta in D |- *. fold uv in D |- *.
  set (j := jac_deproject_ (f_center w) (f_proj w) (fst uv) (snd uv)) in *. set (k := uv_jac w (x t, y t)) in *. pose proof arcsec_pos as P.
  cbn [mscale m00 m01 m10 m11 mdot]. cbn [mapp fst snd] in D.
  match goal with |- moves _ _ ?a ?b => match type of D with moves _ _ ?a' ?b' => replace a with a' by (unfold radians; field; lra); replace b with b' by (unfold radians; field; lra) end end. exact D.
Qed.

(** * Origin, and there and back *)
Lemma vsub_vadd : forall a b, vsub (vadd a b) b = a.
Proof. intros [a b] [c d]. unfold vsub, vadd; cbn [fst snd]. f_equal; ring. Qed.
Lemma shift_uv : forall w o p, f_uv (f_shift w o) (vadd p o) = f_uv w p.
Proof.
  intros w o p. unfold f_uv, f_shift, new_origin. cbn [f_crpix f_ab f_cd f_pv].
  replace (vsub (vadd p o) (vadd (f_crpix w) (vadd o (0, 0)))) with (vsub p (f_crpix w)) by (destruct p, o, (f_crpix w); unfold vsub, vadd; cbn [fst snd]; f_equal; ring). reflexivity.
Qed.
Lemma shift_radec : forall w o p, f_radec (f_shift w o) (vadd p o) = f_radec w p.
Proof. intros. unfold f_radec. rewrite shift_uv. reflexivity. Qed.
Lemma shift_local : forall w o p, f_local (f_shift w o) (vadd p o) = f_local w p.
Proof.
  intros w o p. unfold f_local, f_shift, new_origin, f_proj. cbn [f_crpix f_ab f_cd f_pv f_center f_type].
  replace (vsub (vadd p o) (vadd (f_crpix w) (vadd o (0, 0)))) with (vsub p (f_crpix w)) by (destruct p, o, (f_crpix w); unfold vsub, vadd; cbn [fst snd]; f_equal; ring). reflexivity.
Qed.
Lemma shift_xy : forall w o ra dec p, f_xy w ra dec = Ok p -> f_xy (f_shift w o) ra dec = Ok (vadd p o).
Proof.
  intros w o ra dec p. unfold f_xy, f_shift, new_origin, f_proj. cbn [f_crpix f_ab f_cd f_pv f_center f_type f_abp].
  destruct (project_ _ _ _ _ _ _) as [u v]. destruct (match f_pv w with Some _ => _ | None => _ end) as [q|e]; cbn [bind]; [|discriminate].
  destruct (match f_ab w with Some _ => _ | None => _ end) as [q'|e]; cbn [bind]; [|discriminate]. intro H. injection H as <-. f_equal.
  destruct q', o, (f_crpix w). unfold vadd; cbn [fst snd]. f_equal; ring.
Qed.
Lemma shift_xy_err : forall w o ra dec e, f_xy w ra dec = Err e -> f_xy (f_shift w o) ra dec = Err e.
Proof.
  intros w o ra dec e. unfold f_xy, f_shift, new_origin, f_proj. cbn [f_crpix f_ab f_cd f_pv f_center f_type f_abp].
  destruct (project_ _ _ _ _ _ _) as [u v]. destruct (match f_pv w with Some _ => _ | None => _ end) as [q|e']; cbn [bind]; [|auto].
  destruct (match f_ab w with Some _ => _ | None => _ end) as [q'|e']; cbn [bind]; [discriminate|auto].
Qed.
Lemma pixel_sky_pixel : forall w p, f_pv w = None -> f_ab w = None -> mdet (f_cd w) <> 0 ->
  let uv := f_uv w p in plane_ok (f_proj w) (fst uv * fst uv + snd uv * snd uv) ->
  f_xy w (fst (f_radec w p)) (snd (f_radec w p)) = Ok p.
Proof.
  intros w p NP NA D uv H. unfold f_xy, f_radec. fold uv. pose proof (project_deproject (f_center w) (f_proj w) (fst uv) (snd uv) H) as Q.
  destruct (deproject_ _ _ _ _) as [ra dec]. cbn [fst snd]. rewrite Q, NP, NA. cbn [bind]. f_equal.
  unfold uv, f_uv. rewrite NP, NA. unfold apply_opt. cbn [fst snd]. pose proof degrees_pos as DP.
  set (q := mapp (f_cd w) (vsub p (f_crpix w))).
  replace (fst q * - (degrees / radians) * - (radians / degrees), snd q * (degrees / radians) * (radians / degrees)) with q
    by (destruct q; cbn [fst snd]; unfold radians; f_equal; field; lra).
  unfold q. rewrite minv_l by exact D. destruct p, (f_crpix w). unfold vadd, vsub; cbn [fst snd]. f_equal; ring.
Qed.
Lemma sky_pixel_sky : forall w ra dec, f_pv w = None -> f_ab w = None -> mdet (f_cd w) <> 0 ->
  sky_ok (f_proj w) (v3dot (sky ra dec) (at_ (f_center w))) ->
  exists p, f_xy w ra dec = Ok p /\ latitude (snd (f_radec w p)) /\ sky (fst (f_radec w p)) (snd (f_radec w p)) = sky ra dec.
Proof.
  intros w ra dec NP NA D H. pose proof (deproject_project (f_center w) (f_proj w) ra dec H) as Q. unfold f_xy. rewrite NP, NA.
  destruct (project_ _ _ _ _ _ _) as [u v]. cbn [bind]. eexists. split; [reflexivity|].
  unfold f_radec, f_uv. rewrite NP, NA. unfold apply_opt. rewrite vsub_vadd, minv_r by exact D. cbn [fst snd]. pose proof degrees_pos as DP.
  replace (u * - (radians / degrees) * - (degrees / radians)) with u by (unfold radians; field; lra).
  replace (v * (radians / degrees) * (degrees / radians)) with v by (unfold radians; field; lra).
  destruct (deproject_ _ _ u v) as [ra' dec']. cbn [fst snd]. exact Q.
Qed.

(** * TanWCS *)
Lemma tan_uv : forall m o wo c units p, mdet m <> 0 -> units <> 0 ->
  f_uv (tan_wcs m o wo c units) p = (units * (fst (mapp m (vsub p o)) - fst wo), units * (snd (mapp m (vsub p o)) + snd wo)).
Proof.
  intros m o wo c units p D U. pose proof degrees_pos as DP. unfold f_uv, tan_wcs. cbn [f_crpix f_ab f_cd f_pv apply_opt].
  set (k := units / degrees). set (cd := Mat (- (m00 m * k)) (- (m01 m * k)) (m10 m * k) (m11 m * k)).
  assert (K : k <> 0) by (unfold k, Rdiv; apply Rmult_integral_contrapositive_currified; [exact U|apply Rinv_neq_0_compat; lra]).
  assert (DC : mdet cd <> 0).
  { unfold mdet, cd in *; cbn [m00 m01 m10 m11]. replace (- (m00 m * k) * (m11 m * k) - - (m01 m * k) * (m10 m * k)) with (- (k * k * (m00 m * m11 m - m01 m * m10 m))) by ring.
    apply Ropp_neq_0_compat. apply Rmult_integral_contrapositive_currified; [apply Rmult_integral_contrapositive_currified; exact K|exact D]. }
  pose proof (minv_r cd (fst wo * k, snd wo * k) DC) as I. set (q := mapp (minv cd) (fst wo * k, snd wo * k)) in *.
  assert (E : mapp cd (vsub p (vsub o q)) = vadd (mapp cd (vsub p o)) (mapp cd q)) by (unfold mapp, vsub, vadd; cbn [fst snd]; f_equal; ring).
  rewrite E, I. unfold vadd, mapp, cd, vsub, k, radians. cbn [fst snd m00 m01 m10 m11]. f_equal; field; lra.
Qed.
