(** Sequences of operations, drawing, fluxes and symmetry of profile trees. *)
From Coq Require Import Reals Bool List Lra Lia Psatz.
From Coquelicot Require Import Complex.
From Verif Require Import Base Bounds_Model Bounds_Proofs Geo_Model Geo_Proofs GSP_Model Shear_Model Shear_Proofs Prof_Model Prof_Spec Prof_Proofs.
Import ListNotations.
Open Scope R_scope.

(** * Sequences of operations *)
Lemma moves_affine : forall F o, sensible F o -> exists J off, forall x, moves o x = vadd (mapp J x) off.
Proof.
  intros F o S0. destruct (op_parts F o) as [[J off] fr] eqn:E. exists J, off. intros x. eapply op_parts_moves; eauto.
Qed.
Lemma path_affine : forall ops F, all_sensible F ops -> exists J off, forall x, path ops x = vadd (mapp J x) off.
Proof.
  induction ops as [|o t IH]; intros F S0.
  - exists mI, (0, 0). intros x. rewrite mapp_I. unfold path, vadd. cbn [fold_left fst snd]. destruct x. cbn [fst snd]. f_equal; ring.
  - destruct S0 as [S1 S2]. destruct (moves_affine F o S1) as (J1 & d1 & M). destruct (IH _ S2) as (J2 & d2 & P).
    exists (mdot J2 J1), (vadd (mapp J2 d1) d2). intros x. unfold path in *. cbn [fold_left]. rewrite P, M, mapp_vadd, mapp_mdot.
    unfold vadd. cbn [fst snd]. f_equal; ring.
Qed.
Lemma adjoint_linear : forall M J off k k', (forall x, M x = vadd (mapp J x) off) -> (adjoint M k k' <-> k' = mapp (mT J) k).
Proof.
  intros M J off k k' HM. split.
  - intros Ad. pose proof (Ad (1, 0)) as A1. pose proof (Ad (0, 1)) as A2. rewrite !HM in A1, A2. unfold vadd, mapp in A1, A2. cbn [fst snd] in A1, A2.
    destruct k' as [a b]. unfold mapp, mT. cbn [fst snd m00 m01 m10 m11] in *. f_equal; lra.
  - intros -> x. rewrite !HM. unfold vadd, mapp, mT. cbn [fst snd m00 m01 m10 m11]. ring.
Qed.

Lemma apply_list : forall ops p, nonsingular p -> flux_linear p -> all_sensible (flux p) ops ->
  let q := fold_left apply ops p in
  (forall x, xValue q (path ops x) = scale_res (fst (effect (flux p) ops)) (xValue p x)) /\
  (exists c, flux q = c * flux p /\ (forall k k', adjoint (path ops) k k' ->
     kValue q k = Cmult (Cmult (RtoC c) (expi (- (fst k * fst (path ops (0, 0)) + snd k * snd (path ops (0, 0)))))) (kValue p k'))) /\
  flux q = snd (effect (flux p) ops) /\ centroid q = path ops (centroid p).
Proof.
  induction ops as [|o t IH]; intros p N L S0; cbn [fold_left]; cbv zeta.
  - cbn [effect fst snd]. split; [intros; rewrite scale_1; reflexivity|]. split; [|split; reflexivity].
    exists 1. split; [ring|]. intros k k' Ad.
    assert (Ek : k' = k). { pose proof (Ad (1, 0)) as A1. pose proof (Ad (0, 1)) as A2. cbn [path fold_left fst snd] in A1, A2. destruct k, k'. cbn [fst snd] in *. f_equal; lra. }
    rewrite Ek. cbn [path fold_left fst snd]. rewrite !Rmult_0_r, Rplus_0_r, Ropp_0, expi_0. ring.
  - destruct S0 as [S1 S2]. destruct (apply_props p o N L S1) as (X & K & F & Ce & N2 & L2).
    rewrite <- F in S2. destruct (IH (apply p o) N2 L2 S2) as (X' & (c & F' & K') & F'' & C').
    cbv zeta in *. split; [|split; [|split]].
    + intros x. change (path (o :: t) x) with (path t (moves o x)). rewrite X', X, scale_scale. f_equal. cbn [effect]. rewrite <- F.
      destruct (effect (flux (apply p o)) t). cbn [fst]. ring.
    + exists (c * (brightens (flux p) o * magnifies o)). split.
      * rewrite F', F. ring.
      * intros k k' Ad. destruct (moves_affine (flux p) o S1) as (J1 & d1 & M1). destruct (path_affine t _ S2) as (J2 & d2 & P2).
        assert (PT : forall x, path (o :: t) x = vadd (mapp (mdot J2 J1) x) (vadd (mapp J2 d1) d2)).
        { intros x. change (path (o :: t) x) with (path t (moves o x)). rewrite P2, M1, mapp_vadd, mapp_mdot. unfold vadd. cbn [fst snd]. f_equal; ring. }
        apply (adjoint_linear _ _ _ _ _ PT) in Ad. rewrite mT_mdot, mapp_mdot in Ad.
        rewrite (K' k (mapp (mT J2) k)) by (apply (adjoint_linear _ _ _ _ _ P2); reflexivity).
        rewrite (K (mapp (mT J2) k) k') by (apply (adjoint_linear _ _ _ _ _ M1); auto).
        rewrite PT, P2, M1.
        set (a1 := expi (- (fst k * fst (vadd (mapp J2 (0, 0)) d2) + snd k * snd (vadd (mapp J2 (0, 0)) d2)))).
        set (a2 := expi (- (fst (mapp (mT J2) k) * fst (vadd (mapp J1 (0, 0)) d1) + snd (mapp (mT J2) k) * snd (vadd (mapp J1 (0, 0)) d1)))).
        match goal with |- _ = Cmult (Cmult _ ?e) _ => assert (E : e = Cmult a1 a2) end.
        { unfold a1, a2. rewrite expi_add. f_equal. unfold vadd, mapp, mT, mdot. cbn [fst snd m00 m01 m10 m11]. ring. }
        rewrite E, !RtoC_mult. ring.
    + rewrite F''. cbn [effect]. rewrite <- F. destruct (effect (flux (apply p o)) t). reflexivity.
    + rewrite C', Ce. reflexivity.
Qed.

(** * Drawing *)
Lemma exp_ln_abs : forall d, d <> 0 -> exp (ln (Rabs d)) = Rabs d.
Proof. intros d H. apply exp_ln. apply Rabs_pos_lt. auto. Qed.
Lemma mdet_eye : forall j, (match j with None => True | Some J => mdet J <> 0 end) -> mdet (jac_or_eye j) <> 0.
Proof. intros [J|] H; cbn; auto. rewrite mdet_I. lra. Qed.
Lemma sumres_scale : forall a l, sumres (map (scale_res a) l) = scale_res a (sumres l).
Proof.
  intros a l. induction l as [|[v|e] l IH]; cbn [map sumres scale_res bind]; auto.
  - rewrite Rmult_0_r. reflexivity.
  - rewrite IH. destruct (sumres l); cbn [scale_res bind]; auto. f_equal. ring.
Qed.
Lemma drawReal_spec : forall p scale jac off fs x, nonsingular p -> (match jac with None => True | Some J => mdet J <> 0 end) ->
  drawReal p scale jac off fs x =
  scale_res (fs * scale ^ 2 / Rabs (mdet (jac_or_eye jac))) (xValue p (mapp (minv (jac_or_eye jac)) (vsub x off))).
Proof.
  intros p. induction p as [own fam fl g|o J toff fr g pg IH|l g pg IH|l g pg IH|o g pg IH] using prof_ind2; intros scale jac off fs x N D; cbn [drawReal xValue]; try reflexivity.
  - unfold draw_by_x. pose proof (mdet_eye jac D) as D'. rewrite mdet_minv by auto. rewrite scale_res_ok.
    rewrite exp_ln_abs by (apply Rinv_neq_0_compat; auto). rewrite Rabs_inv. reflexivity.
  - destruct N as [N1 N2]. cbn in N1. pose proof (mdet_eye jac D) as D'.
    assert (EJ : match jac with None => J | Some j => mdot j J end = mdot (jac_or_eye jac) J) by (destruct jac; cbn; auto; rewrite mdot_I_l; auto).
    assert (EO : match jac with Some j => vadd off (mapp j toff) | None => vadd off toff end = vadd off (mapp (jac_or_eye jac) toff)) by (destruct jac; cbn; auto; rewrite mapp_I; auto).
    rewrite EJ, EO. rewrite IH; auto. 2:{ rewrite mdet_mdot. apply Rmult_integral_contrapositive_currified; auto. }
    cbn [jac_or_eye]. rewrite mapp_minv_mdot by auto.
    assert (E : mapp (minv (jac_or_eye jac)) (vsub x (vadd off (mapp (jac_or_eye jac) toff))) = vsub (mapp (minv (jac_or_eye jac)) (vsub x off)) toff).
    { rewrite <- vsub_vadd, mapp_vsub, minv_l by auto. reflexivity. }
    rewrite E, <- scale_res_ok, scale_scale. f_equal. rewrite mdet_mdot, Rabs_mult. field.
    split; apply Rabs_no_R0; auto.
  - destruct N as [_ N]. apply every_list in N. rewrite <- sumres_scale, map_map. f_equal. apply map_ext_in. intros o Ho.
    rewrite Forall_forall in IH, N. apply IH; auto; apply N; auto.
Qed.

Lemma rowdot_T : forall k J, rowdot k J = mapp (mT J) k.
Proof. intros k J. unfold rowdot, mapp, mT. cbn [m00 m01 m10 m11]. f_equal; ring. Qed.
Lemma drawK_spec : forall p jac k, no_deconvolution p ->
  drawK p jac k = kValue p (mapp (mT (jac_or_eye jac)) k).
Proof.
  intros p. induction p as [own fam fl g|o J off fr g pg IH|l g pg IH|l g pg IH|o g pg IH] using prof_ind2; intros jac k N; cbn [drawK kValue].
  - rewrite rowdot_T. reflexivity.
  - destruct N as [_ N]. rewrite IH by auto.
    assert (EJ : match jac with None => J | Some j => mdot j J end = mdot (jac_or_eye jac) J) by (destruct jac; cbn; auto; rewrite mdot_I_l; auto).
    rewrite EJ. cbn [jac_or_eye]. rewrite mT_mdot, mapp_mdot, rowdot_T. unfold kfactor.
    rewrite <- Cmult_assoc. f_equal. rewrite Cmult_comm. f_equal. f_equal. ring.
  - destruct N as [_ N]. apply every_list in N. f_equal. apply map_ext_in. intros o Ho. rewrite Forall_forall in IH, N. apply IH; auto; apply N; auto.
  - destruct N as [_ N]. apply every_list in N. f_equal. apply map_ext_in. intros o Ho. rewrite Forall_forall in IH, N. apply IH; auto; apply N; auto.
  - destruct N as [[] _].
Qed.

(** * Flux *)
Lemma sumC_RtoC : forall l, sumC (map RtoC l) = RtoC (sumR l).
Proof. induction l as [|a l IH]; cbn; auto. unfold sumC in IH. rewrite IH, <- RtoC_plus. reflexivity. Qed.
Lemma prodC_RtoC : forall l, prodC (map RtoC l) = RtoC (prodR l).
Proof. induction l as [|a l IH]; cbn; auto. unfold prodC in IH. rewrite IH, <- RtoC_mult. reflexivity. Qed.
Lemma mapp_0 : forall J, mapp J (0, 0) = (0, 0).
Proof. intros. unfold mapp. cbn [fst snd]. f_equal; ring. Qed.
Lemma kValue_0 : forall p, flux_ok p -> kValue p (0, 0) = RtoC (flux p).
Proof.
  intros p. induction p as [own fam fl g|o J off fr g pg IH|l g pg IH|l g pg IH|o g pg IH] using prof_ind2; intros N; cbn [kValue flux].
  - exact (proj1 N).
  - destruct N as [_ N]. rewrite mapp_0, (IH N). unfold kfactor. cbn [fst snd]. rewrite !Rmult_0_l, Ropp_0, Rplus_0_l, expi_0, Cmult_1_r, <- RtoC_mult. f_equal. ring.
  - destruct N as [_ N]. apply every_list in N. rewrite <- sumC_RtoC, map_map. f_equal. apply map_ext_in. intros o Ho. rewrite Forall_forall in IH, N. apply IH; auto; apply N; auto.
  - destruct N as [_ N]. apply every_list in N. rewrite <- prodC_RtoC, map_map. f_equal. apply map_ext_in. intros o Ho. rewrite Forall_forall in IH, N. apply IH; auto; apply N; auto.
  - destruct N as [[N1 N2] N]. rewrite (IH N). rewrite Cmod_R.
    destruct (Rltb_spec (Rabs (flux o)) (flux o * g_kacc g)) as [l|l].
    + exfalso. pose proof (Rle_abs (flux o)). destruct (Rle_lt_dec 0 (flux o)) as [M|M].
      * assert (flux o * g_kacc g <= flux o * 1) by (apply Rmult_le_compat_l; lra). lra.
      * rewrite Rabs_left in l by auto. nra.
    + rewrite <- RtoC_div; auto.
Qed.

(** * Positive and negative flux *)
Lemma calc_pn_diff : forall l, l <> [] -> fst (calc_pn l) - snd (calc_pn l) = prodR (map (fun c => fst c - snd c) l).
Proof.
  intros [|a t] N; [congruence|]. cbn [calc_pn map]. clear N. revert a. induction t as [|b t IH]; intros a; cbn [fold_left map prodR fold_right].
  - ring.
  - rewrite IH. cbn [map prodR fold_right fst snd]. fold (prodR (map (fun c => fst c - snd c) t)). ring.
Qed.
Lemma sumR_minus : forall A (f g : A -> R) l, sumR (map f l) - sumR (map g l) = sumR (map (fun a => f a - g a) l).
Proof. intros A f g l. induction l as [|a l IH]; cbn; [ring|]. unfold sumR in IH. rewrite <- IH. ring. Qed.
Lemma pn_diff : forall p, nonempty p -> fst (pnflux p) - snd (pnflux p) = flux p.
Proof.
  intros p. induction p as [own fam fl g|o J off fr g pg IH|l g pg IH|l g pg IH|o g pg IH] using prof_ind2; intros N; cbn [pnflux flux fst snd].
  - ring.
  - destruct N as [_ N]. rewrite <- (IH N). ring.
  - destruct N as [_ N]. apply every_list in N. rewrite sumR_minus. f_equal. apply map_ext_in. intros o Ho. rewrite Forall_forall in IH, N. apply IH; auto; apply N; auto.
  - destruct N as [N0 N]. apply every_list in N. assert (l <> []) by (intros ->; exact N0). rewrite calc_pn_diff.
    + rewrite map_map. f_equal. apply map_ext_in. intros o Ho. rewrite Forall_forall in IH, N. apply IH; auto; apply N; auto.
    + destruct l; [congruence|discriminate].
  - ring.
Qed.
Lemma sumR_nonneg : forall l, Forall (fun a => 0 <= a) l -> 0 <= sumR l.
Proof. induction 1; cbn; [lra|]. unfold sumR in IHForall. lra. Qed.
Lemma calc_pn_nonneg : forall l, Forall (fun c => 0 <= fst c /\ 0 <= snd c) l -> 0 <= fst (calc_pn l) /\ 0 <= snd (calc_pn l).
Proof.
  intros [|a t] H; cbn [calc_pn fst snd]; [lra|]. inversion H as [|? ? A T]; subst. clear H. revert a A. induction T as [|b t B T IH]; intros a A; cbn [fold_left]; auto.
  apply IH. cbn [fst snd]. split; apply Rplus_le_le_0_compat; apply Rmult_le_pos; tauto.
Qed.
Lemma pn_nonneg : forall p, pn_ok p -> 0 <= fst (pnflux p) /\ 0 <= snd (pnflux p).
Proof.
  intros p. induction p as [own fam fl g|o J off fr g pg IH|l g pg IH|l g pg IH|o g pg IH] using prof_ind2; intros N; cbn [pnflux fst snd].
  - destruct N as [N _]. tauto.
  - destruct N as [N1 N]. destruct (IH N). pose proof (Rabs_pos (mdet J)). split; repeat apply Rmult_le_pos; auto.
  - destruct N as [_ N]. apply every_list in N. rewrite Forall_forall in IH, N.
    split; apply sumR_nonneg; rewrite Forall_forall; intros v Hv; apply in_map_iff in Hv; destruct Hv as (o & <- & Ho); apply (IH o Ho); apply N; auto.
  - destruct N as [_ N]. apply every_list in N. rewrite Forall_forall in IH, N. apply calc_pn_nonneg. rewrite Forall_forall. intros v Hv.
    apply in_map_iff in Hv. destruct Hv as (o & <- & Ho). apply (IH o Ho). apply N; auto.
  - destruct N as [N _]. split; [|lra]. assert (0 < / flux o) by (apply Rinv_0_lt_compat; auto). lra.
Qed.

(** * Symmetry *)
Definition sq (v : vec) : R := fst v ^ 2 + snd v ^ 2.
Lemma axi_leaf_ok : forall p, leaves (fun d => lf_axi d = true -> radial (lf_x d) /\ radial (lf_k d)) p -> is_axisymmetric p = true ->
  radial (xValue p) /\ radial (kValue p).
Proof.
  intros p. induction p as [own fam fl g|o J off fr g pg IH|l g pg IH|l g pg IH|o g pg IH] using prof_ind2; intros N A; cbn [is_axisymmetric] in A.
  - destruct N as [N _]. auto.
  - destruct N as [_ N]. rewrite !andb_true_iff in A. destruct A as [[[[A A1] A2] A3] A4].
    destruct (Reqb_spec (m00 J) (m11 J)) as [e1|]; [|discriminate]. destruct (Reqb_spec (m01 J) (- m10 J)) as [e2|]; [|discriminate].
    destruct (Reqb_spec (fst off) 0) as [e3|]; [|discriminate]. destruct (Reqb_spec (snd off) 0) as [e4|]; [|discriminate].
    destruct (IH N A) as [RX RK]. split.
    + intros x y E. cbn [xValue]. f_equal. apply RX.
      assert (Q : forall v, sq (mapp (minv J) (vsub v off)) = ((m11 J / mdet J) ^ 2 + (m10 J / mdet J) ^ 2) * sq v).
      { intros v. unfold sq, mapp, minv, vsub. cbn [fst snd m00 m01 m10 m11]. rewrite e1, e2, e3, e4. unfold Rdiv. ring. }
      change (sq (mapp (minv J) (vsub x off)) = sq (mapp (minv J) (vsub y off))). rewrite !Q. unfold sq. rewrite E. reflexivity.
    + intros x y E. cbn [kValue]. rewrite (RK (mapp (mT J) x) (mapp (mT J) y)).
      * f_equal. unfold kfactor. rewrite e3, e4, !Rmult_0_r. reflexivity.
      * assert (Q : forall v, sq (mapp (mT J) v) = (m11 J ^ 2 + m10 J ^ 2) * sq v).
        { intros v. unfold sq, mapp, mT. cbn [fst snd m00 m01 m10 m11]. rewrite e1, e2. ring. }
        change (sq (mapp (mT J) x) = sq (mapp (mT J) y)). rewrite !Q. unfold sq. rewrite E. reflexivity.
  - destruct N as [_ N]. apply every_list in N. rewrite forallb_forall in A. rewrite Forall_forall in IH, N.
    split; intros x y E; cbn [xValue kValue]; f_equal; apply map_ext_in; intros o Ho; apply (IH o Ho (N o Ho) (A o Ho)); auto.
  - destruct N as [_ N]. apply every_list in N. rewrite forallb_forall in A. rewrite Forall_forall in IH, N.
    split; intros x y E; cbn [xValue kValue]; [reflexivity|]. f_equal; apply map_ext_in; intros o Ho; apply (IH o Ho (N o Ho) (A o Ho)); auto.
  - destruct N as [_ N]. destruct (IH N A) as [_ RK]. split; intros x y E; cbn [xValue kValue]; [reflexivity|]. rewrite (RK x y E). reflexivity.
Qed.
