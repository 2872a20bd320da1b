(** Transformation, evaluation and drawing of profile trees. *)
From Coq Require Import Reals Bool List Lra Lia Psatz.
From Coquelicot Require Import Complex.
From Verif Require Import Base Bounds_Model Bounds_Proofs Geo_Model Geo_Proofs GSP_Model GSP_Spec GSP_Proofs Shear_Model Shear_Proofs Prof_Model Prof_Spec.
Import ListNotations.
Open Scope R_scope.

(** * Induction over trees *)
Lemma prof_ind2 : forall P : prof -> Prop,
  (forall own fam fl g, P (PLeaf own fam fl g)) ->
  (forall o J off fr g pg, P o -> P (PTr o J off fr g pg)) ->
  (forall l g pg, Forall P l -> P (PSum l g pg)) ->
  (forall l g pg, Forall P l -> P (PConv l g pg)) ->
  (forall o g pg, P o -> P (PDec o g pg)) ->
  forall p, P p.
Proof.
  intros P HL HT HS HC HD. fix IH 1. intros [own fam fl g|o J off fr g pg|l g pg|l g pg|o g pg].
  - apply HL.
  - apply HT, IH.
  - apply HS. induction l as [|a l IHl]; constructor; [apply IH|apply IHl].
  - apply HC. induction l as [|a l IHl]; constructor; [apply IH|apply IHl].
  - apply HD, IH.
Qed.
Lemma every_list : forall P l, fold_right (fun o acc => everywhere P o /\ acc) True l <-> Forall (everywhere P) l.
Proof.
  intros P l. induction l as [|a l IH]; cbn [fold_right]; split; intros H; auto.
  - destruct H. constructor; tauto.
  - inversion H; subst. tauto.
Qed.
Lemma every_self : forall P p, everywhere P p -> P p.
Proof. intros P [] H; apply H. Qed.
Lemma every_impl : forall (P Q : prof -> Prop), (forall p, P p -> Q p) -> forall p, everywhere P p -> everywhere Q p.
Proof.
  intros P Q PQ p. induction p as [own fam fl g|o J off fr g pg IH|l g pg IH|l g pg IH|o g pg IH] using prof_ind2; cbn [everywhere]; intros [H1 H2]; split; auto.
  - apply every_list. apply every_list in H2. rewrite Forall_forall in *. auto.
  - apply every_list. apply every_list in H2. rewrite Forall_forall in *. auto.
Qed.

(** * gsparams with real values *)
Lemma gspR_eqb_spec : forall a b, reflect (a = b) (gspR_eqb a b).
Proof.
  intros a b. unfold gspR_eqb, gsp_eqb. apply iff_reflect. split.
  - intros ->. apply forallb_forall. intros [n f] _. cbn [snd]. destruct (Reqb_spec (gget f b) (gget f b)) as [e|e]; [reflexivity|contradiction e; reflexivity].
  - intros H. apply gsp_ext. intros f. destruct (in_all_fields f) as [n I]. rewrite forallb_forall in H. specialize (H _ I). cbn [snd] in H.
    destruct (Reqb_spec (gget f a) (gget f b)); auto. discriminate.
Qed.
Lemma gspR_eqb_refl : forall a, gspR_eqb a a = true.
Proof. intros a. destruct (gspR_eqb_spec a a); congruence. Qed.
Lemma withGSP_same : forall p, withGSP (gsparams p) p = p.
Proof. intros p. destruct p; unfold withGSP; cbn [gsparams]; rewrite gspR_eqb_refl; reflexivity. Qed.
Lemma mkTransform_default : forall o J off fr, mkTransform o J off fr None true =
  match o with
  | PTr o' J' off' fr' g _ => PTr o' (mdot J J') (vadd off (mapp J off')) (fr * fr') g true
  | _ => PTr o J off fr (gsparams o) true
  end.
Proof. intros o J off fr. unfold mkTransform. rewrite withGSP_same. destruct o; reflexivity. Qed.

(** * One transformation of any profile *)
Lemma bind_ok_id : forall r : res R, bind r (fun v => Ok v) = r.
Proof. intros []; reflexivity. Qed.
Lemma scale_res_ok : forall a r, scale_res a r = bind r (fun v => Ok (v * a)).
Proof. intros a []; cbn; auto. rewrite Rmult_comm. reflexivity. Qed.
Lemma scale_scale : forall a b r, scale_res a (scale_res b r) = scale_res (a * b) r.
Proof. intros a b []; cbn; auto. rewrite Rmult_assoc. reflexivity. Qed.
Lemma scale_1 : forall r, scale_res 1 r = r.
Proof. intros []; cbn; auto. rewrite Rmult_1_l. reflexivity. Qed.

Lemma tr_x : forall o J off fr x, nonsingular o -> mdet J <> 0 ->
  xValue (mkTransform o J off fr None true) x = scale_res fr (xValue o (mapp (minv J) (vsub x off))).
Proof.
  intros o J off fr x N D. rewrite mkTransform_default. destruct o as [own fam fl g|o J' off' fr' g pg|l g pg|l g pg|o g pg];
    rewrite scale_res_ok; cbn [xValue]; try reflexivity.
  destruct N as [N1 N2]. cbn in N1. rewrite mapp_minv_mdot by auto.
  assert (E : mapp (minv J) (vsub x (vadd off (mapp J off'))) = vsub (mapp (minv J) (vsub x off)) off').
  { rewrite <- vsub_vadd, mapp_vsub, minv_l by auto. reflexivity. }
  rewrite E. destruct (xValue o (mapp (minv J') (vsub (mapp (minv J) (vsub x off)) off'))); cbn; auto. f_equal. ring.
Qed.

Lemma expi_add : forall a b, Cmult (expi a) (expi b) = expi (a + b).
Proof. intros. unfold expi, Cmult. cbn [fst snd]. rewrite cos_plus, sin_plus. f_equal; ring. Qed.
Lemma expi_0 : expi 0 = RtoC 1.
Proof. unfold expi, RtoC. rewrite cos_0, sin_0. reflexivity. Qed.
Lemma kfactor_mdot : forall J J' off off' fr fr' k,
  kfactor (mdot J J') (vadd off (mapp J off')) (fr * fr') k = Cmult (kfactor J' off' fr' (mapp (mT J) k)) (kfactor J off fr k).
Proof.
  intros. unfold kfactor. rewrite mdet_mdot, Rabs_mult.
  replace (expi (- (fst k * fst (vadd off (mapp J off'))) + - (snd k * snd (vadd off (mapp J off')))))
    with (Cmult (expi (- (fst (mapp (mT J) k) * fst off') + - (snd (mapp (mT J) k) * snd off'))) (expi (- (fst k * fst off) + - (snd k * snd off)))).
  2:{ rewrite expi_add. f_equal. unfold vadd, mapp, mT. cbn [fst snd m00 m01 m10 m11]. ring. }
  replace (RtoC (Rabs (mdet J) * Rabs (mdet J') * (fr * fr'))) with (Cmult (RtoC (Rabs (mdet J') * fr')) (RtoC (Rabs (mdet J) * fr))).
  2:{ rewrite <- RtoC_mult. f_equal. ring. }
  ring.
Qed.
Lemma tr_k : forall o J off fr k,
  kValue (mkTransform o J off fr None true) k = Cmult (kValue o (mapp (mT J) k)) (kfactor J off fr k).
Proof.
  intros o J off fr k. rewrite mkTransform_default. destruct o as [own fam fl g|o J' off' fr' g pg|l g pg|l g pg|o g pg]; try reflexivity.
  cbn [kValue]. rewrite kfactor_mdot, mT_mdot, mapp_mdot. ring.
Qed.
Lemma tr_flux : forall o J off fr, flux (mkTransform o J off fr None true) = Rabs (mdet J) * fr * flux o.
Proof.
  intros o J off fr. rewrite mkTransform_default. destruct o as [own fam fl g|o J' off' fr' g pg|l g pg|l g pg|o g pg]; try reflexivity.
  cbn [flux]. rewrite mdet_mdot, Rabs_mult. ring.
Qed.
Lemma tr_centroid : forall o J off fr, centroid (mkTransform o J off fr None true) = vadd (mapp J (centroid o)) off.
Proof.
  intros o J off fr. rewrite mkTransform_default. destruct o as [own fam fl g|o J' off' fr' g pg|l g pg|l g pg|o g pg]; try reflexivity.
  cbn [centroid]. rewrite mapp_mdot, mapp_vadd. unfold vadd. cbn [fst snd]. f_equal; ring.
Qed.
Lemma tr_pn : forall o J off fr, pnflux (mkTransform o J off fr None true) =
  (Rabs (mdet J) * fr * fst (pnflux o), Rabs (mdet J) * fr * snd (pnflux o)).
Proof.
  intros o J off fr. rewrite mkTransform_default. destruct o as [own fam fl g|o J' off' fr' g pg|l g pg|l g pg|o g pg]; try reflexivity.
  cbn [pnflux fst snd]. rewrite mdet_mdot, Rabs_mult. f_equal; ring.
Qed.
Lemma tr_nonsingular : forall o J off fr, nonsingular o -> mdet J <> 0 -> nonsingular (mkTransform o J off fr None true).
Proof.
  intros o J off fr N D. rewrite mkTransform_default. destruct o as [own fam fl g|o J' off' fr' g pg|l g pg|l g pg|o g pg];
    try (split; [exact D|exact N]).
  destruct N as [N1 N2]. split; [|exact N2]. cbn in *. rewrite mdet_mdot. apply Rmult_integral_contrapositive_currified; auto.
Qed.
Lemma tr_linear : forall o J off fr, flux_linear o -> flux_linear (mkTransform o J off fr None true).
Proof.
  intros o J off fr N. rewrite mkTransform_default. destruct o as [own fam fl g|o J' off' fr' g pg|l g pg|l g pg|o g pg];
    try (split; [exact I|exact N]). destruct N as [_ N2]. split; [exact I|exact N2].
Qed.

(** * The operations of the user *)
Definition op_parts (F : R) (o : op) : mat * vec * R :=
  match o with
  | Expand s => (Mat s 0 0 s, (0, 0), 1)
  | Dilate s => (Mat s 0 0 s, (0, 0), / (s ^ 2))
  | Magnify mu => (Mat (sqrt mu) 0 0 (sqrt mu), (0, 0), 1)
  | ShearBy g => (getMatrix g, (0, 0), 1)
  | LensBy g mu => (mscale (getMatrix g) (sqrt mu), (0, 0), 1)
  | Rotate t => (Mat (cos t) (- sin t) (sin t) (cos t), (0, 0), 1)
  | TransformBy a b c d => (Mat a b c d, (0, 0), 1)
  | Shift dx dy => (mI, (dx, dy), 1)
  | ScaleFlux f => (mI, (0, 0), f)
  | WithFlux f => (mI, (0, 0), f / F)
  end.
Lemma apply_parts : forall p o, apply p o = match o, p with
    | WithFlux f, PLeaf true fam _ g => PLeaf true fam f g
    | _, _ => let '(J, off, fr) := op_parts (flux p) o in mkTransform p J off fr None true
    end.
Proof. intros p []; destruct p as [[] | | | |]; reflexivity. Qed.

Lemma Re2Im2 : forall g : C, sh_g g ^ 2 = Re g ^ 2 + Im g ^ 2.
Proof. intros [a b]. unfold sh_g. rewrite Cmod_sqr. cbn [Re Im fst snd]. ring. Qed.
Lemma disc : forall g : C, Re g ^ 2 + Im g ^ 2 < 1 -> Cmod g < 1.
Proof. intros [a b] H. apply Cmod_lt_1. cbn [Re Im fst snd] in H. lra. Qed.

Lemma op_parts_moves : forall F o J off fr x, op_parts F o = (J, off, fr) -> sensible F o -> moves o x = vadd (mapp J x) off.
Proof.
  intros F o J off fr [x y] E S0. destruct o; cbn [op_parts] in E; injection E as <- <- <-; unfold moves, vadd, mapp, mI, mscale, getMatrix;
    cbn [fst snd m00 m01 m10 m11 sensible] in *; rewrite ?Re2Im2; try (f_equal; ring).
  - assert (0 < sqrt (1 - (Re g ^ 2 + Im g ^ 2))) by (apply sqrt_lt_R0; lra). f_equal; field; lra.
  - assert (0 < sqrt (1 - (Re g ^ 2 + Im g ^ 2))) by (apply sqrt_lt_R0; lra). f_equal; field; lra.
Qed.
Lemma op_parts_area : forall F o J off fr, op_parts F o = (J, off, fr) -> sensible F o -> Rabs (mdet J) = magnifies o /\ mdet J <> 0.
Proof.
  intros F o J off fr E S0. destruct o; cbn [op_parts] in E; injection E as <- <- <-; cbn [magnifies sensible] in *.
  - unfold mdet; cbn [m00 m01 m10 m11]. replace (s * s - 0 * 0) with (s * s) by ring. split; [apply Rabs_right; nra|nra].
  - unfold mdet; cbn [m00 m01 m10 m11]. replace (s * s - 0 * 0) with (s * s) by ring. split; [apply Rabs_right; nra|nra].
  - unfold mdet; cbn [m00 m01 m10 m11]. replace (sqrt mu * sqrt mu - 0 * 0) with (sqrt mu * sqrt mu) by ring. rewrite sqrt_sqrt by lra. split; [apply Rabs_right; lra|lra].
  - rewrite getMatrix_det by (apply disc; auto). split; [apply Rabs_R1|lra].
  - destruct S0 as [S0 S1]. assert (E : mdet (mscale (getMatrix g) (sqrt mu)) = mu).
    { replace (mdet (mscale (getMatrix g) (sqrt mu))) with (mdet (getMatrix g) * (sqrt mu * sqrt mu)) by (unfold mdet, mscale; cbn [m00 m01 m10 m11]; ring).
      rewrite getMatrix_det, sqrt_sqrt by (try apply disc; auto; lra). ring. }
    rewrite E. split; [apply Rabs_right; lra|lra].
  - assert (E : mdet (Mat (cos theta) (- sin theta) (sin theta) (cos theta)) = 1).
    { unfold mdet; cbn [m00 m01 m10 m11]. pose proof (sin2_cos2 theta) as Q. unfold Rsqr in Q. lra. }
    rewrite E. split; [apply Rabs_R1|lra].
  - unfold mdet; cbn [m00 m01 m10 m11]. auto.
  - rewrite mdet_I. split; [apply Rabs_R1|lra].
  - rewrite mdet_I. split; [apply Rabs_R1|lra].
  - rewrite mdet_I. split; [apply Rabs_R1|lra].
Qed.
Lemma op_parts_amp : forall F o J off fr, op_parts F o = (J, off, fr) -> sensible F o -> fr = brightens F o.
Proof.
  intros F o J off fr E S0. destruct o; cbn [op_parts] in E; injection E as <- <- <-; cbn [brightens]; auto. f_equal. ring.
Qed.

Lemma inv_of_moves : forall J off x, mdet J <> 0 -> mapp (minv J) (vsub (vadd (mapp J x) off) off) = x.
Proof. intros. rewrite vadd_vsub. apply minv_l. auto. Qed.

(** withFlux on a class with its own method *)
Lemma own_leaf : forall fam f fl g, flux_linear (PLeaf true fam fl g) -> fl <> 0 ->
  let p := PLeaf true fam fl g in let q := PLeaf true fam f g in
  (forall x, xValue q x = scale_res (f / flux p) (xValue p x)) /\
  (forall k, kValue q k = Cmult (RtoC (f / flux p)) (kValue p k)) /\ flux q = f / flux p * flux p /\ centroid q = centroid p /\ flux_linear q.
Proof.
  intros fam f fl g L N p q. assert (L0 := L). destruct L as [L _]. unfold p, q. cbn [xValue kValue flux centroid].
  destruct (L fl g) as (F1 & X1 & K1 & C1). destruct (L f g) as (F2 & X2 & K2 & C2).
  split; [|split; [|split; [|split]]].
  - intros x. rewrite F1, X2, X1, scale_scale. f_equal. field. auto.
  - intros k. rewrite F1, K2, K1, Cmult_assoc, <- RtoC_mult. f_equal. f_equal. field. auto.
  - rewrite F1, F2. field. auto.
  - congruence.
  - split; [|exact I]. exact (proj1 L0).
Qed.

Lemma apply_props : forall p o, nonsingular p -> flux_linear p -> sensible (flux p) o ->
  (forall x, xValue (apply p o) (moves o x) = scale_res (brightens (flux p) o) (xValue p x)) /\
  (forall k k', adjoint (moves o) k k' ->
     kValue (apply p o) k = Cmult (Cmult (RtoC (brightens (flux p) o * magnifies o)) (expi (- (fst k * fst (moves o (0, 0)) + snd k * snd (moves o (0, 0))))))
                                  (kValue p k')) /\
  flux (apply p o) = flux p * brightens (flux p) o * magnifies o /\
  centroid (apply p o) = moves o (centroid p) /\
  nonsingular (apply p o) /\ flux_linear (apply p o).
Proof.
  intros p o N L S0.
  assert (G : forall J off fr, op_parts (flux p) o = (J, off, fr) -> apply p o = mkTransform p J off fr None true ->
    (forall x, xValue (apply p o) (moves o x) = scale_res (brightens (flux p) o) (xValue p x)) /\
    (forall k k', adjoint (moves o) k k' ->
       kValue (apply p o) k = Cmult (Cmult (RtoC (brightens (flux p) o * magnifies o)) (expi (- (fst k * fst (moves o (0, 0)) + snd k * snd (moves o (0, 0))))))
                                    (kValue p k')) /\
    flux (apply p o) = flux p * brightens (flux p) o * magnifies o /\
    centroid (apply p o) = moves o (centroid p) /\
    nonsingular (apply p o) /\ flux_linear (apply p o)).
  { intros J off fr E ->. assert (M := fun x => op_parts_moves _ _ _ _ _ x E S0). destruct (op_parts_area _ _ _ _ _ E S0) as [A D].
    assert (B := op_parts_amp _ _ _ _ _ E S0). subst fr. split; [|split; [|split; [|split; [|split]]]].
    - intros x. rewrite tr_x by auto. rewrite M, inv_of_moves by auto. reflexivity.
    - intros k k' Ad. rewrite tr_k. unfold kfactor. rewrite A, (Rmult_comm (magnifies o)).
      assert (Ek : k' = mapp (mT J) k).
      { pose proof (Ad (1, 0)) as A1. pose proof (Ad (0, 1)) as A2. rewrite !M in A1, A2. unfold vadd, mapp in A1, A2. cbn [fst snd] in A1, A2.
        destruct k' as [a b]. unfold mapp, mT. cbn [fst snd m00 m01 m10 m11] in *. f_equal; lra. }
      rewrite <- Ek. rewrite Cmult_comm. f_equal. f_equal. f_equal. rewrite M. unfold vadd, mapp. cbn [fst snd]. ring.
    - rewrite tr_flux, A. ring.
    - rewrite tr_centroid, M. reflexivity.
    - apply tr_nonsingular; auto.
    - apply tr_linear; auto. }
  destruct (op_parts (flux p) o) as [[J off] fr] eqn:E.
  assert (AP := apply_parts p o). rewrite E in AP.
  destruct o; try (apply (G J off fr eq_refl); destruct p as [[] | | | |]; exact AP).
  destruct p as [[]| | | |]; try (apply (G J off fr eq_refl); exact AP).
  clear G. cbn [sensible] in S0. assert (F1 : flux (PLeaf true fam fl g) = fl) by (destruct L as [L _]; cbn; apply (L fl g)).
  destruct (own_leaf fam f fl g L) as (X & K & F & Cc & L2); [congruence|]. rewrite AP. cbn [moves brightens magnifies].
  split; [|split; [|split; [|split; [|split]]]]; auto.
  - intros k k' Ad. rewrite K, !Rmult_0_r, Rplus_0_r, Ropp_0, expi_0, Rmult_1_r.
    assert (Ek : k' = k). { pose proof (Ad (1, 0)) as A1. pose proof (Ad (0, 1)) as A2. cbn [moves fst snd] in A1, A2. destruct k, k'. cbn [fst snd] in *. f_equal; lra. }
    rewrite Ek. cbn [fst snd]. rewrite Cmult_1_r. reflexivity.
  - rewrite F. ring.
Qed.
