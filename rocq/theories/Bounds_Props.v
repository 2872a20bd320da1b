(** Property theorems about bounds (C01-C06). *)
From Coq Require Import ZArith Reals Bool List Lia Lra Permutation.
From Verif Require Import Base Bounds_Model Bounds_Spec Bounds_Proofs.
Import ListNotations.

(** ** C01: intersection *)

Theorem C01_and_is_set_intersection : forall b c x y,
  ptin (andI b c) x y <-> ptin b x y /\ ptin c x y.
Proof. intros. unfold ptin. rewrite andI_includes, andb_true_iff. reflexivity. Qed.
Print Assumptions C01_and_is_set_intersection.

Theorem C01_and_defined_iff_common_point : forall b c,
  bdef (andI b c) = true <-> exists x y, ptin b x y /\ ptin c x y.
Proof. exact bdef_andI. Qed.
Print Assumptions C01_and_defined_iff_common_point.

Theorem C01_and_laws : forall a b c,
  eqI (andI a b) (andI b a) = true /\
  eqI (andI a (andI b c)) (andI (andI a b) c) = true /\
  (wfI a -> eqI (andI a a) a = true).
Proof.
  intros a b c. split; [|split].
  - apply eqI_iff_rect; try apply wfI_andI. intros. rewrite !andI_includes. apply andb_comm.
  - apply eqI_iff_rect; try apply wfI_andI. intros. rewrite !andI_includes. apply andb_assoc.
  - intros W. apply eqI_iff_rect; try apply wfI_andI; try assumption. intros. rewrite !andI_includes. apply andb_diag.
Qed.
Print Assumptions C01_and_laws.

Theorem C01_and_is_set_intersection_BoundsD : forall b c x y,
  ptinD (andD b c) x y <-> ptinD b x y /\ ptinD c x y.
Proof. intros. unfold ptinD. rewrite andD_includes, andb_true_iff. reflexivity. Qed.
Print Assumptions C01_and_is_set_intersection_BoundsD.

(** What [includes] means for a freshly constructed bounds. *)
Theorem C01_includes_meaning : forall x1 x2 y1 y2 x y,
  ptin (BoundsI (Args4 x1 x2 y1 y2)) x y <-> rectZ (nv x1) (nv x2) (nv y1) (nv y2) x y.
Proof. exact includesI_ctor4. Qed.
Print Assumptions C01_includes_meaning.

(** ... and for real coordinates. *)
Theorem C01_includes_meaning_BoundsD : forall x1 x2 y1 y2 x y,
  ptinD (BoundsD (Args4 x1 x2 y1 y2)) x y <-> rectR (nv x1) (nv x2) (nv y1) (nv y2) x y.
Proof. exact includesD_ctor4. Qed.
Print Assumptions C01_includes_meaning_BoundsD.

Example C01_example :
  let b := BoundsI (Args4 (py 1) (py 10) (py (-3)) (py 4))%Z in
  let c := BoundsI (Args4 (py 7) (py 20) (py 0) (py 9))%Z in
  ptin (andI b c) 8 2 /\ ~ ptin (andI b c) 6 2 /\ wfI b /\
  eqI (andI b c) (BoundsI (Args4 (py 7) (py 10) (py 0) (py 4))%Z) = true.
Proof. cbv. repeat split; intros; discriminate. Qed.

(** ** C02: union *)

Theorem C02_union_is_least_upper_bound : forall b c,
  wfI b -> wfI c ->
  (forall x y, ptin b x y \/ ptin c x y -> ptin (addI b c) x y) /\
  (forall d, (forall x y, ptin b x y \/ ptin c x y -> ptin d x y) ->
             forall x y, ptin (addI b c) x y -> ptin d x y).
Proof. intros b c Wb Wc. split; [exact (addI_upper b c)|intros d H; exact (addI_least b c d Wb Wc H)]. Qed.
Print Assumptions C02_union_is_least_upper_bound.

Theorem C02_union_is_least_upper_bound_BoundsD : forall b c,
  wfD b -> wfD c ->
  (forall x y, ptinD b x y \/ ptinD c x y -> ptinD (addD b c) x y) /\
  (forall d, (forall x y, ptinD b x y \/ ptinD c x y -> ptinD d x y) ->
             forall x y, ptinD (addD b c) x y -> ptinD d x y).
Proof. intros b c Wb Wc. split; [exact (addD_upper b c)|intros d H; exact (addD_least b c d Wb Wc H)]. Qed.
Print Assumptions C02_union_is_least_upper_bound_BoundsD.

Theorem C02_undefined_is_neutral : forall b c,
  bdef c = false -> addI b c = b /\ (bdef b = true -> addI c b = b).
Proof.
  intros b c H. unfold addI, b_add. rewrite H. cbn. split; [reflexivity|]. intros ->. reflexivity.
Qed.
Print Assumptions C02_undefined_is_neutral.

Theorem C02_accumulated_positions : forall l,
  (forall p, In p l -> ptin (acc_pos l) (nv (fst p)) (nv (snd p))) /\
  (forall d, (forall p, In p l -> ptin d (nv (fst p)) (nv (snd p))) ->
             forall x y, ptin (acc_pos l) x y -> ptin d x y) /\
  (forall l', Permutation l l' -> eqI (acc_pos l) (acc_pos l') = true).
Proof.
  intros l. destruct (acc_pos_spec l) as (_ & U & L). split; [exact U|]. split; [exact L|]. exact (acc_pos_perm l).
Qed.
Print Assumptions C02_accumulated_positions.

Example C02_example :
  eqI (acc_pos [(py 3, py 4); (py (-1), py 9); (py 2, py 0)]%Z)
      (BoundsI (Args4 (py (-1)) (py 3) (py 0) (py 9))%Z) = true
  /\ wfI (BoundsI (Args4 (py (-1)) (py 3) (py 0) (py 9))%Z).
Proof. cbv. repeat split; intros; discriminate. Qed.

(** ** C03: conversions *)

Theorem C03_conversion_keeps_region : forall b,
  wfI b -> bdef b = true ->
  eqI b (BoundsI_of_I b) = true /\
  (forall x y, ptinD (BoundsD_of_I b) x y <->
     rectR (IZR (nv (bxmin b))) (IZR (nv (xmaxI b))) (IZR (nv (bymin b))) (IZR (nv (ymaxI b))) x y) /\
  (exists c, BoundsI_of_D (BoundsD_of_I b) = Ok c /\ eqI b c = true).
Proof.
  intros b W H. split; [exact (BoundsI_copy b W H)|]. split; [exact (BoundsD_of_I_rect b W H)|].
  exact (BoundsI_of_D_of_I b W H).
Qed.
Print Assumptions C03_conversion_keeps_region.

Theorem C03_conversion_keeps_region_BoundsD : forall b,
  wfD b -> bdef b = true -> eqD b (BoundsD_of_D b) = true.
Proof. exact BoundsD_copy. Qed.
Print Assumptions C03_conversion_keeps_region_BoundsD.

Theorem C03_conversion_keeps_undefined_BoundsI : forall b,
  constructedI b -> bdef b = false ->
  bdef (BoundsI_of_I b) = false.
Proof.
  intros b C H. assert (C' : constructedI (BoundsI_of_I b)) by (eexists; reflexivity).
  rewrite (constructedI_def _ C'). rewrite (constructedI_def _ C) in H. exact H.
Qed.
Print Assumptions C03_conversion_keeps_undefined_BoundsI.

(** BoundsD(BoundsD()) is defined; so is BoundsI(BoundsD()). *)
Theorem C03_conversion_keeps_definedness_refuted :
  ~ conversion_keeps_definedness_D /\ ~ conversion_keeps_definedness_DI.
Proof.
  assert (E0 : bdef (BoundsD ArgsNone) = false) by (unfold BoundsD, parse; cbn; unfold py_check; cbn; destruct (_ || _); reflexivity).
  assert (C0 : constructedD (BoundsD ArgsNone)) by (exists ArgsNone; reflexivity).
  split.
  - intros H. specialize (H _ C0). rewrite E0 in H. revert H.
    unfold BoundsD_of_D, BoundsD, parse. cbn. unfold py_check. cbn.
    destruct (Rltb_spec 0 0); [lra|]. cbn. discriminate.
  - intros H. specialize (H (BoundsD ArgsNone)).
    destruct (BoundsI_of_D (BoundsD ArgsNone)) as [c|e] eqn:E.
    + specialize (H c C0 eq_refl). rewrite E0 in H.
      unfold BoundsI_of_D, BoundsD, parse in E. cbn in E.
      replace (0 + 1)%R with (IZR 1) in E by lra. rewrite !R_is_int_IZR in E. cbn [andb] in E.
      rewrite !Int_part_IZR in E. injection E as <-. discriminate.
    + unfold BoundsI_of_D, BoundsD, parse in E. cbn in E.
      replace (0 + 1)%R with (IZR 1) in E by lra. rewrite !R_is_int_IZR in E. discriminate.
Qed.
Print Assumptions C03_conversion_keeps_definedness_refuted.

Example C03_example : let b := BoundsI (Args4 (py 1) (jx 10) (py (-3)) (py 4))%Z in wfI b /\ bdef b = true.
Proof. cbv. repeat split; intros; discriminate. Qed.

(** ** C04: equality and hash *)

Theorem C04_equal_defined_bounds_hash_equal : forall b c,
  bdef b = true -> eqI b c = true -> b_hash_key b = b_hash_key c.
Proof.
  intros b c Hb. unfold eqI, b_eq_I, b_hash_key. rewrite Hb. destruct (bdef c); [|discriminate].
  rewrite !andb_true_iff, !Z.eqb_eq. intros [[[-> ->] ->] ->]. reflexivity.
Qed.
Print Assumptions C04_equal_defined_bounds_hash_equal.

Theorem C04_equal_defined_bounds_hash_equal_BoundsD : forall b c,
  bdef b = true -> eqD b c = true -> b_hash_key b = b_hash_key c.
Proof.
  intros b c Hb. unfold eqD, b_eq_D, b_hash_key. rewrite Hb. destruct (bdef c); [|discriminate].
  rewrite !andb_true_iff. intros [[[H1 H2] H3] H4].
  destruct (Reqb_spec (nv (bxmin b)) (nv (bxmin c))) as [E1|]; [|discriminate].
  destruct (Reqb_spec (nv (bymin b)) (nv (bymin c))) as [E3|]; [|discriminate].
  match type of H2 with Reqb ?a ?b = _ => destruct (Reqb_spec a b) as [E2|]; [|discriminate] end.
  match type of H4 with Reqb ?a ?b = _ => destruct (Reqb_spec a b) as [E4|]; [|discriminate] end.
  unfold b_xmax, b_ymax, nlift2, py in *. cbn [nv] in *.
  assert (E5 : nv (bdx b) = nv (bdx c)) by lra. assert (E6 : nv (bdy b) = nv (bdy c)) by lra.
  rewrite E1, E3, E5, E6. reflexivity.
Qed.
Print Assumptions C04_equal_defined_bounds_hash_equal_BoundsD.

(** BoundsI() == BoundsI(5,1,5,1) (both undefined) but any hash that separates the two
    hashed tuples differs on them. *)
Theorem C04_equal_bounds_hash_equal_refuted :
  exists b c, constructedI b /\ constructedI c /\ eqI b c = true /\ b_hash_key b <> b_hash_key c.
Proof.
  exists (BoundsI ArgsNone), (BoundsI (Args4 (py 5) (py 1) (py 5) (py 1))%Z).
  repeat split; try (eexists; reflexivity). cbv. congruence.
Qed.
Print Assumptions C04_equal_bounds_hash_equal_refuted.

Example C04_example : let b := BoundsI (Args4 (py 1) (jx 10) (py (-3)) (py 4))%Z in let c := BoundsI (Args4 (jx 1) (py 10) (py (-3)) (jx 4))%Z in
  bdef b = true /\ eqI b c = true /\ b <> c.
Proof. cbv. repeat split; congruence. Qed.

(** ** C05: pytree round trip.  [f] is what a transformation does to the leaves
    (e.g. turning Python numbers into arrays); it keeps their values. *)

Theorem C05_pytree_roundtrip_BoundsI : forall b (f : num Z -> num Z),
  constructedI b -> (forall n, nv (f n) = nv n) ->
  exists c, unflattenI (map f (fst (flattenI b))) (snd (flattenI b)) = Ok c
    /\ eqI b c = true /\ bdef c = bdef b /\ (bdef b = true -> bstatic c = bstatic b)
    /\ (forall x y, includesI c x y = includesI b x y).
Proof. exact flattenI_roundtrip. Qed.
Print Assumptions C05_pytree_roundtrip_BoundsI.

Theorem C05_pytree_roundtrip_BoundsD : forall b (f : num R -> num R),
  constructedD b -> (forall n, nv (f n) = nv n) -> (forall n, npy (f n) = true -> npy n = true) ->
  exists c, unflattenD (map f (flattenD b)) = Ok c /\ eqD b c = true /\ bdef c = bdef b
    /\ (forall x y, includesD c x y = includesD b x y).
Proof. exact flattenD_roundtrip. Qed.
Print Assumptions C05_pytree_roundtrip_BoundsD.

Example C05_example : let b := BoundsI (Args4 (jx 1) (jx 10) (py (-3)) (py 4))%Z in
  flattenI b = ([jx 1; py (-3)]%Z, AuxDelta (jx 10%Z) (py 8%Z)) /\
  (forall n : num Z, nv (jx (nv n)) = nv n).
Proof. split; [reflexivity|intros; reflexivity]. Qed.

(** ** C06: measures *)

Theorem C06_area_counts_points : forall b, wfI b -> exists l : list (Z * Z),
  NoDup l /\ (forall x y, In (x, y) l <-> ptin b x y) /\ areaI b = Z.of_nat (length l).
Proof. exact areaI_counts. Qed.
Print Assumptions C06_area_counts_points.

Theorem C06_numpyShape : forall b, wfI b -> bdef b = true ->
  numpyShapeI b = (nv (ymaxI b) - nv (bymin b) + 1, nv (xmaxI b) - nv (bxmin b) + 1)%Z.
Proof. intros b W H. unfold numpyShapeI. rewrite H. bI. f_equal; lia. Qed.
Print Assumptions C06_numpyShape.

Theorem C06_center : forall b, wfI b -> bdef b = true -> exists cx cy tx ty,
  centerI b = Ok (cx, cy) /\ true_centerI_x2 b = Ok (tx, ty) /\
  ptin b cx cy /\ (0 <= 2 * cx - tx <= 1)%Z /\ (0 <= 2 * cy - ty <= 1)%Z.
Proof. exact centerI_spec. Qed.
Print Assumptions C06_center.

Theorem C06_withBorder : forall b dx dy, wfI b -> bdef b = true -> (0 <= nv dx)%Z -> (0 <= nv dy)%Z ->
  forall x y, ptin (withBorderI b dx dy) x y <->
  exists x' y', ptin b x' y' /\ (Z.abs (x - x') <= nv dx)%Z /\ (Z.abs (y - y') <= nv dy)%Z.
Proof. exact withBorderI_spec. Qed.
Print Assumptions C06_withBorder.

Theorem C06_withBorder_negative : forall b dx dy, wfI b -> bdef b = true -> (nv dx <= 0)%Z -> (nv dy <= 0)%Z ->
  forall x y, ptin (withBorderI b dx dy) x y <->
  forall x' y', (Z.abs (x - x') <= - nv dx)%Z -> (Z.abs (y - y') <= - nv dy)%Z -> ptin b x' y'.
Proof. exact withBorderI_neg. Qed.
Print Assumptions C06_withBorder_negative.

Theorem C06_shift : forall b px py_ x y, constructedI b ->
  includesI (shiftI b px py_) x y = includesI b (x - nv px) (y - nv py_).
Proof. exact shiftI_includes. Qed.
Print Assumptions C06_shift.

Theorem C06_origin : forall b, wfI b -> bdef b = true ->
  ptin b (fst (originI b)) (snd (originI b)) /\
  forall x y, ptin b x y -> (fst (originI b) <= x /\ snd (originI b) <= y)%Z.
Proof. exact originI_least. Qed.
Print Assumptions C06_origin.

(** Bounds built from Python numbers satisfy the well-formedness hypothesis used above ... *)
Theorem C06_python_bounds_wellformed : forall b,
  constructedI b -> npy (bdx b) = true -> npy (bdy b) = true -> wfI b.
Proof.
  intros b C H1 H2 Hd. rewrite (constructedI_def _ C) in Hd. unfold deffun in Hd. rewrite H1, H2 in Hd. lia.
Qed.
Print Assumptions C06_python_bounds_wellformed.

(** ... but BoundsI of JAX scalars does not: BoundsI(5,1,1,5) of JAX scalars is reported
    as defined although it contains no point and has negative area. *)
Theorem C06_jax_scalar_bounds_wellformed_refuted :
  exists b, constructedI b /\ bdef b = true /\ (forall x y, ~ ptin b x y) /\ (areaI b < 0)%Z.
Proof.
  exists (BoundsI (Args4 (jx 5) (jx 1) (jx 1) (jx 5))%Z). split; [eexists; reflexivity|].
  split; [reflexivity|]. split; [|reflexivity]. intros x y H. unfold ptin in H.
  rewrite includesI_ctor4 in H. unfold rectZ in H. cbn in H. lia.
Qed.
Print Assumptions C06_jax_scalar_bounds_wellformed_refuted.

Example C06_example : let b := BoundsI (Args4 (py (-4)) (py 3) (py 1) (py 5))%Z in
  wfI b /\ bdef b = true /\ areaI b = 40%Z /\ centerI b = Ok (0, 3)%Z /\ numpyShapeI b = (5, 8)%Z.
Proof. cbv. repeat split; intros; discriminate. Qed.
