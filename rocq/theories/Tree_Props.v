(** C129: a profile or a coordinate system taken apart and put together by JAX is the same again;
    C130: which leaves a structure accepts. *)
From Coq Require Import Reals List Bool Arith Lra Lia.
From Verif Require Import Base Bounds_Model Bounds_Proofs Tree_Model Tree_Spec Tree_Proofs.
Import ListNotations.
Open Scope R_scope.

(** A Moffat, and a Convolution of it with an image whose gsparams are then changed *)
Definition moffat5 : obj nat := Elem KMoffat [PyNum (5 / 2); PyNum 1; PyNum 3] 0%nat.
Definition pair5 : obj nat := Conv [moffat5; Elem KPixel [PyNum (1 / 5); PyNum 1] 0%nat] [moffat5; Elem KPixel [PyNum (1 / 5); PyNum 1] 0%nat] 0%nat true.
Definition pair5' : obj nat :=
  Conv [moffat5; Elem KPixel [PyNum (1 / 5); PyNum 1] 0%nat] [Elem KMoffat [PyNum (5 / 2); PyNum 1; PyNum 3] 7%nat; Elem KPixel [PyNum (1 / 5); PyNum 1] 7%nat] 7%nat true.
Lemma moffat5_new : elem_new KMoffat [PyNum (5 / 2); PyNum 1; PyNum 3] 0%nat = Ok moffat5.
Proof. unfold elem_new. cbn. destruct (Rltb_spec (11 / 10) (5 / 2)); [reflexivity|lra]. Qed.
Lemma pair5_built : built Nat.eqb pair5.
Proof.
  apply (built_conv _ [moffat5; Elem KPixel [PyNum (1 / 5); PyNum 1] 0%nat] 0%nat true); [|reflexivity].
  constructor; [exact (built_elem _ _ _ _ _ moffat5_new)|]. constructor; [|constructor]. apply (built_elem _ KPixel [PyNum (1 / 5); PyNum 1] 0%nat). reflexivity.
Qed.
Lemma pair5_with : withGS Nat.eqb 7%nat pair5 = Ok pair5'.
Proof. cbn. destruct (Rltb_spec (11 / 10) (5 / 2)); [reflexivity|lra]. Qed.

(** Every object that constructors and withGSParams give survives: what is put together shows the same components,
    numbers, gsparams and flags *)
Theorem C129_profiles : forall {G : Type} (geq : G -> G -> bool), (forall a b, reflect (a = b) (geq a b)) -> forall o, built geq o ->
  exists o', tree_unflatten geq (structure o) (leaves o) = Ok o' /\ seen o' = seen o /\ leaves o' = leaves o.
Proof. intros G geq GE o B. exact (round_trip geq GE o (built_ok geq GE o B)). Qed.
Print Assumptions C129_profiles.
Example C129_profiles_example : exists o', tree_unflatten Nat.eqb (structure pair5') (leaves pair5') = Ok o' /\ seen o' = seen pair5' /\ leaves o' = leaves pair5'.
Proof. apply (C129_profiles Nat.eqb Nat.eqb_spec). exact (built_with _ _ _ _ pair5_built pair5_with). Qed.

(** It is the very same when params["obj_list"] of every Convolution is its obj_list *)
Theorem C129_exact : forall {G : Type} (geq : G -> G -> bool), (forall a b, reflect (a = b) (geq a b)) -> forall o, built geq o -> fresh o ->
  tree_unflatten geq (structure o) (leaves o) = Ok o.
Proof. intros G geq GE o B F. exact (exact_round_trip geq GE o (built_ok geq GE o B) F). Qed.
Print Assumptions C129_exact.
Example C129_exact_example : tree_unflatten Nat.eqb (structure pair5) (leaves pair5) = Ok pair5.
Proof. apply (C129_exact Nat.eqb Nat.eqb_spec); [exact pair5_built|]. cbn. tauto. Qed.

(** But the structure can be another: Convolution.withGSParams leaves params["obj_list"] as it was, so the structure of
    a copy through JAX, which has it renewed, differs from that of the original *)
Theorem C129_structure_refuted : exists o o' : obj nat,
  built Nat.eqb o /\ tree_unflatten Nat.eqb (structure o) (leaves o) = Ok o' /\ seen o' = seen o /\ structure o' <> structure o.
Proof.
  exists pair5', (Conv [Elem KMoffat [PyNum (5 / 2); PyNum 1; PyNum 3] 7%nat; Elem KPixel [PyNum (1 / 5); PyNum 1] 7%nat] [Elem KMoffat [PyNum (5 / 2); PyNum 1; PyNum 3] 7%nat; Elem KPixel [PyNum (1 / 5); PyNum 1] 7%nat] 7%nat true).
  split; [exact (built_with _ _ _ _ pair5_built pair5_with)|]. split; [|split; [reflexivity|cbn; congruence]].
  assert (E : Rltb (11 / 10) (5 / 2) = true) by (destruct (Rltb_spec (11 / 10) (5 / 2)); [reflexivity|lra]).
  unfold tree_unflatten, conv_new, elem_new. cbn. rewrite !E. cbn. unfold elem_new, conv_new. cbn. rewrite ?E. cbn. rewrite ?E. reflexivity.
Qed.
Print Assumptions C129_structure_refuted.

(** Coordinate systems survive *)
Theorem C129_wcs : forall k ps w, wcs_new k ps = Ok w -> wcs_flatten w = (ps, k) /\ wcs_unflatten (snd (wcs_flatten w)) (fst (wcs_flatten w)) = Ok w.
Proof. exact wcs_trip. Qed.
Print Assumptions C129_wcs.
Example C129_wcs_example : wcs_unflatten WShear [PyNum 2; JArr [1 / 10; 0]] = Ok (Wcs WShear [PyNum 2; JArr [1 / 10; 0]]).
Proof. exact (proj2 (C129_wcs WShear [PyNum 2; JArr [1 / 10; 0]] _ eq_refl)). Qed.

(** * C130 *)
(** New leaves are accepted exactly when there are as many as places and each passes at its place; the object then has
    these leaves and shows the structure of the old one *)
Theorem C130_which_leaves : forall {G : Type} (geq : G -> G -> bool), (forall a b, reflect (a = b) (geq a b)) -> forall o ls, built geq o ->
  (Forall2 passes (guards (structure o)) ls -> exists o', tree_unflatten geq (structure o) ls = Ok o' /\ leaves o' = ls /\ structure (seen o') = structure (seen o)) /\
  (forall o', tree_unflatten geq (structure o) ls = Ok o' -> Forall2 passes (guards (structure o)) ls).
Proof.
  intros G geq GE o ls B. destruct (which_leaves geq GE o ls (built_ok geq GE o B)) as [H1 H2]. split; [|exact H2]. intro P. destruct (H1 P) as (o' & E & _ & L & S). eauto.
Qed.
Print Assumptions C130_which_leaves.
Example C130_which_leaves_example : exists o', tree_unflatten Nat.eqb (structure pair5) [JArr [3]; Other; Other; Other; Other] = Ok o'.
Proof.
  destruct (C130_which_leaves Nat.eqb Nat.eqb_spec pair5 [JArr [3]; Other; Other; Other; Other] pair5_built) as [H _].
  destruct H as (o' & E & _); [|eauto]. cbn. repeat constructor. lra.
Qed.

(** Without a Moffat and an InterpolatedImage that looks at its image everything is accepted: JAX asks for that *)
Theorem C130_any_leaves : forall {G : Type} (geq : G -> G -> bool), (forall a b, reflect (a = b) (geq a b)) -> forall o f, built geq o ->
  Forall (fun g => g = Free) (guards (structure o)) -> exists o', tree_map geq f o = Ok o' /\ leaves o' = map f (leaves o).
Proof.
  intros G geq GE o f B F. pose proof (built_ok geq GE o B) as O. destruct (which_leaves geq GE o (map f (leaves o)) O) as [H _].
  destruct H as (o' & E & _ & L & _); [|unfold tree_map; eauto]. pose proof (own_leaves geq o O) as P. clear - F P. revert F. induction P; intro F; inversion F; subst; cbn; constructor; auto; exact I.
Qed.
Print Assumptions C130_any_leaves.
Example C130_any_leaves_example : exists o', tree_map Nat.eqb (fun _ => Other) (Trans (Elem KGaussian [PyNum 1; PyNum 2] 0%nat) [PyNum 1; JArr [0; 1]; PyNum 3] 0%nat true) = Ok o' /\ leaves o' = [Other; Other; Other; Other; Other].
Proof.
  apply (C130_any_leaves Nat.eqb Nat.eqb_spec (Trans (Elem KGaussian [PyNum 1; PyNum 2] 0%nat) [PyNum 1; JArr [0; 1]; PyNum 3] 0%nat true) (fun _ => Other)); [|cbn; repeat constructor].
  apply (built_trans _ (Elem KGaussian [PyNum 1; PyNum 2] 0%nat) [PyNum 1; JArr [0; 1]; PyNum 3] 0%nat true); [|reflexivity|reflexivity].
  apply (built_elem _ KGaussian [PyNum 1; PyNum 2] 0%nat). reflexivity.
Qed.

(** The zeros in the structure of a Moffat — the start of an optimiser, a cotangent — are refused, as is every gradient
    with respect to beta up to 1.1 *)
Theorem C130_moffat_gradient_refuted : forall b f s, b <= 11 / 10 ->
  built Nat.eqb moffat5 /\ tree_unflatten Nat.eqb (structure moffat5) [JArr [b]; JArr [f]; JArr [s]] = Err RuntimeError.
Proof.
  intros b f s H. split; [exact (built_elem _ _ _ _ _ moffat5_new)|].
  assert (E : Rltb (11 / 10) b = false) by (destruct (Rltb_spec (11 / 10) b); [lra|reflexivity]). unfold tree_unflatten, elem_new. cbn. unfold elem_new. cbn. rewrite E. reflexivity.
Qed.
Print Assumptions C130_moffat_gradient_refuted.
(** The zeros in the structure of an InterpolatedImage, and every gradient whose entries cancel, are refused *)
Definition interp4 : obj nat := Interp (JArr [1; 2]) [PyNum 3] (Impl (JArr [1; 2]) [PyNum 3] true 0%nat) 0%nat.
Theorem C130_image_gradient_refuted : forall a p v q, Rsum v = 0 ->
  built Nat.eqb interp4 /\ tree_unflatten Nat.eqb (structure interp4) [a; p; JArr v; q] = Err RuntimeError.
Proof.
  intros a p v q H. split.
  - apply (built_interp _ (JArr [1; 2]) [PyNum 3] [PyNum 3] true 0%nat (Impl (JArr [1; 2]) [PyNum 3] true 0%nat)); [|reflexivity].
    unfold impl_new. cbn. unfold Reqb. destruct (Req_EM_T (1 + (2 + 0)) 0); [lra|reflexivity].
  - assert (E : Reqb (Rsum v) 0 = true) by (unfold Reqb; destruct (Req_EM_T (Rsum v) 0); [reflexivity|contradiction]). unfold tree_unflatten. cbn. unfold impl_new. cbn. rewrite E. reflexivity.
Qed.
Print Assumptions C130_image_gradient_refuted.
(** The objects that JAX itself puts in the place of leaves are refused *)
Theorem C130_sentinel_refuted :
  tree_map Nat.eqb (fun _ => Other) moffat5 = Err TypeError /\ tree_map Nat.eqb (fun _ => Other) interp4 = Err TypeError /\
  wcs_unflatten WShear [Other; Other] = Err AttributeError.
Proof. repeat split. Qed.
Print Assumptions C130_sentinel_refuted.
(** Coordinate systems accept everything but a shear without real and imaginary parts *)
Theorem C130_wcs : forall k ls, (exists w, wcs_unflatten k ls = Ok w) <-> length ls = warity k /\ (k = WShear \/ k = WOffsetShear -> nth 1 ls (PyNum 0) <> Other).
Proof. exact wcs_which. Qed.
Print Assumptions C130_wcs.
Example C130_wcs_example : exists w, wcs_unflatten WAffine (repeat Other 8) = Ok w.
Proof. apply C130_wcs. split; [reflexivity|]. intros [E|E]; discriminate E. Qed.
