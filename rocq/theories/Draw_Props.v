(** C19 (automatic bounds), C20 (placement), C21 (real-space drawing). *)
From Coq Require Import ZArith Reals Lra Lia Bool List Permutation.
From Verif Require Import Base Array_Model Bounds_Model Bounds_Spec Bounds_Proofs Image_Model Image_Spec Image_Proofs Image_Example
  FFT_Model FFT_Spec FFT_Proofs Draw_Model Draw_Spec Draw_Proofs.
Import ListNotations.
Open Scope Z_scope.

(** ** C19 *)

(** GalSimIncompatibleValuesError is raised exactly for contradictory arguments. *)
Theorem C19_incompatible_iff_conflicting : forall V D W (T : vops V D W) dflt N (a : dargs (V:=V) (D:=D) (W:=W)),
  setup_image T dflt N (a_image a) (a_nx a) (a_ny a) (a_bounds a) (a_add a) (a_dtype a) (a_center a) false
    = Err GalSimIncompatibleValuesError <-> conflicting T a.
Proof. intros V D W T. exact (setup_conflict T). Qed.
Print Assumptions C19_incompatible_iff_conflicting.

(** Otherwise the image has defined bounds: the given image itself, or a blank image of the requested
    bounds / size / profile-determined size, near the requested center. *)
Theorem C19_image_as_requested : forall V D W (T : vops V D W) dflt N (a : dargs (V:=V) (D:=D) (W:=W)) im,
  sane a -> 2 <= N ->
  setup_image T dflt N (a_image a) (a_nx a) (a_ny a) (a_bounds a) (a_add a) (a_dtype a) (a_center a) false = Ok im ->
  bdef (ibnd im) = true /\
  (forall d, a_dtype a = Some d -> deqb T (idt im) d = true \/ idt im = d) /\
  match a_image a with
  | Some i =>
      if bdef (ibnd i) then im = i
      else all_zero T im /\ idt im = idt i /\ iwcs im = iwcs i /\
           nv (bxmin (ibnd im)) = 1 /\ nv (bymin (ibnd im)) = 1 /\ nv (bdx (ibnd im)) = N /\ nv (bdy (ibnd im)) = N
  | None =>
      all_zero T im /\
      match a_bounds a, a_nx a, a_ny a with
      | Some b, _, _ => ibnd im = b
      | None, Some nx, Some ny =>
          nv (bdx (ibnd im)) = nx /\ nv (bdy (ibnd im)) = ny /\
          match a_center a with
          | None => nv (bxmin (ibnd im)) = 1 /\ nv (bymin (ibnd im)) = 1
          | Some c => (Rabs (fst c - true_center_x (ibnd im)) <= / 2 /\ Rabs (snd c - true_center_y (ibnd im)) <= / 2)%R
          end
      | None, _, _ =>
          nv (bdx (ibnd im)) = N /\ nv (bdy (ibnd im)) = N /\
          match a_center a with
          | None => nv (bxmin (ibnd im)) = 1 /\ nv (bymin (ibnd im)) = 1
          | Some c => centerI (ibnd im) = Ok (ceilR (fst c), ceilR (snd c))
          end
      end
  end.
Proof. intros V D W T. exact (setup_outcome T). Qed.
Print Assumptions C19_image_as_requested.

(** Drawing leaves the image's bounds, dtype tag and wcs as they were set up, whatever is drawn; the
    drawing itself happens on an image of the same shape centred at (0,0). *)
Theorem C19_drawing_restores_bounds_and_wcs : forall V D W (T : vops V D W) (f : image V D W -> arr V) im,
  bdef (ibnd im) = true -> wfI (ibnd im) ->
  exists im', draw_bracket T f im = Ok im' /\ eqI (ibnd im') (ibnd im) = true /\ iwcs im' = iwcs im /\ idt im' = idt im /\
    exists im1, centred (ibnd im1) /\ nv (bdx (ibnd im1)) = nv (bdx (ibnd im)) /\ nv (bdy (ibnd im1)) = nv (bdy (ibnd im)) /\
      iarr im1 = iarr im /\ iarr im' = f im1.
Proof. intros V D W T. exact (bracket_ok T). Qed.
Print Assumptions C19_drawing_restores_bounds_and_wcs.

(** nx without ny is contradictory; nx with ny is not. *)
Example C19_example :
  setup_image Tex false 32 None (Some 5) None None false None None false = Err GalSimIncompatibleValuesError /\
  exists im, setup_image Tex false 32 None (Some 5) (Some 4) None false (Some true) None false = Ok im /\
    numpyShapeI (ibnd im) = (4, 5) /\ idt im = true.
Proof. split; [reflexivity|]. eexists. split; [reflexivity|]. split; reflexivity. Qed.

(** ** C20 *)

Theorem C20_profile_drawn_where_asked : forall V D W (T : vops V D W) dflt N (a : dargs (V:=V) (D:=D) (W:=W)) im off,
  sane a -> 2 <= N -> Z.even N = true ->
  (forall i, a_image a = Some i -> bdef (ibnd i) = false -> a_center a = None) ->
  draw_geometry T dflt N a = Ok (im, off) ->
  drawn_at im off = asked_position im a.
Proof. intros V D W T. exact (drawn_where_asked T). Qed.
Print Assumptions C20_profile_drawn_where_asked.

(** A position-dependent wcs is linearised exactly at the place where the profile is drawn. *)
Theorem C20_wcs_linearised_there : forall V D W (T : vops V D W) dflt N (a : dargs (V:=V) (D:=D) (W:=W)) im off p,
  sane a -> 2 <= N ->
  draw_geometry T dflt N a = Ok (im, off) ->
  local_wcs_pos (a_image a) (get_new_bounds (a_image a) (a_nx a) (a_ny a) (a_bounds a) (a_center a))
    (a_offset a) (a_center a) (a_utc a) = Ok p ->
  p = asked_position im a.
Proof. intros V D W T. exact (local_pos_asked T). Qed.
Print Assumptions C20_wcs_linearised_there.

(** With an image of undefined bounds and an explicit center, the image becomes 1..N and the profile is
    drawn near its middle, not at the requested center. *)
Theorem C20_undefined_image_with_center_refuted :
  ~ (forall (a : dargs (V:=Z) (D:=bool) (W:=Z * Z)) N im off,
      sane a -> 2 <= N -> Z.even N = true -> draw_geometry Tex false N a = Ok (im, off) ->
      drawn_at im off = asked_position im a).
Proof.
  intros H.
  set (i0 := empty_image (V:=Z) (D:=bool) (W:=(Z * Z)%type) Tex false None false).
  set (a := DArgs (Some i0) None None None false None (Some (50, 50)%R) (0, 0)%R true).
  assert (E : exists im, draw_geometry Tex false 32 a = Ok (im, (0 + (50 - IZR (ceilR 50)), 0 + (50 - IZR (ceilR 50))))%R /\
                ibnd im = BoundsI (ArgsKwDelta (py 1) (py 32) (py 1) (py 32))).
  { eexists. split; reflexivity. }
  destruct E as (im & E & Eb). apply H in E; [|..|reflexivity]; [| |lia].
  - unfold drawn_at, asked_position in E. rewrite Eb in E. cbn [fst snd a a_center a_offset] in E.
    replace (ceilR 50) with 50 in E by (symmetry; apply (ceilR_IZR 50)).
    apply (f_equal fst) in E. cbn [fst] in E.
    change (center_x (BoundsI (ArgsKwDelta (py 1) (py 32) (py 1) (py 32)))) with 17 in E. lra.
  - unfold sane. split; [discriminate|]. split; [discriminate|]. split; [discriminate|].
    intros i Hi. assert (i0 = i) by (cbn in Hi; congruence). subst i. intros C. discriminate C.
Qed.
Print Assumptions C20_undefined_image_with_center_refuted.

(** drawImage(nx=10, ny=7, center=(100,50), offset=(1,0)): the image is placed around the center
    and the hypotheses hold. *)
Example C20_example :
  let a := DArgs (V:=Z) (D:=bool) (W:=(Z*Z)%type) None (Some 10) (Some 7) None false None (Some (100, 50)%R) (1, 0)%R true in
  sane a /\ exists im off, draw_geometry Tex false 32 a = Ok (im, off) /\ bxmin (ibnd im) = jx 96 /\
    drawn_at im off = (101, 50)%R.
Proof.
  cbv zeta. split.
  { unfold sane. cbn [a_nx a_ny a_bounds a_image]. split; [intros n E; assert (10 = n) by congruence; lia|].
    split; [intros n E; assert (7 = n) by congruence; lia|]. split; discriminate. }
  assert (F1 : floorR (100 + / 2 - true_center_x (BoundsI (ArgsKwDelta (py 1) (py 10) (py 1) (py 7)))) = 95).
  { apply floorR_unique. unfold true_center_x. cbn. lra. }
  destruct (draw_geometry Tex false 32 (DArgs None (Some 10) (Some 7) None false None (Some (100, 50)%R) (1, 0)%R true)) as [[im off]|e] eqn:E; [|discriminate].
  exists im, off. split; [reflexivity|]. split.
  - assert (Ei : im = shift Tex (Image_nxny Tex 10 7 false)
        (jx (floorR (100 + / 2 - true_center_x (BoundsI (ArgsKwDelta (py 1) (py 10) (py 1) (py 7))))))
        (jx (floorR (50 + / 2 - true_center_y (BoundsI (ArgsKwDelta (py 1) (py 10) (py 1) (py 7))))))).
    { unfold draw_geometry, setup_image, center_shift in E. cbn [a_image a_nx a_ny a_bounds a_add a_dtype a_center opt_some orb negb bind fst snd or_dflt] in E.
      change (ibnd (Image_nxny Tex 10 7 false)) with (BoundsI (ArgsKwDelta (py 1) (py 10) (py 1) (py 7))) in E.
      assert (forall A B (x x' : A) (y y' : B), Ok (x, y) = Ok (x', y') -> x = x') as inj by congruence.
      symmetry. exact (inj _ _ _ _ _ _ E). }
    rewrite Ei, F1. reflexivity.
  - erewrite (C20_profile_drawn_where_asked _ _ _ Tex false 32); [| |lia|reflexivity| |exact E].
    + unfold asked_position. cbn [a_center a_offset fst snd]. f_equal; lra.
    + unfold sane. cbn [a_nx a_ny a_bounds a_image]. split; [intros n En; assert (10 = n) by congruence; lia|].
      split; [intros n En; assert (7 = n) by congruence; lia|]. split; discriminate.
    + discriminate.
Qed.

(** ** C21 *)

(** On floating point images a Sum is drawn as the sum of its components' values, in any order. *)
Theorem C21_float_sum_drawn_exactly : forall f fs im x y, is_rint (rdtype im) = false -> radt (rarray im) = rdtype im ->
  rval (rarray (drawReal (f :: fs) im false)) x y = rsum (f :: fs) x y /\
  rval (rarray (drawReal (f :: fs) im true)) x y = (rval (rarray im) x y + rsum (f :: fs) x y)%R /\
  forall gs, Permutation (f :: fs) gs ->
    rval (rarray (drawReal gs im false)) x y = rval (rarray (drawReal (f :: fs) im false)) x y.
Proof.
  assert (B : forall fs im x y, fs <> [] -> is_rint (rdtype im) = false -> radt (rarray im) = rdtype im -> rval (rarray (drawReal fs im false)) x y = rsum fs x y).
  { intros fs im x y Hne Hi Ha. destruct fs as [|f fs]; [congruence|]. unfold drawReal. destruct (draw_sum_val f fs im x y) as [A1 A2].
    cbv zeta in A1, A2. rewrite A2, Ha, Hi. cbn [is_rint negb andb]. cbn [rarray]. rewrite A1, Hi. reflexivity. }
  intros f fs im x y Hi Ha. split; [apply B; [discriminate|assumption|assumption]|]. split.
  - unfold drawReal. destruct (draw_sum_val f fs im x y) as [A1 A2]. cbv zeta in A1, A2. rewrite A2, Ha, Hi. cbn [is_rint negb andb rarray rval].
    rewrite A1, Hi. unfold rstore. rewrite Hi. reflexivity.
  - intros gs Hp. rewrite !B; try assumption; try discriminate.
    + symmetry. apply rsum_perm. exact Hp.
    + intros ->. apply Permutation_sym, Permutation_nil in Hp. discriminate.
Qed.
Print Assumptions C21_float_sum_drawn_exactly.

(** On an integer image only the first component is rounded before summing: the result is within 1 of
    the sum (the property asks for the sum rounded, i.e. within 1/2). *)
Theorem C21_integer_sum_within_one_partial : forall f fs im x y, rdtype im = RInt -> radt (rarray im) = RInt ->
  rval (rarray (drawReal (f :: fs) im false)) x y = IZR (roundR (IZR (roundR (f x y)) + rsum fs x y)) /\
  (Rabs (rval (rarray (drawReal (f :: fs) im false)) x y - rsum (f :: fs) x y) <= 1)%R /\
  (fs = [] -> rval (rarray (drawReal (f :: fs) im false)) x y = IZR (roundR (f x y))).
Proof.
  intros f fs im x y Hi Ha.
  assert (E : rval (rarray (drawReal (f :: fs) im false)) x y = IZR (roundR (IZR (roundR (f x y)) + rsum fs x y))).
  { unfold drawReal. destruct (draw_sum_val f fs im x y) as [A1 A2]. cbv zeta in A1, A2. rewrite A2, Ha. cbn [is_rint negb andb rarray rval].
    rewrite A1, Hi. reflexivity. }
  split; [exact E|]. split.
  - rewrite E. pose proof (roundR_err (f x y)) as E1. pose proof (roundR_err (IZR (roundR (f x y)) + rsum fs x y)) as E2.
    change (rsum (f :: fs) x y) with (f x y + rsum fs x y)%R. apply Rabs_le.
    apply Rabs_def2_le in E1 || (unfold Rabs in E1, E2; destruct (Rcase_abs _) in E1; destruct (Rcase_abs _) in E2); lra.
  - intros ->. rewrite E. change (rsum [] x y) with 0%R. rewrite Rplus_0_r, roundR_IZR. reflexivity.
Qed.
Print Assumptions C21_integer_sum_within_one_partial.

Definition cst (c : R) : Z -> Z -> R := fun _ _ => c.
Definition int_image : rimage := RImg (RArr (cst 0) RInt) RInt.

(** The full statement fails three ways: the sum of the components is not what is rounded, the result depends
    on the order of the components, and the integer image ends up holding a floating point array. *)
Theorem C21_integer_image_refuted :
  ~ (forall fs x y, fs <> [] -> rval (rarray (drawReal fs int_image false)) x y = IZR (roundR (rsum fs x y))) /\
  ~ (forall fs gs x y, Permutation fs gs -> rval (rarray (drawReal fs int_image false)) x y = rval (rarray (drawReal gs int_image false)) x y) /\
  ~ (forall fs im, fs <> [] -> radt (rarray im) = rdtype im -> radt (rarray (drawReal fs im false)) = rdtype im).
Proof.
  assert (R0 : roundR (2 / 5) = 0).
  { unfold roundR. rewrite (floorR_unique _ 0) by lra. destruct (Rltb_spec (2 / 5 - 0) (/ 2)); [reflexivity|lra]. }
  assert (R1 : forall v, (/ 2 < v < 3 / 2)%R -> roundR v = 1).
  { intros v Hv. unfold roundR. destruct (Rlt_dec v 1) as [L|L].
    - rewrite (floorR_unique _ 0) by lra. destruct (Rltb_spec (v - 0) (/ 2)); [lra|]. destruct (Rltb_spec (/ 2) (v - 0)); [reflexivity|lra].
    - rewrite (floorR_unique _ 1) by lra. destruct (Rltb_spec (v - 1) (/ 2)); [reflexivity|lra]. }
  split; [|split].
  - intros H. specialize (H [cst (2 / 5); cst (2 / 5)] 0 0 ltac:(discriminate)).
    destruct (C21_integer_sum_within_one_partial (cst (2 / 5)) [cst (2 / 5)] int_image 0 0 eq_refl eq_refl) as (E & _). rewrite E in H.
    unfold rsum, cst in H. cbn [fold_right] in H. rewrite R0 in H.
    replace (0 + (2 / 5 + 0))%R with (2 / 5)%R in H by lra. rewrite R0 in H. rewrite R1 in H by lra. lra.
  - intros H. specialize (H [cst (2 / 5); cst (2 / 5); cst (4 / 5)] [cst (4 / 5); cst (2 / 5); cst (2 / 5)] 0 0).
    assert (P : Permutation [cst (2 / 5); cst (2 / 5); cst (4 / 5)] [cst (4 / 5); cst (2 / 5); cst (2 / 5)]).
    { apply Permutation_sym. apply Permutation_trans with [cst (2/5); cst (4/5); cst (2/5)]; [apply perm_swap|]. apply perm_skip. apply perm_swap. }
    specialize (H P).
    destruct (C21_integer_sum_within_one_partial (cst (2 / 5)) [cst (2 / 5); cst (4 / 5)] int_image 0 0 eq_refl eq_refl) as (E & _).
    destruct (C21_integer_sum_within_one_partial (cst (4 / 5)) [cst (2 / 5); cst (2 / 5)] int_image 0 0 eq_refl eq_refl) as (E' & _).
    rewrite E, E' in H. unfold rsum, cst in H. cbn [fold_right] in H. rewrite R0 in H. rewrite (R1 (4 / 5)%R) in H by lra.
    rewrite R1 in H by lra.
    assert (R2 : roundR (1 + (2 / 5 + (2 / 5 + 0))) = 2).
    { unfold roundR. rewrite (floorR_unique _ 1) by lra. match goal with |- context [Rltb ?a ?b] => destruct (Rltb_spec a b); [lra|] end.
      match goal with |- context [Rltb ?a ?b] => destruct (Rltb_spec a b); [reflexivity|lra] end. }
    rewrite R2 in H. lra.
  - intros H. specialize (H [cst 1] int_image ltac:(discriminate) eq_refl). discriminate.
Qed.
Print Assumptions C21_integer_image_refuted.

Example C21_example : rval (rarray (drawReal [cst 1; cst 2; cst (1 / 2)] (RImg (RArr (cst 7) RF32) RF32) true)) 3 4 = (7 + 7 / 2)%R.
Proof.
  destruct (C21_float_sum_drawn_exactly (cst 1) [cst 2; cst (1 / 2)] (RImg (RArr (cst 7) RF32) RF32) 3 4 eq_refl eq_refl) as (_ & E & _).
  rewrite E. unfold rsum, cst. cbn. lra.
Qed.
