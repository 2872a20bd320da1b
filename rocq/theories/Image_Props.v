(** Property theorems about images (C07-C15, C75). *)
From Coq Require Import ZArith Bool List Lia.
From Verif Require Import Base Array_Model Bounds_Model Bounds_Spec MSum Wrap_Model Wrap_Spec Wrap_Proofs
  Image_Model Image_Spec Image_Proofs Image_Example.
Import ListNotations.
Open Scope Z_scope.

(** ** C07: an image is a map from positions to values *)

(** Any program of pixel writes, fills, sub-image writes, in-place arithmetic and shifts, with
    exceptions caught, has exactly the effect of the same program on a plain pixel map, and
    raises at the same steps. *)
Theorem C07_image_refines_pixel_map : forall V D W (T : vops V D W) (im : image V D W) l sl,
  lawful T -> wfimg im -> iconst im = Some false -> Forall2 mirrors l sl ->
  errors T im l = serrors T (pm_of im) sl /\
  forall x y, pix (run T im l) x y = pget (srun T (pm_of im) sl) x y.
Proof.
  intros V D W T im l sl L Hw Hc Hl.
  destruct (run_refines T L l sl im (pm_of im) (repr_of im Hw) Hc Hl) as (A & B & C).
  split; [exact C|]. intros x y. apply (repr_pix _ _ x y A).
Qed.
Print Assumptions C07_image_refines_pixel_map.

(** An operation of this kind that raises leaves the object exactly as it was. *)
Theorem C07_raising_operation_changes_nothing : forall V D W (T : vops V D W) (im : image V D W) o s,
  lawful T -> wfimg im -> iconst im = Some false -> mirrors o s ->
  snd (step T im o) <> None -> forall x y, pix (fst (step T im o)) x y = pix im x y.
Proof.
  intros V D W T im o s L Hw Hc Hm He x y.
  destruct (step_refines T L im (pm_of im) o s (repr_of im Hw) Hc Hm) as (A & _ & B).
  rewrite (repr_pix _ _ x y A), (repr_pix _ _ x y (repr_of im Hw)). rewrite B in He. clear A B Hm.
  destruct s; cbn [sstep] in *;
    repeat match goal with |- context [if ?c then _ else _] => destruct c eqn:? end;
    try destruct (serr _ _ _ _); cbn in *; try reflexivity; exfalso; apply He; reflexivity.
Qed.
Print Assumptions C07_raising_operation_changes_nothing.

(** The pixel written is read back, every other pixel is unaffected. *)
Theorem C07_set_then_get : forall V D W (T : vops V D W) (im : image V D W) x y v,
  lawful T -> wfimg im -> iconst im = Some false -> pix im x y <> None ->
  forall x' y', pix (fst (setValue T im x y v)) x' y' =
    if (x' =? x) && (y' =? y) then Some (tcast T (idt im) v) else pix im x' y'.
Proof.
  intros V D W T im x y v L Hw Hc Hin x' y'.
  destruct (step_refines T L im (pm_of im) (OpSet x y v) (SSet x y v) (repr_of im Hw) Hc (MSet x y v)) as (A & _).
  cbn [step] in A. rewrite (repr_pix _ _ x' y' A). rewrite (repr_pix _ _ x y (repr_of im Hw)) in Hin.
  rewrite (repr_pix _ _ x' y' (repr_of im Hw)). cbn [sstep]. unfold pget in *.
  destruct (inside (pm_of im) x y) eqn:E; [|congruence]. cbn [fst].
  change (inside (upd (pm_of im) _) x' y') with (inside (pm_of im) x' y').
  destruct ((x' =? x) && (y' =? y)) eqn:F.
  - apply andb_true_iff in F as [F1 F2]. apply Z.eqb_eq in F1, F2. subst. rewrite E. cbn [upd pf].
    rewrite !Z.eqb_refl. reflexivity.
  - destruct (inside (pm_of im) x' y'); [|reflexivity]. cbn [upd pf]. rewrite F. reflexivity.
Qed.
Print Assumptions C07_set_then_get.

Example C07_example :
  let im := mk true 1 4 1 3 (fun x y => 2 * (10 * y + x)) in
  let l := [OpSet 2 2 7; OpShift (py 10) (py 0); OpSet 2 2 7; OpAdd 12 2 6; OpIn Add (OScalar false 1)] in
  lawful Tex /\ wfimg im /\ Forall2 mirrors l [SSet 2 2 7; SShift 10 0; SSet 2 2 7; SAdd 12 2 6; SIn Add (SScalar false 1)] /\
  errors Tex im l = [None; None; Some GalSimBoundsError; None; None] /\
  pix (run Tex im l) 12 2 = Some 12 /\ pix (run Tex im l) 13 2 = Some 48 /\ pix (run Tex im l) 2 2 = None.
Proof.
  cbv zeta. split; [exact lawful_Tex|]. split; [apply wf_mk; lia|]. split; [repeat constructor|].
  split; [reflexivity|]. split; [reflexivity|]. split; reflexivity.
Qed.

(** ** C08: sub-images *)

Theorem C08_subimage_exposes_requested_pixels : forall V D W (T : vops V D W) (im : image V D W) b,
  wfimg im -> okb b -> includesI_b (ibnd im) b = true ->
  exists s, subImage T im b = Ok s /\ wfimg s /\ eqI (ibnd s) b = true /\ idt s = idt im /\ iwcs s = iwcs im /\
    iconst s = Some false /\
    forall x y, getValue s x y = if includesI b x y then getValue im x y else Err GalSimBoundsError.
Proof. exact @subImage_contained. Qed.
Print Assumptions C08_subimage_exposes_requested_pixels.

Theorem C08_uncontained_bounds_raise : forall V D W (T : vops V D W) (im : image V D W) b,
  wfimg im -> okb b -> includesI_b (ibnd im) b = false -> subImage T im b = Err GalSimBoundsError.
Proof. exact @subImage_not_contained. Qed.
Print Assumptions C08_uncontained_bounds_raise.

(** Writing a sub-image back is the identity (the pixels of im being values of im's dtype). *)
Theorem C08_write_back_is_identity : forall V D W (T : vops V D W) (im : image V D W) b s,
  wfimg im -> okb b -> iconst im = Some false -> subImage T im b = Ok s ->
  (forall x y v, getValue im x y = Ok v -> rcast T (idt im) v = v) ->
  snd (setSubImage T im b s) = None /\
  forall x y, getValue (fst (setSubImage T im b s)) x y = getValue im x y.
Proof. exact @write_back. Qed.
Print Assumptions C08_write_back_is_identity.

(** With bounds whose position is a JAX value the containment test is skipped and the slice start
    is clamped: another region is returned under the requested bounds, without an error. *)
Theorem C08_jax_bounds_outside_raise_refuted :
  ~ (forall V D W (T : vops V D W) (im : image V D W) b, wfimg im -> constructedI b -> wfI b -> bdef b = true ->
       includesI_b (ibnd im) b = false -> exists e, subImage T im b = Err e).
Proof.
  intros H.
  specialize (H Z bool (Z * Z)%type Tex (mk false 1 4 1 4 (fun x y => 2 * (10 * y + x)))
                (BoundsI (ArgsKwDelta (jx 4) (py 2) (jx 4) (py 2)))).
  destruct H as [e He].
  - apply wf_mk; lia.
  - eexists; reflexivity.
  - intros _. cbn. lia.
  - reflexivity.
  - reflexivity.
  - vm_compute in He. discriminate.
Qed.
Print Assumptions C08_jax_bounds_outside_raise_refuted.

Example C08_example :
  let im := mk false 1 4 1 4 (fun x y => 2 * (10 * y + x)) in
  let b := BoundsI (Args4 (py 2) (py 3) (py 3) (py 4)) in
  wfimg im /\ okb b /\ includesI_b (ibnd im) b = true /\
  exists s, subImage Tex im b = Ok s /\ getValue s 3 4 = Ok 86 /\ getValue s 1 3 = Err GalSimBoundsError /\
            snd (setSubImage Tex im b s) = None.
Proof.
  cbv zeta. split; [apply wf_mk; lia|]. split; [apply okb_box; lia|]. split; [reflexivity|].
  eexists. split; [vm_compute; reflexivity|]. split; [vm_compute; reflexivity|]. split; vm_compute; reflexivity.
Qed.

(** ** C09: const images *)

(** The checked mutators raise and change nothing, whatever the order of calls; shifts move
    the bounds but not the pixel array. *)
Theorem C09_const_image_checked_methods : forall V D W (T : vops V D W) (im : image V D W) o,
  iconst im = Some true -> checked_op o = true -> is_shift o = false ->
  step T im o = (im, Some GalSimImmutableError).
Proof. intros V D W T im o H1 H2 H3. apply (const_step T im o H1 H2). exact H3. Qed.
Print Assumptions C09_const_image_checked_methods.

Theorem C09_const_image_array_never_changes : forall V D W (T : vops V D W) l (im : image V D W),
  iconst im = Some true -> forallb checked_op l = true -> iarr (run T im l) = iarr im.
Proof. exact @const_run. Qed.
Print Assumptions C09_const_image_array_never_changes.

(** Full claim, over all public mutators, is false: in-place operators, the array setter and
    wrap do not look at the flag. *)
Definition C09_claim : Prop := forall V D W (T : vops V D W) (im : image V D W) o,
  wfimg im -> iconst im = Some true -> forall x y, is_shift o = false -> pix (fst (step T im o)) x y = pix im x y.
Theorem C09_const_image_never_modified_refuted : ~ C09_claim /\
  exists (im : image Z bool (Z * Z)), wfimg im /\ iconst im = Some true /\
    snd (step Tex im (OpIn Add (OScalar false 2))) = None /\
    pix (fst (step Tex im (OpIn Add (OScalar false 2)))) 1 1 <> pix im 1 1 /\
    snd (step Tex im (OpSetArray (aconst 2 2 6))) = None /\
    pix (fst (step Tex im (OpSetArray (aconst 2 2 6)))) 1 1 <> pix im 1 1 /\
    snd (step Tex im (OpWrap (BoundsI (Args4 (py 1) (py 1) (py 1) (py 1))) HNone)) = None /\
    pix (fst (step Tex im (OpWrap (BoundsI (Args4 (py 1) (py 1) (py 1) (py 1))) HNone))) 1 1 <> pix im 1 1.
Proof.
  pose (im := Img (Arr 2 2 (fun i j => 2 + i)) (BoundsI (ArgsKwDelta (py 1) (py 2) (py 1) (py 2))) false (Some true) None : image Z bool (Z * Z)).
  assert (Hw : wfimg im) by (apply (wf_mk false 1 2 1 2 (fun x y => 1 + y)); lia).
  split.
  - intros H. specialize (H _ _ _ Tex im (OpIn Add (OScalar false 2)) Hw eq_refl 1 1 eq_refl). discriminate.
  - exists im. split; [exact Hw|]. repeat (split; [first [reflexivity | vm_compute; discriminate]|]). vm_compute. discriminate.
Qed.
Print Assumptions C09_const_image_never_modified_refuted.

Example C09_example :
  let im := Img (Arr 2 2 (fun i j => i)) (BoundsI (ArgsKwDelta (py 1) (py 2) (py 1) (py 2))) false (Some true) (Some (0, 0)) : image Z bool (Z * Z) in
  let l := [OpSet 1 1 5; OpFill 3; OpShift (py 1) (py 0); OpZero] in
  forallb checked_op l = true /\ errors Tex im l = [Some GalSimImmutableError; Some GalSimImmutableError; None; Some GalSimImmutableError].
Proof. split; reflexivity. Qed.

(** ** C10 (pixels): re-origining *)

Theorem C10_shift_moves_every_pixel : forall V D W (T : vops V D W) (im : image V D W) dx dy x y, wfimg im ->
  getValue (shift T im (py dx) (py dy)) (x + dx) (y + dy) = getValue im x y /\
  iarr (shift T im (py dx) (py dy)) = iarr im.
Proof. intros V D W T im dx dy x y Hw. split; [exact (shift_pixels T im dx dy x y Hw)|reflexivity]. Qed.
Print Assumptions C10_shift_moves_every_pixel.

Theorem C10_shifts_compose : forall V D W (T : vops V D W) (im : image V D W) dx dy dx' dy' x y, wfimg im ->
  getValue (shift T (shift T im (py dx) (py dy)) (py dx') (py dy')) x y =
  getValue (shift T im (py (dx + dx')) (py (dy + dy'))) x y.
Proof.
  intros V D W T im dx dy dx' dy' x y Hw.
  pose proof (shift_wf T im dx dy Hw) as W1.
  replace x with (x - dx - dx' + dx + dx') at 1 by lia. replace y with (y - dy - dy' + dy + dy') at 1 by lia.
  rewrite (shift_pixels T _ dx' dy' _ _ W1), (shift_pixels T im dx dy _ _ Hw).
  replace x with (x - dx - dx' + (dx + dx')) at 2 by lia. replace y with (y - dy - dy' + (dy + dy')) at 2 by lia.
  rewrite (shift_pixels T im (dx + dx') (dy + dy') _ _ Hw). reflexivity.
Qed.
Print Assumptions C10_shifts_compose.

Theorem C10_setOrigin_setCenter_reach_target : forall V D W (T : vops V D W) (im : image V D W) x0 y0, wfimg im ->
  originI (ibnd (setOrigin T im (py x0) (py y0))) = (x0, y0) /\
  snd (setCenter T im (py x0) (py y0)) = None /\
  centerI (ibnd (fst (setCenter T im (py x0) (py y0)))) = Ok (x0, y0) /\
  iarr (fst (setCenter T im (py x0) (py y0))) = iarr im.
Proof. exact @setOrigin_setCenter_ok. Qed.
Print Assumptions C10_setOrigin_setCenter_reach_target.

(** ** C11: transposes, flips, rotations *)

Theorem C11_pixel_permutations : forall V D W (im : image V D W), wfimg im ->
  moved im (transpose im) (fun x y => y) (fun x y => x) /\
  moved im (flip_lr im) (fun x y => xmin_ im + xmax_ im - x) (fun x y => y) /\
  moved im (flip_ud im) (fun x y => x) (fun x y => ymin_ im + ymax_ im - y) /\
  moved im (rot_cw im) (fun x y => xmin_ im + xmax_ im - y) (fun x y => x) /\
  moved im (rot_ccw im) (fun x y => y) (fun x y => ymin_ im + ymax_ im - x) /\
  moved im (rot_180 im) (fun x y => xmin_ im + xmax_ im - x) (fun x y => ymin_ im + ymax_ im - y).
Proof.
  intros V D W im Hw. split; [exact (transpose_moved im Hw)|]. split; [exact (flip_lr_moved im Hw)|].
  split; [exact (flip_ud_moved im Hw)|]. split; [exact (rot_cw_moved im Hw)|].
  split; [exact (rot_ccw_moved im Hw)|exact (rot_180_moved im Hw)].
Qed.
Print Assumptions C11_pixel_permutations.

Theorem C11_dihedral_group_laws : forall V D W (im : image V D W), wfimg im -> forall x y,
  pix (transpose (transpose im)) x y = pix im x y /\
  pix (flip_lr (flip_lr im)) x y = pix im x y /\
  pix (flip_ud (flip_ud im)) x y = pix im x y /\
  pix (rot_cw (rot_ccw im)) x y = pix im x y /\
  pix (rot_ccw (rot_cw im)) x y = pix im x y /\
  pix (rot_cw (rot_cw im)) x y = pix (rot_180 im) x y /\
  pix (flip_lr (flip_ud im)) x y = pix (rot_180 im) x y /\
  pix (flip_ud (transpose im)) x y = pix (rot_cw im) x y /\
  pix (flip_lr (transpose im)) x y = pix (rot_ccw im) x y.
Proof. exact @dihedral_laws. Qed.
Print Assumptions C11_dihedral_group_laws.

(** The returned object is not a usable Image: its const flag is missing, so reading isconst,
    setting a value, filling, flattening raise AttributeError. *)
Theorem C11_result_is_usable_refuted : forall V D W (T : vops V D W) (im : image V D W) x y v,
  isconst (transpose im) = Err AttributeError /\ isconst (flip_lr im) = Err AttributeError /\
  isconst (flip_ud im) = Err AttributeError /\ isconst (rot_cw im) = Err AttributeError /\
  isconst (rot_ccw im) = Err AttributeError /\ isconst (rot_180 im) = Err AttributeError /\
  snd (setValue T (flip_lr im) x y v) = Some AttributeError /\
  snd (fill T (transpose im) v) = Some AttributeError.
Proof. intros. repeat split. Qed.
Print Assumptions C11_result_is_usable_refuted.

Example C11_example :
  let im := mk false 1 4 1 2 (fun x y => 2 * (10 * y + x)) in
  wfimg im /\ pix (rot_cw im) 1 1 = pix im 4 1 /\ pix (rot_cw im) 1 1 = Some 28 /\ pix (flip_lr im) 4 2 = Some 42.
Proof. cbv zeta. split; [apply wf_mk; lia|]. repeat split. Qed.

(** ** C12: a rejected wrap *)

(** wrap with bounds inside the image never raises (see C14); with other bounds it raises after
    having overwritten pixels. *)
Definition C12_claim : Prop := forall V D W (T : vops V D W) (im : image V D W) b h e,
  wfimg im -> okb b -> snd (wrap T im b h) = Err e -> forall x y, pix (fst (wrap T im b h)) x y = pix im x y.
Theorem C12_rejected_wrap_changes_nothing_refuted : ~ C12_claim.
Proof.
  intros H. pose (im := mk false 1 4 1 4 (fun x y => 2 * (10 * y + x))).
  pose (b := BoundsI (Args4 (py 3) (py 5) (py 3) (py 5))).
  specialize (H _ _ _ Tex im b HNone GalSimBoundsError).
  assert (E : pix (fst (wrap Tex im b HNone)) 2 2 = pix im 2 2).
  { apply H; [apply wf_mk; lia|apply okb_box; lia|vm_compute; reflexivity]. }
  vm_compute in E. discriminate.
Qed.
Print Assumptions C12_rejected_wrap_changes_nothing_refuted.

(** What does hold: the Hermitian precondition errors are raised before anything is written. *)
Theorem C12_hermitian_precondition_atomic_partial : forall V D W (T : vops V D W) (im : image V D W) b,
  (nv (bxmin b) <> 0 \/ xmin_ im <> 0 -> wfimg im -> okb b ->
     wrap T im b HX = (im, Err GalSimIncompatibleValuesError)) /\
  (nv (bymin b) <> 0 \/ ymin_ im <> 0 -> wfimg im -> okb b ->
     wrap T im b HY = (im, Err GalSimIncompatibleValuesError)).
Proof. exact @wrap_herm_precheck. Qed.
Print Assumptions C12_hermitian_precondition_atomic_partial.

Example C12_example : let im := mk false 1 4 1 4 (fun x y => x + y) in
  let b := BoundsI (Args4 (py 0) (py 1) (py 1) (py 2)) in
  wfimg im /\ okb b /\ xmin_ im <> 0 /\ wrap Tex im b HX = (im, Err GalSimIncompatibleValuesError).
Proof. cbv zeta. split; [apply wf_mk; lia|]. split; [apply okb_box; lia|]. split; [discriminate|reflexivity]. Qed.

(** ** C13: pytree *)

Theorem C13_roundtrip_when_added_flux_present : forall V D W AF PH HD (x : imgx (V:=V) (D:=D) (W:=W) AF PH HD) ch ax,
  img_flatten AF PH HD x = Ok (ch, ax) ->
  (photons _ _ _ x <> None -> added_flux _ _ _ x <> None) ->
  Ok (img_unflatten AF PH HD ch ax) = imgx_as_rebuilt x.
Proof. exact @img_roundtrip. Qed.
Print Assumptions C13_roundtrip_when_added_flux_present.

(** With photons but no added_flux the photon array comes back as added_flux. *)
Theorem C13_roundtrip_any_attributes_refuted :
  ~ (forall V D W AF PH HD (x : imgx (V:=V) (D:=D) (W:=W) AF PH HD) ch ax,
       img_flatten AF PH HD x = Ok (ch, ax) -> Ok (img_unflatten AF PH HD ch ax) = imgx_as_rebuilt x).
Proof.
  intros H.
  pose (x := ImgX (V:=Z) (D:=bool) (W:=(Z*Z)%type) Z Z Z (mk false 1 4 1 4 (fun x y => x)) None (Some 7) None).
  specialize (H _ _ _ _ _ _ x). destruct (img_flatten Z Z Z x) as [[ch ax]|e] eqn:E; [|discriminate].
  specialize (H ch ax eq_refl). injection E as <- <-. discriminate.
Qed.
Print Assumptions C13_roundtrip_any_attributes_refuted.

(** An image returned by transpose etc. cannot be flattened at all. *)
Theorem C13_flatten_fails_without_const_flag_refuted : forall V D W AF PH HD (im : image V D W) a p h,
  img_flatten AF PH HD (ImgX AF PH HD (transpose im) a p h) = Err AttributeError.
Proof. reflexivity. Qed.
Print Assumptions C13_flatten_fails_without_const_flag_refuted.

Example C13_example :
  let x := ImgX (V:=Z) (D:=bool) (W:=(Z*Z)%type) Z Z Z (mk false 1 4 1 4 (fun x y => x)) (Some 3) (Some 7) None in
  exists ch ax, img_flatten Z Z Z x = Ok (ch, ax) /\ length ch = 4%nat /\
  Ok (img_unflatten Z Z Z ch ax) = imgx_as_rebuilt x.
Proof. do 2 eexists. split; [reflexivity|]. split; reflexivity. Qed.

(** ** C14: wrapping *)

Theorem C14_wrap_sums_congruent_pixels : forall V D W (T : vops V D W) (im : image V D W) b,
  add_monoid T (idt im) -> wfimg im -> okb b -> includesI_b (ibnd im) b = true ->
  exists s, snd (wrap T im b HNone) = Ok s /\ wfimg s /\ eqI (ibnd s) b = true /\
    ibnd (fst (wrap T im b HNone)) = ibnd im /\
    forall x y,
      (includesI b x y = true ->
        getValue s x y = Ok (congruent_sum V (bop T Add (idt im) (idt im)) (vzero T) (pf (pm_of im))
           (nv (bxmin (ibnd im))) (ncol (iarr im)) (nv (bymin (ibnd im))) (nrow (iarr im)) (nv (bdx b)) (nv (bdy b)) x y) /\
        getValue (fst (wrap T im b HNone)) x y = getValue s x y) /\
      (includesI b x y = false -> getValue (fst (wrap T im b HNone)) x y = getValue im x y).
Proof. intros V D W T im b (A1 & A2 & A3). exact (wrap_ok T im b A1 A2 A3). Qed.
Print Assumptions C14_wrap_sums_congruent_pixels.

Theorem C14_wrap_preserves_total : forall V D W (T : vops V D W) (im : image V D W) b s,
  add_monoid T (idt im) -> wfimg im -> okb b -> includesI_b (ibnd im) b = true ->
  snd (wrap T im b HNone) = Ok s ->
  rect_sum V (bop T Add (idt im) (idt im)) (vzero T) (pf (pm_of s)) (nv (bxmin b)) (nv (bdx b)) (nv (bymin b)) (nv (bdy b)) =
  rect_sum V (bop T Add (idt im) (idt im)) (vzero T) (pf (pm_of im))
    (nv (bxmin (ibnd im))) (ncol (iarr im)) (nv (bymin (ibnd im))) (nrow (iarr im)).
Proof. exact @wrap_total. Qed.
Print Assumptions C14_wrap_preserves_total.

Example C14_example :
  let im := mk false 1 5 1 4 (fun x y => 10 * y + x) in
  let b := BoundsI (Args4 (py 2) (py 3) (py 2) (py 4)) in
  add_monoid Tex (idt im) /\ wfimg im /\ okb b /\ includesI_b (ibnd im) b = true /\
  match snd (wrap Tex im b HNone) with Ok s => getValue s 2 4 = Ok (42 + 44 + 12 + 14) | Err _ => False end.
Proof.
  cbv zeta. split; [exact monoid_Tex|]. split; [apply wf_mk; lia|]. split; [apply okb_box; lia|]. split; [reflexivity|].
  vm_compute. reflexivity.
Qed.

(** ** C15: Hermitian wrapping *)

Theorem C15_hermitian_x_is_full_plane_wrap : forall V D W (T : vops V D W) (im : image V D W) b F X Y,
  add_monoid T (idt im) -> wfimg im -> okb b -> includesI_b (ibnd im) b = true ->
  nv (bxmin (ibnd im)) = 0 -> ncol (iarr im) = X + 1 ->
  nv (bymin (ibnd im)) = - Y -> nrow (iarr im) = 2 * Y + 1 ->
  hermitianF V (vconj T) F ->
  (forall x y, 0 <= x <= X -> - Y <= y <= Y -> pf (pm_of im) x y = F x y) ->
  nv (bxmin b) = 0 -> 2 <= nv (bdx b) ->
  exists s, snd (wrap T im b HX) = Ok s /\ wfimg s /\ eqI (ibnd s) b = true /\
    forall x y, includesI b x y = true ->
      getValue s x y = Ok (congruent_sum V (bop T Add (idt im) (idt im)) (vzero T) F
         (- X) (2 * X + 1) (- Y) (2 * Y + 1) (2 * (nv (bdx b) - 1)) (nv (bdy b)) x y).
Proof. intros V D W T im b F X Y (A1 & A2 & A3). exact (wrap_herm_x_ok T im b F X Y A1 A2 A3). Qed.
Print Assumptions C15_hermitian_x_is_full_plane_wrap.

Theorem C15_hermitian_y_is_full_plane_wrap : forall V D W (T : vops V D W) (im : image V D W) b F X Y,
  add_monoid T (idt im) -> wfimg im -> okb b -> includesI_b (ibnd im) b = true ->
  nv (bymin (ibnd im)) = 0 -> nrow (iarr im) = Y + 1 ->
  nv (bxmin (ibnd im)) = - X -> ncol (iarr im) = 2 * X + 1 ->
  hermitianF V (vconj T) F ->
  (forall x y, - X <= x <= X -> 0 <= y <= Y -> pf (pm_of im) x y = F x y) ->
  nv (bymin b) = 0 -> 2 <= nv (bdy b) ->
  exists s, snd (wrap T im b HY) = Ok s /\ wfimg s /\ eqI (ibnd s) b = true /\
    forall x y, includesI b x y = true ->
      getValue s x y = Ok (congruent_sum V (bop T Add (idt im) (idt im)) (vzero T) F
         (- X) (2 * X + 1) (- Y) (2 * Y + 1) (nv (bdx b)) (2 * (nv (bdy b) - 1)) x y).
Proof. intros V D W T im b F X Y (A1 & A2 & A3). exact (wrap_herm_y_ok T im b F X Y A1 A2 A3). Qed.
Print Assumptions C15_hermitian_y_is_full_plane_wrap.

(** When the rows are not symmetric about 0 (e.g. -2..1, as calculate_fft returns) the code mirrors
    about the middle row instead of about y = 0: the half-plane value used is not the conjugate
    partner, even when only pixels whose partner exists are involved. *)
Theorem C15_asymmetric_rows_refuted :
  ~ (forall (im : image Z bool (Z * Z)) b F,
      wfimg im -> okb b -> includesI_b (ibnd im) b = true ->
      nv (bxmin (ibnd im)) = 0 -> nv (bxmin b) = 0 -> 2 <= nv (bdx b) ->
      hermitianF Z Z.opp F ->
      (forall x y, F x y <> 0 -> pix im x y = Some (F x y) \/ pix im (- x) (- y) = Some (F (- x) (- y))) ->
      (forall x y v, pix im x y = Some v -> v = F x y) ->
      exists s, snd (wrap Tex im b HX) = Ok s /\
      forall x y, includesI b x y = true ->
        getValue s x y = Ok (congruent_sum Z Z.add 0 F (-10) 21 (-10) 21 (2 * (nv (bdx b) - 1)) (nv (bdy b)) x y)).
Proof. exact asymmetric_refuted. Qed.
Print Assumptions C15_asymmetric_rows_refuted.

Example C15_example :
  let F := fun x y => 10 * x + y in
  let im := mk false 0 4 (-2) 5 F in
  let b := BoundsI (Args4 (py 0) (py 2) (py (-1)) (py 1)) in
  add_monoid Tex (idt im) /\ wfimg im /\ okb b /\ includesI_b (ibnd im) b = true /\ hermitianF Z (vconj Tex) F /\
  match snd (wrap Tex im b HX) with Ok s => getValue s 1 1 = Ok (10 + 1 + (- 30 + 1) + (10 - 2) + (-30 - 2)) | Err _ => False end.
Proof.
  cbv zeta. split; [exact monoid_Tex|]. split; [apply wf_mk; lia|]. split; [apply okb_box; lia|]. split; [reflexivity|].
  split; [intros x y; change (vconj Tex) with Z.opp; cbv beta zeta; lia|].
  vm_compute. reflexivity.
Qed.

(** ** C75: arithmetic *)

Theorem C75_binary_operators_are_pixelwise : forall V D W (T : vops V D W) o (im : image V D W) r,
  wfimg im -> (forall r', r = OImg r' -> wfimg r') -> consistent T im r (int_only o) = None ->
  exists s, binop T o im r = Ok s /\ wfimg s /\ eqI (ibnd s) (ibnd im) = true /\ iwcs s = iwcs im /\
    idt s = prom T (idt im) (operand_dt r) /\
    forall x y v, getValue im x y = Ok v ->
      getValue s x y = Ok (bop T o (idt im) (operand_dt r) v
        (match r with
         | OImg r' => aligned (pm_of r') (nv (bxmin (ibnd im))) (nv (bymin (ibnd im))) x y
         | OScalar _ c => c end)).
Proof. exact @binop_ok. Qed.
Print Assumptions C75_binary_operators_are_pixelwise.

Theorem C75_inplace_agrees_with_binary : forall V D W (T : vops V D W) o (im : image V D W) r,
  lawful T -> wfimg im -> consistent T im r (int_only o) = None ->
  snd (inplace T o im r) = None /\ ibnd (fst (inplace T o im r)) = ibnd im /\
  forall s, binop T o im r = Ok s ->
  forall x y v, getValue s x y = Ok v -> getValue (fst (inplace T o im r)) x y = Ok (rcast T (idt im) v).
Proof. exact @inplace_ok. Qed.
Print Assumptions C75_inplace_agrees_with_binary.

Theorem C75_shape_mismatch_raises : forall V D W (T : vops V D W) o (im r : image V D W),
  nrow (iarr im) <> nrow (iarr r) \/ ncol (iarr im) <> ncol (iarr r) ->
  (exists e, binop T o im (OImg r) = Err e) /\
  (exists e, inplace T o im (OImg r) = (im, Some e)).
Proof. exact @shape_mismatch. Qed.
Print Assumptions C75_shape_mismatch_raises.

Example C75_example :
  let im := mk true 1 2 1 2 (fun x y => 2 * (x + y)) in
  let r := mk false 5 2 7 2 (fun x y => x) in
  consistent Tex im (OImg r) false = None /\
  match binop Tex Add im (OImg r) with Ok s => getValue s 1 1 = Ok 9 | Err _ => False end /\
  getValue (fst (inplace Tex Add im (OImg r))) 1 1 = Ok 8 /\
  binop Tex Xor im (OImg r) = Err GalSimValueError.
Proof. cbv zeta. split; [reflexivity|]. split; [vm_compute; reflexivity|]. split; vm_compute; reflexivity. Qed.
