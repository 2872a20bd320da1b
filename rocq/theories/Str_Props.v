(** C145: the text of a transformed profile tells the transformation. *)
From Coq Require Import Reals Bool List Lra.
From Coquelicot Require Import Complex.
From Verif Require Import Base Geo_Model Geo_Proofs Shear_Model GSP_Model Prof_Model Prof_Spec WCS_Model WCS_Spec Str_Model Str_Spec Str_Proofs.
Import ListNotations.
Open Scope R_scope.

(** The calls in the text move every point as the profile does, up to 4e-12 of the size of the matrix; they change the surface brightness
    by exactly the flux ratio, and give the flux of the profile up to 3e-12. *)
Theorem C145_text : forall J off fr, mdet J <> 0 -> exists ops, str_of J off fr = Ok ops /\ tells (4 / 1000000000000) ops J off /\
  forall F, fst (effect F ops) = fr /\
    Rabs (snd (effect F ops) - Rabs (mdet J) * fr * F) <= 3 / 1000000000000 * Rabs (Rabs (mdet J) * fr * F).
Proof. exact str_tells. Qed.
Print Assumptions C145_text.

(** The text of a profile made by any sequence of the methods tells where the methods moved the points. *)
Theorem C145_history : forall p ops o J off fr g pg, nonsingular p -> flux_linear p -> all_sensible (flux p) ops ->
  (forall o J off fr g pg, p <> PTr o J off fr g pg) -> fold_left apply ops p = PTr o J off fr g pg ->
  exists said, str_of J off fr = Ok said /\
    forall x, norm (vsub (path said x) (path ops x)) <= 4 / 1000000000000 * (frob J * norm x).
Proof. exact str_history. Qed.
Print Assumptions C145_history.

(** A turn, a shear or an enlargement alone is told as what it is. *)
Theorem C145_single : 
  (forall t, - PI < t <= PI -> / 1000000000000 < Rabs t -> str_from_jac (rotm t) = Ok [Rotate t]) /\
  (forall g, Cmod g < 1 -> / 1000000000000 < Cmod g -> str_from_jac (getMatrix g) = Ok [ShearBy g]) /\
  (forall s, 0 < s -> / 1000000000000 < Rabs (s - 1) -> str_from_jac (Mat s 0 0 s) = Ok [Expand s]).
Proof. split; [exact single_rotate|]. split; [exact single_shear|exact single_expand]. Qed.
Print Assumptions C145_single.

(** The matrix is told by one call, and exactly unless that call is rotate, shear or expand; mirrored profiles are always told exactly. *)
Theorem C145_exact : forall J h, mdet J <> 0 -> str_from_jac J = Ok h ->
  ((h = [] /\ J = mI) \/ exists o, h = [o] /\ (one_step o \/ in_full o)) /\
  (~ Exists one_step h -> forall x, path h x = mapp J x) /\
  (mdet J < 0 -> h = [TransformBy (m00 J) (m01 J) (m10 J) (m11 J)]).
Proof.
  intros J h H E. split; [exact (one_call J h H E)|]. split; [exact (exact_text J h H E)|].
  intro N. rewrite (mirrored_full J N) in E. injection E as <-. reflexivity.
Qed.
Print Assumptions C145_exact.

Example C145_turned : str_of (rotm 1) (2, 3) 5 = Ok [Rotate 1; Shift 2 3; ScaleFlux 5].
Proof.
  rewrite (str_of_tail (rotm 1) (2, 3) 5 [Rotate 1]).
  - unfold tail. cbn [fst snd].
    destruct (Bounds_Proofs.Reqb_spec 2 0); [lra|]. destruct (Bounds_Proofs.Reqb_spec 5 1); [lra|]. reflexivity.
  - apply single_rotate; [pose proof PI2_1; unfold PI2 in *; pose proof PI_RGT_0; lra|rewrite Rabs_R1; unfold tiny; lra].
Qed.
Example C145_mirrored : str_from_jac (Mat 0 2 1 0) = Ok [TransformBy 0 2 1 0].
Proof. apply (mirrored_full (Mat 0 2 1 0)). unfold mdet. cbn [m00 m01 m10 m11]. lra. Qed.
(** The hypotheses of C145_history hold of a Gaussian-like leaf and two calls *)
Example C145_history_applies : forall fam fl g, 
  let p := PLeaf false fam fl g in
  nonsingular p /\ flux_linear p /\ all_sensible (flux p) [Rotate 1; Expand 2] /\ (forall o J off fr g pg, p <> PTr o J off fr g pg) /\
  exists J off fr, fold_left apply [Rotate 1; Expand 2] p = PTr p J off fr g true.
Proof.
  intros fam fl g p. unfold p. repeat split; try exact Logic.I.
  - cbn [sensible]. lra.
  - intros. discriminate.
  - cbn [fold_left apply]. rewrite !Prof_Proofs.mkTransform_default. cbn [gsparams]. eauto.
Qed.
