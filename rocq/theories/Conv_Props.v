(** C142: objects survive their conversion to GalSim and back. *)
From Coq Require Import ZArith Reals Bool String List Lra Lia.
From Coquelicot Require Import Complex.
From Verif Require Import Base Array_Model Bounds_Model Geo_Model Shear_Model WCS_Model GSP_Model Noise_Model
  Sky_Model FITS_Model Pos_Model Image_Model Conv_Model Conv_Spec Conv_Proofs.
Import ListNotations.
Open Scope R_scope.

(** Angles, shears, celestial coordinates and GSParams. Illegal shears and declinations are refused. *)
Theorem C142_values :
  survives angle_to angle_from (fun _ => True) (fun a b => nv a = nv b) /\
  survives shear_to shear_from (fun g => Cmod g <= 1) eq /\ (forall g, 1 < Cmod g -> shear_to g = Err GalSimRangeError) /\
  survives coord_to coord_from declination eq /\ (forall c, ~ declination c -> coord_to c = Err ValueError) /\
  (forall A (d : gsp A), survives (gsparams_to d) (fun g => gsparams_from (Some g)) (fun _ => True) eq).
Proof.
  split; [|split; [|split; [|split; [|split]]]].
  - intros a _. exists (nv a), (py (nv a)). repeat split.
  - intros g H. exists g, g. exact (conj (shear_to_ok g H) (conj (shear_from_ok g H) eq_refl)).
  - exact shear_to_err.
  - intros c H. exists c, c. exact (conj (coord_to_ok c H) (conj (coord_from_ok c) eq_refl)).
  - exact coord_to_err.
  - intros A d p _. exists p, p. exact (conj (gsparams_to_ok A d p) (conj (gsparams_from_ok A p) eq_refl)).
Qed.
Print Assumptions C142_values.

(** Positions of either class, and bounds of either class that contain a point when they are defined *)
Theorem C142_positions_bounds :
  survives pos_to pos_from whole same_place /\ survives bounds_to bounds_from inhabited same_bounds.
Proof. exact (conj pos_survives bounds_survive). Qed.
Print Assumptions C142_positions_bounds.

(** In both directions the points within the bounds stay the same, whatever the bounds. *)
Theorem C142_bounds_points :
  (forall b x y, within_gI (bndI_to b) x y <-> withinI b x y) /\ (forall g x y, withinI (bndI_from g) x y <-> within_gI g x y) /\
  (forall b x y, within_gD (bndD_to b) x y <-> withinD b x y) /\ (forall g x y, withinD (bndD_from g) x y <-> within_gD g x y).
Proof. exact (conj bndI_to_within (conj bndI_from_within (conj bndD_to_within bndD_from_within))). Qed.
Print Assumptions C142_bounds_points.

(** But bounds given as JAX scalars may be defined and empty; they come back undefined. *)
Theorem C142_bounds_refuted : ~ survives bounds_to bounds_from (fun _ => True) same_bounds.
Proof.
  intro H. destruct (H (JBoundsI (BoundsI (Args4 (jx 1%Z) (jx 0%Z) (jx 1%Z) (jx 5%Z)))) Logic.I) as (g & y & H1 & H2 & H3).
  cbn in H1. injection H1 as <-. cbn in H2. injection H2 as <-. destruct H3 as [H3 _]. vm_compute in H3. discriminate.
Qed.
Print Assumptions C142_bounds_refuted.

(** Every legal WCS is converted to a GalSim WCS, which is converted back to the same WCS, and every GalSim
    WCS that is accepted is given back by to_galsim. *)
Theorem C142_wcs :
  (forall w, legal w -> exists g, wcs_to w = Ok g /\ wcs_from g = Ok (Some w)) /\
  (forall g w, wcs_from g = Ok (Some w) -> legal w /\ wcs_to w = Ok g).
Proof. exact (conj wcs_forth wcs_from_inv). Qed.
Print Assumptions C142_wcs.

(** Other objects and GalSim's other WCS classes are refused, *)
Theorem C142_wcs_refused :
  wcs_from GNoWCS = Err TypeError /\ pos_from GPosOther = Err TypeError /\ bounds_from GBoundsOther = Err TypeError /\
  (forall A, gsparams_from (@None (gsp A)) = Err TypeError) /\
  (forall n, ~ In n wcs_globals -> n <> "GSFitsWCS"%string -> wcs_from (GDerived n) = Err NotImplementedErr) /\
  Forall (fun n => wcs_from (GDerived n) = Err NotImplementedErr) other_classes.
Proof.
  refine (conj eq_refl (conj eq_refl (conj eq_refl (conj (fun A => eq_refl) (conj wcs_from_derived _))))). repeat constructor.
Qed.
Print Assumptions C142_wcs_refused.

(** but a WCS of jax_galsim itself passes both checks, meets no branch, and gives None without an error. *)
Theorem C142_wcs_own_refuted : forall w, wcs_from (GJax w) = Ok None.
Proof. exact wcs_from_own. Qed.
Print Assumptions C142_wcs_own_refuted.

(** Images with defined bounds keep their pixels, dtype, WCS and bounds; *)
Theorem C142_images : forall (V D HD : Type) (T : vops V D jwcs) U (im : image V D jwcs) (h : option HD), fits im ->
  exists g, image_to U (im, h) = Ok g /\ gi_arr g = iarr im /\ gi_dt g = idt im
    /\ (forall x y, within_gI (gi_bnd g) x y <-> withinI (ibnd im) x y)
    /\ exists im' h', image_from T g = Ok (im', h') /\ same_image im im'.
Proof.
  intros V D HD T U im h F. destruct (image_to_ok T U im h F) as (g & H1 & H2 & H3 & _ & _ & H4 & im' & H5 & _ & H6).
  exists g. exact (conj H1 (conj H2 (conj H3 (conj H4 (ex_intro _ im' (ex_intro _ None (conj H5 H6))))))).
Qed.
Print Assumptions C142_images.

(** the header and the mark of a constant image are lost, whatever they were. *)
Theorem C142_image_attributes_refuted : forall (V D HD : Type) (T : vops V D jwcs) U (im : image V D jwcs) (h : option HD) g im' h',
  fits im -> image_to U (im, h) = Ok g -> image_from T g = Ok (im', h') ->
  gi_header g = None /\ h' = None /\ gi_const g = false /\ iconst im' = Some false.
Proof.
  intros V D HD T U im h g im' h' F E1 E2.
  destruct (image_to_ok T U im h F) as (g0 & H1 & _ & _ & H2 & H3 & _ & im0 & H5 & H6 & _).
  rewrite E1 in H1. injection H1 as <-. rewrite E2 in H5. injection H5 as -> ->. exact (conj H3 (conj eq_refl (conj H2 H6))).
Qed.
Print Assumptions C142_image_attributes_refuted.

(** * Examples *)
(** A shear, a coordinate and a position meeting the hypotheses *)
Example C142_values_ex : Cmod (RtoC (1 / 2)) <= 1 /\ declination (mkC 7 (PI / 2)) /\ whole (Pos PosI (jx 3) (py (-4))).
Proof.
  split; [rewrite Cmod_R, Rabs_pos_eq; lra|]. split; [unfold declination; cbn; assert (H := PI_RGT_0); lra|].
  intros _. exists 3%Z, (-4)%Z. split; reflexivity.
Qed.
(** Integer bounds with a JAX corner *)
Example C142_bounds_ex : inhabited (JBoundsI (BoundsI (ArgsKwDelta (jx (-2)%Z) (py 4%Z) (jx 5%Z) (py 2%Z)))) /\
  bdef (BoundsI (ArgsKwDelta (jx (-2)%Z) (py 4%Z) (jx 5%Z) (py 2%Z))) = true.
Proof. split; [intros _; cbn; lia|reflexivity]. Qed.
(** A FITS WCS with SIP distortion *)
Example C142_wcs_ex : legal (JFits (FW "TAN-SIP" (10, 20) (Mat 1 0 0 1) (mkC 1 0) None (Some ([[0]], [[1]])) None)).
Proof.
  split; [unfold declination; cbn; assert (H := PI_RGT_0); lra|]. exists Gnomonic. reflexivity.
Qed.
(** GalSim's UVFunction *)
Example C142_uvfunction : wcs_from (GDerived "UVFunction") = Err NotImplementedErr.
Proof. reflexivity. Qed.
(** A class derived from GalSim's UniformWCS without a new name gives None too. *)
Example C142_uniform : wcs_from (GDerived "UniformWCS") = Ok None.
Proof. reflexivity. Qed.
(** An image of two columns and three rows *)
Example C142_image_ex : fits (Img (aconst 3 2 7%Z) (BoundsI (Args4 (py 5%Z) (py 6%Z) (py 1%Z) (py 3%Z))) tt (Some true)
  (Some (JW (WLoc (LPix (1 / 5)))))).
Proof.
  repeat split; try reflexivity; try (cbn; lia). intros w H. injection H as <-. exact Logic.I.
Qed.
