(** What it means for an object to survive its conversion to GalSim and back. *)
From Coq Require Import ZArith Reals Bool String List.
From Coquelicot Require Import Complex.
From Verif Require Import Base Array_Model Bounds_Model Geo_Model WCS_Model Sky_Model FITS_Model Pos_Model Image_Model Conv_Model.
Import ListNotations.
Open Scope R_scope.

(** The objects with [P] are converted without an exception, and the result is converted back to an object
    which is the same in the sense of [same]. *)
Definition survives {A B} (to : A -> res B) (from : B -> res A) (P : A -> Prop) (same : A -> A -> Prop) : Prop :=
  forall x, P x -> exists g y, to x = Ok g /\ from g = Ok y /\ same x y.

(** Positions of one class at one place *)
Definition same_place (p q : pos) : Prop := pc p = pc q /\ nv (px p) = nv (px q) /\ nv (py_ p) = nv (py_ q).
(** What a PositionI holds *)
Definition whole (p : pos) : Prop := pc p = PosI -> exists m n, nv (px p) = IZR m /\ nv (py_ p) = IZR n.

(** The points within bounds *)
Definition within_gI (g : gbnd Z) (x y : Z) : Prop := gb_def g = true /\ (gb_x1 g <= x <= gb_x2 g /\ gb_y1 g <= y <= gb_y2 g)%Z.
Definition within_gD (g : gbnd R) (x y : R) : Prop := gb_def g = true /\ gb_x1 g <= x <= gb_x2 g /\ gb_y1 g <= y <= gb_y2 g.
Definition withinI (b : bnd Z) (x y : Z) : Prop :=
  bdef b = true /\ (nv (bxmin b) <= x < nv (bxmin b) + nv (bdx b) /\ nv (bymin b) <= y < nv (bymin b) + nv (bdy b))%Z.
Definition withinD (b : bnd R) (x y : R) : Prop :=
  bdef b = true /\ nv (bxmin b) <= x <= nv (bxmin b) + nv (bdx b) /\ nv (bymin b) <= y <= nv (bymin b) + nv (bdy b).
(** Bounds of one class that are both undefined, or both defined with the same corner and extent *)
Definition same_box {A} (b c : bnd A) : Prop :=
  bdef b = bdef c /\
  (bdef b = true -> nv (bxmin b) = nv (bxmin c) /\ nv (bdx b) = nv (bdx c) /\ nv (bymin b) = nv (bymin c) /\ nv (bdy b) = nv (bdy c)).
Definition same_bounds (b c : jbounds) : Prop :=
  match b, c with JBoundsI b, JBoundsI c => same_box b c | JBoundsD b, JBoundsD c => same_box b c | _, _ => False end.
(** Bounds that, if defined, contain a point *)
Definition inhabited (b : jbounds) : Prop :=
  match b with
  | JBoundsI b => bdef b = true -> (1 <= nv (bdx b) /\ 1 <= nv (bdy b))%Z
  | JBoundsD b => bdef b = true -> 0 <= nv (bdx b) /\ 0 <= nv (bdy b)
  end.

(** A declination *)
Definition declination (c : coord) : Prop := - PI / 2 <= cdec c <= PI / 2.
(** WCS objects whose shear, type and centre are legal *)
Definition legal (w : jwcs) : Prop :=
  match w with
  | JW (WLoc (LShear _ g)) | JW (WOffShear _ g _ _) => Cmod g <= 1
  | JW _ => True
  | JFits f => declination (f_center f) /\ exists p, type_proj (f_type f) = Some p
  end.

(** Images with the same pixels, dtype, WCS and box *)
Definition same_image {V D} (a b : image V D jwcs) : Prop :=
  iarr a = iarr b /\ idt a = idt b /\ iwcs a = iwcs b /\ same_box (ibnd a) (ibnd b).
(** Images with defined bounds that fit the array and a legal WCS *)
Definition fits {V D} (im : image V D jwcs) : Prop :=
  bdef (ibnd im) = true /\ nv (bdx (ibnd im)) = ncol (iarr im) /\ nv (bdy (ibnd im)) = nrow (iarr im)
  /\ (1 <= ncol (iarr im) /\ 1 <= nrow (iarr im))%Z
  /\ (forall w, iwcs im = Some w -> legal w).
(** GalSim's WCS classes that have no counterpart here *)
Definition other_classes : list string := ["UVFunction"; "RaDecFunction"; "AstropyWCS"; "PyAstWCS"; "WcsToolsWCS"]%string.
