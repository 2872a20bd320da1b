(** What a user may expect of drawImage and drawKImage as operations on image objects. *)
From Coq Require Import ZArith Reals Bool List String.
From Verif Require Import Base Array_Model Bounds_Model Image_Model Image_Spec FFT_Spec Draw_Model Draw_Spec Call_Model.
Import ListNotations.

Section S.
  Context {V D W : Type}.
  Variable O : wops W.
  Notation image := (image V D W).

  (** PixelScale is the only local wcs with isPixelScale() *)
  Definition lawful_pixels : Prop :=
    (forall s, pixel_scale O (mk_pixel O s) = Some s) /\ (forall w s, pixel_scale O w = Some s -> w = mk_pixel O s) /\
    (forall s, is_pixel O (mk_pixel O s) = true).
  (** Not a pixel scale that is zero or negative *)
  Definition usable (w : W) : Prop := forall s, pixel_scale O w = Some s -> (0 < s)%R.

  (** Which wcs is to be used: the argument wcs or scale, or else that of the image; the Nyquist scale of the profile if
      nothing is given, or a pixel scale that is not positive. *)
  Inductive uses (nq : R) : option R -> warg W -> option W -> W -> Prop :=
  | U_wcs : forall w i, usable w -> uses nq None (SomeWcs w) i w
  | U_scale : forall s i, (0 < s)%R -> uses nq (Some s) NoWcs i (mk_pixel O s)
  | U_image : forall w, usable w -> uses nq None NoWcs (Some w) w
  | U_nothing : uses nq None NoWcs None (mk_pixel O nq)
  | U_wcs_nyquist : forall s i, (s <= 0)%R -> uses nq None (SomeWcs (mk_pixel O s)) i (mk_pixel O nq)
  | U_scale_nyquist : forall s i, (s <= 0)%R -> uses nq (Some s) NoWcs i (mk_pixel O nq)
  | U_image_nyquist : forall s, (s <= 0)%R -> uses nq None NoWcs (Some (mk_pixel O s)) (mk_pixel O nq).

  Definition wcs_of (i : option image) : option W := match i with Some i => iwcs i | None => None end.

  (** The same pixels in the same place *)
  Definition same_pixels (i j : image) : Prop := iarr i = iarr j /\ ibnd i = ibnd j /\ idt i = idt j /\ iconst i = iconst j.
  (** The image to be drawn on: the one given, or a blank one *)
  Definition canvas (T : vops V D W) (given : option image) (i : image) : Prop :=
    bdef (ibnd i) = true /\
    match given with
    | Some g => if bdef (ibnd g) then same_pixels i g else all_zero T i
    | None => all_zero T i
    end.
  (** Drawn on at the origin: same size, same array, one pixel per unit *)
  Definition at_origin (i j : image) : Prop :=
    centred (ibnd i) /\ nv (bdx (ibnd i)) = nv (bdx (ibnd j)) /\ nv (bdy (ibnd i)) = nv (bdy (ibnd j)) /\
    iwcs i = Some (mk_pixel O 1) /\ iarr i = iarr j /\ idt i = idt j.
End S.
(** The object given is the one returned. *)
Definition same_object {A} (given after : option A) (returned : A) : Prop :=
  match given with Some _ => after = Some returned | None => after = None end.
(** The flux of the profile that [counts] on the image stand for: area and exposure time multiply the flux, surface
    brightness is per unit area, and counts are photons divided by the gain unless the photons are shot. *)
Definition flux_of (method : string) (sensor : bool) (gain area exptime pa counts flux : R) : Prop :=
  let photons := if (String.eqb method "phot" || sensor)%bool then counts else (counts * gain)%R in
  (flux * (area * exptime) = if String.eqb method "sb" then photons * pa else photons)%R.
