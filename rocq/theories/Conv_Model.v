(** Conversion to and from the objects of the reference GalSim: the methods to_galsim and from_galsim.
    GalSim itself is not in the repository. Its objects are modelled by the attributes the code reads,
    and its constructors by the following contract: they keep the values they are given;
    BoundsI(...) and BoundsD(...) are undefined when a minimum exceeds its maximum; Shear(g1=, g2=) raises
    GalSimRangeError when |g| > 1; CelestialCoord raises ValueError when the declination is outside
    [-pi/2, pi/2]; GSFitsWCS(_data=...) raises ValueError on an unknown type; Image(array, bounds=, wcs=)
    raises GalSimIncompatibleValuesError when the shape and the bounds differ and else builds a mutable
    image without header. What Image does with undefined bounds is a parameter.
    Simplifications: floats are reals; float(x) and int(x) keep the value of a scalar and turn it into a
    Python number; outside of jit. *)
From Coq Require Import ZArith Reals Bool String List.
From Coquelicot Require Import Complex.
From Verif Require Import Base Array_Model Bounds_Model Geo_Model Shear_Model Prof_Model WCS_Model GSP_Model Noise_Model
  Sky_Model FITS_Model Pos_Model Image_Model.
Import ListNotations.
Open Scope R_scope.

(** float(x), int(x) of a scalar *)
Definition pycast {A} (x : num A) : A := nv x.

(** * Angle: angle.py:423-429; the GalSim object is its _rad. *)
Definition angle_to (a : num R) : res R := Ok (pycast a).
(** angle.py:422-425 *)
Definition angle_from (g : R) : res (num R) := Ok (py g).

(** * Position *)
(** A GalSim PositionD or PositionI, or something else *)
Inductive gpos : Type := GPosD (x y : R) | GPosI (x y : Z) | GPosOther.
(** position.py:171-183; int() truncates *)
Definition pos_to (p : pos) : res gpos :=
  match pc p with
  | PosI => Ok (GPosI (Noise_Model.truncR (nv (px p))) (Noise_Model.truncR (nv (py_ p))))
  | PosD => Ok (GPosD (pycast (px p)) (pycast (py_ p)))
  end.
(** position.py:157-169 *)
Definition pos_from (g : gpos) : res pos :=
  match g with
  | GPosD x y => pos2 PosD (py x) (py y)
  | GPosI x y => pos2 PosI (py (IZR x)) (py (IZR y))
  | GPosOther => Err TypeError
  end.

(** * Bounds *)
(** A GalSim Bounds: whether it is defined, xmin, xmax, ymin, ymax *)
Record gbnd (A : Type) : Type := GB { gb_def : bool; gb_x1 : A; gb_x2 : A; gb_y1 : A; gb_y2 : A }.
Arguments GB {A}. Arguments gb_def {A}. Arguments gb_x1 {A}. Arguments gb_x2 {A}. Arguments gb_y1 {A}. Arguments gb_y2 {A}.
(** galsim.BoundsX(x1, x2, y1, y2) and galsim.BoundsX() *)
Definition gs_bounds {A} (leb : A -> A -> bool) (x1 x2 y1 y2 : A) : gbnd A :=
  GB (leb x1 x2 && leb y1 y2) x1 x2 y1 y2.
Definition gs_bounds0 {A} (z : A) : gbnd A := GB false z z z z.
(** A GalSim BoundsD or BoundsI, or something else *)
Inductive gbounds : Type := GBoundsD (b : gbnd R) | GBoundsI (b : gbnd Z) | GBoundsOther.
(** A jax_galsim BoundsD or BoundsI *)
Inductive jbounds : Type := JBoundsD (b : bnd R) | JBoundsI (b : bnd Z).
(** bounds.py:379-395 for BoundsI *)
Definition bndI_to (b : bnd Z) : gbnd Z :=
  if bdef b then gs_bounds Z.leb (pycast (bxmin b)) (pycast (xmaxI b)) (pycast (bymin b)) (pycast (ymaxI b))
  else gs_bounds0 0%Z.
(** bounds.py:379-395 for BoundsD *)
Definition bndD_to (b : bnd R) : gbnd R :=
  if bdef b then gs_bounds (fun a c => negb (Rltb c a)) (pycast (bxmin b)) (pycast (xmaxD b)) (pycast (bymin b)) (pycast (ymaxD b))
  else gs_bounds0 0.
(** bounds.py:379-395 *)
Definition bounds_to (b : jbounds) : res gbounds :=
  match b with JBoundsI b => Ok (GBoundsI (bndI_to b)) | JBoundsD b => Ok (GBoundsD (bndD_to b)) end.
(** bounds.py:368-376 for BoundsI *)
Definition bndI_from (g : gbnd Z) : bnd Z :=
  if gb_def g then BoundsI (Args4 (py (gb_x1 g)) (py (gb_x2 g)) (py (gb_y1 g)) (py (gb_y2 g))) else BoundsI (ArgsNone).
(** bounds.py:368-376 for BoundsD *)
Definition bndD_from (g : gbnd R) : bnd R :=
  if gb_def g then BoundsD (Args4 (py (gb_x1 g)) (py (gb_x2 g)) (py (gb_y1 g)) (py (gb_y2 g))) else BoundsD (ArgsNone).
(** bounds.py:357-376 *)
Definition bounds_from (g : gbounds) : res jbounds :=
  match g with
  | GBoundsD b => Ok (JBoundsD (bndD_from b))
  | GBoundsI b => Ok (JBoundsI (bndI_from b))
  | GBoundsOther => Err TypeError
  end.

(** * Shear: shear.py:326-333; both sides keep the complex reduced shear g1 + i g2. *)
Definition gs_shear (g1 g2 : R) : res C := if Rltb 1 (Cmod (g1, g2)) then Err GalSimRangeError else Ok (g1, g2).
(** shear.py:331-333 *)
Definition shear_to (g : C) : res C := gs_shear (Re g) (Im g).
(** shear.py:326-329 *)
Definition shear_from (g : C) : res C := mk_shear [] [("g1", KNum (Re g)); ("g2", KNum (Im g))]%string.

(** * CelestialCoord: celestial.py:933-942 *)
Definition gs_coord (ra dec : R) : res coord :=
  if Rltb dec (- PI / 2) || Rltb (PI / 2) dec then Err ValueError else Ok (mkC ra dec).
(** celestial.py:938-942 *)
Definition coord_to (c : coord) : res coord := gs_coord (cra c) (cdec c).
(** celestial.py:933-936: _CelestialCoord makes no check *)
Definition coord_from (g : coord) : res coord := Ok (mkC (cra g) (cdec g)).

(** * GSParams: gsparams.py:25-65 *)
(** galsim.GSParams called with keywords: the value given for a keyword, else GalSim's default [d] *)
Fixpoint kwv_get {A} (f : field) (kw : list (field * A)) : option A :=
  match kw with [] => None | (k, v) :: t => if field_eqb k f then Some v else kwv_get f t end.
Definition gs_gsparams {A} (d : gsp A) (kw : list (field * A)) : gsp A :=
  let v f := match kwv_get f kw with Some v => v | None => gget f d end in
  GSP (v minimum_fft_size) (v maximum_fft_size) (v folding_threshold) (v stepk_minimum_hlr) (v maxk_threshold)
      (v kvalue_accuracy) (v xvalue_accuracy) (v table_spacing) (v realspace_relerr) (v realspace_abserr)
      (v integration_relerr) (v integration_abserr) (v shoot_accuracy).
(** gsparams.py:49-65 *)
Definition gsparams_to {A} (d : gsp A) (p : gsp A) : res (gsp A) :=
  Ok (gs_gsparams d
    [(minimum_fft_size, g_min p); (maximum_fft_size, g_max p); (folding_threshold, g_fold p);
     (stepk_minimum_hlr, g_hlr p); (maxk_threshold, g_maxk p); (kvalue_accuracy, g_kacc p);
     (xvalue_accuracy, g_xacc p); (table_spacing, g_tab p); (realspace_relerr, g_rrel p);
     (realspace_abserr, g_rabs p); (integration_relerr, g_irel p); (integration_abserr, g_iabs p);
     (shoot_accuracy, g_shoot p)]).
(** gsparams.py:25-47: the fields in the order of the dataclass; anything else is refused *)
Definition gsparams_from {A} (g : option (gsp A)) : res (gsp A) :=
  match g with
  | None => Err TypeError
  | Some g => Ok (GSP (g_min g) (g_max g) (g_fold g) (g_hlr g) (g_maxk g) (g_kacc g) (g_xacc g) (g_tab g)
                      (g_rrel g) (g_rabs g) (g_irel g) (g_iabs g) (g_shoot g))
  end.

(** * WCS *)
(** An instance of a jax_galsim WCS class *)
Inductive jwcs : Type := JW (w : wcs) | JFits (f : fwcs).
(** What from_galsim may be given: an instance of one of GalSim's classes, of another class derived from
    galsim.BaseWCS with the given name, of jax_galsim's own classes (which derive from galsim.BaseWCS,
    wcs.py:46, but from none of GalSim's other classes), or something else. *)
Inductive gwcs : Type :=
  | GPixelScale (s : R) | GShearWCS (s : R) (g : C) | GJacobianWCS (dudx dudy dvdx dvdy : R)
  | GOffsetWCS (s : R) (o w : vec) | GOffsetShearWCS (s : R) (g : C) (o w : vec)
  | GAffine (dudx dudy dvdx dvdy : R) (o w : vec) | GGSFits (f : fwcs)
  | GDerived (name : string) | GJax (w : jwcs) | GNoWCS.
(** The classes named in the globals of wcs.py: wcs.py:7-18, 46, 365, 563, 610, 654, 869, 968, 1101, 1331,
    1409, 1499; only names of classes matter. *)
Definition wcs_globals : list string :=
  ["AngleUnit"; "CelestialCoord"; "GalSimValueError"; "GSObject"; "Position"; "PositionD"; "PositionI"; "Shear";
   "BaseWCS"; "EuclideanWCS"; "UniformWCS"; "LocalWCS"; "CelestialWCS"; "PixelScale"; "ShearWCS"; "JacobianWCS";
   "OffsetWCS"; "OffsetShearWCS"; "AffineTransform"]%string.
(** galsim_wcs.__class__.__name__ *)
Definition class_name (g : gwcs) : string :=
  match g with
  | GPixelScale _ | GJax (JW (WLoc (LPix _))) => "PixelScale"
  | GShearWCS _ _ | GJax (JW (WLoc (LShear _ _))) => "ShearWCS"
  | GJacobianWCS _ _ _ _ | GJax (JW (WLoc (LJac _))) => "JacobianWCS"
  | GOffsetWCS _ _ _ | GJax (JW (WOff _ _ _)) => "OffsetWCS"
  | GOffsetShearWCS _ _ _ _ | GJax (JW (WOffShear _ _ _ _)) => "OffsetShearWCS"
  | GAffine _ _ _ _ _ _ | GJax (JW (WAff _ _ _)) => "AffineTransform"
  | GGSFits _ | GJax (JFits _) => "GSFitsWCS"
  | GDerived n => n
  | GNoWCS => "object"
  end%string.
(** The constructor GSFitsWCS(_data=...), fitswcs.py:85-115, with the CelestialCoord built at wcs.py:283-286 *)
Definition gsfits_data (f : fwcs) : res fwcs :=
  bind (new_coord (cra (f_center f)) (cdec (f_center f))) (fun c =>
  match type_proj (f_type f) with
  | None => Err ValueError
  | Some _ => Ok (FW (f_type f) (f_crpix f) (f_cd f) c (f_pv f) (f_ab f) (f_abp f))
  end).
(** BaseWCS.from_galsim, wcs.py:228-294; [None] is Python's None, returned when no branch applies.
    Positions are pairs of reals here, so that Position.from_galsim copies them. *)
Definition wcs_from (g : gwcs) : res (option jwcs) :=
  match g with
  | GNoWCS => Err TypeError
  | _ =>
    if negb (existsb (String.eqb (class_name g)) wcs_globals) && negb (String.eqb (class_name g) "GSFitsWCS")
    then Err NotImplementedErr
    else match g with
    | GPixelScale s => Ok (Some (JW (WLoc (LPix s))))
    | GShearWCS s g => bind (shear_from g) (fun g => Ok (Some (JW (WLoc (LShear s g)))))
    | GJacobianWCS a b c d => Ok (Some (JW (WLoc (LJac (Mat a b c d)))))
    | GOffsetWCS s o w => Ok (Some (JW (WOff s o w)))
    | GOffsetShearWCS s g o w => bind (shear_from g) (fun g => Ok (Some (JW (WOffShear s g o w))))
    | GAffine a b c d o w => Ok (Some (JW (WAff (Mat a b c d) o w)))
    | GGSFits f => bind (gsfits_data f) (fun f => Ok (Some (JFits f)))
    | _ => Ok None
    end
  end.
(** galsim.GSFitsWCS(_data=...) *)
Definition gs_gsfits (f : fwcs) (c : coord) : res fwcs :=
  match type_proj (f_type f) with
  | None => Err ValueError
  | Some _ => Ok (FW (f_type f) (f_crpix f) (f_cd f) c (f_pv f) (f_ab f) (f_abp f))
  end.
(** BaseWCS.to_galsim, wcs.py:296-345 *)
Definition wcs_to (w : jwcs) : res gwcs :=
  match w with
  | JW (WLoc (LPix s)) => Ok (GPixelScale s)
  | JW (WLoc (LShear s g)) => bind (shear_to g) (fun g => Ok (GShearWCS s g))
  | JW (WLoc (LJac m)) => Ok (GJacobianWCS (m00 m) (m01 m) (m10 m) (m11 m))
  | JW (WOff s o w) => Ok (GOffsetWCS s o w)
  | JW (WOffShear s g o w) => bind (shear_to g) (fun g => Ok (GOffsetShearWCS s g o w))
  | JW (WAff m o w) => Ok (GAffine (m00 m) (m01 m) (m10 m) (m11 m) o w)
  | JFits f => bind (coord_to (f_center f)) (fun c => bind (gs_gsfits f c) (fun f => Ok (GGSFits f)))
  end.

(** * Image *)
Section Images.
  Context {V D HD : Type}.
  Variable T : vops V D jwcs.
  (** A GalSim image: array, bounds, dtype, wcs, isconst, header if it has one *)
  Record gimage : Type := GI {
    gi_arr : arr V; gi_bnd : gbnd Z; gi_dt : D; gi_wcs : option gwcs; gi_const : bool; gi_header : option HD }.
  (** galsim.Image(array, bounds=b, wcs=w) with undefined bounds *)
  Variable gs_undefined : arr V -> D -> option gwcs -> res gimage.
  (** galsim.Image(array, bounds=b, wcs=w) *)
  Definition gs_image (a : arr V) (b : gbnd Z) (d : D) (w : option gwcs) : res gimage :=
    if gb_def b then
      if negb (gb_x2 b - gb_x1 b + 1 =? ncol a)%Z || negb (gb_y2 b - gb_y1 b + 1 =? nrow a)%Z
      then Err GalSimIncompatibleValuesError
      else Ok (GI a b d w false None)
    else gs_undefined a d w.
  (** f(x) if x is not None else None *)
  Definition opt_res {A B} (f : A -> res B) (o : option A) : res (option B) :=
    match o with None => Ok None | Some a => bind (f a) (fun b => Ok (Some b)) end.
  (** A jax_galsim image with its attribute header, if it has been set *)
  Definition jimage : Type := (image V D jwcs * option HD)%type.
  (** Image.to_galsim, image.py:1313-1319 *)
  Definition image_to (im : jimage) : res gimage :=
    bind (opt_res wcs_to (iwcs (fst im))) (fun w => gs_image (iarr (fst im)) (bndI_to (ibnd (fst im))) (idt (fst im)) w).
  (** Image.from_galsim, image.py:1294-1311; jnp.asarray keeps the array *)
  Definition image_from (g : gimage) : res jimage :=
    bind (match gi_wcs g with None => Ok None | Some w => wcs_from w end) (fun w =>
    bind (Image_array T (gi_arr g) (bndI_from (gi_bnd g)) (gi_dt g) w false) (fun im => Ok (im, gi_header g))).
End Images.
Arguments GI {V D HD}. Arguments gi_arr {V D HD}. Arguments gi_bnd {V D HD}. Arguments gi_dt {V D HD}.
Arguments gi_wcs {V D HD}. Arguments gi_const {V D HD}. Arguments gi_header {V D HD}.
