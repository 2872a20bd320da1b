(** Model of GSObject.drawImage and GSObject.drawKImage as operations on image objects: which arguments are
    refused, which wcs is used, and what has happened to the image when the call returns or raises
    (/repo/jax_galsim/gsobject.py:533-819, 987-1085). The geometry is that of Draw_Model; what is drawn is a parameter.
    Simplifications: numbers are exact; default_wcs of _determine_wcs, which no caller gives, is None; warnings and the
    deprecated surface_ops are left out; added_flux is returned, not stored. *)
From Coq Require Import ZArith Reals Bool List String.
From Verif Require Import Base Array_Model Bounds_Model Image_Model FFT_Model Draw_Model WCS_Model.
Import ListNotations.

(** The wcs argument: nothing, a BaseWCS, or something else *)
Inductive warg (W : Type) : Type := NoWcs | SomeWcs (w : W) | NotWcs.
Arguments NoWcs {W}. Arguments SomeWcs {W}. Arguments NotWcs {W}.
(** What drawing asks of a wcs: PixelScale(s); the scale if isPixelScale() and isLocal(); isUniform(); local(pos).pixelArea();
    the attribute scale, if there is one; isPixelScale() *)
Record wops (W : Type) : Type := WOps {
  mk_pixel : R -> W; pixel_scale : W -> option R; uniform : W -> bool; pixel_area : W -> posR -> R;
  scale_attr : W -> option R; is_pixel : W -> bool }.
Arguments mk_pixel {W}. Arguments pixel_scale {W}. Arguments uniform {W}. Arguments pixel_area {W}.
Arguments scale_attr {W}. Arguments is_pixel {W}.
(** The Euclidean classes of wcs.py: _isPixelScale is set for PixelScale and OffsetWCS only, wcs.py:870, 1332; all are
    uniform; ShearWCS and OffsetShearWCS have a scale as well, wcs.py:987-990, 1421-1424. *)
Definition euclid : wops wcs := {|
  mk_pixel := fun s => WLoc (LPix s);
  pixel_scale := fun w => match w with WLoc (LPix s) => Some s | _ => None end;
  uniform := fun _ => true;
  pixel_area := fun w _ => l_area (local_wcs w);
  scale_attr := fun w => match w with
                         | WLoc (LPix s) | WLoc (LShear s _) | WOff s _ _ | WOffShear s _ _ _ => Some s
                         | WLoc (LJac _) | WAff _ _ _ => None
                         end;
  is_pixel := fun w => match w with WLoc (LPix _) | WOff _ _ _ => true | _ => false end |}.
Definition nonpos (x : R) : bool := negb (Rltb 0 x).

Section Call.
  Context {V D W : Type}.
  Variable T : vops V D W.
  Variable dflt : D.
  Variable O : wops W.
  Notation image := (image V D W).

  Definition with_wcs (im : image) (w : option W) : image := Img (iarr im) (ibnd im) (idt im) (iconst im) w.

  (** _determine_wcs, gsobject.py:533-571: the wcs to use, and whether image.wcs is set to None on the way.
      [nq] is self.nyquist_scale. *)
  Definition determine_wcs (nq : R) (scale : option R) (wcs : warg W) (im : option image) : res (W * bool) :=
    let r :=
      match wcs with
      | SomeWcs w => match scale with Some _ => Err GalSimIncompatibleValuesError | None => Ok (Some w, true) end
      | NotWcs => match scale with Some _ => Err GalSimIncompatibleValuesError | None => Err TypeError end
      | NoWcs =>
          match scale with
          | Some s => Ok (Some (mk_pixel O s), true)
          | None => Ok (match im with Some i => iwcs i | None => None end, false)
          end
      end in
    bind r (fun p =>
      let '(w, cleared) := p in
      let w := match w with Some w => w | None => mk_pixel O nq end in
      let w := match pixel_scale O w with
               | Some s => if nonpos s then mk_pixel O nq else mk_pixel O s
               | None => w
               end in
      Ok (w, cleared)).

  (** The arguments of drawImage; for those that only matter by being given, whether they are *)
  Record call : Type := Call {
    k_args : dargs (V:=V) (D:=D) (W:=W); k_scale : option R; k_wcs : warg W; k_method : string;
    k_gain : R; k_area : R; k_exptime : R;
    k_nphotons : bool; k_extra : bool; k_poisson : bool; k_rng : bool; k_maxN : bool; k_save : bool;
    k_sensor : bool; k_ops : bool; k_setup_only : bool }.

  Definition is_phot (c : call) : bool := String.eqb (k_method c) "phot".
  (** The checks of the arguments, gsobject.py:630-707 *)
  Definition check_args (c : call) : option exn :=
    if nonpos (k_gain c) then Some RuntimeError
    else if nonpos (k_area c) then Some RuntimeError
    else if nonpos (k_exptime c) then Some RuntimeError
    else if is_phot c && k_save c && k_maxN c then Some GalSimIncompatibleValuesError
    else if negb (existsb (String.eqb (k_method c)) ["auto"; "fft"; "real_space"; "phot"; "no_pixel"; "sb"]%string)
    then Some GalSimValueError
    else if negb (is_phot c) && (k_nphotons c || k_extra c || k_poisson c) then Some GalSimIncompatibleValuesError
    else if negb (is_phot c) && negb (k_sensor c) && (k_rng c || k_maxN c || k_save c)
    then Some GalSimIncompatibleValuesError
    else None.

  (** flux_scale, gsobject.py:727-735; [pa] is local_wcs.pixelArea() *)
  Definition flux_scale (c : call) (pa : R) : R :=
    let f := (k_area c * k_exptime c)%R in
    let f := if String.eqb (k_method c) "sb" then (f / pa)%R else f in
    if negb (is_phot c) && negb (k_sensor c) then (f / k_gain c)%R else f.

  (** What a draw does to the image it is given: the array afterwards, and the flux added or the exception raised
      (drawPhot, drawReal or drawFFT). *)
  Definition drawer : Type := image -> arr V * res R.

  (** drawImage, gsobject.py:574-819: the object given as image afterwards, and the result: the image returned with its
      added_flux. [N] is prof.getGoodImageSize(1.0), [prof] what building the profile in image coordinates and convolving
      it with the pixel raises, if anything. *)
  Definition drawImage (nq : R) (N : Z) (prof : option exn) (draw : drawer) (c : call) : option image * res (image * R) :=
    let a := k_args c in
    let im0 := a_image a in
    match check_args c with
    | Some e => (im0, Err e)
    | None =>
    match determine_wcs nq (k_scale c) (k_wcs c) im0 with
    | Err e => (im0, Err e)
    | Ok (w, cleared) =>
      let im1 := if cleared then option_map (fun i => with_wcs i None) im0 else im0 in
      let nb := get_new_bounds im1 (a_nx a) (a_ny a) (a_bounds a) (a_center a) in
      match (if uniform O w then Ok (0, 0)%R else local_wcs_pos im1 nb (a_offset a) (a_center a) (a_utc a)) with
      | Err e => (im1, Err e)
      | Ok pos =>
        match prof with
        | Some e => (im1, Err e)
        | None =>
        match setup_image T dflt N im1 (a_nx a) (a_ny a) (a_bounds a) (a_add a) (a_dtype a) (a_center a) false with
        | Err e => (im1, Err e)
        | Ok im =>
          let keep i := match im0 with Some _ => Some i | None => None end in
          let im2 := with_wcs im (Some w) in
          if k_setup_only c then (keep im2, Ok (im2, 0%R))
          else
            match centerI (ibnd im2) with
            | Err e => (keep im2, Err e)
            | Ok (cx, cy) =>
              match setCenter T im2 (py 0%Z) (py 0%Z) with
              | (im3, Some e) => (keep im3, Err e)
              | (im3, None) =>
                let im3 := with_wcs im3 (Some (mk_pixel O 1)) in
                if negb (is_phot c) && (k_sensor c || k_ops c) then (keep im3, Err NotImplementedErr)
                else
                  let '(arr, r) := draw im3 in
                  let im4 := with_arr im3 arr in
                  match r with
                  | Err e => (keep im4, Err e)
                  | Ok added =>
                    let fl := bstatic (ibnd im2) in
                    let im5 := with_wcs (shift T im4 (Num cx fl) (Num cy fl)) (Some w) in
                    (keep im5, Ok (im5, (added / flux_scale c (pixel_area O w pos))%R))
                  end
              end
            end
        end
        end
      end
    end
    end.

  (** * drawKImage, gsobject.py:987-1085 *)
  (** Image.scale, image.py:411-420 *)
  Definition image_scale (im : image) : res (option R) :=
    match iwcs im with
    | None => Ok None
    | Some w => match scale_attr O w with Some s => Ok (Some s) | None => Err GalSimError end
    end.
  (** The setter, image.py:422-429 *)
  Definition set_scale (im : image) (s : R) : res image :=
    match iwcs im with
    | Some w => if is_pixel O w then Ok (with_wcs im (Some (mk_pixel O s))) else Err GalSimError
    | None => Ok (with_wcs im (Some (mk_pixel O s)))
    end.
  (** dk, gsobject.py:1017-1020; [scale] is the argument or that of the image *)
  Definition k_spacing (stepk : R) (scale : option R) : R :=
    match scale with Some s => if nonpos s then stepk else s | None => stepk end.
  (** dx when there are no pixels yet, gsobject.py:1023-1028 *)
  Definition k_dx (maxk stepk : R) (scale : option R) : R :=
    let nyquist := (PI / maxk)%R in
    match scale with
    | Some s => if nonpos s then nyquist else (nyquist * s / stepk)%R
    | None => nyquist
    end.

  Record kcall : Type := KCall {
    q_image : option image; q_nx : option Z; q_ny : option Z; q_bounds : option (bnd Z);
    q_scale : option R; q_add : bool; q_recenter : bool; q_setup_only : bool }.
  Variable iscomplex : D -> bool.
  Variable cdflt : D.     (** numpy.complex128 *)
  (** [kdraw b dk] is the array _drawKImage makes for the bounds b and the scale dk. The size of an automatic image is
      real_prof.getGoodImageSize(1.0) for the profile in pixels of size dx, whose stepk is stepk * dx. The unused dx of a
      given image is not computed. Result: the object given as image afterwards, and the image returned. *)
  Definition drawKImage (maxk stepk : R) (kdraw : bnd Z -> R -> arr V) (q : kcall) : option image * res image :=
    let im0 := q_image q in
    match (match im0 with Some i => if iscomplex (idt i) then None else Some GalSimValueError | None => None end) with
    | Some e => (im0, Err e)
    | None =>
    match (match im0, q_scale q with Some i, None => image_scale i | _, s => Ok s end) with
    | Err e => (im0, Err e)
    | Ok scale =>
      let dk := k_spacing stepk scale in
      let fresh := match im0 with Some i => negb (bdef (ibnd i)) | None => true end in
      match (if fresh then
               let N := getGoodImageSize 1 (stepk * k_dx maxk stepk scale)%R in
               setup_image T dflt N im0 (q_nx q) (q_ny q) (q_bounds q) (q_add q)
                 (Some (match im0 with Some i => idt i | None => cdflt end)) None true
             else if opt_some (q_bounds q) then Err GalSimIncompatibleValuesError
             else if opt_some (q_nx q) || opt_some (q_ny q) then Err GalSimIncompatibleValuesError
             else match im0 with Some i => Ok i | None => Err TypeError end) with
      | Err e => (im0, Err e)
      | Ok im =>
        let keep i := match im0 with Some _ => Some i | None => None end in
        match centerI (ibnd im) with
        | Err e => (keep im, Err e)
        | Ok (cx, cy) =>
          if q_recenter q && negb ((cx =? 0)%Z && (cy =? 0)%Z) && q_add q then (keep im, Err GalSimIncompatibleValuesError)
          else
            let fl := bstatic (ibnd im) in
            let im1 := if q_recenter q then shift T im (Num (- cx)%Z fl) (Num (- cy)%Z fl) else im in
            match set_scale im1 dk with
            | Err e => (keep im1, Err e)
            | Ok im2 =>
              if q_setup_only q then (keep im2, Ok im2)
              else
                let a := kdraw (ibnd im2) dk in
                let im3 := with_arr im2 (if q_add q then
                             Arr (nrow (iarr im2)) (ncol (iarr im2))
                                 (fun i j => bop T Add (idt im2) (idt im2) (elt (iarr im2) i j) (elt a i j))
                           else a) in
                (keep im3, Ok im3)
            end
        end
      end
    end
    end.
End Call.
