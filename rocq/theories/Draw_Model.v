(** Model of the image set-up and placement part of GSObject.drawImage
    (/repo/jax_galsim/gsobject.py:344-530, 720-822) and of real-space drawing
    (gsobject.py:821-843, core/draw.py:9-52, sum.py:163-168).
    Simplifications: numbers are exact; the wcs of the image is opaque here. *)
From Coq Require Import ZArith Reals Bool List.
From Verif Require Import Base Array_Model Bounds_Model Image_Model FFT_Model.
Import ListNotations.

Definition posR : Type := (R * R)%type.

(** bounds.true_center as reals (bounds.py:175-182). *)
Definition true_center_x (b : bnd Z) : R := (IZR (nv (xmaxI b) + nv (bxmin b)) / 2)%R.
Definition true_center_y (b : bnd Z) : R := (IZR (nv (ymaxI b) + nv (bymin b)) / 2)%R.
Definition center_x (b : bnd Z) : Z := (nv (bxmin b) + nv (bdx b) / 2)%Z.
Definition center_y (b : bnd Z) : Z := (nv (bymin b) + nv (bdy b) / 2)%Z.

(** PositionI(jnp.floor(center + 0.5 - true_center)), gsobject.py:410-415, 487-492. *)
Definition center_shift (c : posR) (b : bnd Z) : num Z * num Z :=
  (jx (floorR (fst c + / 2 - true_center_x b)), jx (floorR (snd c + / 2 - true_center_y b))).

Section Draw.
  Context {V D W : Type}.
  Variable T : vops V D W.
  Variable dflt : D.    (** jnp.float32, the default dtype (image.py:191) *)
  Notation image := (image V D W).

  (** Image(ncol, nrow, dtype), image.py:86-90, 193-206. *)
  Definition Image_nxny (nx ny : Z) (d : D) : image :=
    Img (make_empty T ny nx) (BoundsI (ArgsKwDelta (py 1) (py nx) (py 1) (py ny)))%Z d (Some false) None.

  Definition opt_some {A} (o : option A) : bool := match o with Some _ => true | None => false end.
  Definition or_dflt (d : option D) : D := match d with Some d => d | None => dflt end.

  (** _setup_image, gsobject.py:344-424; [N] is self.getGoodImageSize(1.0). The dtype of the given
      image's array is taken to be image.dtype. *)
  Definition setup_image (N : Z) (im : option image) (nx ny : option Z) (bounds : option (bnd Z))
      (add : bool) (dtype : option D) (center : option posR) (odd : bool) : res image :=
    let N := if odd then (N + 1)%Z else N in
    match im with
    | Some im =>
        if opt_some bounds then Err GalSimIncompatibleValuesError
        else if opt_some nx || opt_some ny then Err GalSimIncompatibleValuesError
        else if (match dtype with Some d => negb (deqb T (idt im) d) | None => false end)
        then Err GalSimIncompatibleValuesError
        else if bdef (ibnd im) then Ok im
        else if add then Err GalSimIncompatibleValuesError
        else match resize T im (BoundsI (ArgsKwDelta (py 1) (py N) (py 1) (py N)))%Z None with
             | (im', None) => Ok im'
             | (_, Some e) => Err e
             end
    | None =>
        if add then Err GalSimIncompatibleValuesError
        else match bounds with
             | Some b =>
                 if opt_some nx || opt_some ny then Err GalSimIncompatibleValuesError
                 else if negb (bdef b) then Err GalSimValueError
                 else Ok (Image_bounds T b (or_dflt dtype) None None)
             | None =>
                 match nx, ny with
                 | Some nx, Some ny =>
                     let i := Image_nxny nx ny (or_dflt dtype) in
                     match center with
                     | Some c => let '(dx, dy) := center_shift c (ibnd i) in Ok (shift T i dx dy)
                     | None => Ok i
                     end
                 | None, None =>
                     let i := Image_nxny N N (or_dflt dtype) in
                     match center with
                     | Some c => match setCenter T i (jx (ceilR (fst c))) (jx (ceilR (snd c))) with
                                 | (i', None) => Ok i'
                                 | (_, Some e) => Err e
                                 end
                     | None => Ok i
                     end
                 | _, _ => Err GalSimIncompatibleValuesError
                 end
             end
    end.

  (** _get_new_bounds, gsobject.py:476-499. *)
  Definition get_new_bounds (im : option image) (nx ny : option Z) (bounds : option (bnd Z))
      (center : option posR) : bnd Z :=
    let auto := match bounds with
                | Some b => if bdef b then b else BoundsI ArgsNone
                | None => BoundsI ArgsNone
                end in
    let sized := match nx, ny with
                 | Some nx, Some ny =>
                     let b := BoundsI (ArgsKwDelta (py 1) (py nx) (py 1) (py ny))%Z in
                     match center with
                     | Some c => let '(dx, dy) := center_shift c b in shiftI b dx dy
                     | None => b
                     end
                 | _, _ => auto
                 end in
    match im with
    | Some im => if bdef (ibnd im) then ibnd im else sized
    | None => sized
    end.

  (** _adjust_offset, gsobject.py:501-527. *)
  Definition adjust_offset (nb : bnd Z) (offset : posR) (center : option posR) (use_true_center : bool) : posR :=
    match center with
    | Some c =>
        if bdef nb then (fst offset + (fst c - IZR (center_x nb)), snd offset + (snd c - IZR (center_y nb)))%R
        else (fst offset + (fst c - IZR (ceilR (fst c))), snd offset + (snd c - IZR (ceilR (snd c))))%R
    | None =>
        if use_true_center then
          let '(h, w) := numpyShapeI nb in
          (fst offset - / 2 * IZR ((w + 1) mod 2), snd offset - / 2 * IZR ((h + 1) mod 2))%R
        else offset
    end.

  (** _local_wcs: the position at which a non-uniform wcs is linearised, gsobject.py:426-455. *)
  Definition local_wcs_pos (im : option image) (nb : bnd Z) (offset : posR) (center : option posR)
      (use_true_center : bool) : res posR :=
    let b := match im with Some im => ibnd im | None => nb end in
    if negb (bdef b) then Err GalSimIncompatibleValuesError
    else
      let c := match center with
               | Some c => c
               | None => if use_true_center then (true_center_x b, true_center_y b)
                         else (IZR (center_x b), IZR (center_y b))
               end in
      Ok (fst c + fst offset, snd c + snd offset)%R.

  (** The arguments of drawImage that determine the geometry. *)
  Record dargs : Type := DArgs {
    a_image : option image; a_nx : option Z; a_ny : option Z; a_bounds : option (bnd Z);
    a_add : bool; a_dtype : option D; a_center : option posR; a_offset : posR; a_utc : bool }.

  (** drawImage, gsobject.py:720-770: the image drawn on, and the offset of the profile from that
      image's nominal center (the profile is shifted by [offset] and the image is recentred to 0,0). *)
  Definition draw_geometry (N : Z) (a : dargs) : res (image * posR) :=
    let nb := get_new_bounds (a_image a) (a_nx a) (a_ny a) (a_bounds a) (a_center a) in
    let off := adjust_offset nb (a_offset a) (a_center a) (a_utc a) in
    bind (setup_image N (a_image a) (a_nx a) (a_ny a) (a_bounds a) (a_add a) (a_dtype a) (a_center a) false)
         (fun im => Ok (im, off)).

  (** Pixel coordinates at which the profile's origin is drawn. *)
  Definition drawn_at (im : image) (off : posR) : posR :=
    (IZR (center_x (ibnd im)) + fst off, IZR (center_y (ibnd im)) + snd off)%R.

  (** The set-centre / draw / restore bracket, gsobject.py:765-813; [f] is what drawing does to the
      array of the recentred image. *)
  Definition draw_bracket (f : image -> arr V) (im : image) : res image :=
    match centerI (ibnd im) with
    | Err e => Err e
    | Ok (cx, cy) =>
        match setCenter T im (py 0%Z) (py 0%Z) with
        | (_, Some e) => Err e
        | (im1, None) =>
            let im2 := Img (f im1) (ibnd im1) (idt im1) (iconst im1) (iwcs im1) in
            let fl := bstatic (ibnd im) in
            let im3 := shift T im2 (Num cx fl) (Num cy fl) in
            Ok (Img (iarr im3) (ibnd im3) (idt im3) (iconst im3) (iwcs im))
        end
    end.
End Draw.

(** * Real-space drawing *)

(** dtype of an array: integer, single or double precision. *)
Inductive rdt : Type := RInt | RF32 | RF64.
Definition is_rint (d : rdt) : bool := match d with RInt => true | _ => false end.

(** jnp.around: round half to even. *)
Definition roundR (x : R) : Z :=
  let f := floorR x in
  if Rltb (x - IZR f) (/ 2) then f
  else if Rltb (/ 2) (x - IZR f) then (f + 1)%Z
  else if Z.even f then f else (f + 1)%Z.

(** A pixel array with its dtype, and an image: array and the separately kept _dtype attribute. *)
Record rarr : Type := RArr { rval : Z -> Z -> R; radt : rdt }.
Record rimage : Type := RImg { rarray : rarr; rdtype : rdt }.

(** Storing a float into an array of dtype d via .at[].add/.set (truncation for integers;
    the values here are already whole when d is an integer dtype). *)
Definition rstore (d : rdt) (v : R) : R :=
  if is_rint d then IZR (if Rltb v 0 then ceilR v else floorR v) else v.

(** draw_by_xValue, core/draw.py:9-52: pixel values [f] (already including jacobian, offset and flux
    scaling), rounded when the image's dtype is an integer one; the new image has a double array. *)
Definition draw_leaf (f : Z -> Z -> R) (image : rimage) : rimage :=
  let v := if is_rint (rdtype image) then fun x y => IZR (roundR (f x y)) else f in
  RImg (RArr v RF64) RF64.

(** image += image2 for two float images (Image_iadd, image.py:1479-1492). *)
Definition radd (a b : rimage) : rimage :=
  RImg (RArr (fun x y => rval (rarray a) x y + rval (rarray b) x y)%R (radt (rarray a))) (rdtype a).

(** Sum._drawReal, sum.py:163-168: every component is drawn on the running image. *)
Definition draw_sum (fs : list (Z -> Z -> R)) (image : rimage) : rimage :=
  match fs with
  | [] => image
  | f :: fs => fold_left (fun im g => radd im (draw_leaf g im)) fs (draw_leaf f image)
  end.

(** drawReal, gsobject.py:821-843. *)
Definition drawReal (fs : list (Z -> Z -> R)) (image : rimage) (add_to_image : bool) : rimage :=
  let temp := rarray (draw_sum fs image) in
  let temp := if negb (is_rint (radt temp)) && is_rint (radt (rarray image))
              then RArr (fun x y => IZR (roundR (rval temp x y))) (radt temp) else temp in
  if add_to_image then
    RImg (RArr (fun x y => rstore (radt (rarray image)) (rval (rarray image) x y + rval temp x y))%R
               (radt (rarray image))) (rdtype image)
  else RImg temp (rdtype image).
