(** The Euclidean WCS classes of wcs.py. Floats are reals, positions are pairs of reals (PositionI and
    PositionD are not distinguished), the argument color is ignored by these classes. *)
From Coq Require Import ZArith Reals Bool String List.
From Coquelicot Require Import Complex.
From Verif Require Import Base Bounds_Model Geo_Model Shear_Model Prof_Model.
Import ListNotations.
Open Scope R_scope.

(** PixelScale(scale), ShearWCS(scale, shear), JacobianWCS(dudx, dudy, dvdx, dvdy), wcs.py:867-1302 *)
Inductive lwcs : Type := LPix (s : R) | LShear (s : R) (g : C) | LJac (m : mat).
(** A local WCS or OffsetWCS, OffsetShearWCS, AffineTransform, wcs.py:1328-1624; the last two
    arguments are origin and world_origin, which the constructors default to (0, 0). *)
Inductive wcs : Type :=
  | WLoc (l : lwcs)
  | WOff (s : R) (o w : vec)
  | WOffShear (s : R) (g : C) (o w : vec)
  | WAff (m : mat) (o w : vec).

(** * Local classes *)

(** ShearWCS._gsq, _gfactor, wcs.py:981-987 *)
Definition gsq (g : C) : R := Re g ^ 2 + Im g ^ 2.
(** wcs.py:983-984 *)
Definition gfactor (g : C) : R := 1 / sqrt (1 - gsq g).

(** _u, _v, wcs.py:886-890, 1000-1008, 1123-1127 *)
Definition l_u (l : lwcs) (x y : R) : R :=
  match l with
  | LPix s => x * s
  | LShear s g => (x * (1 - Re g) - y * Im g) * (gfactor g * s)
  | LJac m => m00 m * x + m01 m * y
  end.
Definition l_v (l : lwcs) (x y : R) : R :=
  match l with
  | LPix s => y * s
  | LShear s g => (y * (1 + Re g) - x * Im g) * (gfactor g * s)
  | LJac m => m10 m * x + m11 m * y
  end.
(** _x, _y, wcs.py:892-896, 1010-1018, 1129-1137 *)
Definition l_x (l : lwcs) (u v : R) : R :=
  match l with
  | LPix s => u / s
  | LShear s g => (u * (1 + Re g) + v * Im g) * (gfactor g / s)
  | LJac m => (m11 m * u - m01 m * v) / mdet m
  end.
Definition l_y (l : lwcs) (u v : R) : R :=
  match l with
  | LPix s => v / s
  | LShear s g => (v * (1 - Re g) + u * Im g) * (gfactor g / s)
  | LJac m => (- m10 m * u + m00 m * v) / mdet m
  end.

(** _pixelArea, _minScale, _maxScale, wcs.py:923-930, 1036-1044, 1186, 1234-1250 *)
Definition l_area (l : lwcs) : R :=
  match l with LPix s => s ^ 2 | LShear s _ => s ^ 2 | LJac m => Rabs (mdet m) end.
Definition l_min (l : lwcs) : R :=
  match l with
  | LPix s => s
  | LShear s g => s * (1 - sqrt (gsq g)) * gfactor g
  | LJac m =>
      let h1 := sqrt ((m00 m + m11 m) ^ 2 + (m01 m - m10 m) ^ 2) in
      let h2 := sqrt ((m00 m - m11 m) ^ 2 + (m01 m + m10 m) ^ 2) in
      / 2 * Rabs (h1 - h2)
  end.
Definition l_max (l : lwcs) : R :=
  match l with
  | LPix s => s
  | LShear s g => s * (1 + sqrt (gsq g)) * gfactor g
  | LJac m =>
      let h1 := sqrt ((m00 m + m11 m) ^ 2 + (m01 m - m10 m) ^ 2) in
      let h2 := sqrt ((m00 m - m11 m) ^ 2 + (m01 m + m10 m) ^ 2) in
      / 2 * (h1 + h2)
  end.

(** _inverse, wcs.py:932, 1046, 1252-1258 *)
Definition l_inverse (l : lwcs) : lwcs :=
  match l with
  | LPix s => LPix (1 / s)
  | LShear s g => LShear (1 / s) (sh_neg g)
  | LJac m => LJac (Mat (m11 m / mdet m) (- m01 m / mdet m) (- m10 m / mdet m) (m00 m / mdet m))
  end.
(** _toJacobian, wcs.py:935, 1049-1055, 1260; the entries of the JacobianWCS *)
Definition l_jac (l : lwcs) : mat :=
  match l with
  | LPix s => Mat s 0 0 s
  | LShear s g => Mat ((1 - Re g) * s * gfactor g) (- Im g * s * gfactor g)
                      (- Im g * s * gfactor g) ((1 + Re g) * s * gfactor g)
  | LJac m => m
  end.

(** _profileToWorld, _profileToImage, wcs.py:898-914, 1020-1032, 1139-1165 *)
Definition l_profileToWorld (l : lwcs) (p : prof) (fr : R) (off : vec) : prof :=
  match l with
  | LPix s => mkTransform p (Mat s 0 0 s) off (/ (s ^ 2) * fr) None true
  | LShear s g => fold_left apply [Dilate s; ShearBy (sh_neg g); Shift (fst off) (snd off); ScaleFlux fr] p
  | LJac m => mkTransform p (Mat (m00 m) (m01 m) (m10 m) (m11 m)) off (fr / Rabs (mdet m)) None true
  end.
Definition l_profileToImage (l : lwcs) (p : prof) (fr : R) (off : vec) : prof :=
  match l with
  | LPix s => mkTransform p (Mat (1 / s) 0 0 (1 / s)) off (s ^ 2 * fr) None true
  | LShear s g => fold_left apply [Dilate (1 / s); ShearBy g; Shift (fst off) (snd off); ScaleFlux fr] p
  | LJac m =>
      mkTransform p (Mat (m11 m / mdet m) (- m01 m / mdet m) (- m10 m / mdet m) (m00 m / mdet m)) off
        (fr * Rabs (mdet m)) None true
  end.

(** JacobianWCS._shearToWorld, wcs.py:1167-1180 *)
Definition jac_shear (J : mat) (sh : C) : res C :=
  let e1 := sh_e1 sh in
  let e2 := sh_e2 sh in
  let M := Mat (1 + e1) e2 e2 (1 - e1) in
  let M := mdot (mdot J M) (mT J) in
  let e1 := (m00 M - m11 M) / (m00 M + m11 M) in
  let e2 := (2 * m01 M) / (m00 M + m11 M) in
  mk_shear [] [("e1"%string, KNum e1); ("e2"%string, KNum e2)].
(** _shearToWorld, _shearToImage, wcs.py:916-921, 1034-1039, 1182-1184 *)
Definition l_shearToWorld (l : lwcs) (sh : C) : res C :=
  match l with LPix _ => Ok sh | LShear _ _ | LJac _ => jac_shear (l_jac l) sh end.
Definition l_shearToImage (l : lwcs) (sh : C) : res C :=
  match l with LPix _ => Ok sh | LShear _ _ | LJac _ => jac_shear (l_jac (l_inverse (LJac (l_jac l)))) sh end.

(** JacobianWCS.getDecomposition, wcs.py:1192-1232: scale, shear, theta in radians, flip *)
Definition getDecomposition (m : mat) : res (R * C * R * bool) :=
  let flip := Rltb (mdet m) 0 in
  let '(dudx, dudy, dvdx, dvdy) :=
    if flip then (m01 m, m00 m, m11 m, m10 m) else (m00 m, m01 m, m10 m, m11 m) in
  let scale := sqrt (Rabs (mdet m)) in
  let C := dudx + dvdy in
  let S := dvdx - dudy in
  let theta := atan2 S C in
  let factor := C * C + S * S in
  let C := C / factor in
  let S := S / factor in
  let g1 := C * (dudx - dvdy) - S * (dudy + dvdx) in
  let g2 := S * (dudx - dvdy) + C * (dudy + dvdx) in
  bind (mk_shear [] [("g1"%string, KNum g1); ("g2"%string, KNum g2)]) (fun sh => Ok (scale, sh, theta, flip)).

(** * All classes *)

(** origin, world_origin: wcs.py:621-628, 1351-1358, 1431-1438, 1525-1532 *)
Definition origin (w : wcs) : vec :=
  match w with WLoc _ => (0, 0) | WOff _ o _ | WOffShear _ _ o _ | WAff _ o _ => o end.
Definition world_origin (w : wcs) : vec :=
  match w with WLoc _ => (0, 0) | WOff _ _ o | WOffShear _ _ _ o | WAff _ _ o => o end.
(** _local_wcs (UniformWCS) and _local (LocalWCS returns itself): wcs.py:579, 651, 1344, 1420, 1494 *)
Definition local_wcs (w : wcs) : lwcs :=
  match w with WLoc l => l | WOff s _ _ => LPix s | WOffShear s g _ _ => LShear s g | WAff m _ _ => LJac m end.

(** _posToWorld, _posToImage, wcs.py:396-420 and 630-646 *)
Definition posToWorld (w : wcs) (p : vec) : vec :=
  match w with
  | WLoc l => (l_u l (fst p) (snd p), l_v l (fst p) (snd p))
  | _ => let x := fst p - fst (origin w) in
         let y := snd p - snd (origin w) in
         vadd (l_u (local_wcs w) x y, l_v (local_wcs w) x y) (world_origin w)
  end.
Definition posToImage (w : wcs) (p : vec) : vec :=
  match w with
  | WLoc l => (l_x l (fst p) (snd p), l_y l (fst p) (snd p))
  | _ => let u := fst p - fst (world_origin w) in
         let v := snd p - snd (world_origin w) in
         vadd (l_x (local_wcs w) u v, l_y (local_wcs w) u v) (origin w)
  end.
(** _xyTouv, _uvToxy, wcs.py:403-410, 422-429, 637, 646 *)
Definition xyTouv (w : wcs) (x y : R) : R * R :=
  match w with
  | WLoc l => (l_u l x y, l_v l x y)
  | _ => let x := x - fst (origin w) in
         let y := y - snd (origin w) in
         let u := l_u (local_wcs w) x y in
         let v := l_v (local_wcs w) x y in
         (u + fst (world_origin w), v + snd (world_origin w))
  end.
(** wcs.py:395-398, 422-429, 645-646 *)
Definition uvToxy (w : wcs) (u v : R) : R * R :=
  match w with
  | WLoc l => (l_x l u v, l_y l u v)
  | _ => let u := u - fst (world_origin w) in
         let v := v - snd (world_origin w) in
         let x := l_x (local_wcs w) u v in
         let y := l_y (local_wcs w) u v in
         (x + fst (origin w), y + snd (origin w))
  end.

(** _newOrigin, wcs.py:947, 1057, 1276, 1394, 1440, 1595; world_origin None becomes (0, 0) (_set_origin,
    wcs.py:197-210) *)
Definition newOrigin (w : wcs) (o : vec) (wo : option vec) : wcs :=
  let wo := match wo with None => (0, 0) | Some v => v end in
  match w with
  | WLoc (LPix s) | WOff s _ _ => WOff s o wo
  | WLoc (LShear s g) | WOffShear s g _ _ => WOffShear s g o wo
  | WLoc (LJac m) | WAff m _ _ => WAff m o wo
  end.

Section Local.
  (** The attribute _isLocal of local classes is inherited from the galsim package (wcs.py overrides the
      method isLocal, line 616, but not the attribute): its value is left open. *)
  Variable islocal : bool.
  (** shiftOrigin / _shiftOrigin, wcs.py:181-186, 434-488 *)
  Definition shiftOrigin (w : wcs) (o : vec) (wo : option vec) : wcs :=
    let isl := match w with WLoc _ => islocal | _ => false end in
    match wo with
    | None => if negb isl then newOrigin w (vadd o (origin w)) (Some (world_origin w)) else newOrigin w o None
    | Some v =>
        let v := if negb isl then vadd v (vsub (world_origin w) (posToWorld w (origin w))) else v in
        newOrigin w o (Some v)
    end.

  (** _inverse, wcs.py:592 and the local ones *)
  Definition inverse (w : wcs) : wcs :=
    match w with
    | WLoc l => WLoc (l_inverse l)
    | _ => newOrigin (WLoc (l_inverse (local_wcs w))) (world_origin w) (Some (origin w))
    end.

  (** local(image_pos, world_pos), wcs.py:141-155: for these classes the position does not matter *)
  Definition local (w : wcs) (ip wp : option vec) : res lwcs :=
    match wp, ip with
    | Some _, Some _ => Err GalSimIncompatibleValuesError
    | _, _ => Ok (local_wcs w)
    end.
  (** jacobian, wcs.py:157-161 *)
  Definition jacobian (w : wcs) (ip wp : option vec) : res wcs :=
    bind (local w ip wp) (fun l => Ok (WLoc (LJac (l_jac l)))).
  (** affine, wcs.py:163-179 *)
  Definition affine (w : wcs) (ip wp : option vec) : res wcs :=
    bind (jacobian w ip wp) (fun jac =>
      let ip := match wp with
                | Some v => posToImage w v
                | None => match ip with None => (0, 0) | Some p => p end
                end in
      let wp := match wp with None => posToWorld w ip | Some v => v end in
      Ok (shiftOrigin jac ip (Some wp))).
  (** profileToWorld etc., wcs.py:72-139; pixelArea etc. are inherited from the galsim package and call
      the local method *)
  Definition profileToWorld (w : wcs) (p : prof) (ip wp : option vec) (fr : R) (off : vec) : res prof :=
    bind (local w ip wp) (fun l => Ok (l_profileToWorld l p fr off)).
  Definition profileToImage (w : wcs) (p : prof) (ip wp : option vec) (fr : R) (off : vec) : res prof :=
    bind (local w ip wp) (fun l => Ok (l_profileToImage l p fr off)).
  Definition shearToWorld (w : wcs) (s : C) (ip wp : option vec) : res C :=
    bind (local w ip wp) (fun l => l_shearToWorld l s).
  Definition shearToImage (w : wcs) (s : C) (ip wp : option vec) : res C :=
    bind (local w ip wp) (fun l => l_shearToImage l s).

  (** * FITS headers *)
  (** A header is a dictionary; values are strings and numbers (cards keep numbers exactly here). *)
  Inductive hval : Type := HS (s : string) | HR (x : R) | HZ (n : Z).
  Definition header : Type := string -> option hval.
  Definition hset (h : header) (k : string) (v : hval) : header :=
    fun k' => if String.eqb k' k then Some v else h k'.
  Definition num_of (v : hval) : res R :=
    match v with HR x => Ok x | HZ n => Ok (IZR n) | HS _ => Err TypeError end.
  Definition hget (h : header) (k : string) : res R :=
    match h k with None => Err KeyError | Some v => num_of v end.
  Definition hgetd (h : header) (k : string) (d : R) : res R :=
    match h k with None => Ok d | Some v => num_of v end.

  Open Scope string_scope.
  (** _writeLinearWCS, wcs.py:1538-1562 *)
  Definition writeLinear (w : wcs) (h : header) : header :=
    let m := l_jac (local_wcs w) in
    let h := hset h "CTYPE1" (HS "LINEAR") in
    let h := hset h "CTYPE2" (HS "LINEAR") in
    let h := hset h "CRVAL1" (HR (fst (world_origin w))) in
    let h := hset h "CRVAL2" (HR (snd (world_origin w))) in
    let h := hset h "CRPIX1" (HR (fst (origin w))) in
    let h := hset h "CRPIX2" (HR (snd (origin w))) in
    let h := hset h "CD1_1" (HR (m00 m)) in
    let h := hset h "CD1_2" (HR (m01 m)) in
    let h := hset h "CD2_1" (HR (m10 m)) in
    hset h "CD2_2" (HR (m11 m)).
  (** self.affine()._writeLinearWCS(header, bounds) *)
  Definition writeAffine (w : wcs) (h : header) : header :=
    match affine w None None with Ok a => writeLinear a h | Err _ => h end.
  (** _writeHeader, wcs.py:938, 1060, 1263, 1360, 1443, 1534 *)
  Definition write_origins (w : wcs) (h : header) : header :=
    let h := hset h "GS_X0" (HR (fst (origin w))) in
    let h := hset h "GS_Y0" (HR (snd (origin w))) in
    let h := hset h "GS_U0" (HR (fst (world_origin w))) in
    hset h "GS_V0" (HR (snd (world_origin w))).
  Definition writeHeader (w : wcs) (h : header) : header :=
    match w with
    | WLoc (LPix s) => writeAffine w (hset (hset h "GS_WCS" (HS "PixelScale")) "GS_SCALE" (HR s))
    | WLoc (LShear s g) =>
        writeAffine w (hset (hset (hset (hset h "GS_WCS" (HS "ShearWCS")) "GS_SCALE" (HR s))
                                  "GS_G1" (HR (Re g))) "GS_G2" (HR (Im g)))
    | WLoc (LJac _) => writeAffine w (hset h "GS_WCS" (HS "JacobianWCS"))
    | WOff s _ _ => writeAffine w (write_origins w (hset (hset h "GS_WCS" (HS "OffsetWCS")) "GS_SCALE" (HR s)))
    | WOffShear s g _ _ =>
        writeAffine w (write_origins w (hset (hset (hset (hset h "GS_WCS" (HS "OffsetShearWCS")) "GS_SCALE" (HR s))
                                                   "GS_G1" (HR (Re g))) "GS_G2" (HR (Im g))))
    | WAff _ _ _ => writeLinear w (hset h "GS_WCS" (HS "AffineTransform"))
    end.
  (** writeToFitsHeader: inherited from the galsim package, whose text is not part of /repo; modelled
      as documented there: the image's corner is recorded, and the wcs that is written is the one of
      an image whose corner is (1, 1). *)
  Definition writeToFitsHeader (w : wcs) (xmin ymin : Z) (h : header) : header :=
    let h := hset h "GS_XMIN" (HZ xmin) in
    let h := hset h "GS_YMIN" (HZ ymin) in
    let w := if negb (Z.eqb xmin 1) || negb (Z.eqb ymin 1)
             then shiftOrigin w (IZR (1 - xmin), IZR (1 - ymin)) None else w in
    writeHeader w h.

  (** _readHeader, wcs.py:943, 1267, 1382, 1564-1591. ShearWCS and OffsetShearWCS have no such method
      (nor has a base class): AttributeError. *)
  Definition read_class (name : string) (h : header) : res wcs :=
    if String.eqb name "PixelScale" then bind (hget h "GS_SCALE") (fun s => Ok (WLoc (LPix s)))
    else if String.eqb name "JacobianWCS" then
      bind (hgetd h "CD1_1" 1) (fun a => bind (hgetd h "CD1_2" 0) (fun b =>
      bind (hgetd h "CD2_1" 0) (fun c => bind (hgetd h "CD2_2" 1) (fun d => Ok (WLoc (LJac (Mat a b c d)))))))
    else if String.eqb name "OffsetWCS" then
      bind (hget h "GS_SCALE") (fun s => bind (hget h "GS_X0") (fun x0 => bind (hget h "GS_Y0") (fun y0 =>
      bind (hget h "GS_U0") (fun u0 => bind (hget h "GS_V0") (fun v0 => Ok (WOff s (x0, y0) (u0, v0)))))))
    else if String.eqb name "AffineTransform" then
      bind (match h "CD1_1" with
            | Some _ =>
                bind (hgetd h "CD1_1" 1) (fun a => bind (hgetd h "CD1_2" 0) (fun b =>
                bind (hgetd h "CD2_1" 0) (fun c => bind (hgetd h "CD2_2" 1) (fun d => Ok (Mat a b c d)))))
            | None => bind (hgetd h "CDELT1" 1) (fun a => bind (hgetd h "CDELT2" 1) (fun d => Ok (Mat a 0 0 d)))
            end) (fun m =>
      bind (hgetd h "CRPIX1" 0) (fun x0 => bind (hgetd h "CRPIX2" 0) (fun y0 =>
      bind (hgetd h "CRVAL1" 0) (fun u0 => bind (hgetd h "CRVAL2" 0) (fun v0 =>
        Ok (WAff m (x0, y0) (u0, v0)))))))
    else Err AttributeError.

  (** readFromFitsHeader, wcs.py:1636-1658. Headers without GS_WCS go to FitsWCS and are not treated here. *)
  Definition corner (h : header) (k : string) : res Z :=
    match h k with None => Ok 1%Z | Some (HZ n) => Ok n | Some _ => Err TypeError end.
  (** wcs.py:1633-1658 *)
  Definition readFromFitsHeader (h : header) : res (wcs * (Z * Z)) :=
    bind (corner h "GS_XMIN") (fun xmin => bind (corner h "GS_YMIN") (fun ymin =>
    match h "GS_WCS" with
    | Some (HS name) =>
        bind (read_class name h) (fun w =>
          let w := if negb (Z.eqb xmin 1) || negb (Z.eqb ymin 1)
                   then shiftOrigin w (IZR (xmin - 1), IZR (ymin - 1)) None else w in
          Ok (w, (xmin, ymin)))
    | _ => Err NotImplementedErr
    end)).
End Local.

(** compatible(wcs1, wcs2), wcs.py:1627-1632, for uniform classes: the Jacobians are compared
    entry by entry *)
Definition compatible (w1 w2 : wcs) : bool :=
  let a := l_jac (local_wcs w1) in
  let b := l_jac (local_wcs w2) in
  Reqb (m00 a) (m00 b) && Reqb (m01 a) (m01 b) && Reqb (m10 a) (m10 b) && Reqb (m11 a) (m11 b).

(** EuclideanWCS._local, wcs.py:491-514: finite differences of functions _u, _v *)
Definition fd_local (u v : R -> R -> R) (o p : vec) : mat :=
  let x0 := fst p - fst o in
  let y0 := snd p - snd o in
  let dx := 1 in
  let dy := 1 in
  Mat (/ 2 * (u (x0 + dx) y0 - u (x0 - dx) y0) / dx) (/ 2 * (u x0 (y0 + dy) - u x0 (y0 - dy)) / dy)
      (/ 2 * (v (x0 + dx) y0 - v (x0 - dx) y0) / dx) (/ 2 * (v x0 (y0 + dy) - v x0 (y0 - dy)) / dy).
(** EuclideanWCS._makeSkyImage for the pixel at integer position (i, j) of a float image, wcs.py:523-557:
    the meshgrid contains the neighbouring pixel centres *)
Definition fd_sky (u v : R -> R -> R) (o : vec) (sky : R) (i j : Z) : R :=
  let x k := IZR k - fst o in
  let y k := IZR k - snd o in
  let dudx := / 2 * (u (x (i + 1)%Z) (y j) - u (x (i - 1)%Z) (y j)) in
  let dudy := / 2 * (u (x i) (y (j + 1)%Z) - u (x i) (y (j - 1)%Z)) in
  let dvdx := / 2 * (v (x (i + 1)%Z) (y j) - v (x (i - 1)%Z) (y j)) in
  let dvdy := / 2 * (v (x i) (y (j + 1)%Z) - v (x i) (y (j - 1)%Z)) in
  Rabs (dudx * dvdy - dvdx * dudy) * sky.
(** UniformWCS._makeSkyImage, wcs.py:596 *)
Definition uniform_sky (w : wcs) (sky : R) : R := sky * l_area (local_wcs w).
