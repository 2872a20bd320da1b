(** Celestial coordinates, celestial.py. Floats are reals; a coordinate is its ra and dec in radians.
    arcsin and arccos outside [-1, 1], which give nan, are not followed. *)
From Coq Require Import Reals Bool String.
From Verif Require Import Base Bounds_Model Geo_Model Angle_Model.
Open Scope R_scope.

Record coord : Type := mkC { cra : R; cdec : R }.

(** CelestialCoord(ra, dec), celestial.py:67-92: the check of the declination *)
Definition new_coord (ra dec : R) : res coord :=
  if Rltb dec (- PI / 2) || Rltb (PI / 2) dec then Err ValueError else Ok (mkC ra dec).

(** _get_aux, celestial.py:109-116 *)
Record aux : Type := mkAux { a_cosra : R; a_sinra : R; a_cosdec : R; a_sindec : R; ax : R; ay : R; az : R }.
(** celestial.py:109-115 *)
Definition get_aux (c : coord) : aux :=
  let sindec := sin (cdec c) in
  let cosdec := cos (cdec c) in
  let sinra := sin (cra c) in
  let cosra := cos (cra c) in
  mkAux cosra sinra cosdec sindec (cosdec * cosra) (cosdec * sinra) sindec.
(** get_xyz, celestial.py:131-132 *)
Definition get_xyz (c : coord) : R * R * R := let a := get_aux c in (ax a, ay a, az a).

(** from_xyz, celestial.py:137-163 *)
Definition from_xyz (x y z : R) : res coord :=
  let norm := sqrt (x * x + y * y + z * z) in
  if Reqb norm 0 then Err RuntimeError
  else
    let x := x / norm in
    let y := y / norm in
    let z := z / norm in
    let sindec := z in
    let cosdec := sqrt (x * x + y * y) in
    let sinra := if Reqb cosdec 0 then 0 else y / cosdec in
    let cosra := if Reqb cosdec 0 then 1 else x / cosdec in
    Ok (mkC (wrap (atan2 sinra cosra) (Some PI)) (atan2 sindec cosdec)).

(** radec_to_xyz, celestial.py:167-172 *)
Definition radec_to_xyz (ra dec r : R) : R * R * R :=
  let cosdec := cos dec in (cosdec * cos ra * r, cosdec * sin ra * r, sin dec * r).
(** xyz_to_radec, celestial.py:177-190, with its r. On the axis the quotient is plus or minus infinity,
    whose arctan is a right angle; at the origin it is nan ([None]). *)
Definition xyz_to_radec (x y z : R) : option (R * R * R) :=
  let xy2 := x ^ 2 + y ^ 2 in
  let ra := atan2 y x in
  let r := sqrt (xy2 + z ^ 2) in
  if Reqb xy2 0 then
    if Rltb 0 z then Some (ra, PI / 2, r) else if Rltb z 0 then Some (ra, - PI / 2, r) else None
  else Some (ra, atan (z / sqrt xy2), r).

(** normal, celestial.py:193-194 *)
Definition normal (c : coord) : coord := mkC (wrap (cra c) (Some PI)) (cdec c).

(** _raw_dsq, _raw_cross, celestial.py:198-214 *)
Definition raw_dsq (a b : aux) : R := (ax a - ax b) ^ 2 + (ay a - ay b) ^ 2 + (az a - az b) ^ 2.
(** celestial.py:206-214 *)
Definition raw_cross (a b : aux) : R * R * R :=
  (ay a * az b - ay b * az a, az a * ax b - az b * ax a, ax a * ay b - ax b * ay a).
(** distanceTo, celestial.py:218-248: both formulas, then the choice *)
Definition dist_near (a b : aux) : R := 2 * asin (/ 2 * sqrt (raw_dsq a b)).
Definition dist_far (a b : aux) : R :=
  let '(x, y, z) := raw_cross a b in PI - asin (sqrt (x ^ 2 + y ^ 2 + z ^ 2)).
(** celestial.py:218-248 *)
Definition distanceTo (c1 c2 : coord) : R :=
  let a := get_aux c1 in
  let b := get_aux c2 in
  if Rltb (raw_dsq a b) 3.99 then dist_near a b else dist_far a b.

(** greatCirclePoint, celestial.py:252-301 *)
Definition greatCirclePoint (c1 c2 : coord) (theta : R) : res coord :=
  let a := get_aux c1 in
  let b := get_aux c2 in
  let dsq := raw_dsq a b in
  let wx := ax b - ax a + ax a * dsq / 2 in
  let wy := ay b - ay a + ay a * dsq / 2 in
  let wz := az b - az a + az a * dsq / 2 in
  let wr := sqrt (wx ^ 2 + wy ^ 2 + wz ^ 2) in
  if Reqb wr 0 then Err RuntimeError
  else
    let wx := wx / wr in
    let wy := wy / wr in
    let wz := wz / wr in
    from_xyz (ax a * cos theta + wx * sin theta) (ay a * cos theta + wy * sin theta)
             (az a * cos theta + wz * sin theta).

(** _triple, celestial.py:305-332: sign and log of a determinant, that is the determinant *)
Definition triple (a b c : aux) : R :=
  ax b * (ay a * az c - az a * ay c) - ay b * (ax a * az c - az a * ax c) + az b * (ax a * ay c - ay a * ax c).
(** _alt_triple, celestial.py:335-354 *)
Definition alt_triple (a b c : aux) : R :=
  let dAC := raw_dsq a b in
  let dBC := raw_dsq a c in
  let dAB := raw_dsq b c in
  / 2 * (dAC + dBC - dAB - / 2 * dAC * dBC).
(** angleBetween, celestial.py:358-379 *)
Definition angleBetween (c1 c2 c3 : coord) : R :=
  let a := get_aux c1 in
  let b := get_aux c2 in
  let c := get_aux c3 in
  atan2 (triple a b c) (alt_triple a b c).
(** area, celestial.py:383-422: a quotient by zero is infinite (its arctan a right angle) unless the
    numerator is zero too, which gives nan ([None]) *)
Definition area (c1 c2 c3 : coord) : option R :=
  let a := get_aux c1 in
  let b := get_aux c2 in
  let c := get_aux c3 in
  let F := triple a b c in
  let G := alt_triple a b c in
  let dasq := raw_dsq a b in
  let dbsq := raw_dsq a c in
  let den := / 4 * (4 - dasq) * (4 - dbsq) + G in
  if Reqb den 0 then if Reqb F 0 then None else Some (2 * (PI / 2))
  else Some (2 * atan (Rabs (F / den))).

(** * Projections *)
(** _valid_projections and the check in each method, celestial.py:424, 428; the branches look at the
    first letter *)
Inductive proj : Type := Gnomonic | Stereographic | Lambert | Postel.
Definition projection_of (p : option string) : res proj :=
  match p with
  | None => Ok Gnomonic
  | Some s =>
      if String.eqb s "gnomonic" then Ok Gnomonic
      else if String.eqb s "stereographic" then Ok Stereographic
      else if String.eqb s "lambert" then Ok Lambert
      else if String.eqb s "postel" then Ok Postel
      else Err ValueError
  end.
(** jnp.sinc *)
Definition sinc (x : R) : R := if Reqb x 0 then 1 else sin (PI * x) / (PI * x).

(** k in _project, celestial.py:484-497 *)
Definition proj_k (p : proj) (cosc : R) : R :=
  match p with
  | Gnomonic => 1 / cosc
  | Stereographic => 2 / (1 + cosc)
  | Lambert => sqrt (2 / (1 + cosc))
  | Postel => 1 / sinc (acos cosc / PI)
  end.
(** _project, celestial.py:449-505 *)
Definition project_ (c : coord) (p : proj) (cosra sinra cosdec sindec : R) : R * R :=
  let a := get_aux c in
  let cosdra := a_cosra a * cosra + a_sinra a * sinra in
  let sindra := a_sinra a * cosra - a_cosra a * sinra in
  let cosc := cosdec * cosdra * a_cosdec a + a_sindec a * sindec in
  let k := proj_k p cosc in
  let u := cosdec * sindra in
  let v := cosdec * cosdra * - a_sindec a + a_cosdec a * sindec in
  (u * k, v * k).
(** project, project_rad, celestial.py:427-446 *)
Definition project (c c2 : coord) (p : option string) : res (R * R) :=
  bind (projection_of p) (fun p =>
  let b := get_aux c2 in Ok (project_ c p (a_cosra b) (a_sinra b) (a_cosdec b) (a_sindec b))).
(** celestial.py:437-446 *)
Definition project_rad (c : coord) (ra dec : R) (p : option string) : res (R * R) :=
  bind (projection_of p) (fun p => Ok (project_ c p (cos ra) (sin ra) (cos dec) (sin dec))).

(** cosc and sinc_over_r in _deproject, celestial.py:548-572 *)
Definition deproj_cs (p : proj) (rsq : R) : R * R :=
  match p with
  | Gnomonic => let s := 1 / sqrt (1 + rsq) in (s, s)
  | Stereographic => ((4 - rsq) / (4 + rsq), 4 / (4 + rsq))
  | Lambert => (1 - rsq / 2, sqrt (4 - rsq) / 2)
  | Postel => let r := sqrt rsq in (cos r, sinc (r / PI))
  end.
(** _deproject, celestial.py:526-591 *)
Definition deproject_ (c : coord) (p : proj) (u v : R) : R * R :=
  let rsq := u * u + v * v in
  let '(cosc, sinc_over_r) := deproj_cs p rsq in
  let a := get_aux c in
  let sindec := v * sinc_over_r * a_cosdec a + cosc * a_sindec a in
  let tandra_num := u * sinc_over_r * -1 in
  let tandra_denom := v * sinc_over_r * - a_sindec a + cosc * a_cosdec a in
  (cra c + atan2 tandra_num tandra_denom, asin sindec).
(** deproject, deproject_rad, celestial.py:509-523 *)
Definition deproject (c : coord) (u v : R) (p : option string) : res coord :=
  bind (projection_of p) (fun p => let '(ra, dec) := deproject_ c p u v in new_coord ra dec).
(** celestial.py:519-523 *)
Definition deproject_rad (c : coord) (u v : R) (p : option string) : res (R * R) :=
  bind (projection_of p) (fun p => Ok (deproject_ c p u v)).

(** c, s and their derivatives in _jac_deproject, celestial.py:622-690 *)
Record jcs : Type := mkJ { j_c : R; j_s : R; j_dcdu : R; j_dcdv : R; j_dsdu : R; j_dsdv : R }.
Definition jac_cs (p : proj) (u v : R) : jcs :=
  let rsq := u * u + v * v in
  match p with
  | Gnomonic =>
      let s := 1 / sqrt (1 + rsq) in
      let s3 := s * s * s in
      mkJ s s (- u * s3) (- v * s3) (- u * s3) (- v * s3)
  | Stereographic =>
      let s := 4 / (4 + rsq) in
      let ssq := s * s in
      let dcdu := - u * ssq in
      let dcdv := - v * ssq in
      mkJ (2 * s - 1) s dcdu dcdv (/ 2 * dcdu) (/ 2 * dcdv)
  | Lambert =>
      let s := sqrt (4 - rsq) / 2 in
      mkJ (1 - rsq / 2) s (- u) (- v) (- u / (4 * s)) (- v / (4 * s))
  | Postel =>
      let r := sqrt rsq in
      let c := if Reqb r 0 then 1 else cos r in
      let s := if Reqb r 0 then 1 else sin r / r in
      mkJ c s (if Reqb r 0 then - u else - s * u) (if Reqb r 0 then - v else - s * v)
          (if Reqb r 0 then 0 else (c - s) * u / rsq) (if Reqb r 0 then 0 else (c - s) * v / rsq)
  end.
(** _jac_deproject, celestial.py:609-714 *)
Definition jac_deproject_ (c0 : coord) (p : proj) (u v : R) : mat :=
  let j := jac_cs p u v in
  let c := j_c j in
  let s := j_s j in
  let a := get_aux c0 in
  let s0 := a_sindec a in
  let c0 := a_cosdec a in
  let sindec := c * s0 + v * s * c0 in
  let cosdec := sqrt (1 - sindec * sindec) in
  let dddu := (s0 * j_dcdu j + v * j_dsdu j * c0) / cosdec in
  let dddv := (s0 * j_dcdv j + (v * j_dsdv j + s) * c0) / cosdec in
  let num := u * s in
  let den := c * c0 - v * s * s0 in
  let A2 := den ^ 2 + num ^ 2 in
  let drdu := ((u * j_dsdu j + s) * den - u * s * (j_dcdu j * c0 - v * j_dsdu j * s0)) / A2 in
  let drdv := (u * j_dsdv j * den - u * s * (j_dcdv j * c0 - (v * j_dsdv j + s) * s0)) / A2 in
  Mat (drdu * cosdec) (drdv * cosdec) dddu dddv.
(** jac_deproject, jac_deproject_rad, celestial.py:595-606 *)
Definition jac_deproject (c : coord) (u v : R) (p : option string) : res mat :=
  bind (projection_of p) (fun p => Ok (jac_deproject_ c p u v)).

(** * Other coordinate systems *)
(** The constants of galactic and from_galactic, celestial.py:731-733 and 751-753 *)
Definition gal_el0 : R := 32.93191857 * degrees.
Definition gal_r0 : R := 282.859481208 * degrees.
Definition gal_d0 : R := 62.8717488056 * degrees.
(** galactic, celestial.py:723-746 *)
Definition galactic (c : coord) (epoch : R) : R * R :=
  let sind0 := sin gal_d0 in
  let cosd0 := cos gal_d0 in
  let sind := sin (cdec c) in
  let cosd := cos (cdec c) in
  let sinr := sin (cra c - gal_r0) in
  let cosr := cos (cra c - gal_r0) in
  let cbcl := cosd * cosr in
  let cbsl := sind * sind0 + cosd * sinr * cosd0 in
  let sb := sind * cosd0 - cosd * sinr * sind0 in
  (wrap (atan2 cbsl cbcl + gal_el0) (Some PI), asin sb).
(** from_galactic, celestial.py:750-767 *)
Definition from_galactic (el b epoch : R) : res coord :=
  let sind0 := sin gal_d0 in
  let cosd0 := cos gal_d0 in
  let x1 := cos b * cos (el - gal_el0) in
  let y1 := cos b * sin (el - gal_el0) in
  let z1 := sin b in
  let x2 := x1 in
  let y2 := y1 * cosd0 - z1 * sind0 in
  let z2 := y1 * sind0 + z1 * cosd0 in
  bind (from_xyz x2 y2 z2) (fun temp =>
  bind (new_coord (cra temp + gal_r0) (cdec temp)) (fun c => Ok (normal c))).

(** _ecliptic_obliquity, celestial.py:40-52; the four texts are read by [from_dms] *)
Definition obliquity (epoch : R) : res R :=
  let t := (epoch - 2000) / 100 in
  bind (from_dms (txt "23:26:21.406")) (fun ep =>
  bind (from_dms (txt "00:00:46.836769")) (fun e1 =>
  bind (from_dms (txt "00:00:0.0001831")) (fun e2 =>
  bind (from_dms (txt "00:00:0.0020034")) (fun e3 =>
  Ok (ep - e1 * t - e2 * t ^ 2 + e3 * t ^ 3))))).
(** A date: its year and the ecliptic longitude of the sun then (_sun_position_ecliptic,
    celestial.py:55-56, computed by the coord package) *)
Record date : Type := mkDate { d_year : R; d_sun : R }.
(** ecliptic, celestial.py:771-797 *)
Definition ecliptic (c : coord) (epoch : R) (dt : option date) : res (R * R) :=
  let a := get_aux c in
  let epoch := match dt with Some d => d_year d | None => epoch end in
  bind (obliquity epoch) (fun ep =>
  let x_ecl := ax a in
  let y_ecl := cos ep * ay a + sin ep * az a in
  let z_ecl := - sin ep * ay a + cos ep * az a in
  let beta := asin z_ecl in
  let lam := atan2 y_ecl x_ecl in
  let lam := match dt with Some d => lam - d_sun d | None => lam end in
  Ok (wrap lam None, beta)).
(** from_ecliptic, celestial.py:802-823 *)
Definition from_ecliptic (lam beta epoch : R) (dt : option date) : res coord :=
  let lam := match dt with Some d => lam + d_sun d | None => lam end in
  let x_ecl := cos beta * cos lam in
  let y_ecl := cos beta * sin lam in
  let z_ecl := sin beta in
  let epoch := match dt with Some d => d_year d | None => epoch end in
  bind (obliquity epoch) (fun ep =>
  from_xyz x_ecl (cos ep * y_ecl - sin ep * z_ecl) (sin ep * y_ecl + cos ep * z_ecl)).

(** The Lieske angles and the rotation of _precess_kern, celestial.py:866-908 *)
Definition lieske (from_epoch to_epoch : R) : R * R * R :=
  let t0 := (from_epoch - 2000) / 100 in
  let t := (to_epoch - from_epoch) / 100 in
  let t02 := t0 * t0 in
  let t2 := t * t in
  let t3 := t2 * t in
  (((2306.2181 + 1.39656 * t0 - 0.000139 * t02) * t + (0.30188 - 0.000344 * t0) * t2 + 0.017998 * t3) * arcsec,
   ((2306.2181 + 1.39656 * t0 - 0.000139 * t02) * t + (1.09468 + 0.000066 * t0) * t2 + 0.018203 * t3) * arcsec,
   ((2004.3109 - 0.85330 * t0 - 0.000217 * t02) * t + (-0.42665 - 0.000217 * t0) * t2 - 0.041833 * t3) * arcsec).
Definition precess_rot (abc : R * R * R) (p : R * R * R) : R * R * R :=
  let '(a, b, c) := abc in
  let '(x, y, z) := p in
  let xx := cos a * cos c * cos b - sin a * sin b in
  let yx := - sin a * cos c * cos b - cos a * sin b in
  let zx := - sin c * cos b in
  let xy := cos a * cos c * sin b + sin a * cos b in
  let yy := - sin a * cos c * sin b + cos a * cos b in
  let zy := - sin c * sin b in
  let xz := cos a * sin c in
  let yz := - sin a * sin c in
  let zz := cos c in
  (xx * x + yx * y + zx * z, xy * x + yy * y + zy * z, xz * x + yz * y + zz * z).
(** precess, celestial.py:717-720 and _precess, 913-931 *)
Definition precess (c : coord) (from_epoch to_epoch : R) : res coord :=
  if Reqb from_epoch to_epoch then Ok c
  else let '(x, y, z) := precess_rot (lieske from_epoch to_epoch) (get_xyz c) in
       bind (from_xyz x y z) (fun c => Ok (normal c)).
