(** Model of fitswcs.py: GSFitsWCS (headers, distortions, positions, local Jacobian), TanWCS, FitsWCS for linear
    headers. Floats are reals; positions are single points. A header is a map from keys to values; a key is written
    as a constructor with its numbers instead of text ("PV1_7" is KPv X1 7). *)
From Coq Require Import ZArith Reals Bool List String Ascii.
From Verif Require Import Base Bounds_Model Geo_Model Angle_Model Sky_Model Util_Model WCS_Model.
Import ListNotations.
Open Scope R_scope.

(** * Headers *)
Inductive axis : Type := X1 | X2.
Inductive sip : Type := SA | SB | SAP | SBP.
Inductive key : Type :=
| KCtype (i : axis) | KCunit (i : axis) | KCrval (i : axis) | KCrpix (i : axis) | KCd (i j : axis) | KPc (i j : axis)
| KCdelt (i : axis) | KPv (i : axis) (k : nat) | KOrder (s : sip) | KSip (s : sip) (i j : nat).
Definition key_eq_dec : forall a b : key, {a = b} + {a <> b}.
Proof. repeat decide equality. Defined.
Inductive hval : Type := VR (x : R) | VZ (n : nat) | VS (s : string).
Definition header : Type := key -> option hval.
Definition hset (h : header) (k : key) (v : hval) : header := fun k' => if key_eq_dec k k' then Some v else h k'.
Definition has (h : header) (k : key) : bool := match h k with Some _ => true | None => false end.
(** float(v), int(v) *)
Definition to_R (v : hval) : res R := match v with VR x => Ok x | VZ n => Ok (INR n) | VS _ => Err ValueError end.
Definition to_nat (v : hval) : res nat := match v with VZ n => Ok n | _ => Err ValueError end.
(** float(header[k]), float(header.get(k, 0.0)), header.get(k, "") *)
Definition hnum (h : header) (k : key) : res R := match h k with Some v => to_R v | None => Err KeyError end.
Definition hget0 (h : header) (k : key) : res R := match h k with Some v => to_R v | None => Ok 0 end.
Definition hint (h : header) (k : key) : res nat := match h k with Some v => to_nat v | None => Err KeyError end.
Definition htext (h : header) (k : key) : res string :=
  match h k with Some (VS s) => Ok s | None => Ok EmptyString | Some _ => Err AttributeError end.
Fixpoint mapM {A B} (f : A -> res B) (l : list A) : res (list B) :=
  match l with [] => Ok [] | a :: t => bind (f a) (fun b => bind (mapM f t) (fun bs => Ok (b :: bs))) end.

(** * The object *)
(** pv, ab, abp: two matrices of coefficients *)
Definition dist : Type := (list (list R) * list (list R))%type.
Record fwcs : Type := FW { f_type : string; f_crpix : vec; f_cd : mat; f_center : coord;
                           f_pv : option dist; f_ab : option dist; f_abp : option dist }.
(** self.projection, fitswcs.py:93-102, 201-208 *)
Definition type_proj (t : string) : option proj :=
  if existsb (String.eqb t) ["TAN"; "TPV"; "TNX"; "TAN-SIP"]%string then Some Gnomonic
  else if existsb (String.eqb t) ["STG"; "STG-SIP"]%string then Some Stereographic
  else if existsb (String.eqb t) ["ZEA"; "ZEA-SIP"]%string then Some Lambert
  else if existsb (String.eqb t) ["ARC"; "ARC-SIP"]%string then Some Postel
  else None.
Definition f_proj (w : fwcs) : proj := match type_proj (f_type w) with Some p => p | None => Gnomonic end.

(** * Reading: TPV, fitswcs.py:305-360 *)
Definition odd_indices : list nat := [3; 11; 23; 39]%nat.
Definition is_odd (k : nat) : bool := existsb (Nat.eqb k) odd_indices.
Definition pv_keys : list nat := filter (fun k => negb (is_odd k)) (seq 0 40).
(** np.nonzero(l)[0][-1] *)
Fixpoint last_nonzero_from (k : nat) (l : list R) : option nat :=
  match l with
  | [] => None
  | x :: t => match last_nonzero_from (S k) t with
              | Some m => Some m
              | None => if Reqb x 0 then None else Some k
              end
  end.
Definition last_nonzero (l : list R) : res nat := match last_nonzero_from 0 l with Some m => Ok m | None => Err IndexError end.
(** The loop that fills the matrices: entry (i, j) of the first, (j, i) of the second *)
Definition tri_index (i j : nat) : nat := (((i + j) * (i + j + 1)) / 2 + j)%nat.
Definition fill1 (order : nat) (pv1 : list R) : list (list R) :=
  map (fun i => map (fun j => if Nat.leb (i + j) order then nth (tri_index i j) pv1 0 else 0) (seq 0 (order + 1))) (seq 0 (order + 1)).
Definition fill2 (order : nat) (pv2 : list R) : list (list R) :=
  map (fun i => map (fun j => if Nat.leb (i + j) order then nth (tri_index j i) pv2 0 else 0) (seq 0 (order + 1))) (seq 0 (order + 1)).
(** int(np.floor(np.sqrt(2 * (maxk + 1)))) - 1 *)
Definition tpv_order (maxk : nat) : nat := (Nat.sqrt (2 * (maxk + 1)) - 1)%nat.
(** fitswcs.py:305-360 *)
Definition read_tpv (h : header) : res dist :=
  bind (mapM (fun p => hget0 h (KPv (fst p) (snd p))) (list_prod [X1; X2] odd_indices)) (fun odds =>
  if existsb (fun x => negb (Reqb x 0)) odds then Err NotImplementedErr
  else bind (mapM (fun k => hget0 h (KPv X1 k)) pv_keys) (fun pv1 =>
       bind (mapM (fun k => hget0 h (KPv X2 k)) pv_keys) (fun pv2 =>
       bind (last_nonzero pv1) (fun m1 => bind (last_nonzero pv2) (fun m2 =>
         let maxk := Nat.max m1 m2 in
         let order := tpv_order maxk in
         Ok (fill1 order pv1, fill2 order pv2)))))).

(** * Reading: SIP, fitswcs.py:362-409 *)
Fixpoint upd {A} (n : nat) (f : A -> A) (l : list A) : list A :=
  match l, n with [], _ => [] | x :: t, O => f x :: t | x :: t, S n => x :: upd n f t end.
Definition add_at (i j : nat) (d : R) (m : list (list R)) : list (list R) := upd i (upd j (fun x => x + d)) m.
Definition read_matrix (h : header) (s : sip) (order : nat) : res (list (list R)) :=
  mapM (fun i => mapM (fun j => hget0 h (KSip s i j)) (seq 0 (order + 1))) (seq 0 (order + 1)).
(** one pair of matrices; a[1, 0] += 1 raises IndexError for order 0 *)
Definition read_sip_pair (h : header) (a b : sip) : res dist :=
  bind (hint h (KOrder a)) (fun a_order => bind (hint h (KOrder b)) (fun b_order =>
    let order := Nat.max a_order b_order in
    bind (read_matrix h a order) (fun ma => bind (read_matrix h b order) (fun mb =>
      if Nat.eqb order 0 then Err IndexError else Ok (add_at 1 0 1 ma, add_at 0 1 1 mb))))).
(** fitswcs.py:362-409 *)
Definition read_sip (h : header) : res (dist * option dist) :=
  bind (read_sip_pair h SA SB) (fun ab =>
    if has h (KOrder SAP) then bind (read_sip_pair h SAP SBP) (fun abp => Ok (ab, Some abp)) else Ok (ab, None)).

(** * Reading: TNX surfaces, _parse_tnx_data, fitswcs.py:490-583, from the numbers in the text: code, xmin, xmax, ymin,
    ymax and the ten coefficients (the checks of order and cross terms are left out). [None] is the value Python
    returns when no return statement is reached. *)
Definition tnx_matrix (p : list R) : list (list R) :=
  let g := fun k => nth (Z.to_nat k) p 0 in
  [[g 0%Z; g 4%Z; g 7%Z; g 9%Z]; [g 1%Z; g 5%Z; g 8%Z; 0]; [g 2%Z; g 6%Z; 0; 0]; [g 3%Z; 0; 0; 0]].
(** xm[m] = f1 * xm[m-1] + f2 * xm[m-2]; xm[m, 1:] += f3 * xm[m-1, :-1] *)
Definition next_row (f1 f2 f3 : R) (prev prev2 : list R) : list R :=
  let base := map (fun p => f1 * fst p + f2 * snd p) (combine prev prev2) in
  map (fun p => fst p + f3 * snd p) (combine base (0 :: removelast prev)).
Definition cheb_rows (a b : R) : list (list R) :=
  let r0 := [1; 0; 0; 0] in
  let r1 := [a; b; 0; 0] in
  let r2 := next_row (2 * a) (-1) (2 * b) r1 r0 in
  let r3 := next_row (2 * a) (-1) (2 * b) r2 r1 in
  [r0; r1; r2; r3].
Definition leg_rows (a b : R) : list (list R) :=
  let r0 := [1; 0; 0; 0] in
  let r1 := [a; b; 0; 0] in
  let r2 := next_row ((2 * 2 - 1) * a / 2) (- (2 - 1) / 2) ((2 * 2 - 1) * b / 2) r1 r0 in
  let r3 := next_row ((2 * 3 - 1) * a / 3) (- (3 - 1) / 3) ((2 * 3 - 1) * b / 3) r2 r1 in
  [r0; r1; r2; r3].
(** np.dot(xm.T, np.dot(pv, ym)) *)
Definition sum4 (f : nat -> R) : R := f 0%nat + f 1%nat + f 2%nat + f 3%nat.
Definition ent (m : list (list R)) (i j : nat) : R := nth j (nth i m []) 0.
Definition tnx_product (xm pv ym : list (list R)) : list (list R) :=
  map (fun k => map (fun l => sum4 (fun i => ent xm i k * sum4 (fun j => ent pv i j * ent ym j l))) (seq 0 4)) (seq 0 4).
Definition parse_tnx (code : Z) (xmin xmax ymin ymax : R) (p : list R) : option (list (list R)) :=
  let pv := tnx_matrix p in
  if (code <? 3)%Z then
    let a := - (xmax + xmin) / (xmax - xmin) in
    let b := 2 / (xmax - xmin) in
    let c := - (ymax + ymin) / (ymax - ymin) in
    let d := 2 / (ymax - ymin) in
    let xm := if (code =? 1)%Z then cheb_rows a b else leg_rows a b in
    let ym := if (code =? 1)%Z then cheb_rows c d else leg_rows c d in
    Some (tnx_product xm pv ym)
  else None.
(** the rest of _read_tnx, fitswcs.py:456-470: None[1, 0] is a TypeError *)
Definition tnx_dist (pv1 pv2 : option (list (list R))) : res dist :=
  match pv1, pv2 with Some a, Some b => Ok (add_at 1 0 1 a, add_at 0 1 1 b) | _, _ => Err TypeError end.

(** * Reading: _read_header, fitswcs.py:184-303. [tnx] is what _read_tnx makes of the header. OSError is shown as
    RuntimeError. *)
Open Scope string_scope.
Definition drop5 (s : string) : string := substring 5 (String.length s - 5) s.
Definition is_sip (t : string) : bool := existsb (String.eqb t) ["TAN-SIP"; "STG-SIP"; "ZEA-SIP"; "ARC-SIP"].
Definition read_type (h : header) : res (string * bool) :=
  bind (htext h (KCtype X1)) (fun ctype1 => bind (htext h (KCtype X2)) (fun ctype2 =>
  bind (if prefix "DEC--" ctype1 && prefix "RA---" ctype2 then Ok true
        else if prefix "RA---" ctype1 && prefix "DEC--" ctype2 then Ok false
        else Err GalSimError) (fun flip =>
  if negb (String.eqb (drop5 ctype1) (drop5 ctype2)) then Err RuntimeError
  else match type_proj (drop5 ctype1) with
       | None => Err GalSimValueError
       | Some _ => Ok (drop5 ctype1, flip)
       end))).
Definition read_cd (h : header) : res mat :=
  if has h (KCd X1 X1) then
    bind (hnum h (KCd X1 X1)) (fun a => bind (hnum h (KCd X1 X2)) (fun b =>
    bind (hnum h (KCd X2 X1)) (fun c => bind (hnum h (KCd X2 X2)) (fun d => Ok (Mat a b c d)))))
  else if has h (KCdelt X1) then
    if has h (KPc X1 X1) then
      bind (hnum h (KPc X1 X1)) (fun a => bind (hnum h (KPc X1 X2)) (fun b =>
      bind (hnum h (KPc X2 X1)) (fun c => bind (hnum h (KPc X2 X2)) (fun d =>
      bind (hnum h (KCdelt X1)) (fun s1 => bind (hnum h (KCdelt X2)) (fun s2 => Ok (Mat (a * s1) (b * s1) (c * s2) (d * s2))))))))
    else bind (hnum h (KCdelt X1)) (fun s1 => bind (hnum h (KCdelt X2)) (fun s2 => Ok (Mat s1 0 0 s2)))
  else Ok mI.
Definition read_units (h : header) : res (R * R) :=
  match h (KCunit X1) with
  | None => Ok (degrees, degrees)
  | Some (VS u1) =>
      match h (KCunit X2) with
      | None => Err KeyError
      | Some (VS u2) => bind (from_name (txt u1)) (fun a => bind (from_name (txt u2)) (fun b => Ok (a, b)))
      | Some _ => Err AttributeError
      end
  | Some _ => Err AttributeError
  end.
Definition swap_rows (m : mat) : mat := Mat (m10 m) (m11 m) (m00 m) (m01 m).
Definition scale_row0 (m : mat) (k : R) : mat := Mat (m00 m * k) (m01 m * k) (m10 m) (m11 m).
Definition scale_row1 (m : mat) (k : R) : mat := Mat (m00 m) (m01 m) (m10 m * k) (m11 m * k).
(** fitswcs.py:184-303 *)
Definition read_header (tnx : header -> res dist) (h : header) : res fwcs :=
  bind (read_type h) (fun tf =>
  let '(t, flip) := tf in
  bind (hnum h (KCrval X1)) (fun crval1 => bind (hnum h (KCrval X2)) (fun crval2 =>
  bind (hnum h (KCrpix X1)) (fun crpix1 => bind (hnum h (KCrpix X2)) (fun crpix2 =>
  bind (read_cd h) (fun cd =>
  bind (read_units h) (fun units =>
  let '(crval1, crval2) := if flip : bool then (crval2, crval1) else (crval1, crval2) in
  let '(ra_units, dec_units) := if flip : bool then (snd units, fst units) else units in
  let cd := if flip : bool then swap_rows cd else cd in
  bind (new_coord (crval1 * ra_units) (crval2 * dec_units)) (fun center =>
  let t := if String.eqb t "TAN" && has h (KPv X1 1) then "TPV" else t in
  bind (if String.eqb t "TPV" then bind (read_tpv h) (fun pv => Ok (t, Some pv, None, None))
        else if String.eqb t "TNX" then bind (tnx h) (fun pv => Ok ("TPV", Some pv, None, None))
        else if is_sip t then bind (read_sip h) (fun p => Ok (t, None, Some (fst p), snd p))
        else Ok (t, None, None, None)) (fun q =>
  let '(t, pv, ab, abp) := q in
  let cd := if Reqb ra_units degrees then cd else scale_row0 cd (ra_units / degrees) in
  let cd := if Reqb dec_units degrees then cd else scale_row1 cd (dec_units / degrees) in
  Ok (FW t (crpix1, crpix2) cd center pv ab abp)))))))))).
(** GSFitsWCS(header=header, origin=origin), fitswcs.py:134-153 *)
Definition new_origin (w : fwcs) (o : vec) : fwcs :=
  FW (f_type w) (vadd (f_crpix w) o) (f_cd w) (f_center w) (f_pv w) (f_ab w) (f_abp w).
Definition of_header (tnx : header -> res dist) (h : header) (origin : option vec) : res fwcs :=
  bind (read_header tnx h) (fun w => Ok (match origin with Some o => new_origin w o | None => w end)).

(** * Writing: _writeHeader, fitswcs.py:753-823 *)
Fixpoint hsets (h : header) (l : list (key * hval)) : header :=
  match l with [] => h | (k, v) :: t => hsets (hset h k v) t end.
(** The (n, j) of the two loops, and the numbers k that go with them *)
Definition pairs (order : nat) : list (nat * nat) := flat_map (fun n => map (fun j => (n, j)) (seq 0 (n + 1))) (seq 0 (order + 1)).
Definition next_k (k : nat) : nat := let k := (k + 1)%nat in if is_odd k then (k + 1)%nat else k.
Fixpoint write_pv_loop (pv : dist) (l : list (nat * nat)) (k : nat) (h : header) : header :=
  match l with
  | [] => h
  | (n, j) :: t =>
      let i := (n - j)%nat in
      let h := hset h (KPv X1 k) (VR (ent (fst pv) i j)) in
      let h := hset h (KPv X2 k) (VR (ent (snd pv) j i)) in
      write_pv_loop pv t (next_k k) h
  end.
Definition write_pv (pv : dist) (h : header) : header := write_pv_loop pv (pairs (List.length (fst pv) - 1)) 0 h.
(** the two matrices of coefficients with 1 subtracted at (1, 0) and (0, 1) *)
Definition std_ent (m : list (list R)) (i0 j0 i j : nat) : R :=
  if Nat.eqb i i0 && Nat.eqb j j0 then ent m i j - 1 else ent m i j.
Definition write_matrix (s : sip) (m : list (list R)) (i0 j0 : nat) (h : header) : header :=
  let order := (List.length m - 1)%nat in
  let h := hset h (KOrder s) (VZ order) in
  hsets h (flat_map (fun i => flat_map (fun j =>
    let a := std_ent m i0 j0 i j in if Reqb a 0 then [] else [(KSip s i j, VR a)]) (seq 0 (order + 1))) (seq 0 (order + 1))).
Definition write_sip (a b : sip) (ab : dist) (h : header) : header := write_matrix b (snd ab) 0 1 (write_matrix a (fst ab) 1 0 h).
Definition write_header (w : fwcs) (h : header) : header :=
  let h := hset h (KCtype X1) (VS ("RA---" ++ f_type w)) in
  let h := hset h (KCtype X2) (VS ("DEC--" ++ f_type w)) in
  let h := hset h (KCrpix X1) (VR (fst (f_crpix w))) in
  let h := hset h (KCrpix X2) (VR (snd (f_crpix w))) in
  let h := hset h (KCd X1 X1) (VR (m00 (f_cd w))) in
  let h := hset h (KCd X1 X2) (VR (m01 (f_cd w))) in
  let h := hset h (KCd X2 X1) (VR (m10 (f_cd w))) in
  let h := hset h (KCd X2 X2) (VR (m11 (f_cd w))) in
  let h := hset h (KCunit X1) (VS "deg") in
  let h := hset h (KCunit X2) (VS "deg") in
  let h := hset h (KCrval X1) (VR (cra (f_center w) / degrees)) in
  let h := hset h (KCrval X2) (VR (cdec (f_center w) / degrees)) in
  let h := match f_pv w with Some pv => write_pv pv h | None => h end in
  let h := match f_ab w with Some ab => write_sip SA SB ab h | None => h end in
  match f_abp w with Some abp => write_sip SAP SBP abp h | None => h end.
Close Scope string_scope.

(** * Positions *)
(** _apply_ab, fitswcs.py:585-590 *)
Definition apply_ab (p : vec) (ab : dist) : vec := (horner2d_at (fst p) (snd p) (fst ab) true, horner2d_at (fst p) (snd p) (snd ab) true).
Definition apply_opt (ab : option dist) (p : vec) : vec := match ab with Some ab => apply_ab p ab | None => p end.
(** _uv, fitswcs.py:592-620 *)
Definition f_uv (w : fwcs) (p : vec) : vec :=
  let p := vsub p (f_crpix w) in
  let p := apply_opt (f_ab w) p in
  let p := mapp (f_cd w) p in
  let p := apply_opt (f_pv w) p in
  (fst p * - (degrees / radians), snd p * (degrees / radians)).
(** _radec, fitswcs.py:622-628 *)
Definition f_radec (w : fwcs) (p : vec) : R * R := let p := f_uv w p in deproject_ (f_center w) (f_proj w) (fst p) (snd p).
(** _invert_ab_noraise, fitswcs.py:1040-1108 *)
Definition scale_rows (m : list (list R)) : list (list R) :=
  map (fun p => map (fun x => INR (fst p) * x) (snd p)) (combine (seq 0 (List.length m)) m).
Definition scale_row (r : list R) : list R := map (fun p => INR (fst p) * snd p) (combine (seq 0 (List.length r)) r).
Definition dx_coef (m : list (list R)) : list (list R) := map (@removelast R) (tl (scale_rows m)).
Definition dy_coef (m : list (list R)) : list (list R) := map (@tl R) (removelast (map scale_row m)).
Record newton : Type := NT { n_x : R; n_y : R; n_dx : R; n_dy : R }.
(** fitswcs.py:1060-1080 *)
Definition newton_step (u v : R) (ab : dist) (s : newton) : newton :=
  let x := n_x s in
  let y := n_y s in
  let du := horner2d_at x y (fst ab) true - u in
  let dv := horner2d_at x y (snd ab) true - v in
  let dudx := horner2d_at x y (dx_coef (fst ab)) true in
  let dudy := horner2d_at x y (dy_coef (fst ab)) true in
  let dvdx := horner2d_at x y (dx_coef (snd ab)) true in
  let dvdy := horner2d_at x y (dy_coef (snd ab)) true in
  let det := dudx * dvdy - dudy * dvdx in
  let duu := - (du * dvdy - dv * dudy) / det in
  let dvv := - (- du * dvdx + dv * dudx) / det in
  NT (x + duu) (y + dvv) duu dvv.
Definition tolerance : R := 2 / 10 ^ 12.
Definition invert_ab (u v : R) (ab : dist) (abp : option dist) : res vec :=
  let '(x, y) := match abp with
                 | None => (u, v)
                 | Some abp => (horner2d_at u v (fst abp) false, horner2d_at u v (snd abp) false)
                 end in
  let s := fori 10 (newton_step u v ab) (NT x y 0 0) in
  if Rltb tolerance (Rmax (Rabs (n_dx s)) (Rabs (n_dy s))) then Err RuntimeError else Ok (n_x s, n_y s).
(** _xy, fitswcs.py:630-651; cdinv = inv(cd), fitswcs.py:113, 303 *)
Definition f_xy (w : fwcs) (ra dec : R) : res vec :=
  let '(u, v) := project_ (f_center w) (f_proj w) (cos ra) (sin ra) (cos dec) (sin dec) in
  let u := u * - (radians / degrees) in
  let v := v * (radians / degrees) in
  bind (match f_pv w with Some pv => invert_ab u v pv None | None => Ok (u, v) end) (fun p =>
  let p := mapp (minv (f_cd w)) p in
  bind (match f_ab w with Some ab => invert_ab (fst p) (snd p) ab (f_abp w) | None => Ok p end) (fun p =>
  Ok (vadd p (f_crpix w)))).

(** _local, fitswcs.py:653-746 *)
Definition powers (n : nat) (x : R) : list R := map (fun i => x ^ i) (seq 0 n).
(** dxpow[1:] = (arange(order) + 1) * xpow[:-1] *)
Definition dpowers (n : nat) (x : R) : list R := map (fun i => match i with O => 0 | S k => (INR k + 1) * x ^ k end) (seq 0 n).
Definition rdot (a b : list R) : R := fold_right Rplus 0 (map (fun p => fst p * snd p) (combine a b)).
(** jnp.dot(jnp.dot(m, ypow), xpow) for one matrix *)
Definition mdotv (m : list (list R)) (ypow xpow : list R) : R := rdot (map (fun r => rdot r ypow) m) xpow.
Definition dist_value (d : dist) (p : vec) : vec :=
  let n := List.length (fst d) in
  let xp := powers n (fst p) in
  let yp := powers n (snd p) in
  (mdotv (fst d) yp xp, mdotv (snd d) yp xp).
Definition dist_jac (d : dist) (p : vec) : mat :=
  let n := List.length (fst d) in
  let xp := powers n (fst p) in
  let yp := powers n (snd p) in
  let dx := dpowers n (fst p) in
  let dy := dpowers n (snd p) in
  Mat (mdotv (fst d) yp dx) (mdotv (fst d) dy xp) (mdotv (snd d) yp dx) (mdotv (snd d) dy xp).
(** fitswcs.py:654-746 *)
Definition f_local (w : fwcs) (p : vec) : mat :=
  let p1 := vsub p (f_crpix w) in
  let '(p1, jac) := match f_ab w with
                    | Some ab => (dist_value ab p1, mdot (dist_jac ab p1) mI)
                    | None => (p1, mI)
                    end in
  let p2 := mapp (f_cd w) p1 in
  let jac := mdot (f_cd w) jac in
  let '(p2, jac) := match f_pv w with
                    | Some pv => (dist_value pv p2, mdot (dist_jac pv p2) jac)
                    | None => (p2, jac)
                    end in
  let k := degrees / radians in
  let p2 := (fst p2 * - k, snd p2 * k) in
  let jac := Mat (m00 jac * - k) (m01 jac * - k) (m10 jac * k) (m11 jac * k) in
  let j2 := jac_deproject_ (f_center w) (f_proj w) (fst p2) (snd p2) in
  mscale (mdot j2 jac) (radians / arcsec).

(** _shiftOrigin, wcs.py:704-718 (world_origin None), self.origin being (0, 0), fitswcs.py:179-182; _newOrigin,
    fitswcs.py:748-751 *)
Definition f_shift (w : fwcs) (o : vec) : fwcs := new_origin w (vadd o (0, 0)).
(** tree_flatten, tree_unflatten, fitswcs.py:155-174: the constructor from _data refuses other types *)
Definition of_data (w : fwcs) : res fwcs := match type_proj (f_type w) with Some _ => Ok w | None => Err ValueError end.

(** * TanWCS, fitswcs.py:879-908: [m], [o], [wo] are the Jacobian, origin and world_origin of the affine transform *)
Definition tan_wcs (m : mat) (o wo : vec) (center : coord) (units : R) : fwcs :=
  let k := units / degrees in
  let dudx := m00 m * k in
  let dudy := m01 m * k in
  let dvdx := m10 m * k in
  let dvdy := m11 m * k in
  let cd := Mat (- dudx) (- dudy) dvdx dvdy in
  let uv := (fst wo * k, snd wo * k) in
  let crpix := vsub o (mapp (minv cd) uv) in
  FW "TAN"%string crpix cd center None None None.

(** * FitsWCS for linear headers, fitswcs.py:962-981, with the headers of WCS_Model *)
Section Linear.
  Definition simplify (w : wcs) : wcs :=
    match w with
    | WAff m o wo =>
        if Reqb (m00 m) (m11 m) && (Reqb (m01 m) (m10 m) && Reqb (m10 m) 0) then
          if Reqb (fst o) (snd o) && (Reqb (snd o) (fst wo) && (Reqb (fst wo) (snd wo) && Reqb (snd wo) 0)) then WLoc (LPix (m00 m))
          else WOff (m00 m) o wo
        else w
    | _ => w
    end.
  Definition fits_linear (h : WCS_Model.header) : option (res wcs) :=
    match h "CTYPE1"%string, h "CDELT1"%string with
    | None, None => Some (Ok (WLoc (LPix 1)))
    | None, Some _ | Some (HS "LINEAR"%string), _ => Some (bind (read_class "AffineTransform" h) (fun w => Ok (simplify w)))
    | _, _ => None
    end.
End Linear.
