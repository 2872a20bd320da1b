(** Profile trees: GSObject, Transformation, Sum, Convolution and Deconvolution
    (gsobject.py, transform.py, sum.py, convolve.py, core/draw.py).
    Floats are reals. Positions are single points, not arrays of points. *)
From Coq Require Import Reals Bool String List.
From Coquelicot Require Import Complex.
From Verif Require Import Base Bounds_Model Geo_Model GSP_Model Shear_Model.
Import ListNotations.
Open Scope R_scope.

Definition gspR : Type := gsp R.
Definition gspR_eqb : gspR -> gspR -> bool := gsp_eqb Reqb.
Definition gspR_combine : list gspR -> res gspR := combine Rltb Reqb.

(** What a profile class without components provides (for example gaussian.py, exponential.py,
    box.py, deltafunction.py, interpolatedimage.py). [lf_neg] is _negative_flux; _positive_flux is
    flux + _negative_flux (gsobject.py:121-127). *)
Record leafdata : Type := LeafData {
  lf_x : vec -> res R; lf_k : vec -> C; lf_flux : R; lf_cen : vec; lf_neg : R;
  lf_maxk : R; lf_stepk : R; lf_maxsb : R;
  lf_hard : bool; lf_axi : bool; lf_anx : bool; lf_ank : bool }.

(** Objects. A leaf is its class and other parameters [fam] with the flux and the gsparams; [own]
    says whether the class overrides withFlux (gaussian.py:147-148). *)
Inductive prof : Type :=
  | PLeaf (own : bool) (fam : R -> gspR -> leafdata) (fl : R) (g : gspR)
  | PTr (orig : prof) (J : mat) (off : vec) (fr : R) (g : gspR) (pg : bool)
  | PSum (l : list prof) (g : gspR) (pg : bool)
  | PConv (l : list prof) (g : gspR) (pg : bool)
  | PDec (orig : prof) (g : gspR) (pg : bool).

Definition gsparams (p : prof) : gspR :=
  match p with PLeaf _ _ _ g | PTr _ _ _ _ g _ | PSum _ g _ | PConv _ g _ | PDec _ g _ => g end.

Definition sumR (l : list R) : R := fold_right Rplus 0 l.
Definition prodR (l : list R) : R := fold_right Rmult 1 l.
Definition sumC (l : list C) : C := fold_right Cplus (RtoC 0) l.
Definition prodC (l : list C) : C := fold_right Cmult (RtoC 1) l.
Fixpoint sumres (l : list (res R)) : res R :=
  match l with
  | [] => Ok 0
  | a :: t => bind a (fun x => bind (sumres t) (fun y => Ok (x + y)))
  end.
Definition maxR (l : list R) : R := match l with [] => 0 | a :: t => fold_left Rmax t a end.
Definition minR (l : list R) : R := match l with [] => 0 | a :: t => fold_left Rmin t a end.

(** e^(i t) *)
Definition expi (t : R) : C := (cos t, sin t).

(** * Point evaluation *)

(** transform.py:147 (_flux), sum.py:76, convolve.py:247 and 456 *)
Fixpoint flux (p : prof) : R :=
  match p with
  | PLeaf _ fam fl g => lf_flux (fam fl g)
  | PTr o J _ fr _ _ => Rabs (mdet J) * fr * flux o
  | PSum l _ _ => sumR (map flux l)
  | PConv l _ _ => prodR (map flux l)
  | PDec o _ _ => 1 / flux o
  end.

(** transform.py:359 (_xValue), sum.py:155, convolve.py:291, gsobject.py:205 *)
Fixpoint xValue (p : prof) (x : vec) : res R :=
  match p with
  | PLeaf _ fam fl g => lf_x (fam fl g) x
  | PTr o J off fr _ _ => bind (xValue o (mapp (minv J) (vsub x off))) (fun v => Ok (v * fr))
  | PSum l _ _ => sumres (map (fun o => xValue o x) l)
  | PConv _ _ _ | PDec _ _ _ => Err NotImplementedErr
  end.

(** _kfactor, transform.py:281-285: flux_scaling exp(-i kx ox - i ky oy) *)
Definition kfactor (J : mat) (off : vec) (fr : R) (k : vec) : C :=
  Cmult (RtoC (Rabs (mdet J) * fr)) (expi (- (fst k * fst off) + - (snd k * snd off))).

(** transform.py:364 (_kValue), sum.py:159, convolve.py:294 and 476 *)
Fixpoint kValue (p : prof) (k : vec) : C :=
  match p with
  | PLeaf _ fam fl g => lf_k (fam fl g) k
  | PTr o J off fr _ _ => Cmult (kValue o (mapp (mT J) k)) (kfactor J off fr k)
  | PSum l _ _ => sumC (map (fun o => kValue o k) l)
  | PConv l _ _ => prodC (map (fun o => kValue o k) l)
  | PDec o g _ =>
      let min_acc := flux o * g_kacc g in
      let kval := kValue o k in
      if Rltb (Cmod kval) min_acc then RtoC (1 / min_acc) else Cdiv (RtoC 1) kval
  end.

(** * Scalars of the tree *)

(** transform.py:333, sum.py:145, convolve.py:241 (Python's sum of Positions) and 453 *)
Fixpoint centroid (p : prof) : vec :=
  match p with
  | PLeaf _ fam fl g => lf_cen (fam fl g)
  | PTr o J off _ _ _ => vadd (mapp J (centroid o)) off
  | PSum l _ _ => (sumR (map (fun o => fst (centroid o) * flux o) l) / sumR (map flux l),
                   sumR (map (fun o => snd (centroid o) * flux o) l) / sumR (map flux l))
  | PConv l _ _ => match map centroid l with [] => (0, 0) | c :: t => fold_left vadd t c end
  | PDec o _ _ => vneg (centroid o)
  end.

(** _calc_pn, convolve.py:252-259 *)
Definition calc_pn (l : list (R * R)) : R * R :=
  match l with
  | [] => (0, 0)
  | a :: t => fold_left (fun s b => (fst s * fst b + snd s * snd b, fst s * snd b + snd s * fst b)) t a
  end.
(** (positive_flux, negative_flux): transform.py:341-347, sum.py:178-185, convolve.py:261-267,
    gsobject.py:121-127 *)
Fixpoint pnflux (p : prof) : R * R :=
  match p with
  | PLeaf _ fam fl g => let d := fam fl g in (lf_flux d + lf_neg d, lf_neg d)
  | PTr o J _ fr _ _ => (Rabs (mdet J) * fr * fst (pnflux o), Rabs (mdet J) * fr * snd (pnflux o))
  | PSum l _ _ => (sumR (map (fun o => fst (pnflux o)) l), sumR (map (fun o => snd (pnflux o)) l))
  | PConv l _ _ => calc_pn (map pnflux l)
  | PDec o _ _ => (1 / flux o + 0, 0)
  end.
(** gsobject.py:112-113, 121-122 *)
Definition positive_flux (p : prof) : R := fst (pnflux p).
(** gsobject.py:117-118, 125-126 *)
Definition negative_flux (p : prof) : R := snd (pnflux p).

(** transform.py:287-289, sum.py:115, convolve.py:204 and 437 *)
Fixpoint maxk (p : prof) : R :=
  match p with
  | PLeaf _ fam fl g => lf_maxk (fam fl g)
  | PTr o J _ _ _ _ => maxk o / snd (major_minor J)
  | PSum l _ _ => maxR (map maxk l)
  | PConv l _ _ => minR (map maxk l)
  | PDec o _ _ => maxk o
  end.
(** transform.py:292-302, sum.py:120, convolve.py:209-214 and 441 *)
Fixpoint stepk (p : prof) : R :=
  match p with
  | PLeaf _ fam fl g => lf_stepk (fam fl g)
  | PTr o J off _ _ _ => PI / (PI / (stepk o / fst (major_minor J)) + hypot (fst off) (snd off))
  | PSum l _ _ => minR (map stepk l)
  | PConv l _ _ => 1 / sqrt (sumR (map (fun o => / (stepk o ^ 2)) l))
  | PDec o _ _ => stepk o
  end.
(** transform.py:355, sum.py:151, convolve.py:274-289 and 461-474 *)
Fixpoint max_sb (p : prof) : R :=
  match p with
  | PLeaf _ fam fl g => lf_maxsb (fam fl g)
  | PTr o _ _ fr _ _ => fr * max_sb o
  | PSum l _ _ => sumR (map max_sb l)
  | PConv l _ _ => prodR (map flux l) / sumR (map (fun o => flux o / max_sb o) l)
  | PDec o _ _ => - max_sb o / flux o ^ 2
  end.

(** transform.py:305, sum.py:125, convolve.py:217 and 359 *)
Fixpoint has_hard_edges (p : prof) : bool :=
  match p with
  | PLeaf _ fam fl g => lf_hard (fam fl g)
  | PTr o _ _ _ _ _ => has_hard_edges o
  | PSum l _ _ => existsb has_hard_edges l
  | PConv l _ _ => match l with [o] => has_hard_edges o | _ => false end
  | PDec _ _ _ => false
  end.
(** transform.py:309-316, sum.py:130, convolve.py:221 and 445 *)
Fixpoint is_axisymmetric (p : prof) : bool :=
  match p with
  | PLeaf _ fam fl g => lf_axi (fam fl g)
  | PTr o J off _ _ _ =>
      is_axisymmetric o && Reqb (m00 J) (m11 J) && Reqb (m01 J) (- m10 J) && Reqb (fst off) 0 && Reqb (snd off) 0
  | PSum l _ _ | PConv l _ _ => forallb is_axisymmetric l
  | PDec o _ _ => is_axisymmetric o
  end.
(** transform.py:319, sum.py:135, convolve.py:226-233 (real_space is always False) and 360 *)
Fixpoint is_analytic_x (p : prof) : bool :=
  match p with
  | PLeaf _ fam fl g => lf_anx (fam fl g)
  | PTr o _ _ _ _ _ => is_analytic_x o
  | PSum l _ _ => forallb is_analytic_x l
  | PConv l _ _ => match l with [o] => is_analytic_x o | _ => false end
  | PDec _ _ _ => false
  end.
(** transform.py:323, sum.py:140, convolve.py:236 and 449 *)
Fixpoint is_analytic_k (p : prof) : bool :=
  match p with
  | PLeaf _ fam fl g => lf_ank (fam fl g)
  | PTr o _ _ _ _ _ => is_analytic_k o
  | PSum l _ _ | PConv l _ _ => forallb is_analytic_k l
  | PDec o _ _ => is_analytic_k o
  end.

(** * gsparams *)

(** withGSParams with a GSParams object and no keywords, after the comparison with self.gsparams:
    gsobject.py:223-232, transform.py:151-170, sum.py:83-91, convolve.py:153-162 and 394-403.
    Sum goes through its constructor, which takes nested Sums apart. *)
Fixpoint withGSP (g : gspR) (p : prof) : prof :=
  if gspR_eqb g (gsparams p) then p else
  match p with
  | PLeaf own fam fl _ => PLeaf own fam fl g
  | PTr o J off fr _ pg => PTr (if pg then withGSP g o else o) J off fr g pg
  | PSum l _ pg =>
      PSum (flat_map (fun o => match o with
                               | PSum l' _ _ => map (fun o' => if pg then withGSP g o' else o') l'
                               | _ => [if pg then withGSP g o else o]
                               end) l) g pg
  | PConv l _ pg => PConv (map (fun o => if pg then withGSP g o else o) l) g pg
  | PDec o _ pg => PDec (if pg then withGSP g o else o) g pg
  end.
(** withGSParams(gsparams=None, **kwargs) *)
Definition withGSParams (dflt : gspR) (g : option gspR) (kw : list (string * R)) (p : prof) : res prof :=
  match g with
  | Some g' => if gspR_eqb g' (gsparams p) then Ok p
               else bind (check dflt g (Some (gsparams p)) kw) (fun h => Ok (withGSP h p))
  | None => bind (check dflt None (Some (gsparams p)) kw) (fun h => Ok (withGSP h p))
  end.

(** * Constructors *)

(** Transformation.__init__, transform.py:53-88. [None] gsparams; the combination uses the
    transformation parameters of a nested Transformation. An InterpolatedImage is a leaf here. *)
Definition mkTransform (o : prof) (J : mat) (off : vec) (fr : R) (gs : option gspR) (pg : bool) : prof :=
  let g := match gs with Some g => g | None => gsparams o end in
  let o := if pg then withGSP g o else o in
  match o with
  | PTr o' J' off' fr' _ _ => PTr o' (mdot J J') (vadd off (mapp J off')) (fr * fr') g pg
  | _ => PTr o J off fr g pg
  end.

(** Sum.__init__, sum.py:26-69 *)
Definition mkSum (l : list prof) (gs : option gspR) (pg : bool) : res prof :=
  match l with
  | [] => Err TypeError
  | _ =>
    let l := flat_map (fun o => match o with PSum l' _ _ => l' | _ => [o] end) l in
    bind (match gs with Some g => Ok g | None => gspR_combine (map gsparams l) end) (fun g =>
      Ok (PSum (if pg then map (withGSP g) l else l) g pg))
  end.

(** The argument real_space: None, a value equal to a boolean, or anything else. *)
Inductive rsarg : Type := RSNone | RSBool (b : bool) | RSOther.
(** The value of real_space just before it is saved, convolve.py:66-117; warnings are not modelled *)
Definition decide_real_space (rs : rsarg) (l : list prof) : res bool :=
  let hard_edge := forallb has_hard_edges l in
  bind (match rs with
        | RSNone => Ok (if Nat.leb (List.length l) 2 then hard_edge else false)
        | RSBool b => Ok b
        | RSOther => Err TypeError
        end) (fun real_space =>
  Ok (if real_space then
        if Nat.ltb 2 (List.length l) then false else forallb is_analytic_x l
      else false)).
(** Convolution.__init__, convolve.py:40-140 *)
Definition mkConv (rs : rsarg) (l : list prof) (gs : option gspR) (pg : bool) : res prof :=
  match l with
  | [] => Err TypeError
  | _ =>
    bind (decide_real_space rs l) (fun real_space =>
    if real_space then Err NotImplementedErr else
    bind (match gs with Some g => Ok g | None => gspR_combine (map gsparams l) end) (fun g =>
      Ok (PConv (if pg then map (withGSP g) l else l) g pg)))
  end.

(** Deconvolution.__init__, convolve.py:362-372 *)
Definition mkDec (o : prof) (gs : option gspR) (pg : bool) : prof :=
  let g := match gs with Some g => g | None => gsparams o end in
  PDec (if pg then withGSP g o else o) g pg.

(** * The methods that make new profiles, gsobject.py:234-332 *)
Inductive op : Type :=
  | Expand (s : R) | Dilate (s : R) | Magnify (mu : R) | ShearBy (g : C) | LensBy (g : C) (mu : R)
  | Rotate (theta : R) | TransformBy (dudx dudy dvdx dvdy : R) | Shift (dx dy : R)
  | ScaleFlux (f : R) | WithFlux (f : R).
Definition apply (p : prof) (o : op) : prof :=
  let tr J off fr := mkTransform p J off fr None true in
  match o with
  | Expand s => tr (Mat s 0 0 s) (0, 0) 1
  | Dilate s => tr (Mat s 0 0 s) (0, 0) (/ (s ^ 2))
  | Magnify mu => tr (Mat (sqrt mu) 0 0 (sqrt mu)) (0, 0) 1
  | ShearBy g => tr (getMatrix g) (0, 0) 1
  | LensBy g mu => tr (mscale (getMatrix g) (sqrt mu)) (0, 0) 1
  | Rotate theta => let s := sin theta in let c := cos theta in tr (Mat c (- s) s c) (0, 0) 1
  | TransformBy dudx dudy dvdx dvdy => tr (Mat dudx dudy dvdx dvdy) (0, 0) 1
  | Shift dx dy => tr mI (dx, dy) 1
  | ScaleFlux f => tr mI (0, 0) f
  | WithFlux f =>
      match p with
      | PLeaf true fam _ g => PLeaf true fam f g
      | _ => tr mI (0, 0) (f / flux p)
      end
  end.

(** * Drawing *)

(** draw_by_xValue, core/draw.py:9-47, the value of one pixel with world coordinates [x] (pixel
    centre times scale) for float images; exp of logdet of the inverse. *)
Definition draw_by_x (xv : vec -> res R) (scale : R) (J : mat) (off : vec) (fs : R) (x : vec) : res R :=
  let fs := fs * scale ^ 2 in
  let coords := vsub x off in
  let inv := minv J in
  let fs := fs * exp (ln (Rabs (mdet inv))) in
  bind (xv (mapp inv coords)) (fun v => Ok (v * fs)).
Definition jac_or_eye (jac : option mat) : mat := match jac with None => mI | Some J => J end.
(** _drawReal: gaussian.py:156, transform.py:368-386, sum.py:163-168, convolve.py:300, gsobject.py:846 *)
Fixpoint drawReal (p : prof) (scale : R) (jac : option mat) (off : vec) (fs : R) (x : vec) : res R :=
  match p with
  | PLeaf _ fam fl g => draw_by_x (lf_x (fam fl g)) scale (jac_or_eye jac) off fs x
  | PTr o J toff fr _ _ =>
      let d := match jac with
               | Some j => vadd off (mapp j toff)
               | None => vadd off toff
               end in
      let jac := match jac with None => J | Some j => mdot j J end in
      drawReal o scale (Some jac) d (fs * (Rabs (mdet J) * fr)) x
  | PSum l _ _ => sumres (map (fun o => drawReal o scale jac off fs x) l)
  | PConv _ _ _ | PDec _ _ _ => Err NotImplementedErr
  end.

(** jnp.dot(coords, jacobian) for a row of coordinates: the transpose acts *)
Definition rowdot (k : vec) (J : mat) : vec := (fst k * m00 J + snd k * m10 J, fst k * m01 J + snd k * m11 J).
(** _drawKImage, the value at the pixel with k-coordinates [k] (pixel centre times scale):
    gaussian.py:142-144, draw_by_kValue core/draw.py:50, transform.py:388-408 with apply_kImage_phases
    core/draw.py:69-93, sum.py:170, convolve.py:315 and 487-512 *)
Fixpoint drawK (p : prof) (jac : option mat) (k : vec) : C :=
  match p with
  | PLeaf _ fam fl g => lf_k (fam fl g) (rowdot k (jac_or_eye jac))
  | PTr o J off fr _ _ =>
      let jac1 := match jac with None => J | Some j => mdot j J end in
      let im := drawK o (Some jac1) k in
      let kk := rowdot k (jac_or_eye jac) in
      let arg := - (fst kk * fst off + snd kk * snd off) in
      Cmult (Cmult im (expi arg)) (RtoC (Rabs (mdet J) * fr))
  | PSum l _ _ => sumC (map (fun o => drawK o jac k) l)
  | PConv l _ _ => prodC (map (fun o => drawK o jac k) l)
  | PDec o g _ =>
      let min_acc := flux o * g_kacc g in
      let im := drawK o jac k in
      let v := if Rltb min_acc (Cmod im) then Cdiv (RtoC 1) im else RtoC (1 / min_acc) in
      let kk := rowdot k (jac_or_eye jac) in
      if Rltb (maxk o ^ 2) (fst kk ^ 2 + snd kk ^ 2) then RtoC 0 else v
  end.

(** drawImage's choice of the drawing routine for the methods other than 'phot',
    gsobject.py:740-756 and 799-802: [img] is the profile in image coordinates, [pixel] the Pixel. *)
Inductive method : Type := MAuto | MFFT | MRealSpace | MNoPixel.
Inductive route : Type := RtReal (p : prof) | RtFFT (p : prof).
Definition choose_route (m : method) (img pixel : prof) (g : gspR) : res route :=
  bind (match m with
        | MAuto => mkConv RSNone [img; pixel] (Some g) true
        | MFFT => mkConv (RSBool false) [img; pixel] (Some g) true
        | MRealSpace => mkConv (RSBool true) [img; pixel] (Some g) true
        | MNoPixel => Ok img
        end) (fun p => Ok (if is_analytic_x p then RtReal p else RtFFT p)).
