(** What the FITS papers say a header means. *)
From Coq Require Import ZArith Reals Bool String List.
From Verif Require Import Base Bounds_Model Geo_Model Angle_Model Sky_Model Util_Spec FITS_Spec FITS_Model WCS_Model.
Import ListNotations.
Open Scope R_scope.

(** The number stored under a key, or a default *)
Definition number (h : FITS_Model.header) (k : key) (d : R) : R := match h k with Some (VR x) => x | Some (VZ n) => INR n | _ => d end.
Definition given (h : FITS_Model.header) (k : key) : Prop := match h k with Some (VR _) | Some (VZ _) => True | _ => False end.
Definition absent (h : FITS_Model.header) (k : key) : Prop := h k = None.
Definition four (k : axis -> axis -> key) (P : key -> Prop) : Prop := P (k X1 X1) /\ P (k X1 X2) /\ P (k X2 X1) /\ P (k X2 X2).
(** Pixels to intermediate world coordinates: the CD matrix, or CDELT_i PC_ij with PC the identity and CDELT 1 where not given *)
Definition std_pc (h : FITS_Model.header) : mat :=
  let s1 := number h (KCdelt X1) 1 in
  let s2 := number h (KCdelt X2) 1 in
  Mat (s1 * number h (KPc X1 X1) 1) (s1 * number h (KPc X1 X2) 0) (s2 * number h (KPc X2 X1) 0) (s2 * number h (KPc X2 X2) 1).
Definition std_cd (h : FITS_Model.header) : mat := Mat (number h (KCd X1 X1) 0) (number h (KCd X1 X2) 0) (number h (KCd X2 X1) 0) (number h (KCd X2 X2) 0).
Definition std_matrix (h : FITS_Model.header) (m : mat) : Prop :=
  (four KCd (absent h) -> m = std_pc h) /\ (~ four KCd (absent h) -> m = std_cd h).

(** The world axes in the other order *)
Definition other (i : axis) : axis := match i with X1 => X2 | X2 => X1 end.
Definition swap_key (k : key) : key :=
  match k with
  | KCtype i => KCtype (other i) | KCunit i => KCunit (other i) | KCrval i => KCrval (other i) | KCd i j => KCd (other i) j
  | KPc i j => KPc (other i) j | KCdelt i => KCdelt (other i) | KPv i k => KPv (other i) k | k => k
  end.
Definition exchanged (h : FITS_Model.header) : FITS_Model.header := fun k => h (swap_key k).

(** Angles written in any units: r1, r2 the angles of the reference point, m the matrix, in radians *)
Definition in_units (h : FITS_Model.header) (n1 n2 : string) (k1 k2 r1 r2 : R) (m : mat) : FITS_Model.header :=
  hsets h [(KCunit X1, VS n1); (KCunit X2, VS n2); (KCrval X1, VR (r1 / k1)); (KCrval X2, VR (r2 / k2));
           (KCd X1 X1, VR (m00 m / k1)); (KCd X1 X2, VR (m01 m / k1)); (KCd X2 X1, VR (m10 m / k2)); (KCd X2 X2, VR (m11 m / k2))].

(** Chebyshev and Legendre polynomials *)
Fixpoint cheb2 (n : nat) (x : R) : R * R := match n with O => (1, x) | S n => let '(a, b) := cheb2 n x in (b, 2 * x * b - a) end.
Definition cheb (n : nat) (x : R) : R := fst (cheb2 n x).
Fixpoint leg2 (n : nat) (x : R) : R * R :=
  match n with O => (1, x) | S n => let '(a, b) := leg2 n x in (b, ((2 * INR n + 3) * x * b - (INR n + 1) * a) / (INR n + 2)) end.
Definition leg (n : nat) (x : R) : R := fst (leg2 n x).
(** The range from lo to hi taken to -1 .. 1 *)
Definition normal (lo hi x : R) : R := (2 * x - (hi + lo)) / (hi - lo).
(** A TNX surface of third order with half cross terms: the coefficients by power of y, then of x *)
Definition tnx_surface (P : nat -> R -> R) (xmin xmax ymin ymax : R) (p : list R) (x y : R) : R :=
  let X := fun i => P i (normal xmin xmax x) in
  let Y := fun j => P j (normal ymin ymax y) in
  sumf 4 (fun i => nth i p 0 * X i * Y 0%nat) + sumf 3 (fun i => nth (4 + i) p 0 * X i * Y 1%nat)
  + sumf 2 (fun i => nth (7 + i) p 0 * X i * Y 2%nat) + sumf 1 (fun i => nth (9 + i) p 0 * X i * Y 3%nat).

(** Linear headers, with the keys of WCS_Model *)
Definition lnumber (h : WCS_Model.header) (k : string) (d : R) : R := match h k with Some (HR x) => x | Some (HZ n) => IZR n | _ => d end.
Definition numeric (h : WCS_Model.header) (k : string) : Prop := match h k with Some (HS _) => False | _ => True end.
Definition linear_keys : list string := ["CD1_1"; "CD1_2"; "CD2_1"; "CD2_2"; "CDELT1"; "CDELT2"; "CRPIX1"; "CRPIX2"; "CRVAL1"; "CRVAL2"]%string.
Definition std_linear (h : WCS_Model.header) : mat :=
  match h "CD1_1"%string with
  | Some _ => Mat (lnumber h "CD1_1" 0) (lnumber h "CD1_2" 0) (lnumber h "CD2_1" 0) (lnumber h "CD2_2" 0)
  | None => let s1 := lnumber h "CDELT1" 1 in
            let s2 := lnumber h "CDELT2" 1 in
            Mat (s1 * lnumber h "PC1_1" 1) (s1 * lnumber h "PC1_2" 0) (s2 * lnumber h "PC2_1" 0) (s2 * lnumber h "PC2_2" 1)
  end.
Definition std_point (h : WCS_Model.header) (p : vec) : vec :=
  vadd (mapp (std_linear h) (vsub p (lnumber h "CRPIX1" 0, lnumber h "CRPIX2" 0))) (lnumber h "CRVAL1" 0, lnumber h "CRVAL2" 0).
