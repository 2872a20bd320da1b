(** Model of interpolant.py: kernels, their transforms, ranges and constants. Floats are reals. The Bessel
    integral Si of GalSim and the tables of constants of Lanczos are parameters where they occur. *)
From Coq Require Import ZArith Reals Bool List String Ascii.
From Verif Require Import Base Bounds_Model FFT_Model Sky_Model.
Import ListNotations.
Open Scope R_scope.

(** Delta._xval, interpolant.py:285-291 *)
Definition delta_xval (kva x : R) : R := if Rltb (1 / 2 * kva) (Rabs x) then 0 else 1 / kva.
(** Nearest._xval, interpolant.py:337-339 *)
Definition nearest_xval (x : R) : R := if Rltb (1 / 2) (Rabs x) then 0 else 1.
(** Nearest._uval, interpolant.py:341-343; [sinc] is jnp.sinc *)
Definition nearest_uval (u : R) : R := sinc u.
(** SincInterpolant._xval, _uval, interpolant.py:406-417 *)
Definition sinc_xval (x : R) : R := sinc x.
(** interpolant.py:411-417 *)
Definition sinc_uval (u : R) : R :=
  let absu := Rabs u in if Rltb (1 / 2) absu then 0 else if Rltb absu (1 / 2) then 1 else 1 / 2.
(** Linear._xval, _uval, interpolant.py:462-474 *)
Definition linear_xval (x : R) : R := let absx := Rabs x in if Rltb 1 absx then 0 else 1 - absx.
(** interpolant.py:472-474 *)
Definition linear_uval (u : R) : R := let s := sinc u in s * s.
(** Cubic._xval, _uval, interpolant.py:515-539. The conditions of jnp.piecewise exclude one another. *)
Definition cubic_one (x : R) : R := 1 + x * x * (3 / 2 * x - 5 / 2).
(** interpolant.py:522-523 *)
Definition cubic_two (x : R) : R := - (1 / 2) * (x - 1) * (x - 2) * (x - 2).
(** interpolant.py:516-532 *)
Definition cubic_xval (x : R) : R :=
  let x := Rabs x in
  let msk1 := Rltb x 1 in
  let msk2 := Rltb x 2 in
  if msk1 then cubic_one x else if msk2 then cubic_two x else 0.
(** interpolant.py:535-539 *)
Definition cubic_uval (u : R) : R :=
  let u := Rabs u in
  let s := sinc u in
  let c := cos (PI * u) in
  s * s * s * (3 * s - 2 * c).
(** Quintic._xval, _uval, interpolant.py:588-633 *)
Definition quintic_one (x : R) : R := 1 + x * x * x * (- (95 / 12) + x * (23 / 2 + x * - (55 / 12))).
(** interpolant.py:597-605 *)
Definition quintic_two (x : R) : R :=
  (x - 1) * (x - 2) * (- (23 / 4) + x * (29 / 2 + x * (- (83 / 8) + x * (55 / 24)))).
(** interpolant.py:607-613 *)
Definition quintic_three (x : R) : R :=
  (x - 2) * (x - 3) * (x - 3) * (- (9 / 4) + x * (25 / 12 + x * - (11 / 24))).
(** interpolant.py:589-623 *)
Definition quintic_xval (x : R) : R :=
  let x := Rabs x in
  let msk1 := negb (Rltb 1 x) in
  let msk2 := negb (Rltb 2 x) in
  let msk3 := negb (Rltb 3 x) in
  if msk1 then quintic_one x else if msk2 then quintic_two x else if msk3 then quintic_three x else 0.
(** interpolant.py:626-633 *)
Definition quintic_uval (u : R) : R :=
  let u := Rabs u in
  let s := sinc u in
  let piu := PI * u in
  let c := cos piu in
  let ssq := s * s in
  let piusq := piu * piu in
  s * ssq * ssq * (s * (55 - 19 * piusq) + 2 * c * (piusq - 27)).
(** Lanczos._xval, interpolant.py:1434-1492: sinc(x) from sinc(x / n) by multiple-angle formulas *)
Definition lanczos_sincx (n : Z) (x : R) : R :=
  let pix := PI * x in
  let sincx_n := sinc (x / IZR n) in
  match n with
  | 1%Z => sincx_n
  | 2%Z => sincx_n * cos (pix / 2)
  | 3%Z => let sn := sincx_n * (pix / 3) in sincx_n * (1 - 4 / 3 * sn * sn)
  | 4%Z => let pix4 := pix / 4 in let sn := sincx_n * pix4 in sincx_n * cos pix4 * (1 - 2 * sn * sn)
  | 5%Z => let sn := sincx_n * (pix / 5) in let snsq := sn * sn in sincx_n * (1 - snsq * (4 - 16 / 5 * snsq))
  | 6%Z => let pix6 := pix / 6 in let sn := sincx_n * pix6 in let snsq := sn * sn in
           sincx_n * cos pix6 * (1 - 16 / 3 * snsq * (1 - snsq))
  | 7%Z => let sn := sincx_n * (pix / 7) in let snsq := sn * sn in
           sincx_n * (1 - snsq / 7 * (56 - snsq * (112 - 64 * snsq)))
  | _ => sinc x
  end.
(** The normalisation for conserve_dc, interpolant.py:1474-1490; [K] are the entries of _K *)
Definition lanczos_factor (K : nat -> R) (sincx x : R) : R :=
  let s := sincx * (PI * x) in
  let ssq := s * s in
  1 - 4 * K 1%nat * ssq
    - 16 * K 2%nat * ssq * (1 - ssq)
    - 4 * K 3%nat * ssq * (9 - ssq * (24 - 16 * ssq))
    - 64 * K 4%nat * ssq * (1 - ssq * (5 - ssq * (8 - 4 * ssq)))
    - 4 * K 5%nat * ssq * (25 - ssq * (200 - ssq * (560 - ssq * (640 - 256 * ssq)))).
(** interpolant.py:1437-1492 *)
Definition lanczos_xval (n : Z) (conserve_dc : bool) (K : nat -> R) (x : R) : R :=
  let x := Rabs x in
  let sincx_n := sinc (x / IZR n) in
  let sincx := lanczos_sincx n x in
  let val := sincx * sincx_n in
  let val := if conserve_dc then val / lanczos_factor K sincx x else val in
  if Rltb x (IZR n) then val else 0.
(** _gs_raw_uval, interpolant.py:1570-1588; [si] is galsim.bessel.si *)
Definition gs_raw_uval (si : R -> R) (n : Z) (u : R) : R :=
  let vp := IZR n * (2 * u + 1) in
  let vm := IZR n * (2 * u - 1) in
  let vpp1 := vp + 1 in
  let vpm1 := vp - 1 in
  let vmp1 := vm + 1 in
  let vmm1 := vm - 1 in
  (vmm1 * si (PI * vmm1) - vmp1 * si (PI * vmp1) - vpm1 * si (PI * vpm1) + vpp1 * si (PI * vpp1)) / (2 * PI).

(** An entry of _sinc_unit_integrals, interpolant.py:370-376 *)
Definition sinc_unit_integral (si : R -> R) (i : nat) : R :=
  (si (PI * (INR (S i) - 1 / 2)) - si (PI * (INR i - 1 / 2))) / PI.

(** Interpolants. Lanczos carries the entries of its table _K. *)
Inductive interpolant : Type := Delta | Nearest | SincInt | Linear | Cubic | Quintic | Lanczos (n : Z) (conserve_dc : bool).
Section Interpolants.
  (** gsparams.kvalue_accuracy, and _K by order *)
  Variable kva : R.
  Variable K : Z -> nat -> R.
  (** _xval_noraise, interpolant.py:147-148, 282-283, 1494-1495 *)
  Definition xval (i : interpolant) (x : R) : R :=
    match i with
    | Delta => delta_xval kva x
    | Nearest => nearest_xval x
    | SincInt => sinc_xval x
    | Linear => linear_xval x
    | Cubic => cubic_xval x
    | Quintic => quintic_xval x
    | Lanczos n dc => lanczos_xval n dc (K n) x
    end.
  (** _uval; the Lanczos one is interpolated from a table and not given here *)
  Definition uval (i : interpolant) (u : R) : option R :=
    match i with
    | Delta => Some 1
    | Nearest => Some (nearest_uval u)
    | SincInt => Some (sinc_uval u)
    | Linear => Some (linear_uval u)
    | Cubic => Some (cubic_uval u)
    | Quintic => Some (quintic_uval u)
    | Lanczos _ _ => None
    end.
  (** _kval_noraise, interpolant.py:157-158 *)
  Definition kval (i : interpolant) (k : R) : option R := uval i (k / 2 / PI).
  (** urange, interpolant.py:297, 345, 419, 476, 541, 635 *)
  Definition urange (i : interpolant) : option R :=
    match i with
    | Delta => Some (1 / kva)
    | Nearest => Some (1 / (PI * kva))
    | SincInt => Some (1 / 2)
    | Linear => Some (1 / sqrt kva / PI)
    | Cubic => Some (Rpower (3 * sqrt 3 / 8 / kva) (1 / 3) / PI)
    | Quintic => Some (Rpower (25 * sqrt 5 / 108 / kva) (1 / 3) / PI)
    | Lanczos _ _ => None
    end.
  (** krange, interpolant.py:213-216 *)
  Definition krange (i : interpolant) : option R := option_map (fun u => 2 * PI * u) (urange i).
  (** xrange, ixrange, interpolant.py:303-311, 349-357, 423-427, 480-488, 551-559, 646-654, 1532-1540, 208-211 *)
  Definition xrange (i : interpolant) : R :=
    match i with
    | Delta => 0
    | Nearest => 1 / 2
    | SincInt => 1 / (PI * kva)
    | Linear => 1
    | Cubic => 2
    | Quintic => 3
    | Lanczos n _ => IZR n
    end.
  Definition ixrange (i : interpolant) : Z :=
    match i with
    | Delta => 0
    | Nearest => 1
    | SincInt => 2 * ceilR (xrange i)
    | Linear => 2
    | Cubic => 4
    | Quintic => 6
    | Lanczos n _ => 2 * n
    end.
  (** _positive_flux, _negative_flux, _unit_integrals where they are constants,
      interpolant.py:265-267, 326-328, 448-452, 500-505, 565-578 *)
  Definition positive_flux (i : interpolant) : option R :=
    match i with
    | Delta | Nearest | Linear => Some 1
    | Cubic => Some (13 / 12)
    | Quintic => Some (11293413499280066555 / 10000000000000000000)
    | _ => None
    end.
  (** interpolant.py:195-200, 391, 1552-1556 *)
  Definition negative_flux (i : interpolant) : option R :=
    match i with
    | Delta | Nearest | Linear => Some 0
    | Cubic => Some (1 / 12)
    | Quintic => Some (1293413499280066555 / 10000000000000000000)
    | _ => None
    end.
  Definition unit_integrals (i : interpolant) : option (list R) :=
    match i with
    | Delta | Nearest => Some [1]
    | Linear => Some [3 / 4; 1 / 8]
    | Cubic => Some [161 / 192; 3 / 32; - (5 / 384)]
    | Quintic => Some [8724826228119177 / 10000000000000000; 7332899380883082 / 100000000000000000;
                       - (10894097523532266 / 1000000000000000000); 13237847222222375 / 10000000000000000000]
    | _ => None
    end.
End Interpolants.

(** * Interpolant.from_name, interpolant.py:46-95 *)
(** str.lower on ASCII letters *)
Definition lower_ascii (a : ascii) : ascii :=
  let n := nat_of_ascii a in if Nat.leb 65 n && Nat.leb n 90 then ascii_of_nat (n + 32) else a.
Fixpoint lower (s : string) : string :=
  match s with EmptyString => EmptyString | String a s => String (lower_ascii a) (lower s) end.
(** int() of a string of decimal digits; signs, blanks and underscores, which int() also accepts, are not
    represented: such names are refused here *)
Fixpoint digits (acc : Z) (s : string) : option Z :=
  match s with
  | EmptyString => Some acc
  | String a s =>
      let n := nat_of_ascii a in
      if Nat.leb 48 n && Nat.leb n 57 then digits (acc * 10 + Z.of_nat (n - 48)) s else None
  end.
Definition int_of (s : string) : option Z := match s with EmptyString => None | _ => digits 0 s end.
Fixpoint last_char (s : string) : option ascii :=
  match s with EmptyString => None | String a EmptyString => Some a | String _ s => last_char s end.
Fixpoint drop_last (s : string) : string :=
  match s with EmptyString => EmptyString | String a EmptyString => EmptyString | String a s => String a (drop_last s) end.
Fixpoint drop (n : nat) (s : string) : string :=
  match n, s with O, _ => s | S n, String _ s => drop n s | S _, EmptyString => EmptyString end.
(** Lanczos.__init__, interpolant.py:1366-1382: the tables have orders 1 to 30 *)
Definition mkLanczos (n : Z) (conserve_dc : bool) : res interpolant :=
  if ((1 <=? n) && (n <=? 30))%Z then Ok (Lanczos n conserve_dc) else Err KeyError.
(** interpolant.py:47-95 *)
Definition from_name (name : string) : res interpolant :=
  let l := lower name in
  if String.eqb l "quintic" then Ok Quintic
  else if String.prefix "lanczos" l then
    let '(conserve_dc, name) :=
      match last_char name with
      | Some c => if Ascii.eqb (lower_ascii c) "t" then (true, drop_last name)
                  else if Ascii.eqb (lower_ascii c) "f" then (false, drop_last name)
                  else (true, name)
      | None => (true, name)
      end in
    match int_of (drop 7 name) with
    | None => Err GalSimValueError
    | Some n => mkLanczos n conserve_dc
    end
  else if String.eqb l "linear" then Ok Linear
  else if String.eqb l "cubic" then Ok Cubic
  else if String.eqb l "nearest" then Ok Nearest
  else if String.eqb l "delta" then Ok Delta
  else if String.eqb l "sinc" then Ok SincInt
  else Err GalSimValueError.
