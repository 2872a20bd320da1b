(** Angles and angle units, angle.py. Floats are reals; text is a list of characters (8-bit, so that
    only 0-9 match \d). *)
From Coq Require Import ZArith Reals Bool Ascii String List.
From Verif Require Import Base Bounds_Model FFT_Model.
Import ListNotations.
Open Scope R_scope.

(** * Angle and AngleUnit *)

(** The objects operators can meet: a number, an AngleUnit (its value), an Angle (its radians),
    anything else. *)
Inductive aval : Type := VNum (x : R) | VUnit (u : R) | VAng (rad : R) | VOther.
(** radians, hours, degrees, arcmin, arcsec, angle.py:141-145 *)
Definition radians : R := 1.
(** angle.py:142 *)
Definition hours : R := PI / 12.
(** angle.py:143 *)
Definition degrees : R := PI / 180.
(** angle.py:144 *)
Definition arcmin : R := PI / 10800.
(** angle.py:145 *)
Definition arcsec : R := PI / 648000.

(** Angle(theta, unit), angle.py:151-165; theta is a number or an Angle *)
Definition mkAngle (theta : aval) (unit : option aval) : res aval :=
  match theta with
  | VAng r => match unit with Some _ => Err TypeError | None => Ok (VAng r) end
  | _ => match unit with
         | None => Err TypeError
         | Some (VUnit u) => match theta with VNum x => Ok (VAng (x * u)) | _ => Err TypeError end
         | Some _ => Err TypeError
         end
  end.
(** a + b, a - b, angle.py:186-198 (the left operand has the method; nothing else defines one) *)
Definition a_add (a b : aval) : res aval :=
  match a, b with VAng r, VAng r' => Ok (VAng (r + r')) | VNum x, VNum y => Ok (VNum (x + y)) | _, _ => Err TypeError end.
Definition a_sub (a b : aval) : res aval :=
  match a, b with VAng r, VAng r' => Ok (VAng (r - r')) | VNum x, VNum y => Ok (VNum (x - y)) | _, _ => Err TypeError end.
(** a * b, angle.py:64-66 (AngleUnit.__rmul__) and 200-207 (Angle.__mul__, __rmul__) *)
Definition a_mul (a b : aval) : res aval :=
  match a, b with
  | VAng r, VNum x => Ok (VAng (r * x))
  | VNum x, VAng r => Ok (VAng (r * x))
  | VNum x, VUnit u => mkAngle (VNum x) (Some (VUnit u))
  | VNum x, VNum y => Ok (VNum (x * y))
  | _, _ => Err TypeError
  end.
(** a / b, angle.py:68-78 and 209-219 *)
Definition a_div (a b : aval) : res aval :=
  match a, b with
  | VAng r, VUnit u => Ok (VNum (r / u))
  | VAng r, VNum x => Ok (VAng (r / x))
  | VUnit u, VUnit u' => Ok (VNum (u / u'))
  | VNum x, VNum y => Ok (VNum (x / y))
  | _, _ => Err TypeError
  end.
(** -a, abs(a), angle.py:177-184 *)
Definition a_neg (r : R) : R := - r.
Definition a_abs (r : R) : R := Rabs r.
(** a < b, angle.py:268-273; a <= b, 261-266 *)
Definition a_lt (a b : aval) : res bool :=
  match a, b with VAng r, VAng r' => Ok (Rltb r r') | VNum x, VNum y => Ok (Rltb x y) | _, _ => Err TypeError end.
Definition a_le (a b : aval) : res bool :=
  match a, b with VAng r, VAng r' => Ok (negb (Rltb r' r)) | VNum x, VNum y => Ok (negb (Rltb y x)) | _, _ => Err TypeError end.
(** a == b for angles and units, angle.py:114, 255 *)
Definition a_eq (a b : aval) : bool :=
  match a, b with VAng r, VAng r' => Reqb r r' | VUnit r, VUnit r' => Reqb r r' | _, _ => false end.

(** wrap, angle.py:222-229 *)
Definition wrap (rad : R) (center : option R) : R :=
  let center := match center with None => 0 | Some c => c end in
  let start := center - PI in
  let offset := IZR (floorR ((rad - start) / (2 * PI))) in
  rad - offset * 2 * PI.

(** * Text *)
Definition text : Type := list ascii.
Definition txt (s : string) : text := list_ascii_of_string s.

(** Conversion of a non-negative integer by %d: decimal digits, most significant first. *)
Definition dig (n : Z) : ascii := ascii_of_nat (48 + Z.to_nat n).
Fixpoint dec_f (fuel : nat) (n : Z) : text :=
  match fuel with
  | O => []
  | S f => if Z.ltb n 10 then [dig n] else dec_f f (n / 10) ++ [dig (n mod 10)]
  end.
Definition dec (n : Z) : text := dec_f (S (Z.to_nat (Z.log2 n))) n.
(** %0wd *)
Definition decw (w : nat) (n : Z) : text := let d := dec n in repeat "0"%char (w - length d) ++ d.

(** str.rstrip(c), str.strip() *)
Fixpoint drop_while (f : ascii -> bool) (l : text) : text :=
  match l with [] => [] | c :: t => if f c then drop_while f t else l end.
Definition rstrip (c : ascii) (l : text) : text := rev (drop_while (Ascii.eqb c) (rev l)).
Definition is_space (c : ascii) : bool :=
  let n := nat_of_ascii c in
  (Nat.leb 9 n && Nat.leb n 13) || (Nat.leb 28 n && Nat.leb n 32) || Nat.eqb n 133 || Nat.eqb n 160.
Definition strip (l : text) : text := rev (drop_while is_space (rev (drop_while is_space l))).

(** * Formatting, angle.py:293-366 *)
(** [sep] is the sequence of separators: the characters of a string, or the strings of a tuple. A
    one-element tuple is not covered (the code formats the tuple itself). *)
Definition separators (sep : list text) : res (text * text * option text) :=
  match sep with
  | [] => Ok ([], [], None)
  | [a] => Ok (a, a, None)
  | [a; b] => Ok (a, b, None)
  | [a; b; c] => Ok (a, b, Some c)
  | _ => Err ValueError
  end.
(** [trunc] is int() of a non-negative float *)
Definition make_dms (decimal : R) (sep : text * text * option text) (prec : option nat) (pad plus_sign : bool) : text :=
  let '(sign, decimal) :=
    if Rltb decimal 0 then (txt "-", - decimal) else if plus_sign then (txt "+", decimal) else ([], decimal) in
  let '(sep1, sep2, sep3) := sep in
  let round_prec := match prec with None => 8%nat | Some p => p end in
  let digits := (10 ^ Z.of_nat round_prec)%Z in
  let decimal := floorR (3600 * IZR digits * decimal + / 2) in
  let d := (decimal / (3600 * digits))%Z in
  let decimal := (decimal - d * (3600 * digits))%Z in
  let m := (decimal / (60 * digits))%Z in
  let decimal := (decimal - m * (60 * digits))%Z in
  let s := (decimal / digits)%Z in
  let decimal := (decimal - s * digits)%Z in
  let f := if pad then decw 2 else dec in
  let string := sign ++ f d ++ sep1 ++ f m ++ sep2 ++ f s ++ ["."%char] ++ decw round_prec decimal in
  let string := match prec with
                | None | Some O => rstrip "."%char (rstrip "0"%char string)
                | Some _ => string
                end in
  match sep3 with None => string | Some t => string ++ t end.
(** hms, dms: [prec] is an integer or None *)
Definition format_with (unit : R) (rad : R) (sep : list text) (prec : option Z) (pad plus_sign : bool) : res text :=
  bind (separators sep) (fun sp =>
  match prec with
  | Some p => if negb (Z.leb 0 p) then Err ValueError
              else Ok (make_dms (rad / unit) sp (Some (Z.to_nat p)) pad plus_sign)
  | None => Ok (make_dms (rad / unit) sp None pad plus_sign)
  end).
(** angle.py:353-358 *)
Definition hms := format_with hours.
(** angle.py:361-366 *)
Definition dms := format_with degrees.

(** * Parsing, angle.py:379-404 *)
Definition is_digit (c : ascii) : bool := let n := nat_of_ascii c in Nat.leb 48 n && Nat.leb n 57.
Definition is_num (c : ascii) : bool := Ascii.eqb c "."%char || is_digit c.
(** tuple(filter(None, re.split("([\.\d]+)", s))): the maximal runs of characters in and out of the class *)
Fixpoint runs (l : text) : list text :=
  match l with
  | [] => []
  | c :: t =>
      match runs t with
      | (c' :: w) :: ws => if Bool.eqb (is_num c) (is_num c') then (c :: c' :: w) :: ws else [c] :: (c' :: w) :: ws
      | ws => [c] :: ws
      end
  end.
(** float() of a run: digits with at most one point; any run of other characters is taken as not a
    number (the words inf and nan are not treated) *)
Definition dval (l : text) : Z := fold_left (fun a c => (10 * a + (Z.of_nat (nat_of_ascii c) - 48))%Z) l 0%Z.
Fixpoint before_dot (l : text) : text :=
  match l with [] => [] | c :: t => if Ascii.eqb c "."%char then [] else c :: before_dot t end.
Fixpoint after_dot (l : text) : text :=
  match l with [] => [] | c :: t => if Ascii.eqb c "."%char then t else after_dot t end.
Definition to_float (l : text) : res R :=
  let a := before_dot l in
  let b := after_dot l in
  if forallb is_digit a && forallb is_digit b && negb (Nat.eqb (length (a ++ b)) 0)
  then Ok (IZR (dval a) + IZR (dval b) / 10 ^ length b) else Err ValueError.
Definition parse_rest (sign : R) (tokens : list text) : res R :=
  bind (match tokens with [] => Err IndexError | t :: _ => to_float t end) (fun dd =>
  if Nat.leb (length tokens) 2 then Ok (sign * dd)
  else bind (to_float (nth 2 tokens [])) (fun mm =>
  if Nat.leb (length tokens) 4 then Ok (sign * (dd + mm / 60))
  else if Nat.leb 7 (length tokens) then Err ValueError
  else bind (to_float (nth 4 tokens [])) (fun ss => Ok (sign * (dd + mm / 60 + ss / 3600))))).
Definition text_eqb (a b : text) : bool := if list_eq_dec ascii_dec a b then true else false.
(** angle.py:379-404 *)
Definition parse_dms (s : text) : res R :=
  let tokens := runs (strip s) in
  if Nat.leb (length tokens) 1 then Err ValueError
  else match to_float (hd [] tokens) with
       | Ok _ => parse_rest 1 tokens
       | Err _ =>
           let sign := if text_eqb (strip (hd [] tokens)) (txt "-") then -1 else 1 in
           let tokens := tl tokens in
           bind (to_float (hd [] tokens)) (fun _ =>
           if Nat.leb (length tokens) 1 then Err ValueError else parse_rest sign tokens)
       end.
(** from_hms, from_dms, angle.py:370-377: radians *)
Definition from_hms (s : text) : res R := bind (parse_dms s) (fun x => Ok (x * hours)).
(** angle.py:375-376 *)
Definition from_dms (s : text) : res R := bind (parse_dms s) (fun x => Ok (x * degrees)).

(** AngleUnit.from_name, angle.py:83-98 *)
Definition lower (c : ascii) : ascii :=
  let n := nat_of_ascii c in if Nat.leb 65 n && Nat.leb n 90 then ascii_of_nat (n + 32) else c.
Fixpoint startswith (p l : text) : bool :=
  match p, l with [], _ => true | c :: p, c' :: l => Ascii.eqb c c' && startswith p l | _, _ => false end.
(** angle.py:83-98 *)
Definition from_name (s : text) : res R :=
  let u := map lower (strip s) in
  if startswith (txt "rad") u then Ok radians
  else if startswith (txt "deg") u then Ok degrees
  else if startswith (txt "hour") u then Ok hours
  else if startswith (txt "hr") u then Ok hours
  else if startswith (txt "arcmin") u then Ok arcmin
  else if startswith (txt "arcsec") u then Ok arcsec
  else Err ValueError.
