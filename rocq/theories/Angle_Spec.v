(** What formatted and parsed angles mean, and when separators can be told from numbers. *)
From Coq Require Import ZArith Reals Bool Ascii String List.
From Verif Require Import Base.
Import ListNotations.
Open Scope R_scope.

(** Characters that may not occur in a separator: digits and the point. *)
Definition numeric (c : ascii) : Prop :=
  In c ["0"; "1"; "2"; "3"; "4"; "5"; "6"; "7"; "8"; "9"; "."]%char.
Definition plain (t : list ascii) : Prop := forall c, In c t -> ~ numeric c.
(** Two separators between the fields, possibly a closing one. *)
Definition usable (sep : list (list ascii)) : Prop :=
  match sep with
  | [a] => a <> [] /\ plain a
  | [a; b] => a <> [] /\ plain a /\ b <> [] /\ plain b
  | [a; b; c] => a <> [] /\ plain a /\ b <> [] /\ plain b /\ plain c
  | _ => False
  end.

(** A digit string read as a number, most significant digit first: the value of the digits before the
    last, times ten, plus the last. *)
Inductive reads : list ascii -> Z -> Prop :=
  | reads_nil : reads [] 0
  | reads_snoc : forall t n k c, reads t n -> (0 <= k <= 9)%Z -> nat_of_ascii c = (48 + Z.to_nat k)%nat ->
      reads (t ++ [c]) (10 * n + k).

(** [r] equals [x] up to whole turns. *)
Definition same_direction (x y : R) : Prop := exists k : Z, x = y + IZR k * (2 * PI).

(** Names of units, in either case. *)
Definition smalls : list ascii := list_ascii_of_string "abcdefghijklmnopqrstuvwxyz".
Definition capitals : list ascii := list_ascii_of_string "ABCDEFGHIJKLMNOPQRSTUVWXYZ".
Definition small (c : ascii) : Prop := In c smalls.
(** [a] is the small letter [b] or its capital *)
Definition writes (a b : ascii) : Prop := In (a, b) (combine capitals smalls) \/ a = b.
Inductive uname : Type := URad | UDeg | UHour | UMin | USec.
Definition unit_names : list (list ascii * uname) :=
  [(list_ascii_of_string "rad", URad); (list_ascii_of_string "deg", UDeg); (list_ascii_of_string "hour", UHour); (list_ascii_of_string "hr", UHour);
   (list_ascii_of_string "arcmin", UMin); (list_ascii_of_string "arcsec", USec)].
