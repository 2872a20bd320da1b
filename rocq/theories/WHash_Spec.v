(** What equality of WCS objects and coordinates should mean. *)
From Coq Require Import ZArith Reals Bool String List.
From Verif Require Import Base WHash_Model.
Import ListNotations.
Open Scope R_scope.

(** The class and the numbers of an object, as real numbers; a position is its class and two numbers *)
Inductive kind : Type := KPix | KShear | KJac | KOff | KOffShear | KAff | KCel.
Definition pclass (p : pos) : bool := match p with PD _ _ => true | PI _ _ => false end.
Definition pvals (p : pos) : list R := match p with PD x y => [fval x; fval y] | PI x y => [IZR x; IZR y] end.
Definition svals (g : shr) : list R := [fval (fst g); fval (snd g)].
Definition meaning (u : obj) : kind * list bool * list R :=
  match u with
  | HPix s => (KPix, [], [nval s])
  | HShear s g => (KShear, [], nval s :: svals g)
  | HJac a b c d => (KJac, [], map nval [a; b; c; d])
  | HOff s o w => (KOff, [pclass o; pclass w], nval s :: pvals o ++ pvals w)
  | HOffShear s g o w => (KOffShear, [pclass o; pclass w], nval s :: svals g ++ pvals o ++ pvals w)
  | HAff a b c d o w => (KAff, [pclass o; pclass w], map nval [a; b; c; d] ++ pvals o ++ pvals w)
  | HCel r e => (KCel, [], [fval r; fval e])
  end.
(** Floats whose zeros are positive, and positive magnitudes *)
Definition fplain (f : flt) : Prop := 0 <= fmag f /\ (fmag f = 0 -> fneg f = false).
Definition nplain (n : num) : Prop := match n with NInt _ => False | NFlt f => fplain f end.
Definition pplain (p : pos) : Prop := match p with PD x y => fplain x /\ fplain y | PI _ _ => True end.
Definition splain (g : shr) : Prop := fplain (fst g) /\ fplain (snd g).
(** All numbers of an object are floats, none is -0.0 *)
Definition oplain (u : obj) : Prop :=
  match u with
  | HPix s => nplain s
  | HShear s g => nplain s /\ splain g
  | HJac a b c d => nplain a /\ nplain b /\ nplain c /\ nplain d
  | HOff s o w => nplain s /\ pplain o /\ pplain w
  | HOffShear s g o w => nplain s /\ splain g /\ pplain o /\ pplain w
  | HAff a b c d o w => nplain a /\ nplain b /\ nplain c /\ nplain d /\ pplain o /\ pplain w
  | HCel r e => fplain r /\ fplain e
  end.
