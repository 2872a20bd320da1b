(** What the position properties talk about. *)
From Coq Require Import ZArith Reals Bool String List.
From Verif Require Import Base Geo_Model Pos_Model.
Import ListNotations.
Open Scope R_scope.

(** The point in the plane. *)
Definition point (p : pos) : vec := (nv (px p), nv (py_ p)).
Definition integral (x : R) : Prop := exists z : Z, x = IZR z.
(** What the constructors establish: integer positions have integer coordinates. *)
Definition valid (p : pos) : Prop := pc p = PosI -> integral (nv (px p)) /\ integral (nv (py_ p)).
(** The class of a sum or difference *)
Definition join (a b : pcls) : pcls := match a, b with PosI, PosI => PosI | _, _ => PosD end.
(** The coordinates are all Python scalars *)
Definition on_host (p : pos) : bool := npy (px p) && npy (py_ p).
(** Two computations give positions that compare equal: same class, same point. *)
Definition agree (a b : res pos) : Prop := exists p q, a = Ok p /\ b = Ok q /\ pc p = pc q /\ point p = point q.
