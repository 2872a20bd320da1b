(** What it means that a profile falls with radius near its centre. *)
From Coq Require Import Reals.
Open Scope R_scope.
Definition radius (pos : R * R) : R := sqrt (fst pos * fst pos + snd pos * snd pos).
(** The brightness falls, or rises, with the radius up to [rmax], the centre itself excluded *)
Definition falls (b : R * R -> R) (rmax : R) : Prop := forall p q, 0 < radius p < radius q -> radius q <= rmax -> b q < b p.
Definition rises (b : R * R -> R) (rmax : R) : Prop := forall p q, 0 < radius p < radius q -> radius q <= rmax -> b p < b q.
