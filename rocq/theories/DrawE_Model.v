(** An exponential profile drawn by drawFFT. *)
From Coq Require Import Reals.
From Coquelicot Require Import Coquelicot.
From Verif Require Import Size_Model.
Open Scope R_scope.
(** Exponential._kValue (exponential.py:134-136) returns a real array; the k image (core/draw.py:50-66) is complex *)
Definition expo_kval (p : exponential) (k : R * R) : C := RtoC (ex_kValue p k).
