(** What shooting photons from an interpolant or an image should give, stated without the model. *)
From Coq Require Import ZArith Reals List.
From Coquelicot Require Import Coquelicot.
From Verif Require Import Base Array_Model II_Model II_Spec Photon_Model Photon_Spec.
Import ListNotations.
Open Scope R_scope.

(** The mean of f over [n] independent choices from a list of values with their probabilities *)
Definition wsum {A} (d : list (A * R)) (f : A -> R) : R := fold_right (fun t s => snd t * f (fst t) + s) 0 d.
Fixpoint expect {A} (d : list (A * R)) (n : nat) (f : list A -> R) : R :=
  match n with O => f [] | S n => wsum d (fun a => expect d n (fun l => f (a :: l))) end.
(** Probabilities *)
Definition distribution {A} (d : list (A * R)) : Prop := List.Forall (fun t => 0 <= snd t) d /\ wsum d (fun _ => 1) = 1.
(** f lies between two functions whose means over a uniform deviate are within e of m: so is every mean of f. *)
Definition mean_near (f : R -> R) (m e : R) : Prop :=
  exists lo hi a b, (forall u, 0 <= u < 1 -> lo u <= f u <= hi u) /\ is_RInt lo 0 1 a /\ is_RInt hi 0 1 b /\ m - e <= a /\ b <= m + e.
(** The sum of a list *)
Definition total (l : list R) : R := fold_right Rplus 0 l.
(** The distribution with density |f| / (integral of |f|) on [-X, X] *)
Definition abs_cdf (f : R -> R) (X t : R) : R := RInt (fun x => Rabs (f x)) (- X) t / RInt (fun x => Rabs (f x)) (- X) X.
(** Positions made of a uniform deviate have the distribution function G up to e at every t of [a, b]. *)
Definition draws_from (pos G : R -> R) (a b e : R) : Prop :=
  forall t u, a <= t <= b -> 0 <= u < 1 -> (u < G t - e -> pos u < t) /\ (pos u < t -> u < G t + e).
(** What a detector that weighs positions by phi records of an array of photons: the sum of flux times weight *)
Definition recorded (phi : R -> R -> R) (p : parr) : R :=
  total (map (fun k => vis p k * phi (nth k (px p) 0) (nth k (py_ p) 0)) (seq 0 (pN p))).
Definition recorded_res (phi : R -> R -> R) (r : res parr) : R := match r with Ok p => recorded phi p | Err _ => 0 end.
(** The sum of the absolute values of the pixels *)
Definition absolute_flux (im : rimg) : R := over_pixels Rplus 0 im (fun _ _ v => Rabs v).
(** The same for positions made of two deviates: for every first deviate u the second falls below c u, and the mean of c is G t. *)
Definition draws2_from (pos : R -> R -> R) (G : R -> R) (a b : R) : Prop :=
  forall t, a <= t <= b -> exists c, (forall u v, 0 <= u < 1 -> 0 <= v < 1 -> (pos u v < t <-> v < c u)) /\ (forall u, 0 <= c u <= 1) /\ is_RInt c 0 1 (G t).
