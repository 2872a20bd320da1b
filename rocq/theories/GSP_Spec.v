(** Specification vocabulary for GSParams: which direction is stricter, and what a combination is. *)
From Coq Require Import ZArith Reals String List Bool.
From Verif Require Import Base GSP_Model.
Import ListNotations.

(** Larger is stricter for the FFT sizes and the half-light-radius margin, smaller for all
    thresholds, accuracies and spacings. *)
Definition larger_is_stricter (f : field) : bool :=
  match f with minimum_fft_size | maximum_fft_size | stepk_minimum_hlr => true | _ => false end.
Definition at_least_as_strict (f : field) (a b : R) : Prop :=
  if larger_is_stricter f then (b <= a)%R else (a <= b)%R.

(** [c] combines [l]: each field is taken from some member and is at least as strict as in every
    member. This fixes the numerical value of every field. *)
Definition combines (l : list (gsp pnum)) (c : gsp pnum) : Prop :=
  forall f, (exists g, In g l /\ pval (gget f c) = pval (gget f g)) /\
            forall g, In g l -> at_least_as_strict f (pval (gget f c)) (pval (gget f g)).

(** Numerically equal parameter sets. *)
Definition same (a b : gsp pnum) : Prop := forall f, pval (gget f a) = pval (gget f b).
