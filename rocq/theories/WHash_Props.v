(** C146: equality and hashes of WCS objects and coordinates. *)
From Coq Require Import ZArith Reals Bool String List Lra.
From Verif Require Import Base Bounds_Model Bounds_Proofs WHash_Model WHash_Spec WHash_Proofs.
Import ListNotations.
Open Scope R_scope.

(** Objects are equal when the classes and all values are; in particular == is an equivalence. *)
Theorem C146_equality : (forall u v, oeq u v = true <-> meaning u = meaning v) /\
  (forall u, oeq u u = true) /\ (forall u v, oeq u v = oeq v u) /\ (forall u v w, oeq u v = true -> oeq v w = true -> oeq u w = true).
Proof.
  split; [exact oeq_meaning|]. split; [intro u; apply oeq_meaning; reflexivity|]. split.
  - intros u v. destruct (oeq u v) eqn:A, (oeq v u) eqn:B; auto; exfalso.
    + apply oeq_meaning in A. symmetry in A. apply oeq_meaning in A. congruence.
    + apply oeq_meaning in B. symmetry in B. apply oeq_meaning in B. congruence.
  - intros u v w A B. apply oeq_meaning in A, B. apply oeq_meaning. congruence.
Qed.
Print Assumptions C146_equality.

(** Objects of the same text are equal. *)
Theorem C146_text : forall u v, text u = text v -> oeq u v = true.
Proof. exact text_equal. Qed.
Print Assumptions C146_text.

(** Equal objects have equal hashes, when their numbers are floats and no zero is negative. In full this would hold of all objects; that is
    refuted below. *)
Theorem C146_hash_partial : forall u v, oplain u -> oplain v -> oeq u v = true -> forall h, hash h u = hash h v.
Proof. intros u v A B E h. rewrite (plain_equal u v A B E). reflexivity. Qed.
Print Assumptions C146_hash_partial.

(** PixelScale(1) and PixelScale(1.0) are equal and have different texts, hence hashes. *)
Theorem C146_int_refuted : let u := HPix (NInt 1) in let v := HPix (NFlt (Flt false 1)) in
  oeq u v = true /\ text u <> text v /\ exists h, hash h u <> hash h v.
Proof.
  cbv zeta. split; [apply oeq_meaning; reflexivity|]. split; [cbn; intro E; discriminate|].
  exists (fun l => match l with [_; TInt _] => 1%Z | _ => 0%Z end). discriminate.
Qed.
Print Assumptions C146_int_refuted.

(** JacobianWCS(1.0, 0.0, 0.0, 1.0) equals its inverse, whose text has -0.0. *)
Theorem C146_inverse_refuted : let u := fjac (Flt false 1) (Flt false 0) (Flt false 0) (Flt false 1) in
  let v := inverse (Flt false 1) (Flt false 0) (Flt false 0) (Flt false 1) in
  oeq u v = true /\ text u <> text v /\ exists h, hash h u <> hash h v.
Proof.
  destruct inverse_equal as [A B]. cbv zeta in *. split; [exact A|]. split; [exact B|].
  exists (fun l => match l with [_; _; TFlt f; _; _] => if fneg f then 1%Z else 0%Z | _ => 2%Z end).
  unfold inverse. cbn [fval fneg fmag]. replace (1 * 1 - 0 * 0) with 1 by ring. unfold hash, fjac, fdiv, fopp, fof. cbn [text tn fneg fmag negb].
  destruct (Rltb_spec 1 0) as [l|l]; [lra|]. cbn [xorb]. discriminate.
Qed.
Print Assumptions C146_inverse_refuted.

(** Two equal plain objects made separately, and two unequal ones *)
Example C146_plain : let u := HOff (NFlt (Flt false (/ 5))) (PI 3 4) (PD (Flt true 2) (Flt false 0)) in oplain u /\ oeq u u = true /\
  oeq u (HOff (NFlt (Flt false (/ 5))) (PD (Flt false 3) (Flt false 4)) (PD (Flt true 2) (Flt false 0))) = false.
Proof.
  cbv zeta. split; [|split].
  - cbn. unfold fplain. cbn [fneg fmag]. repeat split; intros; auto; lra.
  - apply oeq_meaning. reflexivity.
  - cbn [oeq peq]. rewrite andb_false_r. reflexivity.
Qed.
