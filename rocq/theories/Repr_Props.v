(** Property C147: representations of composite profiles. *)
From Coq Require Import Reals Bool List Lra.
From Verif Require Import Base Geo_Model GSP_Model Prof_Model Prof_Props Repr_Model Repr_Spec Repr_Proofs.
Import ListNotations.
Open Scope R_scope.

(** Evaluating the representation gives back the profile, however deeply profiles are nested and whatever gsparams and propagate_gsparams
    are passed, as long as no Transformation made with propagate_gsparams=False is transformed again with propagate_gsparams=True. *)
Theorem C147_roundtrip_partial : forall p, made careful p -> eval (repr p) = Ok p.
Proof. exact roundtrip. Qed.
Print Assumptions C147_roundtrip_partial.

(** Without that condition the trip changes at most gsparams, and a second one changes nothing. *)
Theorem C147_settles : forall p, made any p -> exists q, eval (repr p) = Ok q /\ erase q = erase p /\ eval (repr q) = Ok q.
Proof. exact settling. Qed.
Print Assumptions C147_settles.

(** F100: a Transformation with gsparams of its own, not passed on, and then transformed again with the default settings is a profile whose
    representation evaluates to another one: the transformed profile gets the gsparams of the transformation. *)
Theorem C147_merged_refuted : forall own fam fl a b J off fr J' off' fr', a <> b ->
  let t := mkTransform (PLeaf own fam fl a) J off fr (Some b) false in
  let u := mkTransform t J' off' fr' None true in
  made any u /\ exists q, eval (repr u) = Ok q /\ q <> u /\
    match u, q with PTr o _ _ _ _ _, PTr o' _ _ _ _ _ => gsparams o = a /\ gsparams o' = b | _, _ => False end.
Proof.
  intros own fam fl a b J off fr J' off' fr' N t u. split; [|exact (merged own fam fl a b J off fr J' off' fr' N)].
  repeat (apply made_tr; [|exact Logic.I]). apply made_leaf.
Qed.
Print Assumptions C147_merged_refuted.

(** Two gsparams for the examples *)
Definition g1 : gspR :=
  GSP 128 8192 (5 / 1000) 5 (1 / 10000) (1 / 100000) (1 / 100000) 1 (1 / 10000) (1 / 1000000) (1 / 1000000) (1 / 100000000) (1 / 100000).
Lemma g1_g0 : g0 <> g1.
Proof. intro E. apply (f_equal g_maxk) in E. cbn [g0 g1 g_maxk] in E. lra. Qed.

(** A sum of a Gaussian and of a sheared and shifted Box with gsparams of its own, deconvolved and convolved with a Box *)
Definition sheared_box : prof := mkTransform (mkTransform (B 2) (Mat 2 1 1 1) (0, 0) 1 (Some g1) false) (Mat 1 0 0 1) (3, 4) 5 None false.
Example C147_witness : exists s c,
  mkSum [G 1; sheared_box] (Some g0) false = Ok s /\ mkConv RSNone [mkDec s (Some g1) true; B 3] (Some g1) true = Ok c /\
  made careful c /\ c <> mkDec s (Some g1) true.
Proof.
  assert (M : made careful sheared_box).
  { apply made_tr; [|reflexivity]. apply made_tr; [|exact Logic.I]. apply made_leaf. }
  eexists. eexists. split; [reflexivity|]. split; [reflexivity|]. split; [|discriminate].
  apply (made_conv _ [mkDec (PSum [G 1; sheared_box] g0 false) (Some g1) true; B 3] RSNone (Some g1) true); [|reflexivity].
  intros o [<-|[<-|[]]]; [|apply made_leaf]. apply made_dec. apply (made_sum _ [G 1; sheared_box] (Some g0) false); [|reflexivity].
  intros o [<-|[<-|[]]]; [apply made_leaf|exact M].
Qed.
Example C147_merged_witness : exists q, eval (repr (mkTransform (mkTransform (G 1) (Mat 1 0 0 1) (0, 0) 1 (Some g1) false) (Mat 1 0 0 1) (1, 2) 1 None true)) = Ok q /\
  q <> mkTransform (mkTransform (G 1) (Mat 1 0 0 1) (0, 0) 1 (Some g1) false) (Mat 1 0 0 1) (1, 2) 1 None true.
Proof.
  destruct (C147_merged_refuted true gauss 1 g0 g1 (Mat 1 0 0 1) (0, 0) 1 (Mat 1 0 0 1) (1, 2) 1 g1_g0) as [_ (q & E & N & _)].
  exists q. split; [exact E|exact N].
Qed.
