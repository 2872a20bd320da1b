(** Property C150: a shear can be made again from its complex value. *)
From Coq Require Import Reals Bool List String Lra.
From Coquelicot Require Import Complex.
From Verif Require Import Base Bounds_Model Bounds_Proofs Geo_Model Shear_Model Shear_Spec Shear_Proofs Shear_Props ShArg_Model ShArg_Proofs.
Import ListNotations.
Open Scope R_scope.

(** Shear(s.shear) is s for every shear with a second component, however s was specified. *)
Theorem C150_rebuild_partial : forall kw s, mk_shear [] kw = Ok s -> Im s <> 0 \/ kw = [] -> rebuild kw = Ok s.
Proof. exact rebuild_ok. Qed.
Print Assumptions C150_rebuild_partial.

(** eval(repr(s)) is s for every shear. *)
Theorem C150_text : forall kw s, mk_shear [] kw = Ok s -> reread kw = Ok s.
Proof. exact reread_ok. Qed.
Print Assumptions C150_text.

(** Real numbers are refused. *)
Theorem C150_real_refused : forall x, shear_of (Real x) = Err TypeError.
Proof. intro x. rewrite shear_of_eq. unfold is_complex. cbn [value Im RtoC snd]. destruct (Reqb_spec 0 0); [reflexivity|congruence]. Qed.
Print Assumptions C150_real_refused.

(** F103: jnp.iscomplex asks for a non-zero imaginary part, so Shear(s.shear) raises TypeError for every shear along an axis, among them
    Shear(g1=g1) for every g1. *)
Theorem C150_axis_refuted : (forall kw s, mk_shear [] kw = Ok s -> Im s = 0 -> kw <> [] -> rebuild kw = Err TypeError) /\
  (forall g1, g1 * g1 <= 1 -> mk_shear [] [("g1"%string, KNum g1)] = Ok (g1, 0) /\ rebuild [("g1"%string, KNum g1)] = Err TypeError).
Proof.
  split; [exact rebuild_axis|]. intros g1 H. assert (E : mk_shear [] [("g1"%string, KNum g1)] = Ok (g1, 0)).
  { destruct (C50_g_round_trip g1 0 [("g1"%string, KNum g1)]) as (s & E & R & I); [lra|apply only1; reflexivity|].
    rewrite E. f_equal. rewrite <- R, <- I. destruct s; reflexivity. }
  split; [exact E|]. apply (rebuild_axis _ _ E); [reflexivity|discriminate].
Qed.
Print Assumptions C150_axis_refuted.

Example C150_witness : mk_shear [] [("g1"%string, KNum (1 / 2)); ("g2"%string, KNum (1 / 3))] = Ok (1 / 2, 1 / 3) /\ Im (1 / 2, 1 / 3) <> 0.
Proof.
  split; [|cbn [Im snd]; lra]. destruct (C50_g_round_trip (1 / 2) (1 / 3) [("g1"%string, KNum (1 / 2)); ("g2"%string, KNum (1 / 3))]) as (s & E & R & I); [lra|apply both12|].
  rewrite E. f_equal. rewrite <- R, <- I. destruct s; reflexivity.
Qed.
