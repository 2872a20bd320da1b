(** Proofs about the unnamed argument of Shear. *)
From Coq Require Import Reals Bool List String Lra.
From Coquelicot Require Import Complex.
From Verif Require Import Base Bounds_Model Bounds_Proofs Shear_Model ShArg_Model.
Import ListNotations.
Open Scope R_scope.

Lemma shear_of_eq : forall v, shear_of v = if is_complex v then Ok (value v) else Err TypeError.
Proof. intro v. unfold shear_of, mk_shear. cbn [List.length Nat.ltb Nat.leb]. reflexivity. Qed.
Lemma rebuild_ok : forall kw s, mk_shear [] kw = Ok s -> Im s <> 0 \/ kw = [] -> rebuild kw = Ok s.
Proof.
  intros kw s E H. unfold rebuild. rewrite E. cbn [bind]. rewrite shear_of_eq. unfold is_complex. destruct H as [H| ->].
  - unfold shear_attr. destruct kw; cbn [value]; destruct (Reqb_spec (Im s) 0); try contradiction; reflexivity.
  - cbn [shear_attr value]. rewrite orb_true_r. reflexivity.
Qed.
Lemma reread_ok : forall kw s, mk_shear [] kw = Ok s -> reread kw = Ok s.
Proof. intros kw s E. unfold reread. rewrite E. cbn [bind]. rewrite shear_of_eq. unfold is_complex. rewrite orb_true_r. reflexivity. Qed.
Lemma rebuild_axis : forall kw s, mk_shear [] kw = Ok s -> Im s = 0 -> kw <> [] -> rebuild kw = Err TypeError.
Proof.
  intros kw s E H N. unfold rebuild. rewrite E. cbn [bind]. rewrite shear_of_eq. destruct kw; [contradiction|]. unfold is_complex. cbn [shear_attr value].
  rewrite H. destruct (Reqb_spec 0 0); [reflexivity|congruence].
Qed.
