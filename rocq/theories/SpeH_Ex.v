(** There are functions as assumed: the closed forms themselves, picked out by the order. *)
From Coq Require Import Reals Lra Lia ZArith.
From Verif Require Import Bes_Spec SpeH_Spec.
Open Scope R_scope.

(** the n with x = n + 1/2, for x >= 1/2 *)
Definition order_of (x : R) : nat := Z.to_nat (up (x - 1) ).
Lemma order_ok : forall n, order_of (INR n + 1 / 2) = n.
Proof.
  intros n. unfold order_of. rewrite <- (tech_up (INR n + 1 / 2 - 1) (Z.of_nat n)); [apply Nat2Z.id| |]; rewrite <- INR_IZR_INZ; lra.
Qed.
Definition kv_closed (nu z : R) : R := K_half (order_of nu) z.
Definition lg_closed (x : R) : R := ln (gamma_half (order_of x)).
Lemma gamma_half_pos : forall n, 0 < gamma_half n.
Proof. induction n as [|n IH]; cbn [gamma_half]; [apply sqrt_lt_R0, PI_RGT_0|]. apply Rmult_lt_0_compat; [pose proof (pos_INR n); lra|exact IH]. Qed.
Lemma closed_ok : half_integers kv_closed lg_closed.
Proof.
  split; intros n; [intros z Z; unfold kv_closed|unfold lg_closed]; rewrite order_ok; [reflexivity|]. apply exp_ln, gamma_half_pos.
Qed.
