(** Property C151: near its centre the surface brightness of a Spergel profile falls with radius. *)
From Coq Require Import Reals Bool List Lra.
From Verif Require Import Base Bounds_Model Bounds_Proofs Size_Model Size_Proofs SpC_Spec SpC_Proofs.
Open Scope R_scope.

(** The brightness falls over the radii handled by the expansions for nu = 0, 1, 3 and 4. *)
Theorem C151_integer_partial : forall kv lgamma inf p, sp_nu p = 0 \/ sp_nu p = 1 \/ sp_nu p = 3 \/ sp_nu p = 4 -> 0 < sp_r0 p -> 0 < sp_flux p ->
  falls (sp_xValue kv lgamma inf p) (sp_r0 p / 10 ^ 10).
Proof. exact centre_falls. Qed.
Print Assumptions C151_integer_partial.

(** F104: for every other nu between 0 and 1.99 it rises, whatever kv and lgamma compute. *)
Theorem C151_rises_refuted : forall kv lgamma inf p, 0 < sp_nu p < 199 / 100 -> sp_nu p <> 1 -> 0 < sp_r0 p -> 0 < sp_flux p ->
  rises (sp_xValue kv lgamma inf p) (sp_r0 p / 10 ^ 10) /\ ~ falls (sp_xValue kv lgamma inf p) (sp_r0 p / 10 ^ 10).
Proof.
  intros kv lgamma inf p N M R F. pose proof (centre_rises kv lgamma inf p N M R F) as H. split; [exact H|]. intro A.
  assert (Q : forall x, 0 <= x -> radius (x, 0) = x) by (intros x X; unfold radius; cbn [fst snd]; rewrite Rmult_0_l, Rplus_0_r; apply sqrt_square, X).
  assert (B : 0 < radius (sp_r0 p / 10 ^ 11, 0) < radius (sp_r0 p / 10 ^ 10, 0)) by (rewrite !Q by lra; lra).
  assert (C : radius (sp_r0 p / 10 ^ 10, 0) <= sp_r0 p / 10 ^ 10) by (rewrite Q by lra; lra).
  pose proof (H _ _ B C). pose proof (A _ _ B C). lra.
Qed.
Print Assumptions C151_rises_refuted.

(** The reason: z^nu K_nu(z) starts Gamma(n) 2^(n-1) + Gamma(-n) 2^(-n-1) z^(2n) with Gamma(-n) negative for 0 < n < 1, but _gamma is the absolute value of
    Gamma, so the second term is added; what is left is of the order of z^2. *)
Theorem C151_sign_lost : forall lgamma inf nu, let n := nu + 1 / 10 ^ 10 in 0 < n < 1 ->
  gamma_ lgamma inf (- n) = (1 + n) * (2 + n) * gamma_ lgamma inf (-2 - n) ->
  0 < gamma_ lgamma inf (- n) /\
  exists M, forall z, 0 < z <= 1 ->
  0 <= fnu_small lgamma inf z nu - (Rpower 2 (n - 1) * gamma_ lgamma inf n + Rpower 2 (- n - 1) * gamma_ lgamma inf (- n) * Rpower z (2 * n)) <= M * (z * z).
Proof. intros lgamma inf nu n H E. split; [apply gamma_pos; lra|exact (small_sign lgamma inf nu H E)]. Qed.
Print Assumptions C151_sign_lost.

(** Numbers that meet the hypothesis on lgamma. *)
Example C151_witness : let n := 1 / 2 + 1 / 10 ^ 10 in exists lgamma, 0 < n < 1 /\ gamma_ lgamma 0 (- n) = (1 + n) * (2 + n) * gamma_ lgamma 0 (-2 - n).
Proof.
  intro n. assert (N : 0 < n < 1) by (unfold n; lra). exists (fun x => if Rltb x (-1) then - ln ((1 + n) * (2 + n)) else 0). split; [exact N|]. unfold gamma_, gamma.
  repeat (match goal with |- context [Reqb ?x ?c] => destruct (Reqb_spec x c); try lra end).
  destruct (Rltb_spec (- n * 1) (-1)); [lra|]. destruct (Rltb_spec ((-2 - n) * 1) (-1)); [|lra].
  rewrite exp_0, exp_Ropp, exp_ln by nra. field. lra.
Qed.
