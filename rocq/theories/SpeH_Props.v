(** Property C47 for Spergel profiles of half-integer index. *)
From Coq Require Import Reals Lra Lia.
From Coquelicot Require Import Coquelicot.
From Verif Require Import Base Bounds_Model GSP_Model Prof_Props Size_Model Size_Spec Bes_Spec SpeH_Spec SpeH_Bessel SpeH_Main SpeH_Ex.
Open Scope R_scope.

(** * C47 *)
(** The flux beyond a radius r, for the index n + 1/2: with z = r/r0 it is e^-z theta_{n+1}(z) / (1 3 5 ... (2n+1)) of the flux. *)
Theorem C47_flux_beyond_half_integers : forall kv lgamma inf, half_integers kv lgamma -> forall n p r, sp_nu p = INR n + 1 / 2 -> 0 < sp_r0 p -> 1 / 10 ^ 10 * sp_r0 p < r ->
  flux_beyond (sp_xValue kv lgamma inf p) r (sp_flux p * (theta (S n) (r / sp_r0 p) * exp (- (r / sp_r0 p)) / odd_fact (S n))).
Proof. exact hi_beyond. Qed.
Print Assumptions C47_flux_beyond_half_integers.

(** For the other half-integer indices of the allowed range, 3/2, 5/2 and 7/2, half of the flux lies beyond the half-light radius
    up to 10^-8. *)
Theorem C47_half_light_half_integers : forall kv lgamma inf, half_integers kv lgamma -> forall n p f, (1 <= n <= 3)%nat -> sp_nu p = INR n + 1 / 2 -> 0 < sp_r0 p ->
  flux_beyond (sp_xValue kv lgamma inf p) (sp_half_light_radius p) f -> Rabs (f - sp_flux p * (1 / 2)) <= 1 / 10 ^ 8 * Rabs (sp_flux p).
Proof. exact spergel_half_integers. Qed.
Print Assumptions C47_half_light_half_integers.

(** The closed forms of half-integer order have the properties of the Bessel functions that the theorems on Spergel profiles assume. *)
Theorem C47_half_integer_bessel : forall n, bessel_pair (INR n + 1 / 2) (gamma_half (S n)) (K_half n) (K_half (S n)).
Proof. exact K_half_pair. Qed.
Print Assumptions C47_half_integer_bessel.

Example C47_half_integers_ex : half_integers kv_closed lg_closed /\
  (forall f, let p := Spe (5 / 2) 2 3 g0 in flux_beyond (sp_xValue kv_closed lg_closed 0 p) (sp_half_light_radius p) f -> Rabs (f - 3 * (1 / 2)) <= 1 / 10 ^ 8 * Rabs 3) /\
  flux_beyond (sp_xValue kv_closed lg_closed 0 (Spe (5 / 2) 2 3 g0)) 2 (3 * (37 * exp (- 1) / 15)).
Proof.
  split; [exact closed_ok|]. split.
  - intros f p F. apply (C47_half_light_half_integers kv_closed lg_closed 0 closed_ok 2 p f); [lia|cbn; lra|cbn; lra|exact F].
  - pose proof (C47_flux_beyond_half_integers kv_closed lg_closed 0 closed_ok 2 (Spe (5 / 2) 2 3 g0) 2 ltac:(cbn; lra) ltac:(cbn; lra) ltac:(cbn; lra)) as B.
    cbn [sp_r0 sp_flux] in B. replace (2 / 2) with 1 in B by field. rewrite th3, of3 in B. replace (15 + 15 * 1 + 6 * 1 ^ 2 + 1 ^ 3) with 37 in B by ring. exact B.
Qed.
