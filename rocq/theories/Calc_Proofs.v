(** tanh, arctanh and the Taylor branches of the shear conversions. *)
From Coq Require Import Reals Lra Psatz.
From Coquelicot Require Import Coquelicot.
From Verif Require Import Base Bounds_Model Geo_Model.
Open Scope R_scope.

(** tanh and arctanh *)
Lemma tanh_exp : forall x, tanh (1 / 2 * x) = (exp x - 1) / (exp x + 1).
Proof.
  intros x. unfold tanh, sinh, cosh. set (h := 1 / 2 * x).
  assert (E : exp x = exp h * exp h) by (rewrite <- exp_plus; f_equal; unfold h; field).
  assert (Eh : exp (- h) = / exp h) by apply exp_Ropp. pose proof (exp_pos h).
  rewrite E, Eh. field. split; nra.
Qed.
Lemma tanh_range : forall x, 0 < x -> 0 < tanh (1 / 2 * x) < 1.
Proof.
  intros x H. rewrite tanh_exp. assert (1 < exp x) by (rewrite <- exp_0; apply exp_increasing; auto).
  split. { unfold Rdiv. apply Rmult_lt_0_compat; [lra|apply Rinv_0_lt_compat; lra]. }
  apply Rmult_lt_reg_r with (exp x + 1); [lra|]. unfold Rdiv. rewrite Rmult_assoc, Rinv_l by lra. lra.
Qed.
Lemma arctanh_tanh : forall x, arctanh (tanh (1 / 2 * x)) = 1 / 2 * x.
Proof.
  intros x. rewrite tanh_exp. unfold arctanh. pose proof (exp_pos x).
  replace ((1 + (exp x - 1) / (exp x + 1)) / (1 - (exp x - 1) / (exp x + 1))) with (exp x) by (field; split; lra).
  rewrite ln_exp. field.
Qed.

(** The Taylor branch of _g2eta against the exact function. *)
Lemma arctanh_taylor : forall g, 0 <= g <= 1 / 10 ->
  0 <= 2 * arctanh g - g * (2 + g * g * (2 / 3 + g * g * (4 / 10))) <= 3 * g ^ 7.
Proof.
  intros g [L U]. destruct L as [L|L].
  2:{ subst g. unfold arctanh. replace ((1 + 0) / (1 - 0)) with 1 by field. rewrite ln_1. simpl. lra. }
  set (f := fun x => 2 * (/ 2 * ln ((1 + x) / (1 - x))) - x * (2 + x * x * (2 / 3 + x * x * (4 / 10)))).
  assert (D : forall x, 0 <= x <= g -> derivable_pt_lim f x (2 * x ^ 6 / (1 - x * x))).
  { intros x Hx. apply is_derive_Reals. unfold f. auto_derive.
    - assert (0 < (1 + x) * / (1 + - x)). { apply Rmult_lt_0_compat; [lra|apply Rinv_0_lt_compat; lra]. }
      split; [lra|]. split; auto.
    - field. repeat split; nra. }
  assert (F0 : f 0 = 0). { unfold f. replace ((1 + 0) / (1 - 0)) with 1 by field. rewrite ln_1. ring. }
  destruct (MVT_cor2 f (fun x => 2 * x ^ 6 / (1 - x * x)) 0 g L D) as (c & E & Hc).
  rewrite F0 in E. change (2 * arctanh g - g * (2 + g * g * (2 / 3 + g * g * (4 / 10)))) with (f g).
  replace (f g) with (2 * c ^ 6 * / (1 - c * c) * g) by (unfold Rdiv in E; lra).
  assert (C6 : 0 <= c ^ 6 <= g ^ 6). { split; [apply pow_le; lra|apply pow_incr; lra]. }
  assert (I : 0 < / (1 - c * c) <= 3 / 2).
  { split; [apply Rinv_0_lt_compat; nra|]. replace (3 / 2) with (/ (2 / 3)) by field. apply Rinv_le_contravar; nra. }
  replace (3 * g ^ 7) with (2 * g ^ 6 * (3 / 2) * g) by (simpl; field).
  split.
  - repeat apply Rmult_le_pos; lra.
  - apply Rmult_le_compat_r; [lra|]. apply Rmult_le_compat; lra.
Qed.
