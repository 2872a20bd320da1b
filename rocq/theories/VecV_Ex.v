(** Two Gaussians convolved, evaluated at two positions. *)
From Coq Require Import Reals Bool List Lra.
From Coquelicot Require Import Complex.
From Verif Require Import Base Bounds_Model Geo_Model GSP_Model Prof_Model Prof_Props VecV_Model VecV_Spec VecV_Proofs.
Import ListNotations.
Open Scope R_scope.

Lemma conv_at : forall a b, kValue (PConv [G 1; G 1] g0 true) (a, b) = RtoC (exp (- (a ^ 2 + b ^ 2))).
Proof.
  intros a b. cbn [kValue map prodC fold_right G lf_k gauss fst snd]. rewrite Cmult_1_r, <- RtoC_mult. f_equal.
  rewrite !Rmult_1_l, <- exp_plus. f_equal. field.
Qed.
Lemma same : forall k, mapp (mT mI) k = k.
Proof. intros [a b]. unfold mapp, mT, mI. cbn [m00 m01 m10 m11 fst snd]. f_equal; ring. Qed.
Lemma twice : forall k, kfactor mI (0, 0) 2 k = RtoC 2.
Proof.
  intros k. unfold kfactor, expi, mdet, mI. cbn [m00 m01 m10 m11 fst snd].
  replace (- (fst k * 0) + - (snd k * 0)) with 0 by ring. rewrite cos_0, sin_0. replace (1 * 1 - 0 * 0) with 1 by ring. rewrite Rabs_R1, Rmult_1_l.
  change (1, 0) with (RtoC 1). apply Cmult_1_r.
Qed.
Lemma two_gaussians :
  let p := PTr (PConv [G 1; G 1] g0 true) mI (0, 0) 2 g0 true in
  let ks := [(0, 0); (1, 0)] in
  kValues p ks = Ok (Ar [RtoC (2 * exp (- 1)); RtoC (2 * exp (- 1))]) /\ map (kValue p) ks = [RtoC 2; RtoC (2 * exp (- 1))].
Proof.
  cbv zeta. set (c := PConv [G 1; G 1] g0 true). split.
  - unfold c. rewrite moved_conv; [|discriminate|reflexivity]. fold c. cbn [map]. rewrite !same, !twice. unfold c at 1 2 3 4. rewrite !conv_at.
    unfold prodC. cbn [fold_right]. rewrite Cmult_1_r, <- !RtoC_mult.
    replace (exp (- (0 ^ 2 + 0 ^ 2))) with 1 by (rewrite <- exp_0; f_equal; ring). replace (- (1 ^ 2 + 0 ^ 2)) with (- 1) by ring.
    replace (1 * exp (- 1) * 2) with (2 * exp (- 1)) by ring. reflexivity.
  - change (map (kValue (PTr c mI (0, 0) 2 g0 true)) [(0, 0); (1, 0)]) with
      [Cmult (kValue c (mapp (mT mI) (0, 0))) (kfactor mI (0, 0) 2 (0, 0)); Cmult (kValue c (mapp (mT mI) (1, 0))) (kfactor mI (0, 0) 2 (1, 0))].
    rewrite !same, !twice. unfold c. rewrite !conv_at, <- !RtoC_mult.
    replace (exp (- (0 ^ 2 + 0 ^ 2))) with 1 by (rewrite <- exp_0; f_equal; ring). replace (- (1 ^ 2 + 0 ^ 2)) with (- 1) by ring.
    rewrite Rmult_1_l, Rmult_comm. reflexivity.
Qed.
