(** Symmetries of Akima interpolation. *)
From Coq Require Import ZArith Reals Bool List Lra Lia Arith.
From Verif Require Import Base Bounds_Model Bounds_Proofs Akima_Model Akima_Spec Akima_Proofs Akima_Spline.
Import ListNotations.
Open Scope R_scope.

Lemma akima_affine : forall m k q i, (weight m i < / 1000000000000 <-> Rabs k * weight m i < / 1000000000000) ->
  akima_slope (fun j => k * m j + q) i = k * akima_slope m i + q.
Proof.
  intros m k q i H. unfold akima_slope, weight in *.
  set (a := m (i + 1)%nat) in *. set (b := m i) in *. set (c := m (i - 1)%nat) in *. set (d := m (i - 2)%nat) in *.
  replace (k * a + q - (k * b + q)) with (k * (a - b)) by ring. replace (k * c + q - (k * d + q)) with (k * (c - d)) by ring. rewrite !Rabs_mult.
  set (w := Rabs (a - b)) in *. set (w' := Rabs (c - d)) in *. replace (Rabs k * w + Rabs k * w') with (Rabs k * (w + w')) by ring.
  destruct (Rlt_dec (Rabs k * (w + w')) (/ 1000000000000)) as [l|l], (Rlt_dec (w + w') (/ 1000000000000)) as [l'|l']; try tauto.
  - field.
  - assert (K : Rabs k <> 0) by (intro E; rewrite E, Rmult_0_l in l; lra). assert (W : w + w' <> 0) by lra. field. split; auto.
Qed.
Lemma affine_length : forall k p q x y, length x = length y -> length (affine k p q x y) = length x.
Proof. intros. unfold affine. now apply map2_length. Qed.
Lemma affine_nth : forall k p q x y i, length x = length y -> (i < length x)%nat -> nth i (affine k p q x y) 0 = k * nth i y 0 + (p + q * nth i x 0).
Proof. intros. unfold affine. rewrite (map2_nth _ _ _ _ x y i 0 0 0); auto. Qed.
Lemma affine_table : forall k p q x y, table x y -> table x (affine k p q x y).
Proof. intros k p q x y [A [B D]]. split; [|split]; auto. now rewrite affine_length. Qed.
Lemma affine_chord : forall k p q x y i, table x y -> (S i < length x)%nat -> chord x (affine k p q x y) i = k * chord x y i + q.
Proof.
  intros k p q x y i [A [B D]] I. unfold chord. rewrite !affine_nth by (auto; lia). pose proof (D i I). field. lra.
Qed.
Lemma affine_slope : forall k p q x y i, table x y -> (i < length x)%nat ->
  (forall j, (2 <= j)%nat -> (j + 3 <= length x)%nat -> weight (chord x y) j < / 1000000000000 <-> Rabs k * weight (chord x y) j < / 1000000000000) ->
  sl x (affine k p q x y) i = k * sl x y i + q.
Proof.
  intros k p q x y i T I W. destruct (slope_cases x y T) as [A0 [A1 [A2 [A3 A4]]]].
  destruct (slope_cases x _ (affine_table k p q x y T)) as [B0 [B1 [B2 [B3 B4]]]]. pose proof (len3 x y T) as N3.
  destruct (Nat.eq_dec i 0) as [->|]; [rewrite A0, B0; apply affine_chord; auto; lia|].
  destruct (Nat.eq_dec i 1) as [->|]; [rewrite A1, B1, !affine_chord by (auto; lia); field|].
  destruct (Nat.eq_dec i (length x - 1)) as [->|]; [rewrite A4, B4; apply affine_chord; auto; lia|].
  destruct (Nat.eq_dec i (length x - 2)) as [->|]; [rewrite A3, B3, !affine_chord by (auto; lia); field|].
  rewrite A2, B2 by lia. rewrite <- akima_affine by (apply W; lia). unfold akima_slope. rewrite !affine_chord by (auto; lia). reflexivity.
Qed.
Lemma interp_affine : forall k p q x y j t, table x y -> nth 0 x 0 <= t <= nth (length x - 1) x 0 ->
  (forall i, (2 <= i)%nat -> (i + 3 <= length x)%nat -> weight (chord x y) i < / 1000000000000 <-> Rabs k * weight (chord x y) i < / 1000000000000) ->
  interp x (affine k p q x y) j false t = k * interp x y j false t + (p + q * t).
Proof.
  intros k p q x y j t T B W. destruct (find_piece x y T t B) as [i [I [BI _]]].
  rewrite (interp_piece x y T j t i I BI), (interp_piece x _ (affine_table k p q x y T) j t i I BI). unfold piece.
  pose proof (incr x y T i I) as LT. pose proof (len_eq x y T) as LE.
  rewrite !affine_nth by (auto; lia). rewrite !affine_slope by (auto; lia).
  rewrite hermite_line by auto. now rewrite hermite_scale.
Qed.
Lemma interp_zero : forall x y j t, table x y -> (forall i, nth i y 0 = 0) -> interp x y j false t = 0.
Proof.
  intros x y j t T Z. destruct (Rlt_le_dec t (nth 0 x 0)) as [c|c]; [apply interp_outside; auto|].
  destruct (Rlt_le_dec (nth (length x - 1) x 0) t) as [d|d]; [apply interp_outside; auto|].
  destruct (find_piece x y T t ltac:(split; [lra|exact d])) as [i [I [BI _]]]. rewrite (interp_piece x y T j t i I BI).
  assert (E : affine 0 0 0 x y = y).
  { apply (nth_ext _ _ 0 0); [rewrite affine_length; apply (len_eq x y T)|]. intros k K. rewrite affine_length in K by apply (len_eq x y T).
    rewrite affine_nth by (auto; apply (len_eq x y T)). rewrite Z. ring. }
  assert (W : forall k, (2 <= k)%nat -> (k + 3 <= length x)%nat -> weight (chord x y) k < / 1000000000000 <-> Rabs 0 * weight (chord x y) k < / 1000000000000).
  { intros k _ _. unfold weight, chord. rewrite !Z, !Rminus_eq_0. unfold Rdiv. rewrite !Rmult_0_l, !Rminus_eq_0, Rabs_R0. lra. }
  assert (S0 : forall k, (k < length x)%nat -> sl x y k = 0).
  { intros k K. pose proof (affine_slope 0 0 0 x y k T K W) as A. rewrite E in A. lra. }
  unfold piece, hermite. rewrite !S0, !Z by lia. unfold Rdiv. ring.
Qed.

(** * Mirror *)
Lemma mirror_length : forall x, length (mirror x) = length x.
Proof. intro. unfold mirror. now rewrite rev_length, map_length. Qed.
Lemma mirror_nth : forall x i, (i < length x)%nat -> nth i (mirror x) 0 = - nth (length x - S i) x 0.
Proof. intros x i I. unfold mirror. rewrite rev_nth by now rewrite map_length. rewrite map_length. rewrite <- Ropp_0 at 1. apply map_nth. Qed.
Lemma mirror_table : forall x y, table x y -> table (mirror x) (rev y).
Proof.
  intros x y [A [B D]]. split; [|split]; rewrite ?mirror_length, ?rev_length; auto.
  intros i I. rewrite mirror_length in I. rewrite !mirror_nth by lia. pose proof (D (length x - S (S i))%nat ltac:(lia)) as L.
  replace (S (length x - S (S i))) with (length x - S i)%nat in L by lia. lra.
Qed.
Lemma mirror_chord : forall x y i, table x y -> (S i < length x)%nat -> chord (mirror x) (rev y) i = - chord x y (length x - 2 - i).
Proof.
  intros x y i [A [B D]] I. unfold chord. rewrite !mirror_nth, !rev_nth by lia. rewrite <- A.
  pose proof (D (length x - 2 - i)%nat ltac:(lia)) as L. replace (length x - S (S i))%nat with (length x - 2 - i)%nat by lia.
  replace (length x - S i)%nat with (S (length x - 2 - i)) by lia. field. lra.
Qed.
Lemma mirror_slope : forall x y i, table x y -> (2 <= i)%nat -> (i + 3 <= length x)%nat -> sl (mirror x) (rev y) (length x - 1 - i) = - sl x y i.
Proof.
  intros x y i T A B. destruct (slope_cases x y T) as [_ [_ [A2 _]]]. destruct (slope_cases _ _ (mirror_table x y T)) as [_ [_ [B2 _]]].
  rewrite A2 by auto. rewrite B2 by (rewrite ?mirror_length; lia). unfold akima_slope. rewrite !mirror_chord by (auto; lia).
  replace (length x - 2 - (length x - 1 - i + 1))%nat with (i - 2)%nat by lia. replace (length x - 2 - (length x - 1 - i))%nat with (i - 1)%nat by lia.
  replace (length x - 2 - (length x - 1 - i - 1))%nat with i by lia. replace (length x - 2 - (length x - 1 - i - 2))%nat with (i + 1)%nat by lia.
  set (a := chord x y (i + 1)). set (b := chord x y i). set (c := chord x y (i - 1)). set (d := chord x y (i - 2)).
  replace (Rabs (- d - - c)) with (Rabs (c - d)) by (f_equal; ring). replace (Rabs (- b - - a)) with (Rabs (a - b)) by (f_equal; ring).
  rewrite (Rplus_comm (Rabs (c - d))). destruct (Rlt_dec _ _) as [l|l]; field. lra.
Qed.
Lemma mirror_inner : forall x y j t, table x y -> (6 <= length x)%nat -> nth 2 x 0 <= t <= nth (length x - 3) x 0 ->
  interp (mirror x) (rev y) j false (- t) = interp x y j false t.
Proof.
  intros x y j t T N6 B. pose proof (incr x y T) as INC.
  assert (F : exists i, (2 <= i)%nat /\ (i + 4 <= length x)%nat /\ nth i x 0 <= t <= nth (S i) x 0).
  { destruct (Rlt_le_dec t (nth (length x - 3) x 0)) as [c|c].
    - pose proof (increasing_le x 0 2 INC ltac:(lia) ltac:(lia)).
      destruct (bracket x t (length x - 3) ltac:(lia) ltac:(lra) c) as [i [A D]]. exists i. split; [|split; [lia|lra]].
      destruct (Nat.le_gt_cases 2 i) as [g|g]; auto. pose proof (increasing_le x (S i) 2 INC ltac:(lia) ltac:(lia)). lra.
    - exists (length x - 4)%nat. split; [lia|]. split; [lia|]. replace (S (length x - 4)) with (length x - 3)%nat by lia.
      pose proof (increasing_le x (length x - 4) (length x - 3) INC ltac:(lia) ltac:(lia)). lra. }
  destruct F as [i [I2 [I4 BI]]]. rewrite (interp_piece x y T j t i ltac:(lia) BI).
  assert (M1 : nth (length x - 2 - i) (mirror x) 0 = - nth (S i) x 0) by (rewrite mirror_nth by lia; f_equal; f_equal; lia).
  assert (M2 : nth (S (length x - 2 - i)) (mirror x) 0 = - nth i x 0) by (rewrite mirror_nth by lia; f_equal; f_equal; lia).
  rewrite (interp_piece _ _ (mirror_table x y T) j (- t) (length x - 2 - i)); [|rewrite mirror_length; lia | rewrite M1, M2; lra].
  unfold piece. rewrite M1, M2. pose proof (len_eq x y T) as LE. rewrite !rev_nth by lia.
  replace (length y - S (length x - 2 - i))%nat with (S i) by lia. replace (length y - S (S (length x - 2 - i)))%nat with i by lia.
  replace (S (length x - 2 - i)) with (length x - 1 - i)%nat by lia. rewrite mirror_slope by (auto; lia).
  replace (length x - 2 - i)%nat with (length x - 1 - S i)%nat by lia. rewrite mirror_slope by (auto; lia).
  apply hermite_mirror. apply INC. lia.
Qed.
