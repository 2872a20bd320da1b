(** Proofs about the kernels. *)
From Coq Require Import ZArith Reals Bool List Lra Lia.
From Coquelicot Require Import Coquelicot.
From Verif Require Import Base Bounds_Model Bounds_Proofs FFT_Model FFT_Proofs Sky_Model Interp_Model Interp_Spec Akima_Spline.
Import ListNotations.
Open Scope R_scope.

(** * The pieces, on closed intervals *)
Ltac cases_R := repeat match goal with |- context [Rltb ?a ?b] => let l := fresh "l" in destruct (Rltb_spec a b) as [l|l] end; cbn [negb].
Lemma lin_in : forall x, 0 <= x <= 1 -> linear_xval x = 1 - x.
Proof. intros x B. unfold linear_xval. rewrite Rabs_right by lra. cases_R; lra. Qed.
Lemma lin_out : forall x, 1 <= x -> linear_xval x = 0.
Proof. intros x B. unfold linear_xval. rewrite Rabs_right by lra. cases_R; lra. Qed.
Lemma cub_1 : forall x, 0 <= x <= 1 -> cubic_xval x = cubic_one x.
Proof. intros x B. unfold cubic_xval. rewrite Rabs_right by lra. cases_R; try lra. replace x with 1 by lra. unfold cubic_one, cubic_two. lra. Qed.
Lemma cub_2 : forall x, 1 <= x <= 2 -> cubic_xval x = cubic_two x.
Proof. intros x B. unfold cubic_xval. rewrite Rabs_right by lra. cases_R; try lra. replace x with 2 by lra. unfold cubic_two. lra. Qed.
Lemma cub_out : forall x, 2 <= x -> cubic_xval x = 0.
Proof. intros x B. unfold cubic_xval. rewrite Rabs_right by lra. cases_R; lra. Qed.
Lemma qui_1 : forall x, 0 <= x <= 1 -> quintic_xval x = quintic_one x.
Proof. intros x B. unfold quintic_xval. rewrite Rabs_right by lra. cases_R; lra. Qed.
Lemma qui_2 : forall x, 1 <= x <= 2 -> quintic_xval x = quintic_two x.
Proof. intros x B. unfold quintic_xval. rewrite Rabs_right by lra. cases_R; try lra. replace x with 1 by lra. unfold quintic_one, quintic_two. lra. Qed.
Lemma qui_3 : forall x, 2 <= x <= 3 -> quintic_xval x = quintic_three x.
Proof. intros x B. unfold quintic_xval. rewrite Rabs_right by lra. cases_R; try lra. replace x with 2 by lra. unfold quintic_three, quintic_two. lra. Qed.
Lemma qui_out : forall x, 3 <= x -> quintic_xval x = 0.
Proof. intros x B. unfold quintic_xval. rewrite Rabs_right by lra. cases_R; try lra. replace x with 3 by lra. unfold quintic_three. lra. Qed.
Lemma lin_even : even linear_xval. Proof. intro x. unfold linear_xval. now rewrite Rabs_Ropp. Qed.
Lemma cub_even : even cubic_xval. Proof. intro x. unfold cubic_xval. now rewrite Rabs_Ropp. Qed.
Lemma qui_even : even quintic_xval. Proof. intro x. unfold quintic_xval. now rewrite Rabs_Ropp. Qed.
Lemma nea_even : even nearest_xval. Proof. intro x. unfold nearest_xval. now rewrite Rabs_Ropp. Qed.
Lemma sinc_even : even sinc.
Proof.
  intro x. unfold sinc. destruct (Reqb_spec (- x) 0), (Reqb_spec x 0); try lra.
  replace (PI * - x) with (- (PI * x)) by ring. rewrite sin_neg. pose proof PI_RGT_0. field. split; lra.
Qed.

(** * Cardinality *)
Lemma int_case : forall n : Z, n <> 0%Z -> 1 <= Rabs (IZR n).
Proof. intros n N. rewrite <- abs_IZR. apply IZR_le. lia. Qed.
Lemma even_at : forall K, even K -> forall x, K x = K (Rabs x).
Proof. intros K E x. destruct (Rle_dec 0 x) as [l|l]; [now rewrite Rabs_right by lra|]. rewrite Rabs_left by lra. now rewrite E. Qed.
Lemma int_abs : forall K, even K -> K 0 = 1 -> (forall k : Z, (1 <= k)%Z -> K (IZR k) = 0) -> cardinal K.
Proof. intros K E Z0 Z1. split; auto. intros n N. rewrite (even_at K E), <- abs_IZR. apply Z1. lia. Qed.
Lemma cardinal_nearest : cardinal nearest_xval.
Proof.
  apply int_abs; [exact nea_even| |].
  - unfold nearest_xval. rewrite Rabs_R0. cases_R; lra.
  - intros k H. unfold nearest_xval. apply IZR_le in H. rewrite Rabs_right by lra. cases_R; lra.
Qed.
Lemma cardinal_linear : cardinal linear_xval.
Proof. apply int_abs; [exact lin_even| rewrite lin_in; lra |]. intros k H. apply IZR_le in H. apply lin_out. lra. Qed.
Lemma cardinal_cubic : cardinal cubic_xval.
Proof.
  apply int_abs; [exact cub_even| rewrite cub_1 by lra; unfold cubic_one; lra |]. intros k H.
  destruct (Z.eq_dec k 1) as [->|]; [rewrite cub_2 by lra; unfold cubic_two; lra|]. apply cub_out. apply IZR_le. lia.
Qed.
Lemma cardinal_quintic : cardinal quintic_xval.
Proof.
  apply int_abs; [exact qui_even| rewrite qui_1 by lra; unfold quintic_one; lra |]. intros k H.
  destruct (Z.eq_dec k 1) as [->|]; [rewrite qui_2 by lra; unfold quintic_two; lra|].
  destruct (Z.eq_dec k 2) as [->|]; [rewrite qui_2 by lra; unfold quintic_two; lra|]. apply qui_out. apply IZR_le. lia.
Qed.
Lemma sin_int : forall n : Z, sin (PI * IZR n) = 0.
Proof. intro n. apply sin_eq_0_1. exists n. ring. Qed.
Lemma sinc_int : forall n : Z, n <> 0%Z -> sinc (IZR n) = 0.
Proof.
  intros n N. unfold sinc. destruct (Reqb_spec (IZR n) 0) as [e|_]; [apply eq_IZR in e; lia|].
  rewrite sin_int. unfold Rdiv. ring.
Qed.
Lemma sinc_0 : sinc 0 = 1. Proof. unfold sinc. destruct (Reqb_spec 0 0); lra. Qed.
Lemma cardinal_sinc : cardinal sinc_xval.
Proof. split; [apply sinc_0 | exact sinc_int]. Qed.

(** * Support *)
Lemma supp : forall K, even K -> forall c, 0 <= c -> (forall x, c <= x -> K x = 0) -> supported K c.
Proof. intros K E c C H x L. rewrite (even_at K E). apply H. lra. Qed.

(** * Sums over integers *)
Lemma isum_app : forall a b lo f, isum lo (a + b) f = isum lo a f + isum (lo + Z.of_nat a) b f.
Proof.
  induction a; intros b lo f; [replace (lo + Z.of_nat 0)%Z with lo by lia; cbn; ring|].
  cbn [isum Nat.add]. rewrite IHa. replace (lo + 1 + Z.of_nat a)%Z with (lo + Z.of_nat (S a))%Z by lia. ring.
Qed.
Lemma isum_zero : forall n lo f, (forall k, (lo <= k < lo + Z.of_nat n)%Z -> f k = 0) -> isum lo n f = 0.
Proof. induction n; intros lo f H; cbn [isum]; auto. rewrite H by lia. rewrite IHn; [ring|]. intros. apply H. lia. Qed.
(** Only the terms where the summand does not vanish count. *)
Lemma isum_core : forall lo hi a n f, (lo <= a)%Z -> (a + Z.of_nat n <= hi + 1)%Z ->
  (forall k, (k < a \/ a + Z.of_nat n <= k)%Z -> f k = 0) -> sum_between lo hi f = isum a n f.
Proof.
  intros lo hi a n f A B Z0. unfold sum_between.
  replace (Z.to_nat (hi - lo + 1)) with (Z.to_nat (a - lo) + (n + Z.to_nat (hi + 1 - (a + Z.of_nat n))))%nat by lia.
  rewrite !isum_app, (isum_zero (Z.to_nat (a - lo))), (isum_zero (Z.to_nat (hi + 1 - _))) by (intros; apply Z0; lia).
  replace (lo + Z.of_nat (Z.to_nat (a - lo)))%Z with a by lia. ring.
Qed.

(** * Polynomials are reproduced *)
Lemma zero_beyond : forall K c t k, supported K c -> (t - c < IZR k < t + c -> False) -> (forall x, Rabs x = c -> K x = 0) -> K (t - IZR k) = 0.
Proof.
  intros K c t k S N E. destruct (Rtotal_order (Rabs (t - IZR k)) c) as [l|[e|l]]; [|now apply E|now apply S].
  exfalso. apply N. apply Rabs_def2 in l. lra.
Qed.
Lemma closed : forall K c, even K -> 0 <= c -> K c = 0 -> forall x, Rabs x = c -> K x = 0.
Proof. intros K c E C Z0 x A. rewrite (even_at K E). now rewrite A. Qed.

Lemma poly_five : forall p, (length p <= 5)%nat -> exists a b c d e, forall x, peval p x = a + x * (b + x * (c + x * (d + x * e))).
Proof.
  intros p H. destruct p as [|a p]; [exists 0, 0, 0, 0, 0; intro; cbn; ring|].
  destruct p as [|b p]; [exists a, 0, 0, 0, 0; intro; cbn; ring|]. destruct p as [|c p]; [exists a, b, 0, 0, 0; intro; cbn; ring|].
  destruct p as [|d p]; [exists a, b, c, 0, 0; intro; cbn; ring|]. destruct p as [|e p]; [exists a, b, c, d, 0; intro; cbn; ring|].
  destruct p; [exists a, b, c, d, e; intro; cbn; ring|cbn in H; lia].
Qed.
Lemma poly_three : forall p, (length p <= 3)%nat -> exists a b c, forall x, peval p x = a + x * (b + x * c).
Proof.
  intros p H. destruct p as [|a p]; [exists 0, 0, 0; intro; cbn; ring|].
  destruct p as [|b p]; [exists a, 0, 0; intro; cbn; ring|]. destruct p as [|c p]; [exists a, b, 0; intro; cbn; ring|].
  destruct p; [exists a, b, c; intro; cbn; ring|cbn in H; lia].
Qed.
Lemma poly_two : forall p, (length p <= 2)%nat -> exists a b, forall x, peval p x = a + x * b.
Proof.
  intros p H. destruct p as [|a p]; [exists 0, 0; intro; cbn; ring|]. destruct p as [|b p]; [exists a, 0; intro; cbn; ring|].
  destruct p; [exists a, b; intro; cbn; ring|cbn in H; lia].
Qed.

Lemma peval_zero : forall p x K, K = 0 -> peval p x * K = 0. Proof. intros; subst; ring. Qed.
(** Terms outside the [2 * w] integers about [t] vanish. *)
Lemma window : forall K w t lo hi g, even K -> (0 < w)%Z -> (forall x, IZR w <= x -> K x = 0) -> IZR lo <= t - IZR w -> t + IZR w <= IZR hi ->
  sum_between lo hi (fun k => g k * K (t - IZR k)) = isum (floorR t - w + 1) (Z.to_nat (2 * w)) (fun k => g k * K (t - IZR k)).
Proof.
  intros K w t lo hi g E W O L H. pose proof (floorR_bounds t) as F. set (m := floorR t) in *. pose proof (IZR_lt 0 w W).
  apply isum_core.
  - apply Z.lt_succ_r, Z.add_lt_mono_r with (p := (w - 1)%Z). replace (Z.succ (m - w + 1) + (w - 1))%Z with (m + 1)%Z by lia.
    apply lt_IZR. rewrite !plus_IZR, minus_IZR. lra.
  - cut (m + w <= hi)%Z; [lia|]. apply le_IZR. rewrite plus_IZR. lra.
  - intros k Hk. rewrite (even_at K E), (O (Rabs _)); [ring|]. destruct Hk as [Hk|Hk].
    + assert (k + w <= m)%Z by lia. apply IZR_le in H1. rewrite plus_IZR in H1. rewrite Rabs_right by lra. lra.
    + assert (m + 1 + w <= k)%Z by lia. apply IZR_le in H1. rewrite !plus_IZR in H1. rewrite Rabs_left by lra. lra.
Qed.
Lemma flip : forall K, even K -> forall x y, x = - y -> K x = K y. Proof. intros K E x y ->. apply E. Qed.

Lemma reproduces_linear : reproduces linear_xval 1 2 (fun _ => True).
Proof.
  intros p t lo hi P _ L H. rewrite (window linear_xval 1); auto; [|exact lin_even|lia|exact lin_out].
  destruct (poly_two p P) as [a [b Q]]. pose proof (floorR_bounds t) as F. set (m := floorR t) in *. set (f := t - IZR m).
  assert (B : 0 <= f < 1) by (unfold f; lra). change (Z.to_nat (2 * 1)) with 2%nat. cbn [isum]. rewrite !Q.
  replace (m - 1 + 1)%Z with m by lia. rewrite !plus_IZR. replace (t - IZR m) with f by reflexivity.
  rewrite (flip _ lin_even (t - (IZR m + 1)) (1 - f)) by (unfold f; ring).
  rewrite !lin_in by lra. replace t with (IZR m + f) by (unfold f; ring). ring.
Qed.
Lemma reproduces_cubic : reproduces cubic_xval 2 3 (fun _ => True).
Proof.
  intros p t lo hi P _ L H. rewrite (window cubic_xval 2); auto; [|exact cub_even|lia|exact cub_out].
  destruct (poly_three p P) as [a [b [c Q]]]. pose proof (floorR_bounds t) as F. set (m := floorR t) in *. set (f := t - IZR m).
  assert (B : 0 <= f < 1) by (unfold f; lra). change (Z.to_nat (2 * 2)) with 4%nat. cbn [isum]. rewrite !Q.
  rewrite !plus_IZR, minus_IZR.
  replace (t - (IZR m - 2 + 1)) with (f + 1) by (unfold f; ring). replace (t - (IZR m - 2 + 1 + 1)) with f by (unfold f; ring).
  rewrite (flip _ cub_even (t - (IZR m - 2 + 1 + 1 + 1)) (1 - f)) by (unfold f; ring).
  rewrite (flip _ cub_even (t - (IZR m - 2 + 1 + 1 + 1 + 1)) (2 - f)) by (unfold f; ring).
  rewrite (cub_2 (f + 1)), (cub_1 f), (cub_1 (1 - f)), (cub_2 (2 - f)) by lra.
  replace t with (IZR m + f) by (unfold f; ring). unfold cubic_one, cubic_two. field.
Qed.
Lemma reproduces_quintic : reproduces quintic_xval 3 5 (fun _ => True).
Proof.
  intros p t lo hi P _ L H. rewrite (window quintic_xval 3); auto; [|exact qui_even|lia|exact qui_out].
  destruct (poly_five p P) as [a [b [c [d [e Q]]]]]. pose proof (floorR_bounds t) as F. set (m := floorR t) in *. set (f := t - IZR m).
  assert (B : 0 <= f < 1) by (unfold f; lra). change (Z.to_nat (2 * 3)) with 6%nat. cbn [isum]. rewrite !Q.
  rewrite !plus_IZR, minus_IZR.
  replace (t - (IZR m - 3 + 1)) with (f + 2) by (unfold f; ring). replace (t - (IZR m - 3 + 1 + 1)) with (f + 1) by (unfold f; ring).
  replace (t - (IZR m - 3 + 1 + 1 + 1)) with f by (unfold f; ring).
  rewrite (flip _ qui_even (t - (IZR m - 3 + 1 + 1 + 1 + 1)) (1 - f)) by (unfold f; ring).
  rewrite (flip _ qui_even (t - (IZR m - 3 + 1 + 1 + 1 + 1 + 1)) (2 - f)) by (unfold f; ring).
  rewrite (flip _ qui_even (t - (IZR m - 3 + 1 + 1 + 1 + 1 + 1 + 1)) (3 - f)) by (unfold f; ring).
  rewrite (qui_3 (f + 2)), (qui_2 (f + 1)), (qui_1 f), (qui_1 (1 - f)), (qui_2 (2 - f)), (qui_3 (3 - f)) by lra.
  replace t with (IZR m + f) by (unfold f; ring). unfold quintic_one, quintic_two, quintic_three. field.
Qed.
(** Nearest, off the half integers *)
Lemma nea_in : forall x, -1 / 2 <= x <= 1 / 2 -> nearest_xval x = 1.
Proof. intros x B. unfold nearest_xval. destruct (Rltb_spec (1 / 2) (Rabs x)) as [l|l]; auto. exfalso. revert l. unfold Rabs. destruct (Rcase_abs x); lra. Qed.
Lemma nea_out : forall x, 1 / 2 < Rabs x -> nearest_xval x = 0.
Proof. intros x B. unfold nearest_xval. cases_R; lra. Qed.
Lemma reproduces_nearest : reproduces nearest_xval (1 / 2) 1 (fun t => forall n : Z, t <> IZR n + 1 / 2).
Proof.
  intros p t lo hi P N L H. assert (Q : forall x y, peval p x = peval p y) by (destruct p as [|a [|b p]]; cbn in *; intros; try ring; lia).
  pose proof (floorR_bounds (t + 1 / 2)) as F. set (m := floorR (t + 1 / 2)) in *.
  assert (M : t + 1 / 2 <> IZR m) by (intro E; apply (N (m - 1)%Z); rewrite minus_IZR; lra).
  rewrite (isum_core lo hi m 1).
  - cbn [isum]. rewrite nea_in by lra. rewrite (Q (IZR m) t). ring.
  - apply Zlt_succ_le. apply lt_IZR. rewrite succ_IZR. lra.
  - cut (m <= hi)%Z; [lia|]. apply le_IZR. lra.
  - intros k Hk. apply peval_zero. apply nea_out. destruct Hk as [Hk|Hk].
    + assert (k + 1 <= m)%Z by lia. apply IZR_le in H0. rewrite plus_IZR in H0. rewrite Rabs_right by lra. lra.
    + assert (m + 1 <= k)%Z by lia. apply IZR_le in H0. rewrite !plus_IZR in H0. rewrite Rabs_left by lra. lra.
Qed.
