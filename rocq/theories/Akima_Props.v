(** Properties C70 (Akima interpolation) and C94 (its symmetries). *)
From Coq Require Import ZArith Reals Bool List Lra Lia.
From Verif Require Import Base Bounds_Model Bounds_Proofs Akima_Model Akima_Spec Akima_Proofs Akima_Spline Akima_Sym.
Import ListNotations.
Open Scope R_scope.

(** * C70 *)
Theorem C70_through_data : forall x y j f i, table x y -> (f = true -> evenly x) -> (i < length x)%nat -> interp x y j f (nth i x 0) = nth i y 0.
Proof. intros x y j [|] i T E I; [rewrite interp_fixed by auto|]; now apply interp_data. Qed.
Print Assumptions C70_through_data.
(** It has a continuous derivative inside the range. *)
Theorem C70_smooth : forall x y j, table x y -> exists g,
  forall t, nth 0 x 0 < t < nth (length x - 1) x 0 -> derivable_pt_lim (interp x y j false) t (g t) /\ continuity_pt g t.
Proof. intros x y j T. exists (dinterp x y). intros t B. now apply interp_C1. Qed.
Print Assumptions C70_smooth.
Theorem C70_zero_outside : forall x y j f t, t < nth 0 x 0 \/ nth (length x - 1) x 0 < t -> interp x y j f t = 0.
Proof. intros x y j f t. exact (interp_outside x y j f t). Qed.
Print Assumptions C70_zero_outside.
Theorem C70_lines : forall x y j t p q, table x y -> (forall i, (i < length x)%nat -> nth i y 0 = p + q * nth i x 0) ->
  nth 0 x 0 <= t <= nth (length x - 1) x 0 -> interp x y j false t = p + q * t.
Proof.
  intros x y j t p q T L B. set (z := map (fun _ => 0) y). assert (ZL : length x = length z) by (unfold z; rewrite map_length; apply T).
  assert (ZN : forall i, nth i z 0 = 0). { intro i. unfold z. rewrite (map_nth (fun _ : R => 0) y 0 i). reflexivity. }
  assert (TZ : table x z) by (destruct T as [A [N D]]; split; auto).
  assert (E : y = affine 1 p q x z).
  { apply (nth_ext _ _ 0 0); [rewrite affine_length by auto; symmetry; apply T|]. intros i I. replace (length y) with (length x) in I by apply T.
    rewrite affine_nth by auto. rewrite ZN, L by auto. ring. }
  rewrite E, interp_affine by (auto; intros; rewrite Rabs_R1, Rmult_1_l; tauto). rewrite interp_zero by auto. ring.
Qed.
Print Assumptions C70_lines.
(** The two lookups agree on evenly spaced tables, the coefficients computed on the host and by JAX on all. *)
Theorem C70_lookups_agree : forall x y j t, table x y -> evenly x -> interp x y j true t = interp x y j false t.
Proof. intros x y j t T E. now apply interp_fixed. Qed.
Print Assumptions C70_lookups_agree.
Theorem C70_host_and_device_agree : forall x y, table x y -> akima_interp_coeffs x y true = akima_interp_coeffs x y false.
Proof. intros x y T. now rewrite !coeffs_jax. Qed.
Print Assumptions C70_host_and_device_agree.
(** Slopes at the points: Akima's rule inside, and what the code uses at the ends. *)
Theorem C70_slopes : forall x y, table x y -> exists s,
  (forall j t, nth 0 x 0 < t < nth (length x - 1) x 0 -> derivable_pt_lim (interp x y j false) t (s t)) /\
  s (nth 0 x 0) = chord x y 0 /\ s (nth 1 x 0) = (chord x y 0 + chord x y 1) / 2 /\
  (forall i, (2 <= i)%nat -> (i + 3 <= length x)%nat -> s (nth i x 0) = akima_slope (chord x y) i) /\
  ((4 <= length x)%nat -> s (nth (length x - 2) x 0) = (chord x y (length x - 4) + chord x y (length x - 3)) / 2) /\
  s (nth (length x - 1) x 0) = chord x y (length x - 3).
Proof.
  intros x y T. exists (dinterp x y). split; [intros j t B; now apply interp_C1|]. pose proof (len3 x y T).
  rewrite !dinterp_knot by (auto; lia). destruct (slope_cases x y T) as [A [B [D [E F]]]]. repeat split; auto.
  - intros. rewrite dinterp_knot by (auto; lia). auto.
Qed.
Print Assumptions C70_slopes.
Example C70_witness : let x := [0; 1; 2; 3; 4] in let y := [0; 0; 0; 1; 4] in table x y /\ evenly x /\ chord x y 3 = 3 /\ akima_slope (chord x y) 2 = 0.
Proof.
  cbv zeta. assert (T : table [0; 1; 2; 3; 4] [0; 0; 0; 1; 4]).
  { split; [reflexivity|]. split; [cbn; lia|]. intros i I. destruct i as [|[|[|[|i]]]]; cbn in *; try lra; lia. }
  split; [exact T|]. split.
  - exists 1. split; [lra|]. intros i I. destruct i as [|[|[|[|[|i]]]]]; cbn in *; try lra; lia.
  - unfold akima_slope, chord. cbn [nth Nat.add Nat.sub]. split; [lra|].
    replace ((4 - 1) / (4 - 3) - (1 - 0) / (3 - 2)) with 2 by lra. replace ((0 - 0) / (2 - 1) - (0 - 0) / (1 - 0)) with 0 by lra.
    rewrite Rabs_R0, Rabs_right by lra. destruct (Rlt_dec _ _); lra.
Qed.

(** * C94 *)
(** Adding a straight line to the data adds it to the interpolant; scaling the data scales it as long as no
    weight crosses the absolute threshold 1e-12. *)
Theorem C94_affine_partial : forall k p q x y j t, table x y -> nth 0 x 0 <= t <= nth (length x - 1) x 0 ->
  (forall i, (2 <= i)%nat -> (i + 3 <= length x)%nat -> weight (chord x y) i < / 1000000000000 <-> Rabs k * weight (chord x y) i < / 1000000000000) ->
  interp x (affine k p q x y) j false t = k * interp x y j false t + (p + q * t).
Proof. exact interp_affine. Qed.
Print Assumptions C94_affine_partial.
Theorem C94_add_line : forall p q x y j t, table x y -> nth 0 x 0 <= t <= nth (length x - 1) x 0 ->
  interp x (affine 1 p q x y) j false t = interp x y j false t + (p + q * t).
Proof. intros. rewrite interp_affine by (auto; intros; rewrite Rabs_R1, Rmult_1_l; tauto). ring. Qed.
Print Assumptions C94_add_line.
(** Full statement: scaling the data scales the interpolant. False for small data. *)
Theorem C94_scale_refuted : ~ (forall k x y j t, table x y -> nth 0 x 0 <= t <= nth (length x - 1) x 0 ->
  interp x (affine k 0 0 x y) j false t = k * interp x y j false t).
Proof.
  intro F. set (x := [0; 1; 2; 3; 4]). set (y := [0; 0; 0; 1; 4]). set (k := / 10000000000000).
  assert (T : table x y) by apply C70_witness. specialize (F k x y true (5 / 2) T ltac:(cbn; lra)).
  pose proof (affine_table k 0 0 x y T) as T'.
  rewrite (interp_piece x y T true (5 / 2) 2) in F by (cbn; try lia; lra).
  rewrite (interp_piece x _ T' true (5 / 2) 2) in F by (cbn; try lia; lra).
  destruct (slope_cases x y T) as [_ [_ [A [B _]]]]. destruct (slope_cases x _ T') as [_ [_ [A' [B' _]]]].
  change (length x) with 5%nat in *. specialize (A 2%nat ltac:(lia) ltac:(lia)). specialize (A' 2%nat ltac:(lia) ltac:(lia)).
  specialize (B ltac:(lia)). specialize (B' ltac:(lia)). cbn [Nat.sub] in B, B'.
  assert (C : forall i, (i < 4)%nat -> chord x (affine k 0 0 x y) i = k * chord x y i + 0) by (intros; apply affine_chord; auto; cbn; lia).
  unfold akima_slope in A'. cbn [Nat.add Nat.sub] in A'. rewrite (C 0%nat), (C 1%nat), (C 2%nat), (C 3%nat) in A' by lia. rewrite (C 1%nat), (C 2%nat) in B' by lia.
  assert (S2 : sl x y 2 = 0) by (rewrite A; apply C70_witness). clear A.
  unfold piece in F. rewrite S2, A', B, B' in F. unfold chord, x, y, affine in F. cbn [nth map2] in F.
  replace (k * ((4 - 1) / (4 - 3)) + 0 - (k * ((1 - 0) / (3 - 2)) + 0)) with (2 * k) in F by (field).
  replace (k * ((0 - 0) / (2 - 1)) + 0 - (k * ((0 - 0) / (1 - 0)) + 0)) with 0 in F by field.
  rewrite Rabs_R0, (Rabs_right (2 * k)) in F by (unfold k; lra). destruct (Rlt_dec (2 * k + 0) (/ 1000000000000)) as [l|l]; [|unfold k in l; lra].
  unfold hermite in F. unfold k in F. lra.
Qed.
Print Assumptions C94_scale_refuted.
(** Reading the table from the other end mirrors the interpolant away from the ends... *)
Theorem C94_mirror_partial : forall x y j t, table x y -> (6 <= length x)%nat -> nth 2 x 0 <= t <= nth (length x - 3) x 0 ->
  interp (mirror x) (rev y) j false (- t) = interp x y j false t.
Proof. exact mirror_inner. Qed.
Print Assumptions C94_mirror_partial.
(** ... but not near them (full statement: for all t in the range): the slopes at the last two points come
    from the chords one place before the last ones, see [C70_slopes]. *)
Theorem C94_mirror_refuted : ~ (forall x y j t, table x y -> nth 0 x 0 <= t <= nth (length x - 1) x 0 ->
  interp (mirror x) (rev y) j false (- t) = interp x y j false t).
Proof.
  intro F. set (x := [0; 1; 2; 3; 4]). set (y := [0; 0; 0; 0; 1]).
  assert (T : table x y).
  { split; [reflexivity|]. split; [cbn; lia|]. intros i I. destruct i as [|[|[|[|i]]]]; cbn in *; try lra; lia. }
  specialize (F x y true (7 / 2) T ltac:(cbn; lra)). pose proof (mirror_table x y T) as T'.
  rewrite (interp_piece x y T true (7 / 2) 3) in F by (cbn; try lia; lra).
  rewrite (interp_piece _ _ T' true (- (7 / 2)) 0) in F by (cbn; try lia; lra).
  destruct (slope_cases x y T) as [_ [_ [_ [A B]]]]. destruct (slope_cases _ _ T') as [A' [B' _]]. specialize (A ltac:(cbn; lia)).
  change (length x - 2)%nat with 3%nat in A. change (length x - 1)%nat with 4%nat in B. change (length x - 3)%nat with 2%nat in *. change (length x - 4)%nat with 1%nat in *.
  unfold piece in F. rewrite A, B, A', B' in F. unfold chord, x, y, mirror, hermite in F. cbn [nth map rev app] in F.
  replace (- (3) - - (4)) with 1 in F by ring. replace (- (2) - - (3)) with 1 in F by ring. lra.
Qed.
Print Assumptions C94_mirror_refuted.
(** In particular the slope at the last point is not that of the last chord. *)
Theorem C94_last_slope_refuted : exists x y, table x y /\ forall s, (forall t, nth 0 x 0 < t < nth (length x - 1) x 0 -> derivable_pt_lim (interp x y true false) t (s t)) ->
  limit1_in s (fun t => 3 < t < 4) 0 4 /\ chord x y 3 = 1 /\ nth (length x - 1) x 0 = 4.
Proof.
  exists [0; 1; 2; 3; 4], [0; 0; 0; 0; 1]. set (x := [0; 1; 2; 3; 4]). set (y := [0; 0; 0; 0; 1]).
  assert (T : table x y).
  { split; [reflexivity|]. split; [cbn; lia|]. intros i I. destruct i as [|[|[|[|i]]]]; cbn in *; try lra; lia. }
  split; [exact T|]. intros s HS. split; [|split; [unfold chord; cbn; lra | reflexivity]].
  destruct (slope_cases x y T) as [_ [_ [_ [A B]]]]. specialize (A ltac:(cbn; lia)).
  change (length x - 2)%nat with 3%nat in A. change (length x - 1)%nat with 4%nat in B. change (length x - 3)%nat with 2%nat in *. change (length x - 4)%nat with 1%nat in *.
  assert (E : forall t, 3 < t < 4 -> s t = dpiece x y 3 t).
  { intros t BT. rewrite <- (dinterp_piece x y T t 3) by (cbn; try lia; lra). eapply uniqueness_limite; [apply HS; cbn; lra|]. apply interp_C1; auto. cbn. unfold last. cbn. lra. }
  intros eps HE. destruct (dhermite_cont (nth 3 x 0) (nth 3 y 0) (sl x y 3) (nth 4 x 0) (nth 4 y 0) (sl x y 4) 4 eps HE) as [d [D H]].
  exists d. split; auto. intros t [BT DT]. rewrite (E t BT). specialize (H t ltac:(split; [split; [exact I | lra]|exact DT])).
  replace (dhermite (nth 3 x 0) (nth 3 y 0) (sl x y 3) (nth 4 x 0) (nth 4 y 0) (sl x y 4) 4) with 0 in H; [exact H|].
  pose proof (dhermite_right (nth 3 x 0) (nth 3 y 0) (sl x y 3) (nth 4 x 0) (nth 4 y 0) (sl x y 4) ltac:(cbn; lra)) as DR.
  change (nth 4 x 0) with 4 in *. rewrite DR, B. unfold chord. cbn. lra.
Qed.
Print Assumptions C94_last_slope_refuted.
Example C94_witness : table (mirror [0; 1; 3; 4; 5; 6]) (rev [2; 0; 0; 1; 1; 5]) /\ weight (fun i => INR i) 2 = 2.
Proof.
  split.
  - apply mirror_table. split; [reflexivity|]. split; [cbn; lia|]. intros i I. destruct i as [|[|[|[|[|i]]]]]; cbn in *; try lra; lia.
  - unfold weight. cbn. rewrite !Rabs_right by lra. lra.
Qed.
