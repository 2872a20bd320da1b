(** How far Akima's interpolant is from the function tabulated. *)
From Coq Require Import ZArith Reals Bool List Lra Lia Arith.
From Coquelicot Require Import Coquelicot.
From Verif Require Import Base Bounds_Model Bounds_Proofs Akima_Model Akima_Spec Akima_Proofs Akima_Spline.
Import ListNotations.
Open Scope R_scope.

(** * Second derivatives bounded on a segment *)
Ltac known v H := match goal with |- context [Derive ?F ?u] => replace (Derive F u) with v by (symmetry; apply is_derive_unique; exact H) end.
Lemma grows_on : forall (f df : R -> R) a b, a <= b -> (forall t, a <= t <= b -> is_derive f t (df t)) -> (forall t, a <= t <= b -> 0 <= df t) -> f a <= f b.
Proof.
  intros f df a b X D P. destruct (MVT_gen f a b df) as (c & C1 & C2).
  - intros t [A B]. apply D. rewrite Rmin_left in A by lra. rewrite Rmax_right in B by lra. lra.
  - intros t [A B]. rewrite Rmin_left in A by lra. rewrite Rmax_right in B by lra. apply continuity_pt_filterlim, @ex_derive_continuous. exists (df t). apply D. lra.
  - rewrite Rmin_left in C1 by lra. rewrite Rmax_right in C1 by lra. specialize (P c C1). assert (0 <= df c * (b - a)) by (apply Rmult_le_pos; lra). lra.
Qed.
Lemma lipschitz : forall (f df : R -> R) a b M, a <= b -> (forall t, a <= t <= b -> is_derive f t (df t)) -> (forall t, a <= t <= b -> Rabs (df t) <= M) -> Rabs (f b - f a) <= M * (b - a).
Proof.
  intros f df a b M X D P. apply Rabs_le_between. split.
  - assert (H : (fun t => M * t + f t) a <= (fun t => M * t + f t) b); [|cbv beta in H; lra].
    apply (grows_on (fun t => M * t + f t) (fun t => M + df t)); [exact X| |].
    + intros t T. auto_derive; [exists (df t); apply D, T|]. known (df t) (D t T). ring.
    + intros t T. specialize (P t T). apply Rabs_le_between in P. lra.
  - assert (H : (fun t => M * t - f t) a <= (fun t => M * t - f t) b); [|cbv beta in H; lra].
    apply (grows_on (fun t => M * t - f t) (fun t => M - df t)); [exact X| |].
    + intros t T. auto_derive; [exists (df t); apply D, T|]. known (df t) (D t T). ring.
    + intros t T. specialize (P t T). apply Rabs_le_between in P. lra.
Qed.
Section Taylor.
  Variables (f f1 f2 : R -> R) (lo hi M : R).
  Hypothesis D1 : forall t, lo <= t <= hi -> is_derive f t (f1 t).
  Hypothesis D2 : forall t, lo <= t <= hi -> is_derive f1 t (f2 t).
  Hypothesis B2 : forall t, lo <= t <= hi -> Rabs (f2 t) <= M.
  Lemma slopes_near : forall s t, lo <= s <= hi -> lo <= t <= hi -> s <= t -> Rabs (f1 t - f1 s) <= M * (t - s).
  Proof. intros s t S T L. apply (lipschitz f1 f2); auto; intros u U; [apply D2|apply B2]; lra. Qed.
  Lemma taylor_right : forall s t, lo <= s <= hi -> lo <= t <= hi -> s <= t -> Rabs (f t - f s - f1 s * (t - s)) <= M / 2 * ((t - s) * (t - s)).
  Proof.
    intros s t S T L. apply Rabs_le_between. split.
    - assert (H : (fun u => f u - f1 s * (u - s) + M / 2 * ((u - s) * (u - s))) s <= (fun u => f u - f1 s * (u - s) + M / 2 * ((u - s) * (u - s))) t); [|cbv beta in H; lra].
      apply (grows_on (fun u => f u - f1 s * (u - s) + M / 2 * ((u - s) * (u - s))) (fun u => f1 u - f1 s + M * (u - s))); [exact L| |].
      + intros u U. assert (U' : lo <= u <= hi) by lra. auto_derive; [exists (f1 u); apply D1, U'|]. known (f1 u) (D1 u U'). field.
      + intros u U. pose proof (slopes_near s u S ltac:(lra) ltac:(lra)) as H. apply Rabs_le_between in H. lra.
    - assert (H : (fun u => M / 2 * ((u - s) * (u - s)) - (f u - f1 s * (u - s))) s <= (fun u => M / 2 * ((u - s) * (u - s)) - (f u - f1 s * (u - s))) t); [|cbv beta in H; lra].
      apply (grows_on (fun u => M / 2 * ((u - s) * (u - s)) - (f u - f1 s * (u - s))) (fun u => M * (u - s) - (f1 u - f1 s))); [exact L| |].
      + intros u U. assert (U' : lo <= u <= hi) by lra. auto_derive; [exists (f1 u); apply D1, U'|]. known (f1 u) (D1 u U'). field.
      + intros u U. pose proof (slopes_near s u S ltac:(lra) ltac:(lra)) as H. apply Rabs_le_between in H. lra.
  Qed.
  Lemma taylor_left : forall s t, lo <= s <= hi -> lo <= t <= hi -> t <= s -> Rabs (f t - f s - f1 s * (t - s)) <= M / 2 * ((t - s) * (t - s)).
  Proof.
    intros s t S T L. apply Rabs_le_between. split.
    - assert (H : (fun u => - (f u - f1 s * (u - s) + M / 2 * ((u - s) * (u - s)))) t <= (fun u => - (f u - f1 s * (u - s) + M / 2 * ((u - s) * (u - s)))) s); [|cbv beta in H; lra].
      apply (grows_on (fun u => - (f u - f1 s * (u - s) + M / 2 * ((u - s) * (u - s)))) (fun u => - (f1 u - f1 s + M * (u - s)))); [exact L| |].
      + intros u U. assert (U' : lo <= u <= hi) by lra. auto_derive; [exists (f1 u); apply D1, U'|]. known (f1 u) (D1 u U'). field.
      + intros u U. pose proof (slopes_near u s ltac:(lra) S ltac:(lra)) as H. apply Rabs_le_between in H. lra.
    - assert (H : (fun u => - (M / 2 * ((u - s) * (u - s)) - (f u - f1 s * (u - s)))) t <= (fun u => - (M / 2 * ((u - s) * (u - s)) - (f u - f1 s * (u - s)))) s); [|cbv beta in H; lra].
      apply (grows_on (fun u => - (M / 2 * ((u - s) * (u - s)) - (f u - f1 s * (u - s)))) (fun u => - (M * (u - s) - (f1 u - f1 s)))); [exact L| |].
      + intros u U. assert (U' : lo <= u <= hi) by lra. auto_derive; [exists (f1 u); apply D1, U'|]. known (f1 u) (D1 u U'). field.
      + intros u U. pose proof (slopes_near u s ltac:(lra) S ltac:(lra)) as H. apply Rabs_le_between in H. lra.
  Qed.
  (** The chord is within M w / 2 of the slope at either end, two neighbouring chords within M (w + w') / 2 of each other. *)
  Lemma quot_near : forall a b v e, 0 < b -> Rabs (a - v * b) <= e * b -> Rabs (a / b - v) <= e.
  Proof.
    intros a b v e B H. replace (a / b - v) with ((a - v * b) / b) by (field; lra). unfold Rdiv. rewrite Rabs_mult, (Rabs_pos_eq (/ b)) by (left; apply Rinv_0_lt_compat, B).
    apply (Rmult_le_reg_r b); [exact B|]. rewrite Rmult_assoc, Rinv_l by lra. lra.
  Qed.
  Lemma chords_near : forall a b c, lo <= a -> a < b -> b < c -> c <= hi ->
    Rabs ((f c - f b) / (c - b) - (f b - f a) / (b - a)) <= M * (c - a) / 2.
  Proof.
    intros a b c A B C H. assert (E1 : Rabs ((f c - f b) / (c - b) - f1 b) <= M * (c - b) / 2).
    { apply quot_near; [lra|]. pose proof (taylor_right b c ltac:(lra) ltac:(lra) ltac:(lra)) as T. eapply Rle_trans; [exact T|]. right. field. }
    assert (E2 : Rabs ((f b - f a) / (b - a) - f1 b) <= M * (b - a) / 2).
    { apply quot_near; [lra|]. pose proof (taylor_left b a ltac:(lra) ltac:(lra) ltac:(lra)) as T. rewrite <- Rabs_Ropp.
      replace (- (f b - f a - f1 b * (b - a))) with (f a - f b - f1 b * (a - b)) by ring. eapply Rle_trans; [exact T|]. right. field. }
    apply Rabs_le_between in E1. apply Rabs_le_between in E2. apply Rabs_le_between. lra.
  Qed.
  Lemma linear_near : forall a b t, lo <= a -> a < b -> b <= hi -> a <= t <= b ->
    Rabs (f a + (f b - f a) / (b - a) * (t - a) - f t) <= M / 8 * ((b - a) * (b - a)).
  Proof.
    intros a b t A B H T. assert (M0 : 0 <= M) by (eapply Rle_trans; [apply Rabs_pos|apply (B2 a); lra]).
    pose proof (taylor_left t a ltac:(lra) ltac:(lra) ltac:(lra)) as Ta. pose proof (taylor_right t b ltac:(lra) ltac:(lra) ltac:(lra)) as Tb.
    set (ra := f a - f t - f1 t * (a - t)) in *. set (rb := f b - f t - f1 t * (b - t)) in *.
    replace (f a + (f b - f a) / (b - a) * (t - a) - f t) with (((b - t) * ra + (t - a) * rb) / (b - a)) by (unfold ra, rb; field; lra).
    replace (((b - t) * ra + (t - a) * rb) / (b - a)) with (((b - t) * ra + (t - a) * rb) / (b - a) - 0) by ring. apply quot_near; [lra|]. rewrite Rmult_0_l, Rminus_0_r.
    eapply Rle_trans; [apply Rabs_triang|]. rewrite !Rabs_mult, (Rabs_pos_eq (b - t)), (Rabs_pos_eq (t - a)) by lra.
    assert (P1 : (b - t) * Rabs ra <= (b - t) * (M / 2 * ((a - t) * (a - t)))) by (apply Rmult_le_compat_l; lra).
    assert (P2 : (t - a) * Rabs rb <= (t - a) * (M / 2 * ((b - t) * (b - t)))) by (apply Rmult_le_compat_l; lra).
    assert (Q : (t - a) * (b - t) <= (b - a) * (b - a) / 4) by (pose proof (pow2_ge_0 ((t - a) - (b - t))); nra).
    replace ((b - t) * (M / 2 * ((a - t) * (a - t)))) with (M / 2 * ((t - a) * (b - t)) * (t - a)) in P1 by ring.
    replace ((t - a) * (M / 2 * ((b - t) * (b - t)))) with (M / 2 * ((t - a) * (b - t)) * (b - t)) in P2 by ring.
    assert (P3 : M / 2 * ((t - a) * (b - t)) * (b - a) <= M / 2 * ((b - a) * (b - a) / 4) * (b - a)) by (apply Rmult_le_compat_r; [lra|]; apply Rmult_le_compat_l; lra). lra.
  Qed.
End Taylor.

(** * Cubics *)
Lemma hermite_near : forall x0 y0 s0 x1 y1 s1 t A, x0 < x1 -> x0 <= t <= x1 -> Rabs (s0 - (y1 - y0) / (x1 - x0)) <= A -> Rabs (s1 - (y1 - y0) / (x1 - x0)) <= A ->
  Rabs (hermite x0 y0 s0 x1 y1 s1 t - (y0 + (y1 - y0) / (x1 - x0) * (t - x0))) <= (x1 - x0) / 4 * A.
Proof.
  intros x0 y0 s0 x1 y1 s1 t A L T H0 H1. set (m := (y1 - y0) / (x1 - x0)) in *. set (w := x1 - x0) in *. assert (W : 0 < w) by (unfold w; lra).
  set (u := (t - x0) / w). assert (U : 0 <= u <= 1). { unfold u. split; [apply Rmult_le_pos; [lra|left; now apply Rinv_0_lt_compat]|]. apply (Rmult_le_reg_r w); [exact W|]. unfold Rdiv. rewrite Rmult_assoc, Rinv_l by lra. unfold w. lra. }
  assert (E : hermite x0 y0 s0 x1 y1 s1 t - (y0 + m * (t - x0)) = w * (u * (1 - u)) * ((1 - u) * (s0 - m) - u * (s1 - m))).
  { unfold hermite. fold w. fold m. cbv zeta. replace (t - x0) with (w * u) by (unfold u; field; lra). field. lra. }
  rewrite E, Rabs_mult, (Rabs_pos_eq (w * (u * (1 - u)))) by (apply Rmult_le_pos; [lra|apply Rmult_le_pos; lra]).
  assert (Q : u * (1 - u) <= 1 / 4) by (pose proof (pow2_ge_0 (u - 1 / 2)); nra). assert (Q0 : 0 <= u * (1 - u)) by (apply Rmult_le_pos; lra).
  assert (B : Rabs ((1 - u) * (s0 - m) - u * (s1 - m)) <= A).
  { eapply Rle_trans; [apply Rabs_triang|]. rewrite Rabs_Ropp, !Rabs_mult, (Rabs_pos_eq u), (Rabs_pos_eq (1 - u)) by lra.
    assert ((1 - u) * Rabs (s0 - m) <= (1 - u) * A) by (apply Rmult_le_compat_l; lra). assert (u * Rabs (s1 - m) <= u * A) by (apply Rmult_le_compat_l; lra). lra. }
  apply Rle_trans with (w * (1 / 4) * A); [|lra]. apply Rmult_le_compat; [apply Rmult_le_pos; lra|apply Rabs_pos| |exact B]. apply Rmult_le_compat_l; lra.
Qed.
(** Akima's slope lies between the two middle chords. *)
Lemma akima_between : forall m i d, Rabs (m i - m (i - 1)%nat) <= d -> Rabs (akima_slope m i - m i) <= d /\ Rabs (akima_slope m i - m (i - 1)%nat) <= d.
Proof.
  intros m i d H. unfold akima_slope. set (w := Rabs (m (i + 1)%nat - m i)). set (w' := Rabs (m (i - 1)%nat - m (i - 2)%nat)).
  assert (W : 0 <= w) by apply Rabs_pos. assert (W' : 0 <= w') by apply Rabs_pos. set (a := m (i - 1)%nat) in *. set (b := m i) in *.
  assert (D : 0 <= d) by (eapply Rle_trans; [apply Rabs_pos|exact H]).
  destruct (Rlt_dec (w + w') (/ 1000000000000)) as [c|c].
  - apply Rabs_le_between in H. split; apply Rabs_le_between; lra.
  - assert (P : 0 < w + w') by lra.
    assert (K : forall v, 0 <= v <= w + w' -> Rabs ((b - a) * (v / (w + w'))) <= d).
    { intros v V. rewrite Rabs_mult. assert (Z : 0 <= v / (w + w') <= 1). { split; [apply Rmult_le_pos; [lra|left; now apply Rinv_0_lt_compat]|]. apply (Rmult_le_reg_r (w + w')); [exact P|]. unfold Rdiv. rewrite Rmult_assoc, Rinv_l by lra. lra. }
      rewrite (Rabs_pos_eq (v / _)) by lra. rewrite <- (Rmult_1_r d). apply Rmult_le_compat; try lra. apply Rabs_pos. }
    split.
    + replace ((w * a + w' * b) / (w + w') - b) with (- ((b - a) * (w / (w + w')))) by (field; lra). rewrite Rabs_Ropp. apply K. lra.
    + replace ((w * a + w' * b) / (w + w') - a) with ((b - a) * (w' / (w + w'))) by (field; lra). apply K. lra.
Qed.

(** * The interpolant *)
Section Error.
  Variables (x y : list R).
  Hypothesis T : table x y.
  Variables (f f1 f2 : R -> R) (g h M e : R).
  Notation lo := (nth 0 x 0).
  Notation hi := (nth (length x - 1) x 0).
  Hypothesis D1 : forall t, lo <= t <= hi -> is_derive f t (f1 t).
  Hypothesis D2 : forall t, lo <= t <= hi -> is_derive f1 t (f2 t).
  Hypothesis B2 : forall t, lo <= t <= hi -> Rabs (f2 t) <= M.
  Hypothesis G : 0 < g.
  Hypothesis W : forall i, (S i < length x)%nat -> g <= nth (S i) x 0 - nth i x 0 <= h.
  Hypothesis Y : forall i, (i < length x)%nat -> Rabs (nth i y 0 - f (nth i x 0)) <= e.
  Lemma inside : forall i, (i < length x)%nat -> lo <= nth i x 0 <= hi.
  Proof. intros i I. pose proof (incr x y T) as X. split; apply increasing_le; auto; lia. Qed.
  Lemma M_pos : 0 <= M.
  Proof. eapply Rle_trans; [apply Rabs_pos|apply (B2 lo)]. pose proof (inside 0 ltac:(pose proof (len3 x y T); lia)). lra. Qed.
  Lemma e_pos : 0 <= e.
  Proof. eapply Rle_trans; [apply Rabs_pos|apply (Y 0)]. pose proof (len3 x y T). lia. Qed.
  Definition jump : R := M * h + 4 * e / g.
  Lemma chord_true : forall i, (S i < length x)%nat -> Rabs (chord x y i - (f (nth (S i) x 0) - f (nth i x 0)) / (nth (S i) x 0 - nth i x 0)) <= 2 * e / g.
  Proof.
    intros i I. pose proof (W i I) as Wi. pose proof (Y i ltac:(lia)) as Y0. pose proof (Y (S i) I) as Y1. pose proof e_pos as E0. unfold chord.
    set (w := nth (S i) x 0 - nth i x 0) in *. apply quot_near; [lra|].
    replace ((f (nth (S i) x 0) - f (nth i x 0)) / w * w) with (f (nth (S i) x 0) - f (nth i x 0)) by (field; lra).
    apply Rle_trans with (2 * e / g * g).
    - replace (2 * e / g * g) with (2 * e) by (field; lra). apply Rabs_le_between in Y0. apply Rabs_le_between in Y1. apply Rabs_le_between. lra.
    - apply Rmult_le_compat_l; [|lra]. apply Rmult_le_pos; [lra|left; now apply Rinv_0_lt_compat].
  Qed.
  Lemma chord_jump : forall i, (S (S i) < length x)%nat -> Rabs (chord x y (S i) - chord x y i) <= jump.
  Proof.
    intros i I. pose proof (chord_true i ltac:(lia)) as A. pose proof (chord_true (S i) I) as B. pose proof (W i ltac:(lia)) as W0. pose proof (W (S i) I) as W1.
    pose proof (inside i ltac:(lia)) as I0. pose proof (inside (S (S i)) I) as I2. pose proof M_pos as M0.
    pose proof (chords_near f f1 f2 lo hi M D1 D2 B2 (nth i x 0) (nth (S i) x 0) (nth (S (S i)) x 0) ltac:(lra) ltac:(lra) ltac:(lra) ltac:(lra)) as C.
    assert (K : M * (nth (S (S i)) x 0 - nth i x 0) / 2 <= M * h) by (assert (M * (nth (S (S i)) x 0 - nth i x 0) <= M * (2 * h)) by (apply Rmult_le_compat_l; lra); lra).
    unfold jump. replace (4 * e / g) with (2 * e / g + 2 * e / g) by (field; lra). apply Rabs_le_between in A. apply Rabs_le_between in B. apply Rabs_le_between in C. apply Rabs_le_between. lra.
  Qed.
  Lemma jump_pos : 0 <= jump.
  Proof. eapply Rle_trans; [apply Rabs_pos|apply (chord_jump 0)]. pose proof (len3 x y T). lia. Qed.
  Lemma slope_left : forall i, (S i < length x)%nat -> Rabs (sl x y i - chord x y i) <= 3 / 2 * jump.
  Proof.
    intros i I. pose proof (len3 x y T) as L. pose proof jump_pos as J. destruct (slope_cases x y T) as (S0 & S1 & Si & Sm & Sn).
    destruct (Nat.eq_dec i 0) as [->|N0]. { rewrite S0, Rminus_eq_0, Rabs_R0. lra. }
    destruct (Nat.eq_dec i 1) as [->|N1].
    { pose proof (chord_jump 0 ltac:(lia)) as A. rewrite S1. apply Rabs_le_between in A. apply Rabs_le_between. lra. }
    destruct (Nat.eq_dec i (length x - 2)) as [E|N2].
    { rewrite E, Sm by lia. pose proof (chord_jump (length x - 4) ltac:(lia)) as A. pose proof (chord_jump (length x - 3) ltac:(lia)) as B.
      replace (S (length x - 4)) with (length x - 3)%nat in A by lia. replace (S (length x - 3)) with (length x - 2)%nat in B by lia.
      apply Rabs_le_between in A. apply Rabs_le_between in B. apply Rabs_le_between. lra. }
    rewrite Si by lia. pose proof (chord_jump (i - 1) ltac:(lia)) as A. replace (S (i - 1)) with i in A by lia.
    destruct (akima_between (chord x y) i jump A) as [K _]. lra.
  Qed.
  Lemma slope_right : forall i, (S i < length x)%nat -> Rabs (sl x y (S i) - chord x y i) <= 3 / 2 * jump.
  Proof.
    intros i I. pose proof (len3 x y T) as L. pose proof jump_pos as J. destruct (slope_cases x y T) as (S0 & S1 & Si & Sm & Sn).
    destruct (Nat.eq_dec (S i) (length x - 1)) as [E|N1].
    { rewrite E, Sn. pose proof (chord_jump (length x - 3) ltac:(lia)) as B. replace (S (length x - 3)) with i in B by lia. apply Rabs_le_between in B. apply Rabs_le_between. lra. }
    destruct (Nat.eq_dec i 0) as [->|N0].
    { pose proof (chord_jump 0 ltac:(lia)) as A. rewrite S1. apply Rabs_le_between in A. apply Rabs_le_between. lra. }
    destruct (Nat.eq_dec (S i) (length x - 2)) as [E|N2].
    { rewrite E, Sm by lia. pose proof (chord_jump (length x - 4) ltac:(lia)) as A. replace (S (length x - 4)) with i in A by lia. replace (length x - 3)%nat with i by lia.
      apply Rabs_le_between in A. apply Rabs_le_between. lra. }
    rewrite Si by lia. pose proof (chord_jump i ltac:(lia)) as A. destruct (akima_between (chord x y) (S i) jump) as [_ K]; [replace (S i - 1)%nat with i by lia; exact A|].
    replace (S i - 1)%nat with i in K by lia. lra.
  Qed.
  Lemma interp_error : forall j t, lo <= t <= hi -> Rabs (interp x y j false t - f t) <= M * (h * h) / 2 + e * (1 + 3 / 2 * (h / g)).
  Proof.
    intros j t B. destruct (find_piece x y T t B) as (i & I & P & _). rewrite (interp_piece x y T j t i I P). unfold piece.
    pose proof (W i I) as Wi. pose proof (inside i ltac:(lia)) as I0. pose proof (inside (S i) I) as I1. pose proof jump_pos as J. pose proof M_pos as M0.
    pose proof (hermite_near (nth i x 0) (nth i y 0) (sl x y i) (nth (S i) x 0) (nth (S i) y 0) (sl x y (S i)) t (3 / 2 * jump) ltac:(lra) P (slope_left i I) (slope_right i I)) as H1.
    pose proof (linear_near f f1 f2 lo hi M D1 D2 B2 (nth i x 0) (nth (S i) x 0) t ltac:(lra) ltac:(lra) ltac:(lra) P) as H2.
    pose proof (Y i ltac:(lia)) as Y0. pose proof (Y (S i) I) as Y1. set (a := nth i x 0) in *. set (b := nth (S i) x 0) in *. set (ya := nth i y 0) in *. set (yb := nth (S i) y 0) in *.
    set (w := b - a) in *. set (u := (t - a) / w). assert (U : 0 <= u <= 1). { unfold u. split; [apply Rmult_le_pos; [lra|left; apply Rinv_0_lt_compat; lra]|]. apply (Rmult_le_reg_r w); [lra|]. unfold Rdiv. rewrite Rmult_assoc, Rinv_l by lra. unfold w. lra. }
    assert (H3 : Rabs ((ya + (yb - ya) / w * (t - a)) - (f a + (f b - f a) / w * (t - a))) <= e).
    { replace ((ya + (yb - ya) / w * (t - a)) - (f a + (f b - f a) / w * (t - a))) with ((1 - u) * (ya - f a) + u * (yb - f b)) by (unfold u; field; lra).
      eapply Rle_trans; [apply Rabs_triang|]. rewrite !Rabs_mult, (Rabs_pos_eq u), (Rabs_pos_eq (1 - u)) by lra.
      assert ((1 - u) * Rabs (ya - f a) <= (1 - u) * e) by (apply Rmult_le_compat_l; lra). assert (u * Rabs (yb - f b) <= u * e) by (apply Rmult_le_compat_l; lra). lra. }
    assert (H4 : w / 4 * (3 / 2 * jump) <= 3 / 8 * (M * (h * h)) + 3 / 2 * (e * (h / g))).
    { apply Rle_trans with (h / 4 * (3 / 2 * jump)); [apply Rmult_le_compat_r; lra|]. right. unfold jump. field. lra. }
    assert (H5 : M / 8 * (w * w) <= M / 8 * (h * h)) by (apply Rmult_le_compat_l; [lra|]; apply Rmult_le_compat; lra).
    apply Rabs_le_between in H1. apply Rabs_le_between in H2. apply Rabs_le_between in H3. apply Rabs_le_between. lra.
  Qed.
End Error.
