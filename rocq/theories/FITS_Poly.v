(** Surfaces: Horner's rule, sums of products of powers, slopes, and the remainder of Newton's step. *)
From Coq Require Import ZArith Reals Bool List Lra Lia.
From Coquelicot Require Import Coquelicot.
From Verif Require Import Base Bounds_Model Bounds_Proofs Geo_Model Geo_Proofs Util_Model Util_Spec Util_Proofs FITS_Spec FITS_Model.
Import ListNotations.
Open Scope R_scope.

Lemma ent_coef : forall m, ent m = coef m. Proof. reflexivity. Qed.
Lemma sumf_zero : forall n, sumf n (fun _ => 0) = 0.
Proof. induction n as [|n IH]; [reflexivity|]. rewrite sumf_S, IH. ring. Qed.
Lemma sumf_last : forall n f, sumf (S n) f = sumf n f + f n.
Proof.
  induction n as [|n IH]; intro f; [unfold sumf; cbn; ring|]. rewrite sumf_S, IH, (sumf_S n). ring.
Qed.
Lemma sumf_plus : forall n f g, sumf n (fun i => f i + g i) = sumf n f + sumf n g.
Proof. induction n as [|n IH]; intros f g; [unfold sumf; cbn; ring|]. rewrite !sumf_S, IH. ring. Qed.
Lemma sumf_le : forall n f g, (forall i, (i < n)%nat -> f i <= g i) -> sumf n f <= sumf n g.
Proof. induction n as [|n IH]; intros f g H; [unfold sumf; cbn; lra|]. rewrite !sumf_S. apply Rplus_le_compat; [apply H; lia|]. apply IH. intros. apply H. lia. Qed.
Lemma sumf_abs : forall n f, Rabs (sumf n f) <= sumf n (fun i => Rabs (f i)).
Proof.
  induction n as [|n IH]; intro f; [unfold sumf; cbn; rewrite Rabs_R0; lra|]. rewrite !sumf_S. eapply Rle_trans; [apply Rabs_triang|].
  apply Rplus_le_compat_l, IH.
Qed.
Lemma sumf_derive : forall n (f : nat -> R -> R) d t, (forall i, (i < n)%nat -> is_derive (f i) t (d i)) -> is_derive (fun s => sumf n (fun i => f i s)) t (sumf n d).
Proof.
  induction n as [|n IH]; intros f d t H. { unfold sumf; cbn. apply (is_derive_const 0). }
  eapply is_derive_ext. { intro s. symmetry. apply sumf_S. } rewrite sumf_S. apply (is_derive_plus (f 0%nat) (fun s => sumf n (fun i => f (S i) s))).
  - apply H. lia.
  - apply (IH (fun i => f (S i)) (fun i => d (S i))). intros. apply H. lia.
Qed.

(** * Horner *)
Lemma square_row : forall n m i, square n m -> (i < n)%nat -> length (nth i m []) = n.
Proof. intros n m i [L F] H. rewrite List.Forall_forall in F. apply F, nth_In. lia. Qed.
Lemma horner_low : forall n m x y, square n m -> horner2d_at x y m true = surface n (low n (coef m)) x y.
Proof.
  intros n m x y H. rewrite horner2d_triangle. unfold poly2, surface. destruct H as [L F]. rewrite L. apply sumf_ext. intros i Hi.
  rewrite (square_row n m i (conj L F) Hi). apply sumf_ext. intros j Hj. unfold low, coef. cbn [andb].
  destruct (Nat.leb_spec n (i + j)), (Nat.ltb_spec (i + j) n); try lia; ring.
Qed.
Lemma apply_ab_warp : forall n d p, square n (fst d) -> square n (snd d) -> apply_ab p d = warp n d p.
Proof. intros n d p A B. unfold apply_ab, warp. now rewrite (horner_low n), (horner_low n). Qed.

(** * Sums of products of powers *)
Lemma rdot_sumf : forall n a b, length a = n -> length b = n -> rdot a b = sumf n (fun i => nth i a 0 * nth i b 0).
Proof.
  induction n as [|n IH]; intros [|x a] [|y b] A B; try discriminate; [reflexivity|].
  rewrite sumf_S. unfold rdot. cbn [combine map fold_right nth fst snd]. f_equal. apply (IH a b); [cbn in A|cbn in B]; lia.
Qed.
Lemma nth_map_seq : forall (f : nat -> R) n i, (i < n)%nat -> nth i (map f (seq 0 n)) 0 = f i.
Proof.
  intros f n i H. rewrite (nth_indep _ 0 (f 0%nat)) by (rewrite map_length, seq_length; exact H). rewrite map_nth, seq_nth by exact H. reflexivity.
Qed.
Lemma mdotv_sum : forall n m yp xp, square n m -> length yp = n -> length xp = n ->
  mdotv m yp xp = sumf n (fun i => sumf n (fun j => coef m i j * nth j yp 0) * nth i xp 0).
Proof.
  intros n m yp xp H Y X. unfold mdotv. destruct H as [L F]. rewrite (rdot_sumf n) by (rewrite ?map_length; assumption). apply sumf_ext. intros i Hi. f_equal.
  rewrite (nth_indep _ 0 (rdot [] yp)) by (rewrite map_length; lia). rewrite (map_nth (fun r => rdot r yp)). rewrite (rdot_sumf n); [reflexivity| |exact Y].
  apply (square_row n m i (conj L F) Hi).
Qed.
Definition dpow (i : nat) (x : R) : R := match i with O => 0 | S k => (INR k + 1) * x ^ k end.
Lemma dpow_derive : forall i x, is_derive (fun t => t ^ i) x (dpow i x).
Proof.
  intros [|k] x; [apply (is_derive_const 1)|]. unfold dpow. pose proof (is_derive_pow (fun t => t) (S k) x 1 (is_derive_id x)) as D.
  replace ((INR k + 1) * x ^ k) with (INR (S k) * 1 * x ^ pred (S k)) by (rewrite S_INR; cbn [pred]; ring). exact D.
Qed.
Definition surf_x (n : nat) (c : coefs) (x y : R) : R := sumf n (fun i => sumf n (fun j => c i j * dpow i x * y ^ j)).
Definition surf_y (n : nat) (c : coefs) (x y : R) : R := sumf n (fun i => sumf n (fun j => c i j * x ^ i * dpow j y)).
Lemma sumf_mulr : forall n f k, sumf n f * k = sumf n (fun i => f i * k).
Proof. intros. rewrite Rmult_comm, <- sumf_scal. apply sumf_ext. intros. ring. Qed.
Lemma mdotv_value : forall n m x y, square n m -> mdotv m (powers n y) (powers n x) = surface n (coef m) x y.
Proof.
  intros n m x y H. assert (L : forall z, length (powers n z) = n) by (intro; unfold powers; now rewrite map_length, seq_length).
  rewrite (mdotv_sum n) by auto. apply sumf_ext. intros i Hi. rewrite sumf_mulr. apply sumf_ext. intros j Hj. unfold powers. rewrite !nth_map_seq by assumption. ring.
Qed.
Lemma mdotv_dx : forall n m x y, square n m -> mdotv m (powers n y) (dpowers n x) = surf_x n (coef m) x y.
Proof.
  intros n m x y H. assert (L : forall z, length (powers n z) = n) by (intro; unfold powers; now rewrite map_length, seq_length).
  assert (L' : forall z, length (dpowers n z) = n) by (intro; unfold dpowers; now rewrite map_length, seq_length).
  rewrite (mdotv_sum n) by auto. apply sumf_ext. intros i Hi. rewrite sumf_mulr. apply sumf_ext. intros j Hj. unfold powers, dpowers. rewrite !nth_map_seq by assumption. unfold dpow. ring.
Qed.
Lemma mdotv_dy : forall n m x y, square n m -> mdotv m (dpowers n y) (powers n x) = surf_y n (coef m) x y.
Proof.
  intros n m x y H. assert (L : forall z, length (powers n z) = n) by (intro; unfold powers; now rewrite map_length, seq_length).
  assert (L' : forall z, length (dpowers n z) = n) by (intro; unfold dpowers; now rewrite map_length, seq_length).
  rewrite (mdotv_sum n) by auto. apply sumf_ext. intros i Hi. rewrite sumf_mulr. apply sumf_ext. intros j Hj. unfold powers, dpowers. rewrite !nth_map_seq by assumption. unfold dpow. ring.
Qed.
(** along a path *)
Lemma term_path : forall i j k (x y : R -> R) (t dx dy : R), is_derive x t dx -> is_derive y t dy ->
  is_derive (fun s => k * x s ^ i * y s ^ j) t (k * dpow i (x t) * y t ^ j * dx + k * x t ^ i * dpow j (y t) * dy).
Proof.
  intros i j k x y t dx dy X Y.
  assert (P : forall n (z : R -> R) dz, is_derive z t dz -> is_derive (fun s => z s ^ n) t (dz * dpow n (z t))) by (intros n z dz Z; apply (is_derive_comp (fun u => u ^ n) z t); [apply dpow_derive|exact Z]).
  apply (is_derive_ext (fun s => k * (x s ^ i * y s ^ j))); [intro; symmetry; apply Rmult_assoc|].
  match goal with |- is_derive _ _ ?v => replace v with (k * (dx * dpow i (x t) * y t ^ j + x t ^ i * (dy * dpow j (y t)))) by ring end.
  apply (is_derive_scal (fun s => x s ^ i * y s ^ j)). apply (is_derive_mult (fun s => x s ^ i) (fun s => y s ^ j)); [apply P, X|apply P, Y|intros; apply Rmult_comm].
Qed.
Lemma surface_path : forall n c (x y : R -> R) (t dx dy : R), is_derive x t dx -> is_derive y t dy ->
  is_derive (fun s => surface n c (x s) (y s)) t (surf_x n c (x t) (y t) * dx + surf_y n c (x t) (y t) * dy).
Proof.
  intros n c x y t dx dy X Y. unfold surface, surf_x, surf_y. rewrite !sumf_mulr, <- sumf_plus.
  apply (sumf_derive n (fun i s => sumf n (fun j => c i j * x s ^ i * y s ^ j))). intros i Hi. rewrite !sumf_mulr, <- sumf_plus.
  apply (sumf_derive n (fun j s => c i j * x s ^ i * y s ^ j)). intros j Hj. apply term_path; assumption.
Qed.
Lemma slope_x_val : forall n c x y, slope_x n c x y = surf_x n c x y.
Proof.
  intros. unfold slope_x. apply is_derive_unique. pose proof (surface_path n c (fun t => t) (fun _ => y) x 1 0 (is_derive_id x) (is_derive_const y x)) as D.
  replace (surf_x n c x y) with (surf_x n c x y * 1 + surf_y n c x y * 0) by ring. exact D.
Qed.
Lemma slope_y_val : forall n c x y, slope_y n c x y = surf_y n c x y.
Proof.
  intros. unfold slope_y. apply is_derive_unique. pose proof (surface_path n c (fun _ => x) (fun t => t) y 0 1 (is_derive_const x y) (is_derive_id y)) as D.
  replace (surf_y n c x y) with (surf_x n c x y * 0 + surf_y n c x y * 1) by ring. exact D.
Qed.

(** * The coefficients of the slopes *)
Lemma nth_removelast : forall A (l : list A) d i, (S i < length l)%nat -> nth i (removelast l) d = nth i l d.
Proof.
  induction l as [|a l IH]; intros d i H; [cbn in H; lia|]. destruct l as [|b l]; [cbn in H; lia|].
  change (removelast (a :: b :: l)) with (a :: removelast (b :: l)). destruct i as [|i]; [reflexivity|]. cbn [nth]. apply IH. cbn in *. lia.
Qed.
Lemma removelast_length : forall A (l : list A), length (removelast l) = (length l - 1)%nat.
Proof. induction l as [|a [|b l] IH]; try reflexivity. change (removelast (a :: b :: l)) with (a :: removelast (b :: l)). cbn [length] in *. lia. Qed.
Lemma removelast_in : forall A (l : list A) a, In a (removelast l) -> In a l.
Proof. induction l as [|a [|b l] IH]; intros x H; try contradiction. change (removelast (a :: b :: l)) with (a :: removelast (b :: l)) in H. destruct H as [->|H]; [now left|right; now apply IH]. Qed.
Lemma nth_tl : forall A (l : list A) d i, nth i (tl l) d = nth (S i) l d.
Proof. intros A [|a l] d i; [destruct i; reflexivity|reflexivity]. Qed.
Lemma nth_scaled : forall A B (f : nat -> A -> B) (l : list A) da db i, (i < length l)%nat ->
  nth i (map (fun p => f (fst p) (snd p)) (combine (seq 0 (length l)) l)) db = f i (nth i l da).
Proof.
  intros A B f l da db i H. assert (L : length (combine (seq 0 (length l)) l) = length l) by (rewrite combine_length, seq_length; lia).
  rewrite (nth_indep _ db (f (fst (0%nat, da)) (snd (0%nat, da)))) by (rewrite map_length; lia).
  rewrite (map_nth (fun p => f (fst p) (snd p))). rewrite combine_nth by (now rewrite seq_length). cbn [fst snd]. rewrite seq_nth by exact H. reflexivity.
Qed.
Lemma dx_square : forall n m, square (S n) m -> square n (dx_coef m) /\ forall i j, (i < n)%nat -> (j < n)%nat -> coef (dx_coef m) i j = INR (S i) * coef m (S i) j.
Proof.
  intros n m H. pose proof H as [L F].
  assert (LS : length (scale_rows m) = S n) by (unfold scale_rows; rewrite map_length, combine_length, seq_length; lia).
  assert (LD : length (dx_coef m) = n). { unfold dx_coef. rewrite map_length. destruct (scale_rows m); cbn in *; lia. }
  assert (ROW : forall i, (i < n)%nat -> nth i (dx_coef m) [] = removelast (map (fun x => INR (S i) * x) (nth (S i) m []))).
  { intros i Hi. unfold dx_coef. change (@nil R) with (removelast (@nil R)) at 1. rewrite (map_nth (@removelast R)), nth_tl. f_equal.
    unfold scale_rows. rewrite (nth_scaled _ _ (fun k r => map (fun x => INR k * x) r) m []) by lia. reflexivity. }
  assert (LR : forall i, (i < n)%nat -> length (nth i (dx_coef m) []) = n).
  { intros i Hi. rewrite ROW by exact Hi. rewrite removelast_length, map_length, (square_row (S n) m (S i) H) by lia. lia. }
  split; [split; [exact LD|]|].
  - apply List.Forall_forall. intros r Hr. destruct (In_nth _ _ [] Hr) as (i & Hi & <-). apply LR. lia.
  - intros i j Hi Hj. unfold coef. rewrite ROW by exact Hi. rewrite nth_removelast by (rewrite map_length, (square_row (S n) m (S i) H); lia).
    rewrite (nth_indep _ 0 (INR (S i) * 0)) by (rewrite map_length, (square_row (S n) m (S i) H); lia). apply (map_nth (fun x => INR (S i) * x)).
Qed.
Lemma dy_square : forall n m, square (S n) m -> square n (dy_coef m) /\ forall i j, (i < n)%nat -> (j < n)%nat -> coef (dy_coef m) i j = INR (S j) * coef m i (S j).
Proof.
  intros n m H. pose proof H as [L F].
  assert (SR : forall r, length (scale_row r) = length r) by (intro; unfold scale_row; rewrite map_length, combine_length, seq_length; lia).
  assert (LD : length (dy_coef m) = n) by (unfold dy_coef; rewrite map_length, removelast_length, map_length; lia).
  assert (ROW : forall i, (i < n)%nat -> nth i (dy_coef m) [] = tl (scale_row (nth i m []))).
  { intros i Hi. unfold dy_coef. change (@nil R) with (tl (@nil R)) at 1. rewrite (map_nth (@tl R)). f_equal.
    rewrite nth_removelast by (rewrite map_length; lia). change (@nil R) with (scale_row []) at 1. apply map_nth. }
  assert (LR : forall i, (i < n)%nat -> length (nth i (dy_coef m) []) = n).
  { intros i Hi. rewrite ROW by exact Hi. pose proof (square_row (S n) m i H ltac:(lia)) as E. rewrite <- (SR (nth i m [])) in E. destruct (scale_row (nth i m [])); cbn in *; lia. }
  split; [split; [exact LD|]|].
  - apply List.Forall_forall. intros r Hr. destruct (In_nth _ _ [] Hr) as (i & Hi & <-). apply LR. lia.
  - intros i j Hi Hj. unfold coef. rewrite ROW by exact Hi. rewrite nth_tl. unfold scale_row.
    rewrite (nth_scaled _ _ (fun k x => INR k * x) (nth i m []) 0) by (rewrite (square_row (S n) m i H); lia). reflexivity.
Qed.
Lemma horner_dx : forall n m x y, square n m -> horner2d_at x y (dx_coef m) true = surf_x n (low n (coef m)) x y.
Proof.
  intros [|n] m x y H. { destruct H as [L _]. destruct m; [reflexivity|discriminate]. }
  destruct (dx_square n m H) as [Q C]. rewrite (horner_low n) by exact Q. unfold surf_x, surface. rewrite sumf_S.
  rewrite (sumf_ext (S n) (fun j => _ * dpow 0 x * _) (fun _ => 0)) by (intros; cbn [dpow]; ring). rewrite sumf_zero, Rplus_0_l.
  apply sumf_ext. intros i Hi. rewrite sumf_last. unfold low at 3. destruct (Nat.ltb_spec (S i + n) (S n)) as [l|_]; [lia|]. rewrite !Rmult_0_l, Rplus_0_r.
  apply sumf_ext. intros j Hj. unfold low. destruct (Nat.ltb_spec (i + j) n), (Nat.ltb_spec (S i + j) (S n)); try lia; [|ring].
  rewrite C by assumption. cbn [dpow]. rewrite <- S_INR. ring.
Qed.
Lemma horner_dy : forall n m x y, square n m -> horner2d_at x y (dy_coef m) true = surf_y n (low n (coef m)) x y.
Proof.
  intros [|n] m x y H. { destruct H as [L _]. destruct m; [reflexivity|discriminate]. }
  destruct (dy_square n m H) as [Q C]. rewrite (horner_low n) by exact Q. unfold surf_y, surface. rewrite sumf_last.
  assert (Z : sumf (S n) (fun j => low (S n) (coef m) n j * x ^ n * dpow j y) = 0).
  { rewrite <- (sumf_zero (S n)). apply sumf_ext. intros j Hj. destruct j as [|j]; [cbn [dpow]; ring|]. unfold low. destruct (Nat.ltb_spec (n + S j) (S n)); [lia|ring]. }
  rewrite Z, Rplus_0_r. apply sumf_ext. intros i Hi. rewrite sumf_S. cbn [dpow]. rewrite Rmult_0_r, Rplus_0_l.
  apply sumf_ext. intros j Hj. unfold low. destruct (Nat.ltb_spec (i + j) n), (Nat.ltb_spec (i + S j) (S n)); try lia; [|ring].
  rewrite C by assumption. rewrite <- S_INR. ring.
Qed.
