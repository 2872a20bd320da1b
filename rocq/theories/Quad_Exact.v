(** The rule is exact for polynomials. *)
From Coq Require Import Arith Reals Bool List Lra Lia Psatz.
From Coquelicot Require Import Coquelicot.
From Verif Require Import Base Bounds_Model Quad_Model Quad_Spec Quad_Proofs.
Open Scope R_scope.

(** * Chebyshev polynomials *)
Fixpoint two_step (a b x : R) (m : nat) : R * R := match m with O => (a, b) | Datatypes.S m => let '(p, q) := two_step a b x m in (q, 2 * x * q - p) end.
Definition cheb (m : nat) (x : R) : R := fst (two_step 1 x x m).
Definition chebu (m : nat) (x : R) : R := fst (two_step 1 (2 * x) x m).
Lemma ts_next : forall a b x m, snd (two_step a b x m) = fst (two_step a b x (Datatypes.S m)).
Proof. intros. cbn [two_step]. destruct (two_step a b x m). reflexivity. Qed.
Lemma cheb_SS : forall m x, cheb (Datatypes.S (Datatypes.S m)) x = 2 * x * cheb (Datatypes.S m) x - cheb m x.
Proof. intros m x. unfold cheb. rewrite <- (ts_next 1 x x (Datatypes.S m)). cbn [two_step]. destruct (two_step 1 x x m). reflexivity. Qed.
Lemma chebu_SS : forall m x, chebu (Datatypes.S (Datatypes.S m)) x = 2 * x * chebu (Datatypes.S m) x - chebu m x.
Proof. intros m x. unfold chebu. rewrite <- (ts_next 1 (2 * x) x (Datatypes.S m)). cbn [two_step]. destruct (two_step 1 (2 * x) x m). reflexivity. Qed.
Lemma two_ind : forall P : nat -> Prop, P 0%nat -> P 1%nat -> (forall m, P m -> P (Datatypes.S m) -> P (Datatypes.S (Datatypes.S m))) -> forall m, P m.
Proof. intros P A B H m. assert (P m /\ P (Datatypes.S m)) as [X _]; [|exact X]. induction m as [|m [I J]]; [now split|]. split; [exact J|apply H; assumption]. Qed.
Lemma cheb_cos : forall m t, cheb m (cos t) = cos (INR m * t).
Proof.
  intros m t. revert m. apply two_ind.
  - cbn. rewrite Rmult_0_l, cos_0. reflexivity.
  - change (cos t = cos (1 * t)). rewrite Rmult_1_l. reflexivity.
  - intros m I J. rewrite cheb_SS, I, J. rewrite !S_INR. replace ((INR m + 1 + 1) * t) with ((INR m + 1) * t + t) by ring. replace (INR m * t) with ((INR m + 1) * t - t) by ring. rewrite cos_plus, cos_minus. ring.
Qed.
Lemma cheb_opp : forall m x, cheb m (- x) = (-1) ^ m * cheb m x.
Proof. intros m x. revert m. apply two_ind; [cbn; ring|change (- x = (-1) ^ 1 * x); ring|]. intros m I J. rewrite !cheb_SS, I, J. cbn [pow]. ring. Qed.
Lemma cheb_one : forall m, cheb m 1 = 1.
Proof. intro m. rewrite <- cos_0, cheb_cos, Rmult_0_r. reflexivity. Qed.
Lemma cheb_u : forall m x, cheb (Datatypes.S m) x = chebu (Datatypes.S m) x - x * chebu m x.
Proof. intros m x. revert m. apply two_ind; [change (x = 2 * x - x * 1); ring|rewrite cheb_SS, chebu_SS; change (2 * x * x - 1 = 2 * x * (2 * x) - 1 - x * (2 * x)); ring|]. intros m I J. rewrite cheb_SS, I, J. rewrite !chebu_SS. ring. Qed.
Lemma cheb_derive : forall m x, is_derive (cheb (Datatypes.S m)) x (INR (Datatypes.S m) * chebu m x).
Proof.
  intros m x. revert m. assert (H0 : is_derive (cheb 0) x 0) by (apply (is_derive_ext (fun _ => 1)); [reflexivity|apply @is_derive_const]).
  assert (STEP : forall m dm dm1, is_derive (cheb m) x dm -> is_derive (cheb (Datatypes.S m)) x dm1 -> is_derive (cheb (Datatypes.S (Datatypes.S m))) x (2 * cheb (Datatypes.S m) x + 2 * x * dm1 - dm)).
  { intros m dm dm1 A B. apply (is_derive_ext (fun t => 2 * t * cheb (Datatypes.S m) t - cheb m t)); [intro t; symmetry; apply cheb_SS|]. auto_derive; [split; [exists dm1; exact B|split; [exists dm; exact A|exact Logic.I]]|]. rewrite (is_derive_unique _ _ _ A : Derive (fun t => cheb m t) x = dm), (is_derive_unique _ _ _ B : Derive (fun t => cheb (Datatypes.S m) t) x = dm1). ring. }
  apply two_ind.
  - apply (is_derive_ext (fun t => t)); [reflexivity|]. replace (INR 1 * chebu 0 x) with 1 by (cbn; ring). apply @is_derive_id.
  - replace (INR 2 * chebu 1 x) with (2 * cheb 1 x + 2 * x * 1 - 0) by (change (2 * x + 2 * x * 1 - 0 = 2 * (2 * x)); ring). apply STEP; [exact H0|]. apply (is_derive_ext (fun t => t)); [reflexivity|apply @is_derive_id].
  - intros m I J. specialize (STEP _ _ _ I J). replace (INR (Datatypes.S (Datatypes.S (Datatypes.S m))) * chebu (Datatypes.S (Datatypes.S m)) x) with (2 * cheb (Datatypes.S (Datatypes.S m)) x + 2 * x * (INR (Datatypes.S (Datatypes.S m)) * chebu (Datatypes.S m) x) - INR (Datatypes.S m) * chebu m x); [exact STEP|].
    rewrite cheb_u, chebu_SS, !S_INR. ring.
Qed.
Lemma chebu_diff : forall m x, chebu (Datatypes.S (Datatypes.S m)) x - chebu m x = 2 * cheb (Datatypes.S (Datatypes.S m)) x.
Proof. intros m x. rewrite cheb_u, chebu_SS. ring. Qed.
Definition cheb_int (m : nat) : R := if Nat.even m then 2 / (1 - INR m ^ 2) else 0.
Lemma pow_even : forall m, (-1) ^ m = if Nat.even m then 1 else -1.
Proof. apply two_ind; [reflexivity|cbn; ring|]. intros m I J. cbn [pow]. rewrite I. change (Nat.even (Datatypes.S (Datatypes.S m))) with (Nat.even m). destruct (Nat.even m); ring. Qed.
Lemma cheb_cont : forall m x, continuous (cheb m) x.
Proof.
  intros [|m] x; [apply (continuous_ext (fun _ => 1)); [reflexivity|apply continuous_const]|]. apply (@ex_derive_continuous R_AbsRing R_NormedModule (cheb (Datatypes.S m))). eexists. apply cheb_derive.
Qed.
Lemma cheb_integral : forall m, is_RInt (cheb m) (-1) 1 (cheb_int m).
Proof.
  assert (G : forall (F f : R -> R) v, (forall x, is_derive F x (f x)) -> (forall x, continuous f x) -> F 1 - F (-1) = v -> is_RInt f (-1) 1 v).
  { intros F f v D K E. rewrite <- E. apply (is_RInt_derive F f); intros; [apply D|apply K]. }
  intros [|[|m]].
  - apply (G (fun x => x)); [intro x; apply (is_derive_id x)|apply cheb_cont|]. unfold cheb_int. cbn. field.
  - apply (G (fun x => x ^ 2 / 2)); [|apply cheb_cont|unfold cheb_int; cbn; field]. intro x. change (cheb 1 x) with x. auto_derive; [exact Logic.I|field].
  - pose proof (pos_INR m) as P. apply (G (fun x => / 2 * (/ INR (m + 3) * cheb (m + 3) x - / INR (m + 1) * cheb (m + 1) x))); [|apply cheb_cont|].
    + intro x. pose proof (cheb_derive (m + 2) x) as A. pose proof (cheb_derive m x) as B. replace (Datatypes.S (m + 2)) with (m + 3)%nat in A by lia. replace (Datatypes.S m) with (m + 1)%nat in B by lia.
      auto_derive; [split; [eexists; exact A|split; [eexists; exact B|exact Logic.I]]|]. rewrite (is_derive_unique _ _ _ A : Derive (fun t => cheb (m + 3) t) x = _), (is_derive_unique _ _ _ B : Derive (fun t => cheb (m + 1) t) x = _). replace (m + 2)%nat with (Datatypes.S (Datatypes.S m)) by lia. pose proof (chebu_diff m x) as CD. replace (cheb (Datatypes.S (Datatypes.S m)) x) with ((chebu (Datatypes.S (Datatypes.S m)) x - chebu m x) / 2) by lra. rewrite !plus_INR. cbn [INR]. field. lra.
    + assert (E1 : forall k, cheb k (-1) = (-1) ^ k) by (intro k; change (-1) with (- (1)) at 1; rewrite (cheb_opp k 1), cheb_one; ring). rewrite !E1, !cheb_one. rewrite !pow_even. replace (Nat.even (m + 3)) with (negb (Nat.even m)) by (rewrite Nat.even_add; destruct (Nat.even m); reflexivity). replace (Nat.even (m + 1)) with (negb (Nat.even m)) by (rewrite Nat.even_add; destruct (Nat.even m); reflexivity). unfold cheb_int. change (Nat.even (Datatypes.S (Datatypes.S m))) with (Nat.even m). rewrite !plus_INR, !S_INR. cbn [INR]. destruct (Nat.even m); cbn [negb]; field; nra.
Qed.

(** * The rule on Chebyshev polynomials *)
Definition apply_rule (n : nat) (f : R -> R) : R := asumn (n + 1) (fun k => cc_weight n k * f (cc_point n k)).
Lemma trapezoid : forall n p, (0 < n)%nat -> asumn (n + 1) (fun k => half_end n k * cos (PI * INR p * INR k / INR n)) = if (p mod (2 * n) =? 0)%nat then INR n else 0.
Proof.
  intros n p H. set (F := fun k => cos (PI * INR p * INR k / INR n)). assert (N0 : INR n <> 0) by (apply not_0_INR; lia).
  assert (SYM : forall k, (k <= 2 * n)%nat -> F (2 * n - k)%nat = F k). { intros k K. unfold F. rewrite minus_INR, mult_INR by exact K. cbn [INR]. replace (PI * INR p * ((1 + 1) * INR n - INR k) / INR n) with (- (PI * INR p * INR k / INR n) + 2 * INR p * PI) by (field; exact N0). rewrite cos_period, cos_neg. reflexivity. }
  pose proof (cos_sum (2 * n) p ltac:(lia)) as CS. rewrite (as_ext _ _ F) in CS by (intros k K; unfold F; f_equal; rewrite mult_INR; cbn [INR]; field; exact N0).
  assert (A : asumn (2 * n) F = F O + 2 * asumn (n - 1) (fun k => F (Datatypes.S k)) + F n).
  { replace (2 * n)%nat with (n + (1 + (n - 1)))%nat by lia. rewrite as_app, as_app. cbn [asumn]. rewrite Rplus_0_l, Nat.add_0_r. replace (asumn n F) with (asumn (Datatypes.S (n - 1)) F) by (f_equal; lia). rewrite as_first.
    assert (E : asumn (n - 1) (fun j => F (n + (1 + j))%nat) = asumn (n - 1) (fun k => F (Datatypes.S k))); [|rewrite E; ring]. rewrite as_rev. apply as_ext. intros j J. rewrite <- SYM by lia. f_equal. lia. }
  assert (B : asumn (n + 1) (fun k => half_end n k * F k) = / 2 * F O + asumn (n - 1) (fun k => F (Datatypes.S k)) + / 2 * F n).
  { replace (n + 1)%nat with (Datatypes.S (Datatypes.S (n - 1))) by lia. rewrite as_first. cbn [asumn]. replace (Datatypes.S (n - 1)) with n by lia. assert (HE0 : half_end n 0 = 1 / 2) by reflexivity. assert (HEn : half_end n n = 1 / 2) by (unfold half_end; rewrite Nat.eqb_refl, orb_true_r; reflexivity). rewrite HE0, HEn.
    rewrite (as_ext (n - 1) _ (fun k => F (Datatypes.S k))); [field|]. intros j J. unfold half_end. destruct (Nat.eqb_spec (Datatypes.S j) 0); [lia|]. destruct (Nat.eqb_spec (Datatypes.S j) n); [lia|]. cbn [orb]. ring. }
  fold F. change (fun k => half_end n k * cos (PI * INR p * INR k / INR n)) with (fun k => half_end n k * F k). rewrite B. rewrite A in CS. destruct (p mod (2 * n) =? 0)%nat; rewrite ?mult_INR in CS; cbn [INR] in CS; lra.
Qed.
Definition absdiff (a b : nat) : nat := (a - b + (b - a))%nat.
Lemma cos_absdiff : forall a b t, cos (INR (absdiff a b) * t) = cos ((INR a - INR b) * t).
Proof.
  intros a b t. unfold absdiff. destruct (Nat.le_ge_cases a b) as [l|l].
  - replace (a - b + (b - a))%nat with (b - a)%nat by lia. rewrite minus_INR by exact l. rewrite <- cos_neg. f_equal. ring.
  - replace (a - b + (b - a))%nat with (a - b)%nat by lia. rewrite minus_INR by exact l. reflexivity.
Qed.
Lemma rule_cheb : forall n m, (1 < n)%nat -> (m <= n)%nat -> apply_rule n (cheb m) = cheb_int m.
Proof.
  intros n m H M. assert (N0 : INR n <> 0) by (apply not_0_INR; lia). unfold apply_rule.
  set (T := fun p => asumn (n + 1) (fun k => half_end n k * cos (PI * INR p * INR k / INR n))).
  assert (TV : forall p, T p = if (p mod (2 * n) =? 0)%nat then INR n else 0) by (intro p; apply trapezoid; lia).
  rewrite (as_ext _ _ (fun k => (-1) ^ m * (2 / INR n * (half_end n k * cos (PI * INR m * INR k / INR n) + -1 * asumn (n / 2) (fun j => bb n (Datatypes.S j) * / 2 * (half_end n k * cos (PI * INR (m + 2 * Datatypes.S j) * INR k / INR n) + half_end n k * cos (PI * INR (absdiff m (2 * Datatypes.S j)) * INR k / INR n))))))).
  2:{ intros k K. rewrite weight_w, w_closed by lia. unfold cc_point. rewrite cheb_opp, cheb_cos. replace (INR m * (PI * INR k / INR n)) with (PI * INR m * INR k / INR n) by (field; exact N0). unfold closed. set (c := cos (PI * INR m * INR k / INR n)).
    rewrite (as_ext (n / 2) (fun j => bb n (Datatypes.S j) * / 2 * _) (fun j => (half_end n k * c) * (bb n (Datatypes.S j) * cct n k (Datatypes.S j)))); [rewrite as_scal; ring|]. intros j J.
    set (t := PI * INR k / INR n). assert (C : c = cos (INR m * t)) by (unfold c, t; f_equal; field; exact N0).
    replace (cos (PI * INR (absdiff m (2 * Datatypes.S j)) * INR k / INR n)) with (cos (INR (absdiff m (2 * Datatypes.S j)) * t)) by (unfold t; f_equal; field; exact N0). rewrite cos_absdiff.
    replace (cos (PI * INR (m + 2 * Datatypes.S j) * INR k / INR n)) with (cos ((INR m + INR (2 * Datatypes.S j)) * t)) by (unfold t; f_equal; rewrite plus_INR; field; exact N0).
    assert (Q : cct n k (Datatypes.S j) = cos (INR (2 * Datatypes.S j) * t)). { unfold cct, t. f_equal. rewrite mult_INR. change (INR 2) with 2. field. exact N0. } rewrite Q, C. rewrite Rmult_minus_distr_r, Rmult_plus_distr_r, cos_plus, cos_minus. field. }
  rewrite !as_scal, as_plus, as_scal, as_swap. fold (T m).
  rewrite (as_ext (n / 2) _ (fun j => bb n (Datatypes.S j) * / 2 * (T (m + 2 * Datatypes.S j)%nat + T (absdiff m (2 * Datatypes.S j))))).
  2:{ intros j J. rewrite as_scal, as_plus. reflexivity. }
  pose proof (Nat.div_mod n 2 ltac:(lia)) as D. pose proof (Nat.mod_upper_bound n 2 ltac:(lia)) as B. rewrite TV.
  destruct (Nat.eq_dec m 0) as [->|M0].
  - rewrite as_zero.
    2:{ intros j J. rewrite !TV. unfold absdiff. rewrite !Nat.mod_small by lia. destruct (Nat.eqb_spec (0 + 2 * Datatypes.S j) 0); [lia|]. destruct (Nat.eqb_spec (0 - 2 * Datatypes.S j + (2 * Datatypes.S j - 0)) 0); [lia|]. ring. }
    rewrite Nat.mod_0_l by lia. cbn [Nat.eqb pow]. unfold cheb_int. cbn [Nat.even INR pow]. field. exact N0.
  - rewrite Nat.mod_small by lia. destruct (Nat.eqb_spec m 0); [lia|]. rewrite (as_ext _ _ (fun j => if (2 * Datatypes.S j =? m)%nat then bb n (Datatypes.S j) * / 2 * (INR n + (if (m =? n)%nat then INR n else 0)) else 0)).
    2:{ intros j J. rewrite !TV. unfold absdiff. destruct (Nat.eqb_spec (2 * Datatypes.S j) m) as [E|E].
      - replace (m - 2 * Datatypes.S j + (2 * Datatypes.S j - m))%nat with 0%nat by lia. rewrite Nat.mod_0_l by lia. cbn [Nat.eqb]. destruct (Nat.eqb_spec m n) as [F|F].
        + replace (m + 2 * Datatypes.S j)%nat with (2 * n)%nat by lia. rewrite Nat.mod_same by lia. cbn [Nat.eqb]. ring.
        + rewrite Nat.mod_small by lia. destruct (Nat.eqb_spec (m + 2 * Datatypes.S j) 0); [lia|]. ring.
      - rewrite (Nat.mod_small (m - 2 * Datatypes.S j + _)) by lia. destruct (Nat.eqb_spec (m - 2 * Datatypes.S j + (2 * Datatypes.S j - m)) 0); [lia|]. rewrite Nat.mod_small by lia. destruct (Nat.eqb_spec (m + 2 * Datatypes.S j) 0); [lia|]. ring. }
    rewrite pow_even. unfold cheb_int. destruct (Nat.even m) eqn:EV.
    + apply Nat.even_spec in EV. destruct EV as [h EV]. assert (h0 : (0 < h <= n / 2)%nat) by lia.
      rewrite (as_ext _ _ (fun j => if (j =? h - 1)%nat then bb n (Datatypes.S j) * / 2 * (INR n + (if (m =? n)%nat then INR n else 0)) else 0)).
      2:{ intros j J. destruct (Nat.eqb_spec (2 * Datatypes.S j) m), (Nat.eqb_spec j (h - 1)); try lia; reflexivity. }
      rewrite (as_at (n / 2) (h - 1) (fun j => bb n (Datatypes.S j) * / 2 * (INR n + (if (m =? n)%nat then INR n else 0)))) by lia. replace (Datatypes.S (h - 1)) with h by lia. unfold bb. rewrite <- EV. assert (HH : 1 <= INR h) by (change 1 with (INR 1); apply le_INR; lia). rewrite EV at 3. rewrite mult_INR. change (INR 2) with 2. destruct (Nat.eqb_spec m n) as [F|F]; field; repeat split; try exact N0; nra.
    + rewrite as_zero; [ring|]. intros j J. destruct (Nat.eqb_spec (2 * Datatypes.S j) m) as [E|E]; [|reflexivity]. exfalso. assert (Nat.even m = true) by (apply Nat.even_spec; exists (Datatypes.S j); lia). congruence.
Qed.

(** * Exact for polynomials *)
Definition exact (n : nat) (f : R -> R) : Prop := is_RInt f (-1) 1 (apply_rule n f).
Lemma exact_ext : forall n f g, (forall x, f x = g x) -> exact n f -> exact n g.
Proof. intros n f g E H. unfold exact in *. replace (apply_rule n g) with (apply_rule n f) by (apply as_ext; intros; rewrite E; reflexivity). apply (is_RInt_ext f); [intros; apply E|exact H]. Qed.
Lemma exact_plus : forall n f g, exact n f -> exact n g -> exact n (fun x => f x + g x).
Proof. intros n f g A B. unfold exact in *. replace (apply_rule n (fun x => f x + g x)) with (apply_rule n f + apply_rule n g) by (unfold apply_rule; rewrite <- as_plus; apply as_ext; intros; ring). apply (is_RInt_plus f g); assumption. Qed.
Lemma exact_scal : forall n c f, exact n f -> exact n (fun x => c * f x).
Proof. intros n c f A. unfold exact in *. replace (apply_rule n (fun x => c * f x)) with (c * apply_rule n f) by (unfold apply_rule; rewrite <- as_scal; apply as_ext; intros; ring). apply (is_RInt_scal f); assumption. Qed.
Lemma exact_cheb : forall n m, (1 < n)%nat -> (m <= n)%nat -> exact n (cheb m).
Proof. intros n m H M. unfold exact. rewrite rule_cheb by assumption. apply cheb_integral. Qed.
Lemma exact_mix : forall n d i, (1 < n)%nat -> (d + i <= n)%nat -> exact n (fun x => x ^ d * cheb i x).
Proof.
  intros n d. induction d as [|d IH]; intros i H K.
  - apply (exact_ext n (cheb i)); [intro x; cbn; ring|]. apply exact_cheb; [exact H|lia].
  - destruct i as [|i].
    + apply (exact_ext n (fun x => x ^ d * cheb 1 x)); [intro x; change (cheb 1 x) with x; change (cheb 0 x) with 1; cbn [pow]; ring|]. apply IH; lia.
    + apply (exact_ext n (fun x => / 2 * (x ^ d * cheb (Datatypes.S (Datatypes.S i)) x + x ^ d * cheb i x))); [intro x; rewrite cheb_SS; cbn [pow]; field|]. apply exact_scal, exact_plus; apply IH; lia.
Qed.
Lemma exact_pow : forall n d, (1 < n)%nat -> (d <= n)%nat -> exact n (fun x => x ^ d).
Proof. intros n d H D. apply (exact_ext n (fun x => x ^ d * cheb 0 x)); [intro x; change (cheb 0 x) with 1; ring|]. apply exact_mix; lia. Qed.
Lemma weight_sym : forall n k, (1 < n)%nat -> (k <= n)%nat -> cc_weight n (n - k) = cc_weight n k.
Proof. intros n k H K. rewrite !weight_w by lia. apply w_sym; lia. Qed.
Lemma point_sym : forall n k, (0 < n)%nat -> (k <= n)%nat -> cc_point n (n - k) = - cc_point n k.
Proof. intros n k H K. unfold cc_point. rewrite minus_INR by exact K. replace (PI * (INR n - INR k) / INR n) with (PI - PI * INR k / INR n) by (field; apply not_0_INR; lia). rewrite Rtrigo_facts.cos_pi_minus. ring. Qed.
Lemma exact_odd : forall n d, (1 < n)%nat -> Nat.even d = false -> exact n (fun x => x ^ d).
Proof.
  intros n d H E. unfold exact. assert (OP : forall x, (- x) ^ d = - x ^ d). { intro x. replace (- x) with (-1 * x) by ring. rewrite Rpow_mult_distr, pow_even, E. ring. }
  assert (Z : apply_rule n (fun x => x ^ d) = 0). { assert (X : apply_rule n (fun x => x ^ d) = - apply_rule n (fun x => x ^ d)); [|lra]. unfold apply_rule at 1. rewrite as_rev. replace (- apply_rule n (fun x => x ^ d)) with (-1 * apply_rule n (fun x => x ^ d)) by ring. unfold apply_rule. rewrite <- as_scal. apply as_ext. intros k K. replace (n + 1 - 1 - k)%nat with (n - k)%nat by lia. rewrite weight_sym, point_sym, OP by lia. ring. }
  rewrite Z. assert (P : INR (Datatypes.S d) <> 0) by (apply not_0_INR; lia). set (F := fun x => x ^ Datatypes.S d / INR (Datatypes.S d)).
  assert (V : F 1 - F (-1) = 0) by (unfold F; rewrite pow1; cbn [pow]; rewrite pow_even, E; field; exact P). rewrite <- V. apply (is_RInt_derive F (fun x => x ^ d)); intros x _.
  - unfold F. auto_derive; [exact Logic.I|]. change (match d with 0%nat => 1 | Datatypes.S _ => INR d + 1 end) with (INR (Datatypes.S d)). cbn [Nat.pred]. field. exact P.
  - apply (@ex_derive_continuous R_AbsRing R_NormedModule (fun x => x ^ d)). auto_derive. exact Logic.I.
Qed.
Lemma exact_peval : forall n c d, (forall e, (e < d + length c)%nat -> exact n (fun x => x ^ e)) -> exact n (fun x => x ^ d * peval c x).
Proof.
  intros n c. induction c as [|a c IH]; intros d H.
  - cbn [peval]. apply (exact_ext n (fun x => 0 * (fun _ => 0) x)); [intro; ring|]. apply exact_scal. unfold exact. replace (apply_rule n (fun _ => 0)) with 0 by (symmetry; apply as_zero; intros; ring). refine (eq_ind _ (fun z => is_RInt (fun _ : R => 0) (-1) 1 z) (is_RInt_const (-1) 1 0) 0 _). change ((1 - -1) * 0 = 0). ring.
  - apply (exact_ext n (fun x => a * x ^ d + x ^ Datatypes.S d * peval c x)); [intro x; cbn [peval pow]; ring|]. apply exact_plus; [apply exact_scal, H; cbn [length]; lia|]. apply IH. intros e E. apply H. cbn [length]. lia.
Qed.
Lemma exact_poly : forall h c, (0 < h)%nat -> (length c <= 2 * h + 2)%nat -> exact (2 * h) (peval c).
Proof.
  intros h c H L. apply (exact_ext _ (fun x => x ^ 0 * peval c x)); [intro; cbn; ring|]. apply exact_peval. intros e E. destruct (Nat.le_gt_cases e (2 * h)) as [l|l]; [apply exact_pow; lia|]. apply exact_odd; [lia|]. replace e with (2 * h + 1)%nat by lia. rewrite Nat.even_add, Nat.even_mul. reflexivity.
Qed.
