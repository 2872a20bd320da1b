(** Clenshaw-Curtis weights. *)
From Coq Require Import Arith Reals Bool List Lra Lia Psatz.
From Coquelicot Require Import Coquelicot.
From Verif Require Import Base Bounds_Model Quad_Model Quad_Spec.
Open Scope R_scope.

(** * Finite sums *)
Lemma as_ext : forall n f g, (forall j, (j < n)%nat -> f j = g j) -> asumn n f = asumn n g.
Proof. induction n as [|n IH]; intros f g H; cbn [asumn]; [reflexivity|]. rewrite (IH f g), H; [reflexivity|lia|]. intros j J. apply H. lia. Qed.
Lemma as_plus : forall n f g, asumn n (fun j => f j + g j) = asumn n f + asumn n g.
Proof. induction n as [|n IH]; intros f g; cbn [asumn]; [lra|]. rewrite IH. ring. Qed.
Lemma as_scal : forall n c f, asumn n (fun j => c * f j) = c * asumn n f.
Proof. induction n as [|n IH]; intros c f; cbn [asumn]; [lra|]. rewrite IH. ring. Qed.
Lemma as_first : forall n f, asumn (Datatypes.S n) f = f O + asumn n (fun j => f (Datatypes.S j)).
Proof. induction n as [|n IH]; intro f; [cbn; lra|]. cbn [asumn] in *. rewrite IH. ring. Qed.
Lemma as_rev : forall n f, asumn n f = asumn n (fun j => f (n - 1 - j)%nat).
Proof.
  induction n as [|n IH]; intro f; [reflexivity|]. rewrite (as_first n (fun j => f (Datatypes.S n - 1 - j)%nat)). cbn [asumn]. rewrite IH. replace (Datatypes.S n - 1 - 0)%nat with n by lia. rewrite Rplus_comm. f_equal. apply as_ext. intros j J. f_equal. lia.
Qed.
Lemma as_zero : forall n f, (forall j, (j < n)%nat -> f j = 0) -> asumn n f = 0.
Proof. induction n as [|n IH]; intros f H; cbn [asumn]; [reflexivity|]. rewrite IH, H; [ring|lia|]. intros j J. apply H. lia. Qed.
Lemma as_app : forall n m f, asumn (n + m) f = asumn n f + asumn m (fun j => f (n + j)%nat).
Proof. induction m as [|m IH]; intro f; [rewrite Nat.add_0_r; cbn; lra|]. replace (n + Datatypes.S m)%nat with (Datatypes.S (n + m)) by lia. cbn [asumn]. rewrite IH. ring. Qed.
Lemma as_swap : forall n m (f : nat -> nat -> R), asumn n (fun i => asumn m (f i)) = asumn m (fun j => asumn n (fun i => f i j)).
Proof.
  induction n as [|n IH]; intros m f; cbn [asumn]; [symmetry; apply as_zero; reflexivity|]. rewrite IH. rewrite <- as_plus. reflexivity.
Qed.
Lemma as_at : forall n p (f : nat -> R), (p < n)%nat -> asumn n (fun j => (if (j =? p)%nat then f j else 0)) = f p.
Proof.
  induction n as [|n IH]; intros p f H; [lia|]. cbn [asumn]. destruct (Nat.eqb_spec n p) as [->|E].
  - rewrite as_zero; [ring|]. intros j J. destruct (Nat.eqb_spec j p); [lia|reflexivity].
  - rewrite IH by lia. ring.
Qed.

(** * Sums of cosines *)
Lemma cos_telescope : forall x n, 2 * sin (x / 2) * asumn n (fun k => cos (INR k * x)) = sin (INR n * x - x / 2) + sin (x / 2).
Proof.
  intro x. induction n as [|n IH].
  - cbn [asumn INR]. replace (0 * x - x / 2) with (- (x / 2)) by ring. rewrite sin_neg. ring.
  - cbn [asumn]. rewrite Rmult_plus_distr_l, IH. rewrite S_INR. replace ((INR n + 1) * x - x / 2) with (INR n * x + x / 2) by field. rewrite sin_plus, sin_minus. ring.
Qed.
Lemma cos_period_nat : forall x n, cos (x + 2 * INR n * PI) = cos x.
Proof. exact cos_period. Qed.
Lemma cos_2pi : forall k, cos (2 * PI * INR k) = 1.
Proof. intro k. rewrite <- cos_0. replace (2 * PI * INR k) with (0 + 2 * INR k * PI) by ring. apply cos_period. Qed.
Lemma cos_sum : forall N a, (0 < N)%nat -> asumn N (fun k => cos (2 * PI * INR a * INR k / INR N)) = if (a mod N =? 0)%nat then INR N else 0.
Proof.
  intros N a H. assert (HN : 0 < INR N) by (apply lt_0_INR; lia). destruct (Nat.eqb_spec (a mod N) 0) as [E|E].
  - apply Nat.mod_divides in E; [|lia]. destruct E as [q ->]. rewrite (as_ext _ _ (fun _ => 1)).
    + clear. induction N as [|N IH]; [reflexivity|]. cbn [asumn]. rewrite IH, S_INR. ring.
    + intros k K. rewrite <- (cos_2pi (q * k)). f_equal. rewrite !mult_INR. field. lra.
  - set (r := (a mod N)%nat) in *. assert (R1 : (r < N)%nat) by (apply Nat.mod_upper_bound; lia). pose proof (Nat.div_mod a N ltac:(lia)) as D. fold r in D. set (x := 2 * PI * INR r / INR N).
    rewrite (as_ext _ _ (fun k => cos (INR k * x))).
    + pose proof (cos_telescope x N) as T. replace (INR N * x - x / 2) with (- (x / 2) + 2 * INR r * PI) in T by (unfold x; field; lra). rewrite sin_period, sin_neg in T. assert (S : 0 < sin (x / 2)).
      { pose proof PI_RGT_0. assert (HR : 0 < INR r) by (apply lt_0_INR; lia). assert (HL : INR r < INR N) by (apply lt_INR; lia). assert (Q : 0 < INR r / INR N < 1). { split; [apply Rdiv_lt_0_compat; lra|]. apply (Rmult_lt_reg_r (INR N)); [lra|]. unfold Rdiv. rewrite Rmult_assoc, Rinv_l by lra. lra. } replace (x / 2) with (PI * (INR r / INR N)) by (unfold x; field; lra). apply sin_gt_0; nra. }
      apply (Rmult_eq_reg_l (2 * sin (x / 2))); [|lra]. rewrite T. ring.
    + intros k K. rewrite D, plus_INR, mult_INR. replace (2 * PI * (INR N * INR (a / N) + INR r) * INR k / INR N) with (INR k * x + 2 * INR ((a / N) * k) * PI) by (rewrite mult_INR; unfold x; field; lra). apply cos_period.
Qed.

(** * The weights in closed form *)
Definition cct (n k : nat) (j : nat) : R := cos (2 * PI * INR j * INR k / INR n).
Definition bb (n j : nat) : R := (if (2 * j =? n)%nat then 1 else 2) / (4 * INR j ^ 2 - 1).
Definition closed (n k : nat) : R := 2 / INR n * (1 - asumn (n / 2) (fun j => bb n (Datatypes.S j) * cct n k (Datatypes.S j))).
Lemma cct_0 : forall n k, cct n k 0 = 1.
Proof. intros n k. unfold cct. cbn [INR]. rewrite Rmult_0_r, Rmult_0_l. unfold Rdiv. rewrite Rmult_0_l. apply cos_0. Qed.
Lemma cct_n : forall n k, (0 < n)%nat -> cct n k n = 1.
Proof. intros n k H. unfold cct. rewrite <- (cos_2pi k). f_equal. field. apply not_0_INR. lia. Qed.
Lemma cct_sym : forall n k j, (0 < n)%nat -> (j <= n)%nat -> cct n k (n - j) = cct n k j.
Proof.
  intros n k j H J. unfold cct. assert (N : INR n <> 0) by (apply not_0_INR; lia). rewrite minus_INR by exact J. replace (2 * PI * (INR n - INR j) * INR k / INR n) with (- (2 * PI * INR j * INR k / INR n) + 2 * INR k * PI) by (field; exact N). rewrite cos_period, cos_neg. reflexivity.
Qed.
Lemma cct_arg : forall n k j, (0 < n)%nat -> (k <= n)%nat -> cct n (n - k) j = cct n k j.
Proof.
  intros n k j H J. unfold cct. assert (N : INR n <> 0) by (apply not_0_INR; lia). rewrite minus_INR by exact J. replace (2 * PI * INR j * (INR n - INR k) / INR n) with (- (2 * PI * INR j * INR k / INR n) + 2 * INR j * PI) by (field; exact N). rewrite cos_period, cos_neg. reflexivity.
Qed.
Lemma w_sym : forall n k, (0 < n)%nat -> (k <= n)%nat -> cc_w n (n - k) = cc_w n k.
Proof. intros n k H K. unfold cc_w, ihfft_re. f_equal. apply as_ext. intros j _. f_equal. apply (cct_arg n k j H K). Qed.
Lemma weight_w : forall n k, (1 < n)%nat -> (k <= n)%nat -> cc_weight n k = cc_w n k.
Proof.
  intros n k H K. unfold cc_weight. destruct (Nat.eqb_spec n 1) as [E|_]; [lia|]. pose proof (Nat.div_mod n 2 ltac:(lia)) as D. pose proof (Nat.mod_upper_bound n 2 ltac:(lia)) as B. destruct (Nat.ltb_spec k (n / 2 + 1)) as [l|l]; [reflexivity|]. destruct (Nat.eqb_spec (n mod 2) 1) as [O|O]; rewrite <- (w_sym n k ltac:(lia) K); f_equal; lia.
Qed.

(** the vector v2 *)
Lemma N_pos : forall j, 0 < cc_N j. Proof. intro j. unfold cc_N. pose proof (pos_INR j). lra. Qed.
Lemma v0_n : forall n, (1 < n)%nat -> cc_v0 n n = 0.
Proof. intros n H. unfold cc_v0, cc_length. pose proof (Nat.div_lt n 2 ltac:(lia) ltac:(lia)). destruct (Nat.ltb_spec n (n / 2)); [lia|]. destruct (Nat.eqb_spec n (n / 2)); [lia|reflexivity]. Qed.
Lemma v0_0 : forall n, (1 < n)%nat -> cc_v0 n 0 = -2.
Proof. intros n H. unfold cc_v0, cc_length. assert (0 < n / 2)%nat by (apply Nat.div_str_pos; lia). destruct (Nat.ltb_spec 0 (n / 2)); [|lia]. unfold cc_N. cbn [INR]. field. Qed.
Lemma v0_mid : forall n j, (0 < j < n / 2)%nat -> cc_v0 n j = 2 / (4 * INR j ^ 2 - 1).
Proof.
  intros n j H. unfold cc_v0, cc_length. destruct (Nat.ltb_spec j (n / 2)); [|lia]. unfold cc_N. assert (1 <= INR j) by (change 1 with (INR 1); apply le_INR; lia). field. repeat split; nra.
Qed.
Lemma v0_last : forall n, (1 < n)%nat -> cc_v0 n (n / 2) = 1 / (2 * INR (n / 2) - 1).
Proof.
  intros n H. unfold cc_v0, cc_length. rewrite Nat.ltb_irrefl, Nat.eqb_refl. assert (0 < n / 2)%nat by (apply Nat.div_str_pos; lia). unfold cc_N. rewrite minus_INR by lia. cbn [INR]. f_equal. ring.
Qed.
Lemma v0_out : forall n j, (n / 2 < j)%nat -> cc_v0 n j = 0.
Proof. intros n j H. unfold cc_v0, cc_length. destruct (Nat.ltb_spec j (n / 2)); [lia|]. destruct (Nat.eqb_spec j (n / 2)); [lia|reflexivity]. Qed.
Lemma sum_v0 : forall n (c : nat -> R), (1 < n)%nat -> asumn (n - 1) (fun j => cc_v0 n (Datatypes.S j) * c (Datatypes.S j)) =
  asumn (n / 2 - 1) (fun j => 2 / (4 * INR (Datatypes.S j) ^ 2 - 1) * c (Datatypes.S j)) + 1 / (2 * INR (n / 2) - 1) * c (n / 2)%nat.
Proof.
  intros n c H. set (L := (n / 2)%nat). assert (L0 : (0 < L)%nat) by (apply Nat.div_str_pos; lia). assert (L1 : (L < n)%nat) by (apply Nat.div_lt; lia).
  replace (n - 1)%nat with ((L - 1) + Datatypes.S (n - 1 - L))%nat by lia. rewrite as_app, as_first. rewrite (as_zero (n - 1 - L)).
  2:{ intros j J. rewrite v0_out; [ring|fold L; lia]. }
  replace (Datatypes.S (L - 1 + 0)) with L by lia. pose proof (v0_last n H) as VL. fold L in VL. rewrite VL. rewrite Rplus_0_r. f_equal. apply as_ext. intros j J. rewrite v0_mid; [reflexivity|fold L; lia].
Qed.
Lemma v2_sum : forall n k, (1 < n)%nat -> asumn n (fun j => cc_v2 n j * cct n k j) =
  2 * (1 - asumn (n / 2 - 1) (fun j => 2 / (4 * INR (Datatypes.S j) ^ 2 - 1) * cct n k (Datatypes.S j)) - 1 / (2 * INR (n / 2) - 1) * cct n k (n / 2)).
Proof.
  intros n k H. set (A := fun j => cc_v0 n j * cct n k j).
  rewrite (as_ext _ _ (fun j => -1 * A j + -1 * A (n - j)%nat)).
  2:{ intros j J. unfold A, cc_v2. rewrite cct_sym by lia. ring. }
  rewrite as_plus, !as_scal. rewrite (as_rev n (fun j => A (n - j)%nat)). rewrite (as_ext n (fun j => A (n - (n - 1 - j))%nat) (fun j => A (Datatypes.S j))) by (intros j J; f_equal; lia).
  assert (S1 : asumn n A = A O + asumn (n - 1) (fun j => A (Datatypes.S j))) by (rewrite <- as_first; f_equal; lia).
  assert (S2 : asumn n (fun j => A (Datatypes.S j)) = asumn (n - 1) (fun j => A (Datatypes.S j)) + A n) by (destruct n as [|n']; [lia|]; cbn [asumn]; replace (Datatypes.S n' - 1)%nat with n' by lia; reflexivity).
  change (asumn n (fun j => A j)) with (asumn n A). rewrite S1, S2. unfold A. rewrite (sum_v0 n (cct n k) H). rewrite v0_0, v0_n, cct_0 by exact H. ring.
Qed.
Lemma g_sum : forall n k, (1 < n)%nat -> asumn n (fun j => cc_g n j * cct n k j) = (- (if (k mod n =? 0)%nat then INR n else 0) + 2 * INR n * cct n k (n / 2)) / (INR n ^ 2 - 1 + INR (n mod 2)).
Proof.
  intros n k H. set (D := INR n ^ 2 - 1 + INR (n mod 2)). set (L := (n / 2)%nat). assert (L0 : (0 < L)%nat) by (apply Nat.div_str_pos; lia). assert (L1 : (L < n)%nat) by (apply Nat.div_lt; lia).
  rewrite (as_ext _ _ (fun j => / D * (-1 * cct n k j + ((if (j =? L)%nat then INR n * cct n k j else 0) + (if (j =? n - L)%nat then INR n * cct n k j else 0))))).
  2:{ intros j J. unfold cc_g, cc_length. fold L. fold D. destruct (j =? L)%nat, (j =? n - L)%nat; unfold Rdiv; ring. }
  rewrite as_scal, as_plus, as_scal, as_plus, (as_at n L (fun j => INR n * cct n k j)), (as_at n (n - L) (fun j => INR n * cct n k j)) by lia. rewrite cct_sym by lia. unfold cct at 1. rewrite (as_ext n (fun j => cos (2 * PI * INR j * INR k / INR n)) (fun j => cos (2 * PI * INR k * INR j / INR n))) by (intros j J; f_equal; unfold Rdiv; ring). rewrite cos_sum by lia. unfold Rdiv. ring.
Qed.
(** 1 - sum of 2 / (4 j^2 - 1) *)
Lemma telescope : forall m, asumn m (fun j => 2 / (4 * INR (Datatypes.S j) ^ 2 - 1)) = 1 - 1 / (2 * INR m + 1).
Proof.
  induction m as [|m IH]; [cbn [asumn INR]; field|]. cbn [asumn]. rewrite IH, S_INR. pose proof (pos_INR m). field. repeat split; nra.
Qed.
Definition half_end (n k : nat) : R := if (k =? 0)%nat || (k =? n)%nat then 1 / 2 else 1.
Lemma DD : forall n, (1 < n)%nat -> let L := INR (n / 2) in 1 <= L /\ ((n = 2 * (n / 2))%nat /\ INR n = 2 * L /\ INR n ^ 2 - 1 + INR (n mod 2) = (2 * L - 1) * (2 * L + 1) \/ (n <> 2 * (n / 2))%nat /\ INR n = 2 * L + 1 /\ INR n ^ 2 - 1 + INR (n mod 2) = (2 * L + 1) ^ 2).
Proof.
  intros n H L. assert (L0 : (0 < n / 2)%nat) by (apply Nat.div_str_pos; lia). split; [unfold L; change 1 with (INR 1); apply le_INR; lia|]. pose proof (Nat.div_mod n 2 ltac:(lia)) as D. pose proof (Nat.mod_upper_bound n 2 ltac:(lia)) as B. set (h := (n / 2)%nat) in *. assert (C : (n mod 2 = 0 \/ n mod 2 = 1)%nat) by lia. destruct C as [E|E]; rewrite E in *.
  - left. assert (Q : INR n = 2 * L) by (rewrite D, plus_INR, mult_INR; unfold L; cbn [INR]; ring). split; [lia|]. split; [exact Q|]. rewrite Q. cbn [INR]. ring.
  - right. assert (Q : INR n = 2 * L + 1) by (rewrite D, plus_INR, mult_INR; unfold L; cbn [INR]; ring). split; [lia|]. split; [exact Q|]. rewrite Q. cbn [INR]. ring.
Qed.
Lemma closed_split : forall n k, (1 < n)%nat -> closed n k = 2 / INR n * (1 - asumn (n / 2 - 1) (fun j => 2 / (4 * INR (Datatypes.S j) ^ 2 - 1) * cct n k (Datatypes.S j)) - bb n (n / 2) * cct n k (n / 2)).
Proof.
  intros n k H. unfold closed. assert (L0 : (0 < n / 2)%nat) by (apply Nat.div_str_pos; lia). pose proof (Nat.div_mod n 2 ltac:(lia)) as D. set (L := (n / 2)%nat) in *. replace (asumn L) with (asumn (Datatypes.S (L - 1))) by (f_equal; lia). cbn [asumn]. replace (Datatypes.S (L - 1)) with L by lia.
  rewrite (as_ext (L - 1) (fun j => bb n (Datatypes.S j) * cct n k (Datatypes.S j)) (fun j => 2 / (4 * INR (Datatypes.S j) ^ 2 - 1) * cct n k (Datatypes.S j))); [ring|]. intros j J. unfold bb. destruct (Nat.eqb_spec (2 * Datatypes.S j) n); [lia|reflexivity].
Qed.
Lemma w_closed : forall n k, (1 < n)%nat -> (k <= n)%nat -> cc_w n k = half_end n k * closed n k.
Proof.
  intros n k H K. assert (N0 : INR n <> 0) by (apply not_0_INR; lia). unfold cc_w, ihfft_re. change (fun j => (cc_v2 n j + cc_g n j) * cos (2 * PI * INR j * INR k / INR n)) with (fun j => (cc_v2 n j + cc_g n j) * cct n k j).
  rewrite (as_ext _ _ (fun j => cc_v2 n j * cct n k j + cc_g n j * cct n k j)) by (intros; ring). rewrite as_plus, v2_sum, g_sum by exact H. rewrite closed_split by exact H. destruct (DD n H) as [L1 DDn]. set (L := INR (n / 2)) in *. set (D := INR n ^ 2 - 1 + INR (n mod 2)) in *. unfold half_end.
  destruct (Nat.eqb_spec k 0) as [E|E]; [|destruct (Nat.eqb_spec k n) as [E'|E']].
  1,2: assert (C : forall j, cct n k j = 1) by (intro j; try subst k; unfold cct; first [cbn [INR]; rewrite Rmult_0_r; unfold Rdiv; rewrite Rmult_0_l; apply cos_0 | rewrite <- (cos_2pi j); f_equal; field; exact N0]); assert (M : (k mod n =? 0)%nat = true) by (subst k; first [rewrite Nat.mod_0_l by lia | rewrite Nat.mod_same by lia]; reflexivity); rewrite M; rewrite C; rewrite (as_ext _ _ (fun j => 2 / (4 * INR (Datatypes.S j) ^ 2 - 1))) by (intros; rewrite C; ring); rewrite telescope; rewrite minus_INR by (apply Nat.div_str_pos; lia); fold L; cbn [INR orb]; unfold bb; fold L; destruct DDn as [(P & Q & T)|(P & Q & T)]; rewrite T;
     (destruct (Nat.eqb_spec (2 * (n / 2)) n) as [F|F]; [|]); try lia; rewrite Q; field; repeat split; nra.
  cbn [orb]. assert (M : (k mod n =? 0)%nat = false) by (rewrite Nat.mod_small by lia; now apply Nat.eqb_neq). rewrite M. unfold bb. fold L. destruct DDn as [(P & Q & T)|(P & Q & T)]; rewrite T; (destruct (Nat.eqb_spec (2 * (n / 2)) n) as [F|F]; [|]); try lia; rewrite Q; field; repeat split; nra.
Qed.
