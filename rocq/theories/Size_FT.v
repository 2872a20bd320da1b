(** The Fourier transforms of the Box, the Gaussian and the Exponential. *)
From Coq Require Import ZArith Reals Bool List Lra Lia.
From Coquelicot Require Import Coquelicot.
From Verif Require Import Base Bounds_Model Bounds_Proofs GSP_Model Sky_Model Util_Model Size_Model Size_Spec Num_Consts Size_Proofs Size_Moffat Size_Band.
Import ListNotations.
Open Scope R_scope.

(** * Box *)
Lemma rint_zero : forall a b, is_RInt (fun _ : R => 0) a b 0.
Proof. intros a b. pose proof (@is_RInt_const R_NormedModule a b 0) as K. replace (scal (b - a) (0 : R_NormedModule)) with (0 : R) in K by (unfold scal; cbn; unfold mult; cbn; symmetry; apply Rmult_0_r). exact K. Qed.
Lemma rint_cos : forall k c w, 0 < w -> is_RInt (fun x => cos (k * x + c)) (- (w / 2)) (w / 2) (w * sinc (k * (w / (2 * PI))) * cos c).
Proof.
  intros k c w W. destruct (Req_dec k 0) as [->|K].
  - rewrite Rmult_0_l. unfold sinc. destruct (Reqb_spec 0 0); [|lra]. apply (is_RInt_ext (fun _ => cos c)); [intros x _; f_equal; ring|]. replace (w * 1 * cos c) with (scal (w / 2 - - (w / 2)) (cos c)) by (unfold scal; cbn; unfold mult; cbn; field). apply @is_RInt_const.
  - rewrite sinc_half by lra. replace (w * (sin (k * w / 2) / (k * w / 2)) * cos c) with (sin (k * (w / 2) + c) / k - sin (k * (- (w / 2)) + c) / k).
    + apply (rint_of _ (fun x => sin (k * x + c) / k)); [lra| |].
      * intros x _. auto_derive; [trivial|]. field. exact K.
      * intros x _. apply (@ex_derive_continuous _ R_NormedModule). auto_derive. trivial.
    + replace (k * (- (w / 2))) with (- (k * w / 2)) by field. replace (k * (w / 2)) with (k * w / 2) by field. rewrite !sin_plus, sin_neg, cos_neg. field. lra.
Qed.
Lemma box_cut : forall (g : R -> R) w A v, 0 < w -> w / 2 <= A -> is_RInt g (- (w / 2)) (w / 2) (v : R) -> is_RInt (fun x => if Rltb (2 * Rabs x) w then g x else 0) (- A) A v.
Proof.
  intros g w A v W HA H. change R in v. assert (Z : forall a b, a <= b -> (forall x, a < x < b -> w / 2 <= Rabs x) -> is_RInt (fun x => if Rltb (2 * Rabs x) w then g x else 0) a b 0).
  { intros a b AB O. apply (is_RInt_ext (fun _ => 0)).
    - rewrite Rmin_left, Rmax_right by exact AB. intros x X. specialize (O x X). destruct (Rltb_spec (2 * Rabs x) w); [lra|reflexivity].
    - apply rint_zero. }
  assert (M : is_RInt (fun x => if Rltb (2 * Rabs x) w then g x else 0) (- (w / 2)) (w / 2) v).
  { apply (is_RInt_ext g); [|exact H]. rewrite Rmin_left, Rmax_right by lra. intros x X. assert (Rabs x < w / 2) by (apply Rabs_def1; lra). destruct (Rltb_spec (2 * Rabs x) w); [reflexivity|lra]. }
  assert (L : is_RInt (fun x => if Rltb (2 * Rabs x) w then g x else 0) (- A) (- (w / 2)) 0) by (apply Z; [lra|]; intros x X; rewrite Rabs_left by lra; lra).
  assert (U : is_RInt (fun x => if Rltb (2 * Rabs x) w then g x else 0) (w / 2) A 0) by (apply Z; [lra|]; intros x X; rewrite Rabs_right by lra; lra).
  pose proof (is_RInt_Chasles _ _ _ _ _ _ (is_RInt_Chasles _ _ _ _ _ _ L M) U) as K. refine (eq_ind _ (fun z => is_RInt _ (- A) A z) K v _). change (0 + v + 0 = v). ring.
Qed.
Lemma box_wave : forall p k c A, 0 < bx_width p -> 0 < bx_height p -> bx_width p / 2 <= A -> bx_height p / 2 <= A -> wave_part (bx_xValue p) k c A = bx_kValue p k * cos c.
Proof.
  intros p [kx ky] c A W H AW AH. unfold wave_part, bx_xValue, bx_kValue. cbn [fst snd]. set (n := bx_flux p / (bx_width p * bx_height p)). set (sx := sinc (kx * (bx_width p / (2 * PI)))). set (sy := sinc (ky * (bx_height p / (2 * PI)))).
  apply is_RInt_unique. apply (is_RInt_ext (fun x => if Rltb (2 * Rabs x) (bx_width p) then n * (bx_height p * sy) * cos (kx * x + c) else 0)).
  - intros x _. symmetry. apply is_RInt_unique. destruct (Rltb_spec (2 * Rabs x) (bx_width p)) as [l|l].
    + apply (is_RInt_ext (fun y => if Rltb (2 * Rabs y) (bx_height p) then n * cos (ky * y + (kx * x + c)) else 0)).
      * intros y _. destruct (Rltb_spec (2 * Rabs y) (bx_height p)); [f_equal; f_equal; ring|symmetry; apply Rmult_0_l].
      * apply box_cut; [exact H|exact AH|]. replace (n * (bx_height p * sy) * cos (kx * x + c)) with (scal n (bx_height p * sy * cos (kx * x + c))) by (unfold scal; cbn; unfold mult; cbn; ring). apply (is_RInt_scal (fun y => cos (ky * y + (kx * x + c)))). apply rint_cos. exact H.
    + apply (is_RInt_ext (fun y => 0)); [intros y _; symmetry; apply Rmult_0_l|]. apply rint_zero.
  - apply box_cut; [exact W|exact AW|]. replace (bx_flux p * sx * sy * cos c) with (scal (n * (bx_height p * sy)) (bx_width p * sx * cos c)) by (unfold scal; cbn; unfold mult; cbn; unfold n; field; lra). apply (is_RInt_scal (fun x => cos (kx * x + c))). apply rint_cos. exact W.
Qed.
Lemma box_transform : forall p k, 0 < bx_width p -> 0 < bx_height p -> transform (bx_xValue p) k (bx_kValue p k).
Proof.
  intros p k W H c. apply (is_lim_ext_loc (fun _ => bx_kValue p k * cos c)); [|apply is_lim_const]. exists (bx_width p / 2 + bx_height p / 2). intros A HA. symmetry. apply box_wave; lra.
Qed.

(** * The Gaussian integral *)
Definition g1 (x : R) : R := exp (- (x * x / 2)).
Lemma g1_cont : forall x, continuous g1 x.
Proof. intro x. apply (@ex_derive_continuous _ R_NormedModule). unfold g1. auto_derive. trivial. Qed.
Lemma g1_int : forall a b, ex_RInt g1 a b.
Proof. intros a b. apply (@ex_RInt_continuous R_CompleteNormedModule). intros z _. apply g1_cont. Qed.
Definition gg (x : R) : R := RInt g1 0 x.
Lemma gg_derive : forall x, is_derive gg x (g1 x).
Proof. intro x. unfold gg. apply (is_derive_RInt g1 (fun b => RInt g1 0 b) 0 x); [|apply g1_cont]. exists (mkposreal 1 Rlt_0_1). intros y _. apply (@RInt_correct R_CompleteNormedModule), g1_int. Qed.
Definition hh (x : R) : R := RInt (fun t => 2 * exp (- (x * x * (1 + t * t) / 2)) / (1 + t * t)) 0 1.
Lemma one_sq : forall t, 0 < 1 + t * t.
Proof. intro t. nra. Qed.
Lemma hh_in : forall x t, continuous (fun t => 2 * exp (- (x * x * (1 + t * t) / 2)) / (1 + t * t)) t.
Proof. intros x t. apply (@ex_derive_continuous _ R_NormedModule). auto_derive. pose proof (one_sq t). lra. Qed.
Lemma hh_dx : forall x t, is_derive (fun u => 2 * exp (- (u * u * (1 + t * t) / 2)) / (1 + t * t)) x (- (2 * x * exp (- (x * x * (1 + t * t) / 2)))).
Proof. intros x t. pose proof (one_sq t). auto_derive; [lra|]. replace (- (x * x * (1 + t * t) * / 2)) with (- (x * x * (1 + t * t) / 2)) by reflexivity. field. lra. Qed.
Lemma exp_2d : forall (f : R -> R -> R) x y, continuity_2d_pt f x y -> continuity_2d_pt (fun u v => exp (f u v)) x y.
Proof. intros f x y H. apply (continuity_1d_2d_pt_comp exp f); [apply derivable_continuous_pt, derivable_pt_exp|exact H]. Qed.
Lemma sin_2d : forall (f : R -> R -> R) x y, continuity_2d_pt f x y -> continuity_2d_pt (fun u v => sin (f u v)) x y.
Proof. intros f x y H. apply (continuity_1d_2d_pt_comp sin f); [apply continuity_sin|exact H]. Qed.
Lemma hh_derive : forall x, is_derive hh x (- (2 * g1 x * gg x)).
Proof.
  intro x. unfold hh. assert (E : - (2 * g1 x * gg x) = RInt (fun t => Derive (fun u => 2 * exp (- (u * u * (1 + t * t) / 2)) / (1 + t * t)) x) 0 1).
  { symmetry. apply is_RInt_unique. apply (is_RInt_ext (fun t => scal (- (2 * g1 x)) (scal x (g1 (x * t + 0))))).
    - intros t _. symmetry. etransitivity; [apply is_derive_unique, hh_dx|]. unfold scal; cbn; unfold mult; cbn. unfold g1. replace (- (x * x * (1 + t * t) / 2)) with (- (x * x / 2) + - ((x * t + 0) * (x * t + 0) / 2)) by field. rewrite exp_plus. ring.
    - replace (- (2 * g1 x * gg x)) with (scal (- (2 * g1 x)) (gg x)) by (unfold scal; cbn; unfold mult; cbn; ring). apply (is_RInt_scal (fun t => scal x (g1 (x * t + 0)))). apply (is_RInt_comp_lin g1 x 0 0 1). rewrite Rmult_0_r, Rmult_1_r, !Rplus_0_r. apply (@RInt_correct R_CompleteNormedModule), g1_int. }
  rewrite E. apply (is_derive_RInt_param (fun u t => 2 * exp (- (u * u * (1 + t * t) / 2)) / (1 + t * t))).
  - exists (mkposreal 1 Rlt_0_1). intros y _ t _. eexists. apply hh_dx.
  - intros t _. apply (continuity_2d_pt_ext (fun u v => - 2 * u * exp (- / 2 * ((u * u) * (1 + v * v))))).
    { intros u v. symmetry. etransitivity; [apply is_derive_unique, hh_dx|]. replace (- / 2 * (u * u * (1 + v * v))) with (- (u * u * (1 + v * v) / 2)) by field. ring. }
    apply continuity_2d_pt_mult; [apply continuity_2d_pt_mult; [apply continuity_2d_pt_const|apply continuity_2d_pt_id1]|]. apply exp_2d. apply continuity_2d_pt_mult; [apply continuity_2d_pt_const|]. apply continuity_2d_pt_mult; [apply continuity_2d_pt_mult; apply continuity_2d_pt_id1|]. apply continuity_2d_pt_plus; [apply continuity_2d_pt_const|apply continuity_2d_pt_mult; apply continuity_2d_pt_id2].
  - exists (mkposreal 1 Rlt_0_1). intros y _. apply (@ex_RInt_continuous R_CompleteNormedModule). intros z _. apply hh_in.
Qed.
Lemma hh_0 : hh 0 = PI / 2.
Proof.
  unfold hh. apply is_RInt_unique. replace (PI / 2) with (2 * atan 1 - 2 * atan 0) by (rewrite atan_1, atan_0; field). apply (is_RInt_ext (fun t => 2 / (1 + t * t))).
  - intros t _. replace (- (0 * 0 * (1 + t * t) / 2)) with 0 by field. rewrite exp_0, Rmult_1_r. reflexivity.
  - apply (rint_of _ (fun t => 2 * atan t)); [lra| |].
    + intros t _. pose proof (one_sq t). auto_derive; [trivial|]. field. nra.
    + intros t _. apply (@ex_derive_continuous _ R_NormedModule). auto_derive. pose proof (one_sq t). lra.
Qed.
Lemma gg_hh : forall x, gg x * gg x + hh x = PI / 2.
Proof.
  intro x. assert (D : forall y, is_derive (fun y => gg y * gg y + hh y) y 0).
  { intro y. replace 0 with (plus (plus (mult (g1 y) (gg y)) (mult (gg y) (g1 y))) (- (2 * g1 y * gg y))) by (unfold plus, mult; cbn; ring). apply @is_derive_plus; [apply @is_derive_mult; [apply gg_derive|apply gg_derive|intros; apply Rmult_comm]|apply hh_derive]. }
  assert (Z : gg 0 = 0) by (exact (@RInt_point R_CompleteNormedModule 0 g1)). destruct (MVT_gen (fun y => gg y * gg y + hh y) 0 x (fun _ => 0)) as [c [_ E]].
  - intros y _. apply D.
  - intros y _. apply continuity_pt_filterlim. apply (@ex_derive_continuous R_AbsRing R_NormedModule (fun y => gg y * gg y + hh y)). exists 0. apply (D y).
  - rewrite Z, hh_0 in E. lra.
Qed.
Lemma hh_small : forall x, 0 <= hh x <= 2 * exp (- (x * x / 2)).
Proof.
  intro x. assert (I : ex_RInt (fun t => 2 * exp (- (x * x * (1 + t * t) / 2)) / (1 + t * t)) 0 1) by (apply (@ex_RInt_continuous R_CompleteNormedModule); intros z _; apply hh_in). unfold hh. split.
  - apply RInt_ge_0; [lra|exact I|]. intros t _. pose proof (one_sq t). apply Rmult_le_pos; [pose proof (exp_pos (- (x * x * (1 + t * t) / 2))); lra|apply Rlt_le, Rinv_0_lt_compat; lra].
  - replace (2 * exp (- (x * x / 2))) with (RInt (fun _ => 2 * exp (- (x * x / 2))) 0 1) by (rewrite RInt_const; unfold scal; cbn; unfold mult; cbn; ring). apply RInt_le; [lra|exact I|apply @ex_RInt_const|].
    intros t _. pose proof (one_sq t). apply (Rmult_le_reg_r (1 + t * t)); [lra|]. replace (2 * exp (- (x * x * (1 + t * t) / 2)) / (1 + t * t) * (1 + t * t)) with (2 * exp (- (x * x * (1 + t * t) / 2))) by (field; lra).
    assert (E : exp (- (x * x * (1 + t * t) / 2)) <= exp (- (x * x / 2))) by (apply exp_le; nra). pose proof (exp_pos (- (x * x / 2))). nra.
Qed.
Lemma gg_lim : is_lim gg p_infty (sqrt (PI / 2)).
Proof.
  pose proof PI_RGT_0 as P. apply (is_lim_ext_loc (fun x => sqrt (PI / 2 - hh x))).
  - exists 0. intros x X. pose proof (gg_hh x) as E. assert (G : 0 <= gg x) by (unfold gg; apply RInt_ge_0; [lra|apply g1_int|intros t _; unfold g1; apply Rlt_le, exp_pos]). replace (PI / 2 - hh x) with (gg x * gg x) by lra. apply sqrt_square. exact G.
  - assert (L : is_lim (fun x => PI / 2 - hh x) p_infty (PI / 2)).
    { replace (Finite (PI / 2)) with (Rbar_minus (PI / 2) 0) by (cbn; f_equal; ring). apply is_lim_minus'; [apply is_lim_const|].
      apply (is_lim_le_le_loc (fun _ => 0) (fun x => 2 * exp (- (x * x / 2)))); [exists 0; intros x _; apply hh_small|apply is_lim_const|].
      replace (Finite 0) with (Rbar_mult 2 0) by (cbn; f_equal; ring). apply is_lim_scal_l. apply lim_exp_minus. apply (is_lim_le_p_loc (fun x => x)); [|apply is_lim_id]. exists 2. intros x X. nra. }
    apply (is_lim_comp_continuous (fun x => PI / 2 - hh x) sqrt p_infty (PI / 2)); [exact L|]. apply continuous_sqrt.
Qed.

(** * The transform of the unit Gaussian on one axis *)
Definition psi (A k : R) : R := RInt (fun x => g1 x * cos (k * x)) (- A) A.
Lemma psi_in : forall k c x, continuous (fun x => g1 x * cos (k * x + c)) x.
Proof. intros k c x. apply (@ex_derive_continuous _ R_NormedModule). unfold g1. auto_derive. trivial. Qed.
Lemma psi_in0 : forall k x, continuous (fun x => g1 x * cos (k * x)) x.
Proof. intros k x. apply (@ex_derive_continuous _ R_NormedModule). unfold g1. auto_derive. trivial. Qed.
Lemma psi_dk : forall k x, is_derive (fun u => g1 x * cos (u * x)) k (- (x * g1 x * sin (k * x))).
Proof. intros k x. auto_derive; [trivial|]. ring. Qed.
Lemma psi_rint : forall A k, is_RInt (fun x => g1 x * cos (k * x)) (- A) A (psi A k).
Proof. intros A k. apply (@RInt_correct R_CompleteNormedModule). apply (@ex_RInt_continuous R_CompleteNormedModule). intros z _. apply psi_in0. Qed.
Lemma psi_derive : forall A k, 0 <= A -> is_derive (psi A) k (2 * g1 A * sin (k * A) - k * psi A k).
Proof.
  intros A k HA. assert (E : 2 * g1 A * sin (k * A) - k * psi A k = RInt (fun x => Derive (fun u => g1 x * cos (u * x)) k) (- A) A).
  { symmetry. apply is_RInt_unique. apply (is_RInt_ext (fun x => minus (- (x * g1 x * sin (k * x)) + k * (g1 x * cos (k * x))) (scal k (g1 x * cos (k * x))))).
    - intros x _. symmetry. etransitivity; [apply is_derive_unique, psi_dk|]. unfold minus, plus, opp, scal; cbn; unfold mult; cbn. ring.
    - replace (2 * g1 A * sin (k * A) - k * psi A k) with (minus (2 * g1 A * sin (k * A)) (scal k (psi A k))) by (unfold minus, plus, opp, scal; cbn; unfold mult; cbn; ring). apply @is_RInt_minus; [|apply (is_RInt_scal (fun x => g1 x * cos (k * x))), psi_rint].
      replace (2 * g1 A * sin (k * A)) with (g1 A * sin (k * A) - g1 (- A) * sin (k * - A)) by (unfold g1; replace (- A * - A) with (A * A) by ring; replace (k * - A) with (- (k * A)) by ring; rewrite sin_neg; ring).
      apply (rint_of _ (fun x => g1 x * sin (k * x))); [lra| |].
      + intros x _. unfold g1. auto_derive; [trivial|]. replace (- (x * x * / 2)) with (- (x * x / 2)) by reflexivity. field.
      + intros x _. apply (@ex_derive_continuous _ R_NormedModule). unfold g1. auto_derive. trivial. }
  rewrite E. unfold psi. apply (is_derive_RInt_param (fun u x => g1 x * cos (u * x))).
  - exists (mkposreal 1 Rlt_0_1). intros y _ t _. eexists. apply psi_dk.
  - intros t _. apply (continuity_2d_pt_ext (fun u v => (- 1 * v) * exp (- / 2 * (v * v)) * sin (u * v))).
    { intros u v. symmetry. etransitivity; [apply is_derive_unique, psi_dk|]. unfold g1. replace (- / 2 * (v * v)) with (- (v * v / 2)) by field. ring. }
    apply continuity_2d_pt_mult; [apply continuity_2d_pt_mult|].
    + apply continuity_2d_pt_mult; [apply continuity_2d_pt_const|apply continuity_2d_pt_id2].
    + apply exp_2d. apply continuity_2d_pt_mult; [apply continuity_2d_pt_const|apply continuity_2d_pt_mult; apply continuity_2d_pt_id2].
    + apply sin_2d. apply continuity_2d_pt_mult; [apply continuity_2d_pt_id1|apply continuity_2d_pt_id2].
  - exists (mkposreal 1 Rlt_0_1). intros y _. apply (@ex_RInt_continuous R_CompleteNormedModule). intros z _. apply psi_in0.
Qed.
Lemma psi_near : forall A k, 0 <= A -> Rabs (psi A k * exp (k * k / 2) - psi A 0) <= 2 * g1 A * exp (k * k / 2) * Rabs k.
Proof.
  intros A k HA. assert (D : forall y, is_derive (fun y => psi A y * exp (y * y / 2)) y (2 * g1 A * sin (y * A) * exp (y * y / 2))).
  { intro y. replace (2 * g1 A * sin (y * A) * exp (y * y / 2)) with (plus (mult (2 * g1 A * sin (y * A) - y * psi A y) (exp (y * y / 2))) (mult (psi A y) (y * exp (y * y / 2)))) by (unfold plus, mult; cbn; ring).
    apply (is_derive_mult (psi A) (fun y => exp (y * y / 2)) y); [apply psi_derive; exact HA| |intros; apply Rmult_comm]. auto_derive; [trivial|]. replace (y * y * / 2) with (y * y / 2) by reflexivity. field. }
  destruct (MVT_gen (fun y => psi A y * exp (y * y / 2)) 0 k (fun y => 2 * g1 A * sin (y * A) * exp (y * y / 2))) as [c [C E]].
  - intros y _. apply D.
  - intros y _. apply continuity_pt_filterlim. apply (@ex_derive_continuous R_AbsRing R_NormedModule (fun y => psi A y * exp (y * y / 2))). eexists. apply (D y).
  - replace (psi A 0 * exp (0 * 0 / 2)) with (psi A 0) in E by (replace (0 * 0 / 2) with 0 by field; rewrite exp_0; ring). rewrite E, Rminus_0_r, !Rabs_mult. apply Rmult_le_compat_r; [apply Rabs_pos|].
    assert (CK : c * c <= k * k). { destruct (Rle_dec 0 k) as [P|P]; [rewrite Rmin_left, Rmax_right in C by lra; nra|rewrite Rmin_right, Rmax_left in C by lra; nra]. }
    assert (X : exp (c * c / 2) <= exp (k * k / 2)) by (apply exp_le; lra). assert (SI : Rabs (sin (c * A)) <= 1) by (apply Rabs_le; apply SIN_bound). pose proof (exp_pos (c * c / 2)). assert (G : 0 < g1 A) by (unfold g1; apply exp_pos).
    rewrite (Rabs_pos_eq 2), (Rabs_pos_eq (g1 A)), (Rabs_pos_eq (exp (c * c / 2))) by lra. pose proof (Rabs_pos (sin (c * A))). apply Rmult_le_compat; [apply Rmult_le_pos; lra|lra| |exact X]. rewrite <- (Rmult_1_r (2 * g1 A)) at 2. apply Rmult_le_compat_l; lra.
Qed.
Lemma g1_lim : is_lim g1 p_infty 0.
Proof. unfold g1. apply lim_exp_minus. apply (is_lim_le_p_loc (fun x => x)); [|apply is_lim_id]. exists 2. intros x X. nra. Qed.
Lemma gg_odd : forall x, gg (- x) = - gg x.
Proof.
  intro x. assert (Z : gg 0 = 0) by (exact (@RInt_point R_CompleteNormedModule 0 g1)). assert (D : forall y, is_derive (fun y => gg y + gg (- y)) y 0).
  { intro y. replace 0 with (plus (g1 y) (scal (- (1)) (g1 (- y)))) by (unfold plus, scal; cbn; unfold mult; cbn; unfold g1; replace (- y * - y) with (y * y) by ring; ring). apply @is_derive_plus; [apply gg_derive|]. apply (is_derive_comp gg Ropp); [apply gg_derive|]. auto_derive; [trivial|reflexivity]. }
  destruct (MVT_gen (fun y => gg y + gg (- y)) 0 x (fun _ => 0)) as [c [_ E]].
  - intros y _. apply D.
  - intros y _. apply continuity_pt_filterlim. apply (@ex_derive_continuous R_AbsRing R_NormedModule (fun y => gg y + gg (- y))). exists 0. apply (D y).
  - rewrite Ropp_0, Z in E. lra.
Qed.
Lemma psi_0 : forall A, 0 <= A -> psi A 0 = 2 * gg A.
Proof.
  intros A HA. unfold psi. apply is_RInt_unique. apply (is_RInt_ext g1); [intros x _; rewrite Rmult_0_l, cos_0; symmetry; apply Rmult_1_r|].
  replace (2 * gg A) with (gg A - gg (- A)) by (rewrite gg_odd; ring). apply (rint_of _ gg); [lra|intros x _; apply gg_derive|intros x _; apply g1_cont].
Qed.
Lemma psi_lim : forall k, is_lim (fun A => psi A k) p_infty (sqrt (2 * PI) * exp (- (k * k / 2))).
Proof.
  intro k. pose proof PI_RGT_0 as P. assert (E : sqrt (2 * PI) = 2 * sqrt (PI / 2)). { replace (2 * PI) with (2 * 2 * (PI / 2)) by field. rewrite sqrt_mult by lra. rewrite sqrt_square by lra. reflexivity. }
  assert (L : is_lim (fun A => psi A k * exp (k * k / 2)) p_infty (sqrt (2 * PI))).
  { apply (is_lim_ext (fun A => (psi A k * exp (k * k / 2) - psi A 0) + psi A 0)); [intro; ring|]. replace (Finite (sqrt (2 * PI))) with (Finite (0 + 2 * sqrt (PI / 2))) by (f_equal; rewrite E; ring). apply is_lim_plus'.
    - assert (Q : is_lim (fun A => 2 * g1 A * exp (k * k / 2) * Rabs k) p_infty 0).
      { apply (is_lim_ext (fun A => (2 * exp (k * k / 2) * Rabs k) * g1 A)); [intro; ring|]. replace (Finite 0) with (Rbar_mult (2 * exp (k * k / 2) * Rabs k) 0) by (cbn; f_equal; ring). apply is_lim_scal_l, g1_lim. }
      apply (is_lim_le_le_loc (fun A => - (2 * g1 A * exp (k * k / 2) * Rabs k)) (fun A => 2 * g1 A * exp (k * k / 2) * Rabs k)); [|replace (Finite 0) with (Rbar_opp 0) by (cbn; f_equal; ring); apply is_lim_opp; exact Q|exact Q]. exists 0. intros A HA. apply Rabs_le_between, psi_near. lra.
    - apply (is_lim_ext_loc (fun A => 2 * gg A)); [exists 0; intros A HA; symmetry; apply psi_0; lra|]. replace (Finite (2 * sqrt (PI / 2))) with (Rbar_mult 2 (sqrt (PI / 2))) by reflexivity. apply is_lim_scal_l, gg_lim. }
  apply (is_lim_ext (fun A => psi A k * exp (k * k / 2) * exp (- (k * k / 2)))); [intro A; rewrite Rmult_assoc, <- exp_plus; replace (k * k / 2 + - (k * k / 2)) with 0 by ring; rewrite exp_0; ring|].
  replace (Finite (sqrt (2 * PI) * exp (- (k * k / 2)))) with (Rbar_mult (sqrt (2 * PI)) (exp (- (k * k / 2)))) by reflexivity. apply (is_lim_scal_r (fun A => psi A k * exp (k * k / 2))). exact L.
Qed.
Lemma psi_phase : forall A k c, 0 <= A -> is_RInt (fun x => g1 x * cos (k * x + c)) (- A) A (psi A k * cos c).
Proof.
  intros A k c HA. set (q := RInt (fun x => g1 x * sin (k * x)) (- A) A). assert (Q : is_RInt (fun x => g1 x * sin (k * x)) (- A) A q).
  { apply (@RInt_correct R_CompleteNormedModule). apply (@ex_RInt_continuous R_CompleteNormedModule). intros z _. apply (@ex_derive_continuous _ R_NormedModule). unfold g1. auto_derive. trivial. }
  assert (Q0 : q = 0).
  { assert (N : is_RInt (fun x => g1 x * sin (k * x)) (- A) A (- q)); [|assert (q = - q) by (rewrite <- (is_RInt_unique _ _ _ _ Q) at 1; exact (is_RInt_unique _ _ _ _ N)); lra].
    pose proof (is_RInt_comp_lin (fun x => g1 x * sin (k * x)) (-1) 0 (- A) A (- q)) as K. replace (-1 * - A + 0) with A in K by ring. replace (-1 * A + 0) with (- A) in K by ring. specialize (K (is_RInt_swap _ _ _ _ Q)).
    apply (is_RInt_ext (fun y => scal (-1) (g1 (-1 * y + 0) * sin (k * (-1 * y + 0))))); [|exact K]. intros x _. unfold scal; cbn; unfold mult; cbn. unfold g1. replace ((-1 * x + 0) * (-1 * x + 0)) with (x * x) by ring. replace (k * (-1 * x + 0)) with (- (k * x)) by ring. rewrite sin_neg. ring. }
  apply (is_RInt_ext (fun x => minus (scal (cos c) (g1 x * cos (k * x))) (scal (sin c) (g1 x * sin (k * x))))).
  - intros x _. unfold minus, plus, opp, scal; cbn; unfold mult; cbn. rewrite cos_plus. ring.
  - replace (psi A k * cos c) with (minus (scal (cos c) (psi A k)) (scal (sin c) q)) by (rewrite Q0; unfold minus, plus, opp, scal; cbn; unfold mult; cbn; ring). apply @is_RInt_minus; [apply (is_RInt_scal (fun x => g1 x * cos (k * x))), psi_rint|apply (is_RInt_scal (fun x => g1 x * sin (k * x))); exact Q].
Qed.
Lemma gauss_axis : forall s A k c, 0 < s -> 0 <= A -> is_RInt (fun x => g1 (x / s) * cos (k * x + c)) (- A) A (s * psi (A / s) (k * s) * cos c).
Proof.
  intros s A k c HS HA. pose proof (psi_phase (A / s) (k * s) c ltac:(apply Rmult_le_pos; [lra|apply Rlt_le, Rinv_0_lt_compat; lra])) as H.
  pose proof (is_RInt_comp_lin (fun x => g1 x * cos (k * s * x + c)) (/ s) 0 (- A) A (psi (A / s) (k * s) * cos c)) as K. replace (/ s * - A + 0) with (- (A / s)) in K by (field; lra). replace (/ s * A + 0) with (A / s) in K by (field; lra). specialize (K H).
  apply (is_RInt_ext (fun y => scal s (scal (/ s) (g1 (/ s * y + 0) * cos (k * s * (/ s * y + 0) + c))))).
  - intros x _. unfold scal; cbn; unfold mult; cbn. replace (/ s * x + 0) with (x / s) by (field; lra). replace (k * s * (x / s) + c) with (k * x + c) by (field; lra). field. lra.
  - replace (s * psi (A / s) (k * s) * cos c) with (scal s (psi (A / s) (k * s) * cos c)) by (unfold scal; cbn; unfold mult; cbn; ring). apply (is_RInt_scal (fun y => scal (/ s) (g1 (/ s * y + 0) * cos (k * s * (/ s * y + 0) + c)))). exact K.
Qed.
Lemma gaussian_wave : forall p k c A, 0 < ga_sigma p -> 0 <= A ->
  wave_part (ga_xValue p) k c A = ga_flux p * inv_twopi * psi (A / ga_sigma p) (fst k * ga_sigma p) * psi (A / ga_sigma p) (snd k * ga_sigma p) * cos c.
Proof.
  intros p [kx ky] c A HS HA. unfold wave_part. cbn [fst snd]. set (s := ga_sigma p) in *. set (py := psi (A / s) (ky * s)). set (px := psi (A / s) (kx * s)).
  assert (X : forall x y, ga_xValue p (x, y) = ga_norm p * (g1 (x / s) * g1 (y / s))).
  { intros x y. unfold ga_xValue, norm2, ga_inv_sigsq, ga_sigsq, g1. cbn [fst snd]. fold s. rewrite <- exp_plus. f_equal. f_equal. rewrite mhalf. field. lra. }
  apply is_RInt_unique. apply (is_RInt_ext (fun x => scal (ga_norm p * (s * py)) (g1 (x / s) * cos (kx * x + c)))).
  - intros x _. symmetry. apply is_RInt_unique. apply (is_RInt_ext (fun y => scal (ga_norm p * g1 (x / s)) (g1 (y / s) * cos (ky * y + (kx * x + c))))).
    + intros y _. rewrite X. unfold scal; cbn; unfold mult; cbn. replace (kx * x + ky * y + c) with (ky * y + (kx * x + c)) by ring. ring.
    + replace (scal (ga_norm p * (s * py)) (g1 (x / s) * cos (kx * x + c))) with (scal (ga_norm p * g1 (x / s)) (s * py * cos (kx * x + c))) by (unfold scal; cbn; unfold mult; cbn; ring). apply (is_RInt_scal (fun y => g1 (y / s) * cos (ky * y + (kx * x + c)))). apply gauss_axis; assumption.
  - replace (ga_flux p * inv_twopi * px * py * cos c) with (scal (ga_norm p * (s * py)) (s * px * cos c)) by (unfold scal; cbn; unfold mult; cbn; unfold ga_norm, ga_inv_sigsq, ga_sigsq; fold s; field; lra). apply (is_RInt_scal (fun x => g1 (x / s) * cos (kx * x + c))). apply gauss_axis; assumption.
Qed.
Lemma gaussian_transform : forall p k, 0 < ga_sigma p -> exists v, transform (ga_xValue p) k v /\ Rabs (v - ga_kValue p k) <= 1 / 10 ^ 16 * Rabs (ga_kValue p k).
Proof.
  intros p k HS. pose proof PI_RGT_0 as P. exists (2 * PI * inv_twopi * ga_kValue p k). split.
  - intro c. apply (is_lim_ext_loc (fun A => ga_flux p * inv_twopi * cos c * (psi (A / ga_sigma p) (fst k * ga_sigma p) * psi (A / ga_sigma p) (snd k * ga_sigma p)))); [exists 0; intros A HA; rewrite gaussian_wave by lra; ring|].
    set (s := ga_sigma p) in *. assert (L : forall q, is_lim (fun A => psi (A / s) q) p_infty (sqrt (2 * PI) * exp (- (q * q / 2)))).
    { intro q. apply (is_lim_comp (fun a => psi a q) (fun A => A / s) p_infty _ p_infty); [apply psi_lim| |exists 0; intros; discriminate]. apply (is_lim_ext (fun A => A * / s)); [reflexivity|]. replace p_infty with (Rbar_mult p_infty (/ s)) at 2; [apply is_lim_scal_r, is_lim_id|]. assert (0 < / s) by (apply Rinv_0_lt_compat; lra). cbn. destruct (Rle_dec 0 (/ s)) as [l|l]; [|lra]. destruct (Rle_lt_or_eq_dec 0 (/ s) l); [reflexivity|lra]. }
    replace (2 * PI * inv_twopi * ga_kValue p k * cos c) with (ga_flux p * inv_twopi * cos c * (sqrt (2 * PI) * exp (- (fst k * s * (fst k * s) / 2)) * (sqrt (2 * PI) * exp (- (snd k * s * (snd k * s) / 2))))).
    + apply (is_lim_scal_l _ (ga_flux p * inv_twopi * cos c) p_infty (Finite _)). apply (is_lim_mult (fun A => psi (A / s) (fst k * s)) (fun A => psi (A / s) (snd k * s)) p_infty (Finite _) (Finite _)); [apply L|apply L|exact Logic.I].
    + unfold ga_kValue, norm2, ga_sigsq. fold s. rewrite mhalf. replace (-1 / 2 * ((fst k * fst k + snd k * snd k) * s ^ 2)) with (- (fst k * s * (fst k * s) / 2) + - (snd k * s * (snd k * s) / 2)) by field. rewrite exp_plus.
      pose proof (sqrt_sqrt (2 * PI) ltac:(lra)) as Q. set (w := sqrt (2 * PI)) in *. set (e1 := exp (- (fst k * s * (fst k * s) / 2))). set (e2 := exp (- (snd k * s * (snd k * s) / 2))). replace (ga_flux p * inv_twopi * cos c * (w * e1 * (w * e2))) with ((w * w) * (ga_flux p * inv_twopi * cos c * (e1 * e2))) by ring. rewrite Q. ring.
  - replace (2 * PI * inv_twopi * ga_kValue p k - ga_kValue p k) with ((2 * PI * inv_twopi - 1) * ga_kValue p k) by ring. rewrite Rabs_mult. apply Rmult_le_compat_r; [apply Rabs_pos|exact twopi_near].
Qed.

(** * Exponential, in polar coordinates *)
Section ExpFT.
Variables (a k : R).
Hypothesis HA : 0 < a.
Let D (q : R) := a * a + q * q.
Lemma D_pos : forall q, 0 < D q.
Proof. intro q. unfold D. nra. Qed.
(** the inner integral *)
Definition tail (q c t : R) : R := exp (- (a * t)) * (cos (q * t + c) * (t * a / D q + (a * a - q * q) / (D q * D q)) - sin (q * t + c) * (t * q / D q + 2 * a * q / (D q * D q))).
Lemma inner : forall q c A, 0 <= A -> is_RInt (fun t => t * exp (- (a * t)) * cos (q * t + c)) 0 A (tail q c 0 - tail q c A).
Proof.
  intros q c A H. pose proof (D_pos q) as P. replace (tail q c 0 - tail q c A) with (- tail q c A - - tail q c 0) by ring. apply (rint_of _ (fun t => - tail q c t)); [exact H| |].
  - intros t _. unfold tail. auto_derive; [repeat split; trivial; lra|]. unfold D in *. field. lra.
  - intros t _. apply (@ex_derive_continuous _ R_NormedModule). auto_derive. trivial.
Qed.
Lemma div_le : forall x y d, 0 < d -> x <= y * d -> x / d <= y.
Proof. intros x y d Hd H. apply (Rmult_le_reg_r d); [exact Hd|]. replace (x / d * d) with x by (field; lra). exact H. Qed.
Lemma tail_le : forall q c A, 0 <= A -> Rabs (tail q c A) <= exp (- (a * A)) * (2 * A / a + 3 / (a * a)).
Proof.
  intros q c A H. pose proof (D_pos q) as P. unfold tail. rewrite Rabs_mult, (Rabs_pos_eq (exp _)) by (apply Rlt_le, exp_pos). apply Rmult_le_compat_l; [apply Rlt_le, exp_pos|].
  assert (CO : Rabs (cos (q * A + c)) <= 1) by (apply Rabs_le, COS_bound). assert (SI : Rabs (sin (q * A + c)) <= 1) by (apply Rabs_le, SIN_bound).
  assert (IA : 0 < / a) by (apply Rinv_0_lt_compat; lra). assert (AA : a * / a = 1) by (field; lra).
  assert (B1 : Rabs (A * a / D q + (a * a - q * q) / (D q * D q)) <= A / a + 1 / (a * a)).
  { assert (U : Rabs (A * a / D q) <= A / a). { rewrite Rabs_pos_eq by (apply Rmult_le_pos; [nra|apply Rlt_le, Rinv_0_lt_compat; lra]). apply div_le; [lra|]. unfold D. apply (Rmult_le_reg_r a); [lra|]. replace (A / a * (a * a + q * q) * a) with (A * (a * a + q * q)) by (field; lra). nra. }
    assert (V : Rabs ((a * a - q * q) / (D q * D q)) <= 1 / (a * a)). { apply Rabs_le. split.
      - apply (Rmult_le_reg_r (D q * D q)); [nra|]. replace ((a * a - q * q) / (D q * D q) * (D q * D q)) with (a * a - q * q) by (field; lra). apply (Rmult_le_reg_r (a * a)); [nra|]. replace (- (1 / (a * a)) * (D q * D q) * (a * a)) with (- (D q * D q)) by (field; lra). unfold D. nra.
      - apply (Rmult_le_reg_r (D q * D q)); [nra|]. replace ((a * a - q * q) / (D q * D q) * (D q * D q)) with (a * a - q * q) by (field; lra). apply (Rmult_le_reg_r (a * a)); [nra|]. replace (1 / (a * a) * (D q * D q) * (a * a)) with (D q * D q) by (field; lra). unfold D. nra. }
    eapply Rle_trans; [apply Rabs_triang|]. lra. }
  assert (B2 : Rabs (A * q / D q + 2 * a * q / (D q * D q)) <= A / a + 2 / (a * a)).
  { assert (U : Rabs (A * q / D q) <= A / a). { apply Rabs_le. split; apply (Rmult_le_reg_r (D q)); try lra; replace (A * q / D q * D q) with (A * q) by (field; lra); apply (Rmult_le_reg_r a); try lra; [replace (- (A / a) * D q * a) with (- (A * D q)) by (field; lra)|replace (A / a * D q * a) with (A * D q) by (field; lra)]; unfold D; assert (- (a * a + q * q) <= q * a <= a * a + q * q) by nra; nra. }
    assert (V : Rabs (2 * a * q / (D q * D q)) <= 2 / (a * a)). { assert (W : - (D q * D q) <= a * q * (a * a) <= D q * D q). { assert (- D q <= a * q <= D q) by (unfold D; nra). assert (0 <= a * a <= D q) by (unfold D; nra). nra. }
      apply Rabs_le. split; apply (Rmult_le_reg_r (D q * D q)); try nra; replace (2 * a * q / (D q * D q) * (D q * D q)) with (2 * a * q) by (field; lra); apply (Rmult_le_reg_r (a * a)); try nra; [replace (- (2 / (a * a)) * (D q * D q) * (a * a)) with (- (2 * (D q * D q))) by (field; lra)|replace (2 / (a * a) * (D q * D q) * (a * a)) with (2 * (D q * D q)) by (field; lra)]; nra. }
    eapply Rle_trans; [apply Rabs_triang|]. lra. }
  set (u := A * a / D q + (a * a - q * q) / (D q * D q)) in *. set (v := A * q / D q + 2 * a * q / (D q * D q)) in *. unfold Rminus. eapply Rle_trans; [apply Rabs_triang|]. rewrite Rabs_Ropp, !Rabs_mult.
  pose proof (Rabs_pos u). pose proof (Rabs_pos v). assert (Rabs (cos (q * A + c)) * Rabs u <= 1 * Rabs u) by (apply Rmult_le_compat_r; lra). assert (Rabs (sin (q * A + c)) * Rabs v <= 1 * Rabs v) by (apply Rmult_le_compat_r; lra). replace (2 * A / a + 3 / (a * a)) with (A / a + 1 / (a * a) + (A / a + 2 / (a * a))) by (field; lra). lra.
Qed.
(** the integral over the angle *)
Let s2 := sqrt (a * a + k * k).
Lemma s2_sq : s2 * s2 = a * a + k * k.
Proof. unfold s2. apply sqrt_sqrt. nra. Qed.
Lemma s2_pos : 0 < s2.
Proof. unfold s2. apply sqrt_lt_R0. nra. Qed.
Definition around (th : R) : R := th + atan ((a - s2) * sin th * cos th / (s2 * (cos th * cos th) + a * (sin th * sin th))).
Lemma trig1 : forall th, sin th * sin th = 1 - cos th * cos th.
Proof. intro th. pose proof (sin2_cos2 th) as E. unfold Rsqr in E. lra. Qed.
Lemma E_pos : forall th, 0 < s2 * (cos th * cos th) + a * (sin th * sin th).
Proof. intro th. pose proof (trig1 th) as T. pose proof s2_pos. destruct (Req_dec (cos th) 0) as [Z|Z]; [rewrite T, Z; lra|]. assert (0 < cos th * cos th) by nra. assert (0 <= sin th * sin th) by nra. nra. Qed.
Lemma around_derive : forall th, is_derive around th (a * s2 / D (k * cos th)).
Proof.
  intro th. pose proof (E_pos th) as E. pose proof (trig1 th) as T. pose proof s2_pos as SP. pose proof s2_sq as SS. pose proof (D_pos (k * cos th)) as DP.
  unfold around. auto_derive; [lra|]. set (x := cos th) in *. set (y := sin th) in *. set (e := s2 * (x * x) + a * (y * y)) in *. set (n := (a - s2) * y * x).
  assert (DE : e * e + n * n = D (k * x)). { unfold e, n, D. replace (k * x * (k * x)) with (x * x * (s2 * s2 - a * a)) by (rewrite SS; ring). replace (a * a) with (a * a * ((1 - x * x) + x * x) * ((1 - x * x) + x * x)) at 2 by ring. replace ((a - s2) * y * x * ((a - s2) * y * x)) with ((a - s2) * (a - s2) * (x * x) * (y * y)) by ring. rewrite T. ring. }
  assert (IN : 1 + n * / e * (n * / e * 1) = (e * e + n * n) / (e * e)) by (field; lra).
  assert (Q : 0 < e * e + n * n) by (rewrite DE; exact DP).
  assert (NUM : (a - s2) * (x * x - y * y) * e - n * (2 * (x * y) * (a - s2)) = (a - s2) * (s2 * (x * x) - a * (1 - x * x))).
  { unfold n. replace ((a - s2) * y * x * (2 * (x * y) * (a - s2))) with (2 * ((a - s2) * (a - s2)) * (x * x) * (y * y)) by ring. unfold e. rewrite T. ring. }
  rewrite IN. transitivity (1 + ((a - s2) * (x * x - y * y) * e - n * (2 * (x * y) * (a - s2))) / (e * e + n * n)); [field; lra|]. rewrite NUM, DE.
  apply (Rmult_eq_reg_r (D (k * x))); [|lra]. rewrite Rmult_plus_distr_r. replace ((a - s2) * (s2 * (x * x) - a * (1 - x * x)) / D (k * x) * D (k * x)) with ((a - s2) * (s2 * (x * x) - a * (1 - x * x))) by (field; lra). replace (a * s2 / D (k * x) * D (k * x)) with (a * s2) by (field; lra).
  unfold D. replace (k * x * (k * x)) with (x * x * (s2 * s2 - a * a)) by (rewrite SS; ring). ring.
Qed.
Definition turn (th : R) : R := - (k * k) / (s2 * s2) * (sin th * cos th / D (k * cos th)) + a * a / (s2 * s2) * (around th / (a * s2)).
Lemma turn_derive : forall th, is_derive turn th (tail (k * cos th) 0 0).
Proof.
  intro th. pose proof (trig1 th) as T. pose proof s2_pos as SP. pose proof s2_sq as SS. pose proof (D_pos (k * cos th)) as DP. unfold turn.
  assert (D1 : is_derive (fun th => sin th * cos th / D (k * cos th)) th ((a * a * (2 * (cos th * cos th) - 1) + k * k * (cos th * cos th)) / (D (k * cos th) * D (k * cos th)))).
  { unfold D in *. auto_derive; [lra|]. set (x := cos th) in *. set (y := sin th) in *. set (d := a * a + k * x * (k * x)) in *. transitivity (((x * x - y * y) * d + 2 * (y * y) * (x * x) * (k * k)) / (d * d)); [field; lra|]. rewrite T. f_equal. unfold d. ring. }
  assert (D2 : is_derive (fun th => around th / (a * s2)) th (1 / D (k * cos th))).
  { apply (is_derive_ext (fun th => scal (/ (a * s2)) (around th))); [intro t; unfold scal; cbn; unfold mult; cbn; unfold Rdiv; ring|]. replace (1 / D (k * cos th)) with (scal (/ (a * s2)) (a * s2 / D (k * cos th))) by (unfold scal; cbn; unfold mult; cbn; field; lra). apply @is_derive_scal. apply around_derive. }
  replace (tail (k * cos th) 0 0) with (plus (scal (- (k * k) / (s2 * s2)) ((a * a * (2 * (cos th * cos th) - 1) + k * k * (cos th * cos th)) / (D (k * cos th) * D (k * cos th)))) (scal (a * a / (s2 * s2)) (1 / D (k * cos th)))).
  - apply @is_derive_plus; apply @is_derive_scal; assumption.
  - unfold tail, plus, scal; cbn; unfold mult; cbn. rewrite !Rmult_0_r, Rplus_0_r, Ropp_0, exp_0, cos_0, sin_0. set (x := cos th) in *. rewrite SS. unfold D in *. field. split; nra.
Qed.
Lemma turn_all : turn (2 * PI) - turn 0 = 2 * PI * a / (s2 * s2 * s2).
Proof. pose proof s2_pos as SP. unfold turn, around. rewrite sin_2PI, cos_2PI, sin_0, cos_0. replace ((a - s2) * 0 * 1 / (s2 * (1 * 1) + a * (0 * 0))) with 0 by (field; lra). rewrite atan_0. pose proof (D_pos (k * 1)). field. lra. Qed.
Lemma tail_cont : forall A c th, continuous (fun th => tail (k * cos th) c A) th.
Proof. intros A c th. apply (@ex_derive_continuous _ R_NormedModule). unfold tail, D. auto_derive. assert (0 < a * a + k * cos th * (k * cos th)) by nra. repeat split; nra. Qed.
Lemma tail_0c : forall q c, tail q c 0 = cos c * tail q 0 0 - sin c * (2 * a * q / (D q * D q)).
Proof. intros q c. unfold tail. rewrite !Rmult_0_r, !Rplus_0_l, Ropp_0, exp_0, cos_0, sin_0. unfold Rdiv. ring. Qed.
(** the odd part vanishes *)
Definition odd_turn (th : R) : R := 2 * a * (k * cos th) / (D (k * cos th) * D (k * cos th)).
Lemma odd_cont : forall th, continuous odd_turn th.
Proof. intro th. apply (@ex_derive_continuous _ R_NormedModule). unfold odd_turn, D. auto_derive. assert (0 < a * a + k * cos th * (k * cos th)) by nra. nra. Qed.
Lemma odd_zero : is_RInt odd_turn 0 (2 * PI) 0.
Proof.
  pose proof PI_RGT_0 as P. assert (IN : forall u v, is_RInt odd_turn u v (RInt odd_turn u v)) by (intros u v; apply (@RInt_correct R_CompleteNormedModule); apply (@ex_RInt_continuous R_CompleteNormedModule); intros z _; apply odd_cont).
  pose proof (is_RInt_comp_lin odd_turn 1 PI 0 PI (RInt odd_turn PI (2 * PI))) as K. replace (1 * 0 + PI) with PI in K by ring. replace (1 * PI + PI) with (2 * PI) in K by ring. specialize (K (IN _ _)).
  assert (N : is_RInt (fun y => scal 1 (odd_turn (1 * y + PI))) 0 PI (opp (RInt odd_turn 0 PI))).
  { apply (is_RInt_ext (fun y => opp (odd_turn y))); [|apply @is_RInt_opp; apply IN]. intros y _. unfold scal, opp; cbn; unfold mult; cbn. unfold odd_turn. rewrite !Rmult_1_l. rewrite ?(Rmult_1_l y), neg_cos. pose proof (D_pos (k * cos y)) as DP. replace (D (k * - cos y)) with (D (k * cos y)) by (unfold D; ring). field. lra. }
  assert (E : RInt odd_turn PI (2 * PI) = - RInt odd_turn 0 PI) by (rewrite <- (is_RInt_unique _ _ _ _ K); exact (is_RInt_unique _ _ _ _ N)).
  pose proof (is_RInt_Chasles _ _ _ _ _ _ (IN 0 PI) (IN PI (2 * PI))) as V. refine (eq_ind _ (fun z => is_RInt _ 0 (2 * PI) z) V 0 _). change (RInt odd_turn 0 PI + RInt odd_turn PI (2 * PI) = 0). rewrite E. ring.
Qed.
Lemma first_part : forall c, is_RInt (fun th => tail (k * cos th) c 0) 0 (2 * PI) (2 * PI * a / (s2 * s2 * s2) * cos c).
Proof.
  intro c. pose proof PI_RGT_0 as P. apply (is_RInt_ext (fun th => minus (scal (cos c) (tail (k * cos th) 0 0)) (scal (sin c) (odd_turn th)))); [intros th _; rewrite (tail_0c _ c); unfold odd_turn; reflexivity|].
  replace (2 * PI * a / (s2 * s2 * s2) * cos c) with (minus (scal (cos c) (turn (2 * PI) - turn 0)) (scal (sin c) 0)) by (rewrite turn_all; unfold minus, plus, opp, scal; cbn; unfold mult; cbn; ring).
  apply @is_RInt_minus; [apply (is_RInt_scal (fun th => tail (k * cos th) 0 0)); apply (rint_of _ turn); [lra|intros; apply turn_derive|intros; apply tail_cont]|apply (is_RInt_scal odd_turn), odd_zero].
Qed.
Lemma whole : forall c A, 0 <= A -> exists e, RInt (fun th => RInt (fun t => t * exp (- (a * t)) * cos (k * (t * cos th) + c)) 0 A) 0 (2 * PI) = 2 * PI * a / (s2 * s2 * s2) * cos c - e /\ Rabs e <= 2 * PI * (exp (- (a * A)) * (2 * A / a + 3 / (a * a))).
Proof.
  intros c A H. pose proof PI_RGT_0 as P. exists (RInt (fun th => tail (k * cos th) c A) 0 (2 * PI)). assert (IN : ex_RInt (fun th => tail (k * cos th) c A) 0 (2 * PI)) by (apply (@ex_RInt_continuous R_CompleteNormedModule); intros z _; apply tail_cont). split.
  - apply is_RInt_unique. apply (is_RInt_ext (fun th => minus (tail (k * cos th) c 0) (tail (k * cos th) c A))).
    + intros th _. symmetry. apply is_RInt_unique. apply (is_RInt_ext (fun t => t * exp (- (a * t)) * cos (k * cos th * t + c))); [intros t _; f_equal; f_equal; ring|]. apply inner. exact H.
    + apply @is_RInt_minus; [apply first_part|apply (@RInt_correct R_CompleteNormedModule); exact IN].
  - replace (2 * PI) with (2 * PI - 0) at 2 by ring. apply (abs_RInt_le_const (fun th => tail (k * cos th) c A)); [lra|exact IN|]. intros t _. apply tail_le. exact H.
Qed.
End ExpFT.
Lemma decay_lim : forall a, 0 < a -> is_lim (fun A => 2 * PI * (exp (- (a * A)) * (2 * A / a + 3 / (a * a)))) p_infty 0.
Proof.
  intros a HA. pose proof PI_RGT_0 as P. assert (IA : 0 < / a) by (apply Rinv_0_lt_compat; lra).
  apply (is_lim_le_le_loc (fun _ => 0) (fun A => 2 * PI * (6 / (a * a)) * (/ (1 + a * A)))); [|apply is_lim_const|].
  - exists 0. intros A H. pose proof (tail_small (a * A) ltac:(nra)) as T. pose proof (exp_pos (- (a * A))) as EP. assert (AA : 0 < a * a) by nra. assert (IAA : 0 < / (a * a)) by (apply Rinv_0_lt_compat; lra). split.
    + apply Rmult_le_pos; [lra|]. apply Rmult_le_pos; [lra|]. apply Rplus_le_le_0_compat; apply Rmult_le_pos; nra.
    + replace (2 * PI * (6 / (a * a)) * / (1 + a * A)) with (2 * PI * (6 / (a * a) * / (1 + a * A))) by ring. apply Rmult_le_compat_l; [lra|]. replace (2 * A / a + 3 / (a * a)) with ((2 * (a * A) + 3) * / (a * a)) by (field; lra). replace (6 / (a * a) * / (1 + a * A)) with (3 * (2 / (1 + a * A)) * / (a * a)) by (field; split; nra).
      rewrite <- Rmult_assoc. apply Rmult_le_compat_r; [lra|]. set (w := a * A) in *. assert (0 <= w) by (unfold w; nra). apply (Rle_trans _ (3 * ((1 + w) * exp (- w)))); [nra|lra].
  - replace (Finite 0) with (Rbar_mult (2 * PI * (6 / (a * a))) 0) by (cbn; f_equal; ring). apply is_lim_scal_l. apply (is_lim_inv (fun A => 1 + a * A) p_infty p_infty); [|discriminate].
    apply (is_lim_le_p_loc (fun A => a * A)); [exists 0; intros; lra|]. replace p_infty with (Rbar_mult a p_infty) at 2; [apply is_lim_scal_l, is_lim_id|]. cbn. destruct (Rle_dec 0 a) as [l|l]; [|lra]. destruct (Rle_lt_or_eq_dec 0 a l); [reflexivity|lra].
Qed.
Lemma exponential_transform : forall p kx ky, 0 < ex_r0 p -> exists v, polar_transform (ex_xValue p) (sqrt (kx * kx + ky * ky)) v /\ Rabs (v - ex_kValue p (kx, ky)) <= 1 / 10 ^ 16 * Rabs (ex_kValue p (kx, ky)).
Proof.
  intros p kx ky H0. pose proof PI_RGT_0 as P. set (k := sqrt (kx * kx + ky * ky)). assert (K2 : k * k = kx * kx + ky * ky) by (apply sqrt_sqrt; nra). set (a := ex_inv_r0 p). assert (HA : 0 < a) by (unfold a, ex_inv_r0; apply Rmult_lt_0_compat; [lra|apply Rinv_0_lt_compat; lra]). assert (RA : ex_r0 p = / a) by (unfold a, ex_inv_r0; field; lra).
  set (s := sqrt (a * a + k * k)). assert (SP : 0 < s) by (apply sqrt_lt_R0; nra). assert (SS : s * s = a * a + k * k) by (apply sqrt_sqrt; nra).
  assert (KV : ex_norm p * (2 * PI * a / (s * s * s)) = 2 * PI * inv_twopi * ex_kValue p (kx, ky)).
  { unfold ex_kValue, norm2, ex_norm. cbn [fst snd]. fold a. rewrite <- K2, RA. replace (k * k * (/ a) ^ 2 + 1) with ((s / a) * (s / a)) by (replace (s / a * (s / a)) with (s * s / (a * a)) by (field; lra); rewrite SS; field; lra).
    rewrite sqrt_square by (apply Rmult_le_pos; [lra|apply Rlt_le, Rinv_0_lt_compat; lra]). field. lra. }
  exists (2 * PI * inv_twopi * ex_kValue p (kx, ky)). split.
  - intro c. rewrite <- KV. set (b := fun A => Rabs (ex_norm p) * (2 * PI * (exp (- (a * A)) * (2 * A / a + 3 / (a * a))))). assert (B : is_lim b p_infty 0). { unfold b. replace (Finite 0) with (Rbar_mult (Rabs (ex_norm p)) 0) by (cbn; f_equal; ring). apply is_lim_scal_l, decay_lim. exact HA. }
    set (v := ex_norm p * (2 * PI * a / (s * s * s)) * cos c). assert (N : forall A, 0 <= A -> v - b A <= polar_part (ex_xValue p) k c A <= v + b A).
    { intros A A0. destruct (whole a k HA c A A0) as [e [E1 E2]]. fold s in E1. assert (Q : polar_part (ex_xValue p) k c A = ex_norm p * RInt (fun th => RInt (fun t => t * exp (- (a * t)) * cos (k * (t * cos th) + c)) 0 A) 0 (2 * PI)).
      { unfold polar_part. assert (G : forall th, ex_RInt (fun t => t * exp (- (a * t)) * cos (k * (t * cos th) + c)) 0 A) by (intro th; apply (@ex_RInt_continuous R_CompleteNormedModule); intros z _; apply (@ex_derive_continuous _ R_NormedModule); auto_derive; trivial).
        assert (J : forall th, RInt (fun t => t * ex_xValue p (t, 0) * cos (k * (t * cos th) + c)) 0 A = ex_norm p * RInt (fun t => t * exp (- (a * t)) * cos (k * (t * cos th) + c)) 0 A).
        { intro th. apply is_RInt_unique. apply (is_RInt_ext (fun t => scal (ex_norm p) (t * exp (- (a * t)) * cos (k * (t * cos th) + c)))).
          - rewrite Rmin_left by lra. intros t T. unfold ex_xValue, norm2. cbn [fst snd]. rewrite sqrt_self by lra. fold a. unfold scal; cbn; unfold mult; cbn. replace (- (a * t)) with (- t * a) by ring. ring.
          - apply (is_RInt_scal (fun t => t * exp (- (a * t)) * cos (k * (t * cos th) + c))). apply (@RInt_correct R_CompleteNormedModule), G. }
        rewrite (RInt_ext _ (fun th => scal (ex_norm p) (RInt (fun t => t * exp (- (a * t)) * cos (k * (t * cos th) + c)) 0 A))) by (intros th _; apply J). apply (@RInt_scal R_CompleteNormedModule).
        apply (ex_RInt_ext (fun th => tail a (k * cos th) c 0 - tail a (k * cos th) c A)).
        - intros th _. symmetry. apply is_RInt_unique. apply (is_RInt_ext (fun t => t * exp (- (a * t)) * cos (k * cos th * t + c))); [intros t _; f_equal; f_equal; ring|]. apply inner; [exact HA|exact A0].
        - apply (@ex_RInt_continuous R_CompleteNormedModule). intros z _. apply @continuous_minus; apply tail_cont; exact HA. }
      rewrite Q, E1. assert (EB : Rabs (ex_norm p * e) <= b A) by (unfold b; rewrite Rabs_mult; apply Rmult_le_compat_l; [apply Rabs_pos|exact E2]). apply Rabs_le_between in EB. unfold v. lra. }
    apply (is_lim_le_le_loc (fun A => v - b A) (fun A => v + b A)).
    + exists 0. intros A A0. apply N. lra.
    + replace (Finite v) with (Finite (v - 0)) by (f_equal; ring). apply is_lim_minus'; [apply is_lim_const|exact B].
    + replace (Finite v) with (Finite (v + 0)) by (f_equal; ring). apply is_lim_plus'; [apply is_lim_const|exact B].
  - replace (2 * PI * inv_twopi * ex_kValue p (kx, ky) - ex_kValue p (kx, ky)) with ((2 * PI * inv_twopi - 1) * ex_kValue p (kx, ky)) by ring. rewrite Rabs_mult. apply Rmult_le_compat_r; [apply Rabs_pos|exact twopi_near].
Qed.
