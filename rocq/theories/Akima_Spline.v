(** The piecewise cubic. *)
From Coq Require Import ZArith Reals Bool List Lra Lia Arith.
From Coquelicot Require Import Coquelicot.
From Verif Require Import Base Bounds_Model Bounds_Proofs FFT_Model FFT_Proofs Akima_Model Akima_Spec Akima_Proofs.
Import ListNotations.
Open Scope R_scope.

(** * Cubics given by values and slopes at two points *)
Definition hermite (x0 y0 s0 x1 y1 s1 t : R) : R :=
  let h := x1 - x0 in let m := (y1 - y0) / h in let u := t - x0 in
  y0 + s0 * u + (3 * m - 2 * s0 - s1) / h * (u * u) + (s0 + s1 - 2 * m) / h / h * (u * u * u).
Definition dhermite (x0 y0 s0 x1 y1 s1 t : R) : R :=
  let h := x1 - x0 in let m := (y1 - y0) / h in let u := t - x0 in
  s0 + 2 * ((3 * m - 2 * s0 - s1) / h) * u + 3 * ((s0 + s1 - 2 * m) / h / h) * (u * u).
Lemma hermite_left : forall x0 y0 s0 x1 y1 s1, hermite x0 y0 s0 x1 y1 s1 x0 = y0.
Proof. intros. unfold hermite. rewrite Rminus_eq_0. ring. Qed.
Lemma hermite_right : forall x0 y0 s0 x1 y1 s1, x0 < x1 -> hermite x0 y0 s0 x1 y1 s1 x1 = y1.
Proof. intros. unfold hermite. field. lra. Qed.
Lemma dhermite_left : forall x0 y0 s0 x1 y1 s1, dhermite x0 y0 s0 x1 y1 s1 x0 = s0.
Proof. intros. unfold dhermite. rewrite Rminus_eq_0. ring. Qed.
Lemma dhermite_right : forall x0 y0 s0 x1 y1 s1, x0 < x1 -> dhermite x0 y0 s0 x1 y1 s1 x1 = s1.
Proof. intros. unfold dhermite. field. lra. Qed.
Lemma hermite_deriv : forall x0 y0 s0 x1 y1 s1 t, derivable_pt_lim (hermite x0 y0 s0 x1 y1 s1) t (dhermite x0 y0 s0 x1 y1 s1 t).
Proof.
  intros. apply is_derive_Reals. unfold hermite, dhermite.
  set (h := x1 - x0). set (m := (y1 - y0) / h). set (c := (3 * m - 2 * s0 - s1) / h). set (d := (s0 + s1 - 2 * m) / h / h). clearbody c d.
  auto_derive; [exact I|]. ring.
Qed.
Lemma dhermite_cont : forall x0 y0 s0 x1 y1 s1 t, continuity_pt (dhermite x0 y0 s0 x1 y1 s1) t.
Proof.
  intros. apply derivable_continuous_pt. unfold dhermite. set (h := x1 - x0). set (m := (y1 - y0) / h). set (c := 2 * ((3 * m - 2 * s0 - s1) / h)). set (d := 3 * ((s0 + s1 - 2 * m) / h / h)). clearbody c d.
  exists (c + 2 * d * (t - x0)). apply is_derive_Reals. auto_derive; [exact I|]. ring.
Qed.
Lemma hermite_line : forall x0 y0 s0 x1 y1 s1 p q t, x0 < x1 ->
  hermite x0 (y0 + (p + q * x0)) (s0 + q) x1 (y1 + (p + q * x1)) (s1 + q) t = hermite x0 y0 s0 x1 y1 s1 t + (p + q * t).
Proof. intros. unfold hermite. field. lra. Qed.
Lemma hermite_scale : forall x0 y0 s0 x1 y1 s1 k t, x0 < x1 -> hermite x0 (k * y0) (k * s0) x1 (k * y1) (k * s1) t = k * hermite x0 y0 s0 x1 y1 s1 t.
Proof. intros. unfold hermite. field. lra. Qed.
Lemma hermite_mirror : forall x0 y0 s0 x1 y1 s1 t, x0 < x1 -> hermite (- x1) y1 (- s1) (- x0) y0 (- s0) (- t) = hermite x0 y0 s0 x1 y1 s1 t.
Proof. intros. unfold hermite. field. lra. Qed.

(** * Gluing *)
Lemma glue_deriv : forall f p q c l e, 0 < e -> (forall t, c - e < t <= c -> f t = p t) -> (forall t, c <= t < c + e -> f t = q t) ->
  derivable_pt_lim p c l -> derivable_pt_lim q c l -> derivable_pt_lim f c l.
Proof.
  intros f p q c l e E P Q DP DQ eps H. destruct (DP eps H) as [d1 D1]. destruct (DQ eps H) as [d2 D2].
  assert (M : 0 < Rmin e (Rmin d1 d2)) by (apply Rmin_glb_lt; [exact E|]; apply Rmin_glb_lt; [apply d1|apply d2]).
  exists (mkposreal _ M). intros h HN HB. cbn in HB.
  pose proof (Rmin_l e (Rmin d1 d2)). pose proof (Rmin_r e (Rmin d1 d2)). pose proof (Rmin_l d1 d2). pose proof (Rmin_r d1 d2).
  apply Rabs_def2 in HB as HB'. destruct (Rle_lt_dec h 0) as [s|s].
  - rewrite (P (c + h)), (P c) by lra. apply D1; auto. lra.
  - rewrite (Q (c + h)), (Q c) by lra. apply D2; auto. lra.
Qed.
Lemma glue_cont : forall f p q c e, 0 < e -> (forall t, c - e < t <= c -> f t = p t) -> (forall t, c <= t < c + e -> f t = q t) ->
  continuity_pt p c -> continuity_pt q c -> continuity_pt f c.
Proof.
  intros f p q c e E P Q CP CQ eps H. destruct (CP eps H) as [d1 [P1 D1]]. destruct (CQ eps H) as [d2 [P2 D2]].
  exists (Rmin e (Rmin d1 d2)). split; [apply Rmin_glb_lt; [exact E|]; apply Rmin_glb_lt; auto|].
  intros t [[_ NE] HB]. cbn in HB |- *. unfold R_dist in *.
  pose proof (Rmin_l e (Rmin d1 d2)). pose proof (Rmin_r e (Rmin d1 d2)). pose proof (Rmin_l d1 d2). pose proof (Rmin_r d1 d2).
  apply Rabs_def2 in HB as HB'. destruct (Rle_lt_dec t c) as [s|s].
  - rewrite (P t), (P c) by lra. apply (D1 t). split; [split; [exact I|exact NE]|]. cbn. unfold R_dist. lra.
  - rewrite (Q t), (Q c) by lra. apply (D2 t). split; [split; [exact I|exact NE]|]. cbn. unfold R_dist. lra.
Qed.

(** * Lookup *)
Lemma increasing_le : forall x i j, increasing x -> (i <= j)%nat -> (j < length x)%nat -> nth i x 0 <= nth j x 0.
Proof.
  intros x i j H L J. induction L as [|j L IH]; [lra|]. pose proof (H j J). assert (nth i x 0 <= nth j x 0) by (apply IH; lia). lra.
Qed.
Lemma increasing_lt : forall x i j, increasing x -> (i < j)%nat -> (j < length x)%nat -> nth i x 0 < nth j x 0.
Proof. intros x i j H L J. pose proof (H i ltac:(lia)). pose proof (increasing_le x (S i) j H ltac:(lia) J). lra. Qed.
Lemma increasing_tl : forall a x, increasing (a :: x) -> increasing x.
Proof. intros a x H i I. apply (H (S i)). cbn. lia. Qed.
Lemma none_above : forall x t, (forall i, (i < length x)%nat -> t < nth i x 0) -> filter (fun v => negb (Rltb t v)) x = [].
Proof.
  induction x as [|a x IH]; intros t H; auto. cbn. pose proof (H 0%nat ltac:(cbn; lia)) as A. cbn in A. destruct (Rltb_spec t a); [|lra]. cbn.
  apply IH. intros i I. apply (H (S i)). cbn. lia.
Qed.
Lemma count_ok : forall x t i, increasing x -> (i < length x)%nat -> nth i x 0 <= t -> ((S i < length x)%nat -> t < nth (S i) x 0) ->
  length (filter (fun v => negb (Rltb t v)) x) = S i.
Proof.
  induction x as [|a x IH]; intros t i INC I L U; [cbn in I; lia|].
  assert (A : a <= t) by (pose proof (increasing_le (a :: x) 0 i INC ltac:(lia) I) as G; change (nth 0 (a :: x) 0) with a in G; lra).
  cbn [filter]. destruct (Rltb_spec t a); [lra|]. cbn [negb length]. f_equal. destruct i as [|i].
  - rewrite none_above; auto. intros j J. cbn [length nth] in U. pose proof (U ltac:(lia)). pose proof (increasing_le x 0 j (increasing_tl _ _ INC) ltac:(lia) J). lra.
  - apply IH; auto; [eapply increasing_tl; eauto | cbn in I; lia |]. intros. apply U. cbn. lia.
Qed.
Lemma lookup_search : forall x t i, increasing x -> (S i < length x)%nat -> nth i x 0 <= t -> t < nth (S i) x 0 \/ S (S i) = length x -> lookup x t false = Z.of_nat i.
Proof.
  intros x t i INC I L U. unfold lookup, searchsorted, clip. destruct (Rlt_le_dec t (nth (S i) x 0)) as [c|c].
  - rewrite (count_ok x t i); auto; lia.
  - destruct U as [U|U]; [lra|]. rewrite (count_ok x t (S i)); auto; try lia. 
Qed.
Lemma lookup_fixed : forall x t i, evenly x -> (S i < length x)%nat -> nth i x 0 <= t -> t < nth (S i) x 0 \/ (S (S i) = length x /\ t <= nth (S i) x 0) -> lookup x t true = Z.of_nat i.
Proof.
  intros x t i [step [SP EV]] I L U. unfold lookup, clip, at0. change (Z.to_nat 1) with 1%nat. change (Z.to_nat 0) with 0%nat.
  assert (D : nth 1 x 0 - nth 0 x 0 = step) by (rewrite (EV 1%nat) by lia; cbn [INR]; lra). rewrite D.
  rewrite (EV i) in L by lia. rewrite (EV (S i)) in U by lia. rewrite S_INR in U.
  assert (B : INR i <= (t - nth 0 x 0) / step) by (apply Rmult_le_reg_r with step; auto; unfold Rdiv; rewrite Rmult_assoc, Rinv_l, Rmult_1_r by lra; lra).
  destruct (Rlt_le_dec t (nth 0 x 0 + (INR i + 1) * step)) as [c|c].
  - assert (B' : (t - nth 0 x 0) / step < INR i + 1) by (apply Rmult_lt_reg_r with step; auto; unfold Rdiv; rewrite Rmult_assoc, Rinv_l, Rmult_1_r by lra; lra).
    rewrite (floorR_unique _ (Z.of_nat i)) by (rewrite <- INR_IZR_INZ; lra). lia.
  - destruct U as [U|[U1 U2]]; [lra|]. assert (E : (t - nth 0 x 0) / step = INR (S i)) by (rewrite S_INR; replace t with (nth 0 x 0 + (INR i + 1) * step) by lra; field; lra).
    rewrite E. rewrite (floorR_unique _ (Z.of_nat (S i))) by (rewrite <- INR_IZR_INZ; lra). lia.
Qed.
Lemma bracket : forall x t k, (k < length x)%nat -> nth 0 x 0 <= t -> t < nth k x 0 -> exists i, (S i <= k)%nat /\ nth i x 0 <= t < nth (S i) x 0.
Proof.
  intros x t. induction k as [|k IH]; intros K L U; [lra|]. destruct (Rlt_le_dec t (nth k x 0)) as [c|c].
  - destruct (IH ltac:(lia) L c) as [i [A B]]. exists i. split; [lia|exact B].
  - exists k. split; [lia|lra].
Qed.

(** * The interpolant *)
Section Interp.
  Variables x y : list R.
  Hypothesis tab : table x y.
  Definition sl (i : nat) : R := nth i (slopes (smid_jax (secants x y)) (secants x y)) 0.
  Definition piece (i : nat) (t : R) : R := hermite (nth i x 0) (nth i y 0) (sl i) (nth (S i) x 0) (nth (S i) y 0) (sl (S i)) t.
  Definition dpiece (i : nat) (t : R) : R := dhermite (nth i x 0) (nth i y 0) (sl i) (nth (S i) x 0) (nth (S i) y 0) (sl (S i)) t.
  Lemma len_eq : length x = length y. Proof. apply tab. Qed.
  Lemma len3 : (3 <= length x)%nat. Proof. apply tab. Qed.
  Lemma incr : increasing x. Proof. apply tab. Qed.
  Lemma mlen : length (secants x y) = (length x - 1)%nat. Proof. apply secants_length, len_eq. Qed.
  Lemma slen : length (slopes (smid_jax (secants x y)) (secants x y)) = length x.
  Proof. rewrite slopes_length; rewrite mlen; pose proof len3; lia. Qed.
  Lemma coeffs_jax : forall use_jax, akima_interp_coeffs x y use_jax = coeffs_of x y (secants x y) (slopes (smid_jax (secants x y)) (secants x y)).
  Proof. intros [|]; unfold akima_interp_coeffs; [reflexivity|]. rewrite smid_agree; auto. rewrite mlen. pose proof len3. lia. Qed.
  Lemma slice_l : forall l j, (S j < length l)%nat -> nth j (slice None (Some (-1)%Z) l) 0 = nth j l 0.
  Proof. intros. rewrite slice_nth by (ends; lia). reflexivity. Qed.
  Lemma slice_r : forall l j, (S j < length l)%nat -> nth j (slice (Some 1%Z) None l) 0 = nth (S j) l 0.
  Proof. intros. rewrite slice_nth by (ends; lia). ends. f_equal. lia. Qed.
  Lemma slice_ll : forall l : list R, length (slice None (Some (-1)%Z) l) = (length l - 1)%nat.
  Proof. intros. rewrite slice_length. ends. lia. Qed.
  Lemma slice_rl : forall l : list R, (0 < length l)%nat -> length (slice (Some 1%Z) None l) = (length l - 1)%nat.
  Proof. intros. rewrite slice_length. ends. lia. Qed.
  Lemma nth_map : forall k (l : list R) j, nth j (map (Rmult k) l) 0 = k * nth j l 0.
  Proof. intros. rewrite <- (Rmult_0_r k) at 1. apply map_nth. Qed.
  Lemma value_at : forall use_jax i t, (S i < length x)%nat ->
    (let '(a, b, c, d) := akima_interp_coeffs x y use_jax in let u := t - at0 x (Z.of_nat i) in
     at0 a (Z.of_nat i) + at0 b (Z.of_nat i) * u + at0 c (Z.of_nat i) * (u * u) + at0 d (Z.of_nat i) * (u * u * u)) = piece i t.
  Proof.
    intros use_jax i t I. rewrite coeffs_jax. unfold coeffs_of, at0. rewrite Nat2Z.id. cbv zeta. pose proof slen as SL. pose proof mlen as ML. pose proof len_eq as LE.
    set (s := slopes (smid_jax (secants x y)) (secants x y)) in *. set (m := secants x y) in *.
    rewrite (slice_l y) by lia. rewrite (slice_l s) by lia.
    assert (LA : length (map (Rmult 3) m) = (length x - 1)%nat) by (rewrite map_length; lia).
    assert (LB : length (map (Rmult 2) m) = (length x - 1)%nat) by (rewrite map_length; lia).
    assert (LC : length (slice None (Some (-1)%Z) s) = (length x - 1)%nat) by (rewrite slice_ll; lia).
    assert (LD : length (map (Rmult 2) (slice None (Some (-1)%Z) s)) = (length x - 1)%nat) by (rewrite map_length; lia).
    assert (LF : length (slice (Some 1%Z) None s) = (length x - 1)%nat) by (rewrite slice_rl; lia).
    assert (LG : length (diff x) = (length x - 1)%nat) by apply diff_length.
    assert (BL : forall g a b, length a = (length x - 1)%nat -> length b = (length x - 1)%nat -> length (bc g a b) = (length x - 1)%nat) by (intros; rewrite bc_length; congruence).
    assert (BN : forall g a b, length a = (length x - 1)%nat -> length b = (length x - 1)%nat -> nth i (bc g a b) 0 = g (nth i a 0) (nth i b 0)) by (intros; apply bc_nth; [congruence|lia]).
    rewrite !BN by auto 6. rewrite !nth_map, (slice_l s), (slice_r s), diff_nth by lia.
    unfold m. rewrite secants_nth by (auto; lia). reflexivity.
  Qed.
  Lemma piece_left : forall i, piece i (nth i x 0) = nth i y 0.
  Proof. intro. apply hermite_left. Qed.
  Lemma piece_right : forall i, (S i < length x)%nat -> piece i (nth (S i) x 0) = nth (S i) y 0.
  Proof. intros i I. apply hermite_right. now apply incr. Qed.
  Definition last : R := nth (length x - 1) x 0.
  Lemma interp_outside : forall j f t, t < nth 0 x 0 \/ last < t -> interp x y j f t = 0.
  Proof.
    intros j f t H. unfold interp, akima_interp. destruct (akima_interp_coeffs x y j) as [[[a b] c] d]. unfold at0. change (Z.to_nat 0) with 0%nat.
    replace (Z.to_nat (Z.of_nat (length x) - 1)) with (length x - 1)%nat by lia. fold last.
    destruct (Rltb_spec t (nth 0 x 0)), (Rltb_spec last t); auto. lra.
  Qed.
  Lemma interp_lookup : forall j f t i, (S i < length x)%nat -> nth i x 0 <= t <= nth (S i) x 0 -> lookup x t f = Z.of_nat i -> interp x y j f t = piece i t.
  Proof.
    intros j f t i I B L. unfold interp, akima_interp. rewrite L. rewrite <- (value_at j i t I). destruct (akima_interp_coeffs x y j) as [[[a b] c] d].
    pose proof (increasing_le x 0 i incr ltac:(lia) ltac:(lia)). pose proof (increasing_le x (S i) (length x - 1) incr ltac:(lia) ltac:(pose proof len3; lia)).
    change (at0 x 0) with (nth 0 x 0). assert (E : at0 x (Z.of_nat (length x) - 1) = nth (length x - 1) x 0) by (unfold at0; f_equal; lia).
    destruct (Rltb_spec t (nth 0 x 0)); [lra|]. rewrite E. destruct (Rltb_spec (nth (length x - 1) x 0) t); [lra|]. reflexivity.
  Qed.
  Lemma interp_piece : forall j t i, (S i < length x)%nat -> nth i x 0 <= t <= nth (S i) x 0 -> interp x y j false t = piece i t.
  Proof.
    intros j t i I B. destruct (Rlt_le_dec t (nth (S i) x 0)) as [c|c].
    - apply interp_lookup; auto. apply lookup_search; auto; [apply incr | lra].
    - assert (E : t = nth (S i) x 0) by lra. destruct (Nat.eq_dec (S (S i)) (length x)) as [e|e].
      + apply interp_lookup; auto. apply lookup_search; auto; [apply incr | lra].
      + rewrite (interp_lookup j false t (S i)); [|lia| pose proof (incr (S i) ltac:(lia)); lra |].
        * rewrite E, piece_left, piece_right; auto.
        * apply lookup_search; [apply incr | lia | lra |]. left. pose proof (incr (S i) ltac:(lia)). lra.
  Qed.
  Lemma find_piece : forall t, nth 0 x 0 <= t <= last -> exists i, (S i < length x)%nat /\ nth i x 0 <= t <= nth (S i) x 0 /\ (t < nth (S i) x 0 \/ S (S i) = length x).
  Proof.
    intros t B. pose proof len3. destruct (Rlt_le_dec t last) as [c|c].
    - destruct (bracket x t (length x - 1) ltac:(lia) ltac:(lra) c) as [i [A D]]. exists i. split; [lia|]. split; [lra|]. left. lra.
    - exists (length x - 2)%nat. unfold last in *. replace (S (length x - 2)) with (length x - 1)%nat by lia. split; [lia|].
      pose proof (increasing_le x (length x - 2) (length x - 1) incr ltac:(lia) ltac:(lia)). split; [lra|]. right. lia.
  Qed.
  Lemma interp_fixed : forall j t, evenly x -> interp x y j true t = interp x y j false t.
  Proof.
    intros j t EV. destruct (Rlt_le_dec t (nth 0 x 0)) as [c|c]; [rewrite !interp_outside; auto|].
    destruct (Rlt_le_dec last t) as [d|d]; [rewrite !interp_outside; auto|].
    destruct (find_piece t ltac:(lra)) as [i [I [B U]]]. rewrite (interp_piece j t i I B). apply interp_lookup; auto. apply lookup_fixed; auto; [lra|].
    destruct U; [now left|]. right. split; auto. lra.
  Qed.
  Lemma interp_jax : forall j j' f t, interp x y j f t = interp x y j' f t.
  Proof. intros. unfold interp. now rewrite !coeffs_jax. Qed.
  Lemma interp_data : forall j i, (i < length x)%nat -> interp x y j false (nth i x 0) = nth i y 0.
  Proof.
    intros j i I. pose proof len3. destruct (Nat.eq_dec (S i) (length x)) as [e|e].
    - destruct i as [|i]; [lia|]. rewrite (interp_piece j _ i) by (try lia; pose proof (incr i ltac:(lia)); lra). apply piece_right. lia.
    - rewrite (interp_piece j _ i) by (try lia; pose proof (incr i ltac:(lia)); lra). apply piece_left.
  Qed.
  Definition dinterp (t : R) : R := dpiece (Z.to_nat (lookup x t false)) t.
  Lemma dinterp_piece : forall t i, (S i < length x)%nat -> nth i x 0 <= t <= nth (S i) x 0 -> dinterp t = dpiece i t.
  Proof.
    intros t i I B. unfold dinterp. destruct (Rlt_le_dec t (nth (S i) x 0)) as [c|c].
    - rewrite (lookup_search x t i), Nat2Z.id; auto; [apply incr | lra].
    - assert (E : t = nth (S i) x 0) by lra. destruct (Nat.eq_dec (S (S i)) (length x)) as [e|e].
      + rewrite (lookup_search x t i), Nat2Z.id; auto; [apply incr | lra].
      + rewrite (lookup_search x t (S i)), Nat2Z.id; [|apply incr | lia | lra | left; pose proof (incr (S i) ltac:(lia)); lra].
        rewrite E. unfold dpiece. rewrite dhermite_left, dhermite_right; auto. apply incr; lia.
  Qed.
  Lemma local : forall t, nth 0 x 0 < t < last -> exists i k e, 0 < e /\ (S i < length x)%nat /\ (S k < length x)%nat /\
    (forall u, t - e < u <= t -> nth i x 0 <= u <= nth (S i) x 0) /\ (forall u, t <= u < t + e -> nth k x 0 <= u <= nth (S k) x 0).
  Proof.
    intros t B. pose proof len3. destruct (bracket x t (length x - 1) ltac:(lia) ltac:(lra) ltac:(apply B)) as [i [A D]].
    destruct (Req_dec t (nth i x 0)) as [e|e].
    - destruct i as [|i]; [lra|]. pose proof (incr i ltac:(lia)). exists i, (S i), (Rmin (t - nth i x 0) (nth (S (S i)) x 0 - t)).
      pose proof (Rmin_l (t - nth i x 0) (nth (S (S i)) x 0 - t)). pose proof (Rmin_r (t - nth i x 0) (nth (S (S i)) x 0 - t)).
      split; [apply Rmin_glb_lt; lra|]. split; [lia|]. split; [lia|]. split; intros; lra.
    - exists i, i, (Rmin (t - nth i x 0) (nth (S i) x 0 - t)).
      pose proof (Rmin_l (t - nth i x 0) (nth (S i) x 0 - t)). pose proof (Rmin_r (t - nth i x 0) (nth (S i) x 0 - t)).
      split; [apply Rmin_glb_lt; lra|]. split; [lia|]. split; [lia|]. split; intros; lra.
  Qed.
  Lemma interp_C1 : forall j t, nth 0 x 0 < t < last -> derivable_pt_lim (interp x y j false) t (dinterp t) /\ continuity_pt dinterp t.
  Proof.
    intros j t B. destruct (local t B) as [i [k [e [E [I [K [L R]]]]]]]. split.
    - apply (glue_deriv _ (piece i) (piece k) t _ e); auto.
      + intros u U. apply interp_piece; auto.
      + intros u U. apply interp_piece; auto.
      + rewrite (dinterp_piece t i I) by (apply L; lra). apply hermite_deriv.
      + rewrite (dinterp_piece t k K) by (apply R; lra). apply hermite_deriv.
    - apply (glue_cont _ (dpiece i) (dpiece k) t e); auto.
      + intros u U. apply dinterp_piece; auto.
      + intros u U. apply dinterp_piece; auto.
      + apply dhermite_cont.
      + apply dhermite_cont.
  Qed.
  Lemma dinterp_knot : forall i, (i < length x)%nat -> dinterp (nth i x 0) = sl i.
  Proof.
    intros i I. pose proof len3. destruct (Nat.eq_dec (S i) (length x)) as [e|e].
    - destruct i as [|i]; [lia|]. pose proof (incr i ltac:(lia)). rewrite (dinterp_piece _ i) by (try lia; lra). apply dhermite_right; auto.
    - pose proof (incr i ltac:(lia)). rewrite (dinterp_piece _ i) by (try lia; lra). apply dhermite_left.
  Qed.
  Lemma slope_cases : sl 0 = chord x y 0 /\ sl 1 = (chord x y 0 + chord x y 1) / 2 /\
    (forall i, (2 <= i)%nat -> (i + 3 <= length x)%nat -> sl i = akima_slope (chord x y) i) /\
    ((4 <= length x)%nat -> sl (length x - 2) = (chord x y (length x - 4) + chord x y (length x - 3)) / 2) /\
    sl (length x - 1) = chord x y (length x - 3).
  Proof.
    pose proof len3. pose proof mlen as ML. pose proof len_eq. unfold sl.
    assert (N2 : (2 <= length (secants x y))%nat) by lia.
    split; [rewrite slope_first, secants_nth by (auto; lia); reflexivity|].
    split; [rewrite slope_second, !secants_nth by (auto; lia); reflexivity|].
    split; [|split].
    - intros i A B. rewrite slope_inner by (auto; lia). unfold akima_slope. rewrite !secants_nth by (auto; lia). reflexivity.
    - intro N4. replace (length x - 2)%nat with (length (secants x y) - 1)%nat by lia. rewrite slope_last_but_one by lia. rewrite ML.
      rewrite !secants_nth by (auto; lia). f_equal. f_equal; f_equal; lia.
    - replace (length x - 1)%nat with (length (secants x y)) by lia. rewrite slope_last by auto. rewrite ML, secants_nth by (auto; lia). f_equal. lia.
  Qed.
End Interp.
