(** Proofs about bisection, polynomials and moments. *)
From Coq Require Import ZArith Reals Bool List Lra Lia Arith.
From Verif Require Import Base Bounds_Model Bounds_Proofs Array_Model MSum Util_Model Util_Spec.
Import ListNotations.
Open Scope R_scope.

(** * Bisection *)
Definition hi (s : R * R * R * R) : R := let '(_, _, h, _) := s in h.
Lemma step_eq : forall f l fl h fh, bisect_step f (l, fl, h, fh) =
  if Rltb (f ((l + h) / 2) * fh) 0 then ((l + h) / 2, f ((l + h) / 2), h, fh) else (l, fl, (l + h) / 2, f ((l + h) / 2)).
Proof. reflexivity. Qed.
Lemma step_range : forall f n l fl h fh, l <= h -> l <= hi (fori n (bisect_step f) (l, fl, h, fh)) <= h.
Proof.
  intros f. induction n as [|n IH]; intros l fl h fh H; cbn [fori]; [cbn [hi]; lra|].
  rewrite step_eq. destruct (Rltb_spec (f ((l + h) / 2) * fh) 0) as [c|c].
  - pose proof (IH ((l + h) / 2) (f ((l + h) / 2)) h fh ltac:(lra)). lra.
  - pose proof (IH l fl ((l + h) / 2) (f ((l + h) / 2)) ltac:(lra)). lra.
Qed.
Lemma bisect_hi : forall f l h n, bisect_for_root f l h n = hi (fori n (bisect_step f) (l, f l, h, f h)).
Proof. reflexivity. Qed.
Lemma pow2_pos : forall n, 0 < 2 ^ n.
Proof. intro. apply pow_lt. lra. Qed.
Lemma sign_cases : forall a b c, a * c < 0 -> ~ b * c < 0 -> b = 0 \/ a * b < 0.
Proof.
  intros a b c H N. destruct (Req_dec b 0) as [e|e]; [left; exact e | right].
  assert (C : 0 < c * c) by (apply Rsqr_pos_lt; intro; subst; rewrite Rmult_0_r in H; lra).
  assert (B : b * c <> 0) by (apply Rmult_integral_contrapositive_currified; [exact e|]; intro; subst; rewrite Rmult_0_r in H; lra).
  assert (P : (a * c) * (b * c) < 0) by (pose proof (Rmult_lt_0_compat (- (a * c)) (b * c) ltac:(lra) ltac:(lra)); lra).
  assert (Q : (a * b) * (c * c) < 0) by (replace ((a * b) * (c * c)) with ((a * c) * (b * c)) by ring; exact P).
  destruct (Rlt_le_dec (a * b) 0) as [l|l]; [exact l|]. pose proof (Rmult_le_pos _ _ l (Rlt_le _ _ C)). lra.
Qed.
Lemma bisect_general : forall f n l h, l < h -> f l * f h < 0 ->
  let r := bisect_for_root f l h n in
  (exists a, l <= a /\ a < r /\ r <= h /\ r - a = (h - l) / 2 ^ n /\ f a * f r < 0) \/
  (exists k x, (1 <= k <= n)%nat /\ dyadic l h k x /\ l < x < h /\ f x = 0 /\ x - (h - l) / 2 ^ k <= r <= x).
Proof.
  intros f. induction n as [|n IH]; intros l h H SG; cbv zeta; rewrite bisect_hi.
  - left. exists l. cbn [fori pow hi]. repeat split; try lra; try field.
  - cbn [fori]. rewrite step_eq. cbv zeta in IH. setoid_rewrite bisect_hi in IH. set (m := (l + h) / 2) in *. pose proof (pow2_pos n) as P2.
    assert (D : forall k, (h - l) / 2 / 2 ^ k = (h - l) / 2 ^ (k + 1)).
    { intro k. rewrite pow_add, pow_1. pose proof (pow2_pos k). field. lra. }
    destruct (Rltb_spec (f m * f h) 0) as [c|c].
    + destruct (IH m h ltac:(unfold m; lra) c) as [[a [A1 [A2 [A3 [A4 A5]]]]] | [k [x [K [[j J] [X1 [X2 X3]]]]]]].
      * left. exists a. assert (ML : l <= m) by (unfold m; lra). repeat split; try assumption; try lra.
        rewrite A4. replace (h - m) with ((h - l) / 2) by (unfold m; field). rewrite D. now replace (n + 1)%nat with (S n) by lia.
      * right. exists (k + 1)%nat, x. replace (h - m) with ((h - l) / 2) in * by (unfold m; field). rewrite D in X3.
        repeat split; try lia; try (unfold m in X1; lra); try lra.
        exists (j + 2 ^ Z.of_nat k)%Z. rewrite J, plus_IZR, <- pow_IZR, pow_add, pow_1. unfold m. pose proof (pow2_pos k). field. lra.
    + destruct (sign_cases _ _ _ SG c) as [Z|Z].
      * right. exists 1%nat, m. pose proof (step_range f n l (f l) m (f m) ltac:(unfold m; lra)) as G. cbn [pow].
        repeat split; try lia; try (unfold m; lra); try exact Z.
        -- exists 1%Z. unfold m. cbn [pow]. field.
        -- unfold m in *. lra.
        -- apply G.
      * destruct (IH l m ltac:(unfold m; lra) Z) as [[a [A1 [A2 [A3 [A4 A5]]]]] | [k [x [K [[j J] [X1 [X2 X3]]]]]]].
        -- left. exists a. assert (MH : m <= h) by (unfold m; lra). repeat split; try assumption; try lra.
           rewrite A4. replace (m - l) with ((h - l) / 2) by (unfold m; field). rewrite D. now replace (n + 1)%nat with (S n) by lia.
        -- right. exists (k + 1)%nat, x. replace (m - l) with ((h - l) / 2) in * by (unfold m; field). rewrite D in X3.
           repeat split; try lia; try (unfold m in X1; lra); try lra.
           exists j. rewrite J, pow_add, pow_1. pose proof (pow2_pos k). field. lra.
Qed.
Lemma bisect_id : forall n, bisect_for_root (fun x => x) (-1) 1 (S n) = -1 + 1 / 2 ^ n.
Proof.
  assert (G : forall n h, -1 < h <= 0 -> hi (fori n (bisect_step (fun x => x)) (-1, -1, h, h)) = -1 + (h + 1) / 2 ^ n).
  { induction n as [|n IH]; intros h H; cbn [fori]; [cbn [hi pow]; field|]. rewrite step_eq.
    destruct (Rltb_spec ((-1 + h) / 2 * h) 0) as [c|c].
    - pose proof (Rmult_le_pos (- ((-1 + h) / 2)) (- h) ltac:(lra) ltac:(lra)). lra.
    - rewrite IH by lra. cbn [pow]. pose proof (pow2_pos n). field. lra. }
  intro n. rewrite bisect_hi. cbn [fori]. rewrite step_eq.
  replace ((-1 + 1) / 2) with 0 by field. destruct (Rltb_spec (0 * 1) 0) as [c|c]; [lra|].
  rewrite G by lra. f_equal. field. pose proof (pow2_pos n). lra.
Qed.
(** * Polynomials *)
Lemma sumf_S : forall n f, sumf (S n) f = f 0%nat + sumf n (fun i => f (S i)).
Proof. intros. unfold sumf. cbn [seq map fold_right]. now rewrite <- seq_shift, map_map. Qed.
Lemma sumf_ext : forall n f g, (forall i, (i < n)%nat -> f i = g i) -> sumf n f = sumf n g.
Proof. intros n. induction n as [|n IH]; intros f g H; [reflexivity|]. rewrite !sumf_S, H by lia. f_equal. apply IH. intros. apply H. lia. Qed.
Lemma sumf_scal : forall n c f, sumf n (fun i => c * f i) = c * sumf n f.
Proof. induction n as [|n IH]; intros c f; [unfold sumf; cbn; ring|]. rewrite !sumf_S, IH. ring. Qed.
Lemma poly_cons : forall c t x, poly (c :: t) x = c + x * poly t x.
Proof.
  intros. unfold poly. cbn [length]. rewrite sumf_S. cbn [nth pow]. rewrite <- sumf_scal. f_equal; [ring|].
  apply sumf_ext. intros. ring.
Qed.
Lemma polyval_poly : forall l x, polyval (rev l) x = poly l x.
Proof.
  intros l x. induction l as [|c t IH]; [reflexivity|]. rewrite poly_cons, <- IH. unfold polyval. cbn [rev].
  rewrite fold_left_app. cbn [fold_left]. ring.
Qed.
Lemma horner2d_plain : forall rows x y, horner2d_at x y rows false = poly2 rows false x y.
Proof.
  intros rows x y. induction rows as [|r t IH]; [reflexivity|]. unfold horner2d_at in *. cbn [rev].
  rewrite fold_left_app. cbn [fold_left]. rewrite IH, polyval_poly. unfold poly2. cbn [length]. rewrite sumf_S.
  cbn [nth andb]. rewrite Rplus_comm. f_equal.
  - unfold poly. apply sumf_ext. intros. cbn [pow]. ring.
  - rewrite Rmult_comm, <- sumf_scal. apply sumf_ext. intros i _. rewrite <- sumf_scal. apply sumf_ext. intros j _. cbn [pow]. ring.
Qed.
Lemma tril_app : forall l i r, tril_from i (l ++ [r]) = tril_from i l ++ [firstn (S (i + length l)) r ++ repeat 0 (length r - S (i + length l))].
Proof.
  induction l as [|a t IH]; intros i r.
  - cbn [app tril_from length]. now rewrite Nat.add_0_r.
  - change ((a :: t) ++ [r]) with (a :: (t ++ [r])). cbn [tril_from length]. rewrite IH. cbn [app].
    now replace (S i + length t)%nat with (i + S (length t))%nat by lia.
Qed.
Lemma mask_poly : forall k r y, poly (firstn k r ++ repeat 0 (length r - k)) y =
  sumf (length r) (fun j => if Nat.leb k j then 0 else nth j r 0 * y ^ j).
Proof.
  intros k r y. unfold poly. rewrite app_length, firstn_length, repeat_length.
  replace (Nat.min k (length r) + (length r - k))%nat with (length r) by lia.
  apply sumf_ext. intros j J. destruct (Nat.leb_spec k j) as [c|c].
  - rewrite app_nth2 by (rewrite firstn_length; lia). rewrite nth_repeat. ring.
  - rewrite app_nth1 by (rewrite firstn_length; lia). f_equal. clear - c. revert j c r. induction k as [|k IH]; intros j c r; [lia|].
    destruct r as [|a t]; [now destruct j|]. destruct j; [reflexivity|]. cbn [firstn nth]. apply IH. lia.
Qed.
Lemma horner2d_triangle : forall rows x y, horner2d_at x y rows true = poly2 rows true x y.
Proof.
  intros rows x y. induction rows as [|r t IH]; [reflexivity|]. unfold horner2d_at in *. cbn [rev]. rewrite tril_app, fold_left_app.
  cbn [fold_left]. rewrite IH, polyval_poly, rev_length. cbn [Nat.add]. rewrite mask_poly. unfold poly2. cbn [length]. rewrite sumf_S.
  cbn [nth andb]. rewrite Rplus_comm. f_equal.
  - apply sumf_ext. intros j _. cbn [Nat.add pow]. destruct (Nat.leb (S (length t)) j); ring.
  - rewrite Rmult_comm, <- sumf_scal. apply sumf_ext. intros i _. rewrite <- sumf_scal. apply sumf_ext. intros j _.
    change (S (length t) <=? S i + j)%nat with (length t <=? i + j)%nat. cbn [pow]. destruct (Nat.leb (length t) (i + j)); ring.
Qed.

(** * Sums over pixels *)
Lemma asum_ext : forall h w f g, (forall i j, (0 <= i < h)%Z -> (0 <= j < w)%Z -> f i j = g i j) -> asum h w f = asum h w g.
Proof. intros. unfold asum. apply zsum_ext. intros i I. apply zsum_ext. intros j J. auto. Qed.
Lemma asum_plus : forall h w f g, asum h w (fun i j => f i j + g i j) = asum h w f + asum h w g.
Proof.
  intros. unfold asum. rewrite <- (zsum_plus R Rplus 0 Rplus_comm (fun a b c => eq_sym (Rplus_assoc a b c)) Rplus_0_l). apply zsum_ext. intros i _.
  apply (zsum_plus R Rplus 0 Rplus_comm (fun a b c => eq_sym (Rplus_assoc a b c)) Rplus_0_l).
Qed.
Lemma nsum_scal : forall n c (f : Z -> R), nsum Rplus 0 n (fun i => c * f i) = c * nsum Rplus 0 n f.
Proof. induction n as [|n IH]; intros; cbn [nsum]; [ring|]. rewrite IH. ring. Qed.
Lemma asum_scal : forall h w c f, asum h w (fun i j => c * f i j) = c * asum h w f.
Proof. intros. unfold asum, zsum. rewrite <- nsum_scal. apply nsum_ext. intros i _. apply nsum_scal. Qed.
Lemma nsum_nonneg : forall n (f : Z -> R), (forall i, (0 <= i < Z.of_nat n)%Z -> 0 <= f i) -> 0 <= nsum Rplus 0 n f.
Proof.
  induction n as [|n IH]; intros f H; cbn [nsum]; [lra|]. apply Rplus_le_le_0_compat; [apply IH; intros; apply H; lia | apply H; lia].
Qed.
Lemma asum_nonneg : forall h w f, (forall i j, (0 <= i < h)%Z -> (0 <= j < w)%Z -> 0 <= f i j) -> 0 <= asum h w f.
Proof.
  intros h w f H. unfold asum, zsum. apply nsum_nonneg. intros i I. apply nsum_nonneg. intros j J. apply H; lia.
Qed.
Lemma asum_swap : forall h w f, asum h w f = asum w h (fun i j => f j i).
Proof. intros. unfold asum. apply (zsum_swap R Rplus 0 Rplus_comm (fun a b c => eq_sym (Rplus_assoc a b c)) Rplus_0_l). Qed.
Lemma asum_rev : forall h w f, asum h w (fun i j => f i (w - 1 - j)%Z) = asum h w f.
Proof.
  intros. unfold asum. apply zsum_ext. intros i _. apply (zsum_rev R Rplus 0 Rplus_comm (fun a b c => eq_sym (Rplus_assoc a b c)) Rplus_0_l w (f i)).
Qed.

Section Moments.
  Variable a : arr R.
  Notation T := (total a).
  Lemma total_ext : forall f g, (forall i j, f i j = g i j) -> T f = T g.
  Proof. intros. apply asum_ext. intros. now rewrite H. Qed.
  Lemma total_plus : forall f g, T (fun i j => f i j + g i j) = T f + T g.
  Proof. intros. unfold total. rewrite <- asum_plus. apply asum_ext. intros. ring. Qed.
  Lemma total_scal : forall c f, T (fun i j => c * f i j) = c * T f.
  Proof. intros. unfold total. rewrite <- asum_scal. apply asum_ext. intros. ring. Qed.
  Lemma total_const : forall c, T (fun _ _ => c) = c * T (fun _ _ => 1).
  Proof. intro. rewrite <- total_scal. apply total_ext. intros. ring. Qed.

  (** The moments in terms of sums over the pixels, coordinates being those of the pixels minus the origin. *)
  Definition X (imx ox : R) := fun (i j : Z) => IZR j + (imx - ox).
  Definition Y (imy oy : R) := fun (i j : Z) => IZR i + (imy - oy).
  Lemma central : forall (f g : Z -> Z -> R) u v, T (fun _ _ => 1) <> 0 -> u = T f / T (fun _ _ => 1) -> v = T g / T (fun _ _ => 1) ->
    T (fun i j => (f i j - u) * (g i j - v)) / T (fun _ _ => 1) = T (fun i j => f i j * g i j) / T (fun _ _ => 1) - u * v.
  Proof.
    intros f g u v N U V. set (M := T (fun _ _ => 1)) in *.
    rewrite (total_ext _ (fun i j => (f i j * g i j + (- v) * f i j) + ((- u) * g i j + u * v))) by (intros; ring).
    rewrite !total_plus, !total_scal, total_const. fold M.
    replace (T f) with (u * M) by (rewrite U; field; exact N). replace (T g) with (v * M) by (rewrite V; field; exact N). field. exact N.
  Qed.
  Lemma moments_ok : forall imx imy ox oy, let m := unweighted_moments a imx imy (Some (ox, oy)) in
    let M := T (fun _ _ => 1) in M <> 0 ->
    mo0 m = M /\ mox m = T (X imx ox) / M /\ moy m = T (Y imy oy) / M /\
    moxx m = T (fun i j => X imx ox i j ^ 2) / M - mox m ^ 2 /\
    moyy m = T (fun i j => Y imy oy i j ^ 2) / M - moy m ^ 2 /\
    moxy m = T (fun i j => X imx ox i j * Y imy oy i j) / M - mox m * moy m.
  Proof.
    intros imx imy ox oy m M N. unfold m, unweighted_moments. cbn [mo0 mox moy moxx moyy moxy].
    assert (E0 : asum (nrow a) (ncol a) (fun i j => elt a i j) = M) by (apply asum_ext; intros; ring). rewrite !E0.
    fold (T (fun i j => IZR j + (imx - ox))). fold (T (fun i j => IZR i + (imy - oy))).
    fold (X imx ox). fold (Y imy oy). set (u := T (X imx ox) / M). set (v := T (Y imy oy) / M).
    split; [reflexivity|]. split; [reflexivity|]. split; [reflexivity|].
    pose proof (central (X imx ox) (X imx ox) u u N eq_refl eq_refl) as Cxx.
    pose proof (central (Y imy oy) (Y imy oy) v v N eq_refl eq_refl) as Cyy.
    pose proof (central (X imx ox) (Y imy oy) u v N eq_refl eq_refl) as Cxy. fold M in Cxx, Cyy, Cxy.
    split; [|split].
    - rewrite (total_ext _ (fun i j => X imx ox i j * X imx ox i j)) by (intros; ring). replace (u ^ 2) with (u * u) by ring. rewrite <- Cxx.
      f_equal. apply asum_ext. intros. unfold X. ring.
    - rewrite (total_ext _ (fun i j => Y imy oy i j * Y imy oy i j)) by (intros; ring). replace (v ^ 2) with (v * v) by ring. rewrite <- Cyy.
      f_equal. apply asum_ext. intros. unfold Y. ring.
    - rewrite <- Cxy. reflexivity.
  Qed.
  Lemma moments_default : forall imx imy, unweighted_moments a imx imy None = unweighted_moments a imx imy (Some (0, 0)).
  Proof. reflexivity. Qed.
  Lemma moments_shift : forall imx imy dx dy, T (fun _ _ => 1) <> 0 ->
    let m := unweighted_moments a imx imy None in let m' := unweighted_moments a (imx + dx) (imy + dy) None in
    mo0 m' = mo0 m /\ mox m' = mox m + dx /\ moy m' = moy m + dy /\ moxx m' = moxx m /\ moyy m' = moyy m /\ moxy m' = moxy m.
  Proof.
    intros imx imy dx dy N m m'. destruct (moments_ok imx imy 0 0 N) as [A0 [A1 [A2 [A3 [A4 A5]]]]].
    destruct (moments_ok (imx + dx) (imy + dy) 0 0 N) as [B0 [B1 [B2 [B3 [B4 B5]]]]].
    rewrite <- moments_default in *. fold m in A0, A1, A2, A3, A4, A5. fold m' in B0, B1, B2, B3, B4, B5.
    set (M := T (fun _ _ => 1)) in *.
    assert (EX : T (X (imx + dx) 0) = T (X imx 0) + dx * M).
    { rewrite (total_ext _ (fun i j => X imx 0 i j + dx)) by (intros; unfold X; ring). now rewrite total_plus, total_const. }
    assert (EY : T (Y (imy + dy) 0) = T (Y imy 0) + dy * M).
    { rewrite (total_ext _ (fun i j => Y imy 0 i j + dy)) by (intros; unfold Y; ring). now rewrite total_plus, total_const. }
    assert (EXX : T (fun i j => X (imx + dx) 0 i j ^ 2) = T (fun i j => X imx 0 i j ^ 2) + 2 * dx * T (X imx 0) + dx ^ 2 * M).
    { rewrite (total_ext _ (fun i j => (X imx 0 i j ^ 2 + 2 * dx * X imx 0 i j) + dx ^ 2)) by (intros; unfold X; ring).
      now rewrite !total_plus, total_scal, total_const. }
    assert (EYY : T (fun i j => Y (imy + dy) 0 i j ^ 2) = T (fun i j => Y imy 0 i j ^ 2) + 2 * dy * T (Y imy 0) + dy ^ 2 * M).
    { rewrite (total_ext _ (fun i j => (Y imy 0 i j ^ 2 + 2 * dy * Y imy 0 i j) + dy ^ 2)) by (intros; unfold Y; ring).
      now rewrite !total_plus, total_scal, total_const. }
    assert (EXY : T (fun i j => X (imx + dx) 0 i j * Y (imy + dy) 0 i j)
                  = T (fun i j => X imx 0 i j * Y imy 0 i j) + dy * T (X imx 0) + dx * T (Y imy 0) + dx * dy * M).
    { rewrite (total_ext _ (fun i j => (X imx 0 i j * Y imy 0 i j + dy * X imx 0 i j) + (dx * Y imy 0 i j + dx * dy))) by (intros; unfold X, Y; ring).
      rewrite !total_plus, !total_scal, total_const. fold M. ring. }
    assert (FX : T (X imx 0) = mox m * M) by (rewrite A1; field; exact N).
    assert (FY : T (Y imy 0) = moy m * M) by (rewrite A2; field; exact N).
    assert (GX : mox m' = mox m + dx) by (rewrite B1, EX, FX; field; exact N).
    assert (GY : moy m' = moy m + dy) by (rewrite B2, EY, FY; field; exact N).
    split; [congruence|]. split; [exact GX|]. split; [exact GY|]. rewrite B3, B4, B5, A3, A4, A5, GX, GY, EXX, EYY, EXY, FX, FY.
    repeat split; field; exact N.
  Qed.
  Lemma moments_origin : forall imx imy ox oy, unweighted_moments a imx imy (Some (ox, oy)) = unweighted_moments a (imx - ox) (imy - oy) None.
  Proof. intros. unfold unweighted_moments. rewrite !Rminus_0_r. reflexivity. Qed.

  (** Non-negative pixels *)
  Lemma total_nonneg : forall f, (forall i j, 0 <= elt a i j) -> (forall i j, 0 <= f i j) -> 0 <= T f.
  Proof. intros f H F. apply asum_nonneg. intros. apply Rmult_le_pos; auto. Qed.
  Lemma schwarz : forall f g, (forall i j, 0 <= elt a i j) -> T (fun i j => f i j * g i j) ^ 2 <= T (fun i j => f i j ^ 2) * T (fun i j => g i j ^ 2).
  Proof.
    intros f g H. set (A := T (fun i j => f i j ^ 2)). set (B := T (fun i j => f i j * g i j)). set (D := T (fun i j => g i j ^ 2)).
    assert (Q : forall s t, 0 <= A * s ^ 2 + 2 * B * s * t + D * t ^ 2).
    { intros s t. assert (E : A * s ^ 2 + 2 * B * s * t + D * t ^ 2 = T (fun i j => (s * f i j + t * g i j) ^ 2)).
      { rewrite (total_ext _ (fun i j => (s ^ 2 * (f i j ^ 2) + 2 * s * t * (f i j * g i j)) + t ^ 2 * (g i j ^ 2))) by (intros; ring).
        rewrite !total_plus, !total_scal. unfold A, B, D. ring. }
      rewrite E. apply total_nonneg; [exact H|]. intros. replace ((s * f i j + t * g i j) ^ 2) with (Rsqr (s * f i j + t * g i j)) by (unfold Rsqr; ring). apply Rle_0_sqr. }
    assert (A0 : 0 <= A) by (pose proof (Q 1 0); lra). assert (D0 : 0 <= D) by (pose proof (Q 0 1); lra).
    pose proof (Q D (- B)) as Q1. pose proof (Q (- B) A) as Q2. clearbody A B D. clear H.
    destruct (Req_dec D 0) as [z|z].
    - destruct (Req_dec A 0) as [y|y].
      + subst. pose proof (Q 1 1). pose proof (Q 1 (-1)). assert (B = 0) by lra. subst. lra.
      + assert (0 < A) by lra. apply (Rmult_le_reg_l A); [lra|]. lra.
    - assert (0 < D) by lra. apply (Rmult_le_reg_l D); [lra|]. lra.
  Qed.
End Moments.

Lemma total_amap : forall c a f, total (amap (Rmult c) a) f = c * total a f.
Proof. intros. unfold total, amap. cbn [nrow ncol elt]. rewrite <- asum_scal. apply asum_ext. intros. ring. Qed.
Lemma total_atrans : forall a f, total (atrans a) f = total a (fun i j => f j i).
Proof. intros. unfold total, atrans. cbn [nrow ncol elt]. apply asum_swap. Qed.
Lemma total_amirror : forall a f, total (amirror a) f = total a (fun i j => f i (ncol a - 1 - j)%Z).
Proof.
  intros. unfold total, amirror. cbn [nrow ncol elt].
  rewrite <- (asum_rev (nrow a) (ncol a) (fun i j => f i (ncol a - 1 - j)%Z * elt a i j)). apply asum_ext. intros i j _ _.
  now replace (ncol a - 1 - (ncol a - 1 - j))%Z with j by lia.
Qed.
Lemma moments_scale : forall a c imx imy, c <> 0 -> total a (fun _ _ => 1) <> 0 ->
  let m := unweighted_moments a imx imy None in let m' := unweighted_moments (amap (Rmult c) a) imx imy None in
  mo0 m' = c * mo0 m /\ mox m' = mox m /\ moy m' = moy m /\ moxx m' = moxx m /\ moyy m' = moyy m /\ moxy m' = moxy m.
Proof.
  intros a c imx imy HC N m m'. destruct (moments_ok a imx imy 0 0 N) as [A0 [A1 [A2 [A3 [A4 A5]]]]].
  assert (N' : total (amap (Rmult c) a) (fun _ _ => 1) <> 0) by (rewrite total_amap; apply Rmult_integral_contrapositive_currified; auto).
  destruct (moments_ok (amap (Rmult c) a) imx imy 0 0 N') as [B0 [B1 [B2 [B3 [B4 B5]]]]].
  rewrite <- moments_default in *. fold m in A0, A1, A2, A3, A4, A5. fold m' in B0, B1, B2, B3, B4, B5. rewrite !total_amap in *.
  assert (EX : mox m' = mox m) by (rewrite B1, A1; field; auto). assert (EY : moy m' = moy m) by (rewrite B2, A2; field; auto).
  rewrite B0, B3, B4, B5, A0, A3, A4, A5, EX, EY. repeat split; auto; field; auto.
Qed.
Lemma moments_transpose : forall a imx imy, total a (fun _ _ => 1) <> 0 ->
  let m := unweighted_moments a imx imy None in let m' := unweighted_moments (atrans a) imy imx None in
  mo0 m' = mo0 m /\ mox m' = moy m /\ moy m' = mox m /\ moxx m' = moyy m /\ moyy m' = moxx m /\ moxy m' = moxy m.
Proof.
  intros a imx imy N m m'. destruct (moments_ok a imx imy 0 0 N) as [A0 [A1 [A2 [A3 [A4 A5]]]]].
  assert (N' : total (atrans a) (fun _ _ => 1) <> 0) by (rewrite total_atrans; auto).
  destruct (moments_ok (atrans a) imy imx 0 0 N') as [B0 [B1 [B2 [B3 [B4 B5]]]]].
  rewrite <- moments_default in *. fold m in A0, A1, A2, A3, A4, A5. fold m' in B0, B1, B2, B3, B4, B5. rewrite !total_atrans in *.
  assert (EX : mox m' = moy m) by (rewrite B1, A2; reflexivity). assert (EY : moy m' = mox m) by (rewrite B2, A1; reflexivity).
  rewrite B0, B3, B4, B5, A0, A3, A4, A5, EX, EY. repeat split; auto.
  rewrite (total_ext a _ (fun i j => X imx 0 i j * Y imy 0 i j)) by (intros; unfold X, Y; ring). ring.
Qed.
Lemma moments_mirror : forall a imx imy, total a (fun _ _ => 1) <> 0 ->
  let m := unweighted_moments a imx imy None in let m' := unweighted_moments (amirror a) imx imy None in
  mo0 m' = mo0 m /\ mox m' = 2 * imx + IZR (ncol a - 1) - mox m /\ moy m' = moy m /\
  moxx m' = moxx m /\ moyy m' = moyy m /\ moxy m' = - moxy m.
Proof.
  intros a imx imy N m m'. destruct (moments_ok a imx imy 0 0 N) as [A0 [A1 [A2 [A3 [A4 A5]]]]].
  assert (N' : total (amirror a) (fun _ _ => 1) <> 0) by (rewrite total_amirror; auto).
  destruct (moments_ok (amirror a) imx imy 0 0 N') as [B0 [B1 [B2 [B3 [B4 B5]]]]].
  rewrite <- moments_default in *. fold m in A0, A1, A2, A3, A4, A5. fold m' in B0, B1, B2, B3, B4, B5. rewrite !total_amirror in *.
  set (M := total a (fun _ _ => 1)) in *. set (s := 2 * imx + IZR (ncol a - 1)).
  assert (P : forall i j, X imx 0 i (ncol a - 1 - j)%Z = s + (-1) * X imx 0 i j) by (intros; unfold X, s; rewrite minus_IZR; ring).
  assert (EX : mox m' = s - mox m).
  { rewrite B1, A1. rewrite (total_ext a _ (fun i j => s + (-1) * X imx 0 i j)) by (intros; apply P).
    rewrite total_plus, total_scal, total_const. fold M. field. exact N. }
  assert (EY : moy m' = moy m) by (rewrite B2, A2; reflexivity).
  assert (FX : total a (X imx 0) = mox m * M) by (rewrite A1; field; exact N).
  assert (FY : total a (Y imy 0) = moy m * M) by (rewrite A2; field; exact N).
  split; [congruence|]. split; [exact EX|]. split; [exact EY|]. rewrite B3, B4, B5, A3, A4, A5, EX, EY. repeat split.
  - rewrite (total_ext a (fun i j => X imx 0 i (ncol a - 1 - j)%Z ^ 2) (fun i j => (X imx 0 i j ^ 2 + (-2 * s) * X imx 0 i j) + s ^ 2)) by (intros; rewrite P; ring).
    rewrite !total_plus, total_scal, total_const, FX. fold M. field. exact N.
  - rewrite (total_ext a (fun i j => X imx 0 i (ncol a - 1 - j)%Z * Y imy 0 i (ncol a - 1 - j)%Z) (fun i j => s * Y imy 0 i j + (-1) * (X imx 0 i j * Y imy 0 i j))) by (intros; rewrite P; unfold Y; ring).
    rewrite !total_plus, !total_scal, FY. fold M. field. exact N.
Qed.

Lemma shape_bound : forall a imx imy, (forall i j, 0 <= elt a i j) -> 0 < total a (fun _ _ => 1) ->
  let m := unweighted_moments a imx imy None in
  0 <= moxx m /\ 0 <= moyy m /\ moxy m ^ 2 <= moxx m * moyy m /\
  (0 < moxx m + moyy m -> let '(_, e1, e2) := unweighted_shape m in e1 ^ 2 + e2 ^ 2 <= 1).
Proof.
  intros a imx imy H P m. set (M := total a (fun _ _ => 1)) in *.
  set (fx := fun (i j : Z) => X imx 0 i j - mox m). set (fy := fun (i j : Z) => Y imy 0 i j - moy m).
  assert (N : M <> 0) by lra.
  assert (E0 : mo0 m = M) by (unfold m, unweighted_moments; cbn [mo0]; apply asum_ext; intros; ring).
  assert (XX : moxx m = total a (fun i j => fx i j ^ 2) / M).
  { rewrite <- E0. reflexivity. }
  assert (YY : moyy m = total a (fun i j => fy i j ^ 2) / M) by (rewrite <- E0; reflexivity).
  assert (XY : moxy m = total a (fun i j => fx i j * fy i j) / M) by (rewrite <- E0; reflexivity).
  pose proof (schwarz a fx fy H) as SW.
  assert (S2 : forall (f : Z -> Z -> R), 0 <= total a (fun i j => f i j ^ 2)).
  { intro f. apply total_nonneg; auto. intros. apply pow2_ge_0. }
  pose proof (S2 fx) as PX. pose proof (S2 fy) as PY. rewrite XX, YY, XY. clearbody fx fy.
  set (A := total a (fun i j => fx i j ^ 2)) in *. set (D := total a (fun i j => fy i j ^ 2)) in *. set (B := total a (fun i j => fx i j * fy i j)) in *.
  clearbody A D B M. clear - P N SW PX PY XX YY XY. assert (IP : 0 < / M) by (apply Rinv_0_lt_compat; lra).
  assert (CS : (B / M) ^ 2 <= A / M * (D / M)).
  { replace ((B / M) ^ 2) with (B ^ 2 * (/ M * / M)) by (field; auto). replace (A / M * (D / M)) with (A * D * (/ M * / M)) by (field; auto).
    apply Rmult_le_compat_r; [|exact SW]. apply Rlt_le, Rmult_lt_0_compat; lra. }
  split; [apply Rmult_le_pos; lra|]. split; [apply Rmult_le_pos; lra|]. split; [exact CS|].
  unfold unweighted_shape. intro G. rewrite XX, YY, XY. set (x := A / M) in *. set (y := D / M) in *. set (z := B / M) in *. clearbody x y z.
  assert (Q : ((x - y) / (x + y)) ^ 2 + (2 * z / (x + y)) ^ 2 = 1 - 4 * (x * y - z ^ 2) / (x + y) ^ 2) by (field; lra).
  rewrite Q. assert (0 <= 4 * (x * y - z ^ 2) / (x + y) ^ 2); [|lra].
  apply Rmult_le_pos; [lra|]. apply Rlt_le, Rinv_0_lt_compat. apply pow_lt. lra.
Qed.

Lemma g2e_ok : forall g1 g2, g1g2_to_e1e2 g1 g2 = (2 * g1 / (1 + (g1 ^ 2 + g2 ^ 2)), 2 * g2 / (1 + (g1 ^ 2 + g2 ^ 2))).
Proof.
  intros g1 g2. unfold g1g2_to_e1e2. replace (g1 ^ 2 + g2 ^ 2) with (g1 * g1 + g2 * g2) by ring. destruct (Reqb_spec (g1 * g1 + g2 * g2) 0) as [z|z].
  - destruct (Rplus_sqr_eq_0 g1 g2 z) as [-> ->]. f_equal; field; lra.
  - assert (P : 0 < g1 * g1 + g2 * g2) by (pose proof (Rle_0_sqr g1); pose proof (Rle_0_sqr g2); unfold Rsqr in *; lra).
    pose proof (sqrt_lt_R0 _ P) as SP. pose proof (sqrt_sqrt _ (Rlt_le _ _ P)) as SS.
    set (g := sqrt (g1 * g1 + g2 * g2)) in *. rewrite <- SS.
    assert (D : 0 < 1 + g * g) by (pose proof (Rmult_lt_0_compat _ _ SP SP); lra).
    assert (E : (1 - (1 - g) / (1 + g) * ((1 - g) / (1 + g))) / (1 + (1 - g) / (1 + g) * ((1 - g) / (1 + g))) = 2 * g / (1 + g * g)).
    { field. repeat split; try lra. }
    rewrite E. f_equal; field; lra.
Qed.
