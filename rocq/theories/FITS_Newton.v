(** What the loop that inverts a distortion returns. *)
From Coq Require Import ZArith Reals Bool List Lra Lia.
From Coquelicot Require Import Coquelicot.
From Verif Require Import Base Bounds_Model Bounds_Proofs Geo_Model Geo_Proofs Util_Model Util_Spec Util_Proofs FITS_Spec FITS_Model FITS_Poly.
Import ListNotations.
Open Scope R_scope.

Definition ddpow (i : nat) (x : R) : R := match i with O => 0 | S O => 0 | S (S k) => (INR (S k) + 1) * ((INR k + 1) * x ^ k) end.
Lemma ddpow_derive : forall i x, is_derive (dpow i) x (ddpow i x).
Proof.
  intros [|[|k]] x; unfold dpow, ddpow.
  - apply (is_derive_const 0).
  - replace 0 with ((INR 0 + 1) * 0) by ring. apply (is_derive_scal (fun t => t ^ 0)). cbn. apply (is_derive_const 1).
  - apply (is_derive_scal (fun t => t ^ S k)). apply dpow_derive.
Qed.
Definition bow (i j : nat) (x y dx dy : R) : R := ddpow i x * y ^ j * (dx * dx) + 2 * (dpow i x * dpow j y * (dx * dy)) + x ^ i * ddpow j y * (dy * dy).
Definition surf_2 (n : nat) (c : coefs) (x y dx dy : R) : R := sumf n (fun i => sumf n (fun j => c i j * bow i j x y dx dy)).
Lemma comp_derive : forall (f : R -> R) (g : R -> R) (t df dg : R), is_derive f (g t) df -> is_derive g t dg -> is_derive (fun s => f (g s)) t (dg * df).
Proof. intros. apply (is_derive_comp f g); assumption. Qed.
Lemma line_derive : forall x dx t, is_derive (fun s => x + s * dx) t dx.
Proof. intros. auto_derive; [trivial|ring]. Qed.
Lemma second_path : forall n c x y dx dy t,
  is_derive (fun s => surf_x n c (x + s * dx) (y + s * dy) * dx + surf_y n c (x + s * dx) (y + s * dy) * dy) t (surf_2 n c (x + t * dx) (y + t * dy) dx dy).
Proof.
  intros n c x y dx dy t.
  apply (is_derive_ext (fun s => sumf n (fun i => sumf n (fun j => c i j * dpow i (x + s * dx) * (y + s * dy) ^ j * dx + c i j * (x + s * dx) ^ i * dpow j (y + s * dy) * dy)))).
  { intro s. unfold surf_x, surf_y. rewrite !sumf_mulr, <- sumf_plus. apply sumf_ext. intros i _. now rewrite !sumf_mulr, <- sumf_plus. }
  unfold surf_2. apply (sumf_derive n (fun i s => sumf n (fun j => c i j * dpow i (x + s * dx) * (y + s * dy) ^ j * dx + c i j * (x + s * dx) ^ i * dpow j (y + s * dy) * dy))). intros i _.
  apply (sumf_derive n (fun j s => c i j * dpow i (x + s * dx) * (y + s * dy) ^ j * dx + c i j * (x + s * dx) ^ i * dpow j (y + s * dy) * dy)). intros j _.
  apply (is_derive_ext (fun s => c i j * (dpow i (x + s * dx) * (y + s * dy) ^ j * dx + (x + s * dx) ^ i * dpow j (y + s * dy) * dy))).
  { intro s. match goal with |- ?a = ?b => change (@eq R a b) end. ring. }
  apply (is_derive_scal (fun s => dpow i (x + s * dx) * (y + s * dy) ^ j * dx + (x + s * dx) ^ i * dpow j (y + s * dy) * dy)).
  pose proof (line_derive x dx t) as LX. pose proof (line_derive y dy t) as LY.
  pose proof (comp_derive (dpow i) (fun s => x + s * dx) t _ _ (ddpow_derive i _) LX) as D1. pose proof (comp_derive (fun z => z ^ j) (fun s => y + s * dy) t _ _ (dpow_derive j _) LY) as D2.
  pose proof (comp_derive (fun z => z ^ i) (fun s => x + s * dx) t _ _ (dpow_derive i _) LX) as D3. pose proof (comp_derive (dpow j) (fun s => y + s * dy) t _ _ (ddpow_derive j _) LY) as D4. cbv beta in D1, D2, D3, D4.
  pose proof (is_derive_mult _ _ t _ _ D1 D2 Rmult_comm) as P1. pose proof (is_derive_mult _ _ t _ _ D3 D4 Rmult_comm) as P2.
  pose proof (is_derive_scal_l _ t _ dx P1) as Q1. pose proof (is_derive_scal_l _ t _ dy P2) as Q2.
  pose proof (is_derive_plus _ _ t _ _ Q1 Q2) as P. unfold plus, mult, scal in P; cbn in P. unfold mult in P; cbn in P.
  match type of P with is_derive _ _ ?v => replace (bow i j (x + t * dx) (y + t * dy) dx dy) with v by (unfold bow; ring) end. exact P.
Qed.
(** Taylor with a bound of the second derivative *)
Lemma taylor2 : forall (f g h : R -> R) (K : R), (forall s, is_derive f s (g s)) -> (forall s, is_derive g s (h s)) -> (forall s, 0 <= s <= 1 -> Rabs (h s) <= K) ->
  Rabs (f 1 - f 0 - g 0) <= K / 2.
Proof.
  intros f g h K F G B.
  assert (U : forall e, e = 1 \/ e = -1 -> e * (f 1 - f 0 - g 0) <= K / 2).
  { intros e E. set (H := fun s => e * (f s + g s * (1 - s)) + K / 2 * ((1 - s) * (1 - s))).
    assert (D : forall s, is_derive H s ((e * h s - K) * (1 - s))).
    { intro s. unfold H. specialize (F s). specialize (G s). 
      assert (A : is_derive (fun s => f s + g s * (1 - s)) s (h s * (1 - s))).
      { replace (h s * (1 - s)) with (plus (g s) (plus (mult (h s) (1 - s)) (mult (g s) (-1)))) by (unfold plus, mult; cbn; ring).
        apply (is_derive_plus f (fun s => g s * (1 - s))); [exact F|]. apply (is_derive_mult g (fun s => 1 - s)); [exact G| |intros; apply Rmult_comm]. auto_derive; [trivial|ring]. }
      replace ((e * h s - K) * (1 - s)) with (plus (e * (h s * (1 - s))) (K / 2 * (- 2 * (1 - s)))) by (unfold plus; cbn; field).
      apply (is_derive_plus (fun s => e * (f s + g s * (1 - s))) (fun s => K / 2 * ((1 - s) * (1 - s)))).
      - apply (is_derive_scal (fun s => f s + g s * (1 - s)) s e). exact A.
      - apply (is_derive_scal (fun s => (1 - s) * (1 - s))). auto_derive; [trivial|ring]. }
    destruct (MVT_gen H 0 1 (fun s => (e * h s - K) * (1 - s))) as (s & Rs & M).
    - intros s _. apply D.
    - intros s _. apply derivable_continuous_pt. exists ((e * h s - K) * (1 - s)). apply is_derive_Reals, D.
    - rewrite Rmin_left, Rmax_right in Rs by lra. assert (N : (e * h s - K) * (1 - s) <= 0).
      { specialize (B s Rs). apply Rabs_le_between in B. assert (e * h s - K <= 0) by (destruct E as [-> | ->]; lra). nra. }
      unfold H in M. replace (1 - 1) with 0 in M by ring. replace (1 - 0) with 1 in M by ring. lra. }
  pose proof (U 1 (or_introl eq_refl)). pose proof (U (-1) (or_intror eq_refl)). apply Rabs_le_between. lra.
Qed.
(** * The bound *)
Lemma pow_bound : forall x B i, Rabs x <= B -> Rabs (x ^ i) <= B ^ i.
Proof. intros. rewrite <- RPow_abs. apply pow_incr. split; [apply Rabs_pos|assumption]. Qed.
Lemma dpow_bound : forall x B i, Rabs x <= B -> Rabs (dpow i x) <= INR i * B ^ (i - 1).
Proof.
  intros x B [|k] H; unfold dpow; [rewrite Rabs_R0; cbn; lra|]. replace (S k - 1)%nat with k by lia. rewrite Rabs_mult, S_INR, (Rabs_right (INR k + 1)) by (pose proof (pos_INR k); lra).
  apply Rmult_le_compat_l; [pose proof (pos_INR k); lra|now apply pow_bound].
Qed.
Lemma ddpow_bound : forall x B i, Rabs x <= B -> Rabs (ddpow i x) <= INR i * INR (i - 1) * B ^ (i - 2).
Proof.
  intros x B [|[|k]] H; unfold ddpow; [rewrite Rabs_R0; cbn; lra..|]. replace (S (S k) - 1)%nat with (S k) by lia. replace (S (S k) - 2)%nat with k by lia.
  pose proof (pos_INR k) as P. pose proof (pos_INR (S k)) as P'. rewrite !Rabs_mult, !(S_INR (S k)), !(S_INR k), (Rabs_right (INR k + 1)), (Rabs_right (INR k + 1 + 1)) by lra.
  rewrite <- Rmult_assoc. apply Rmult_le_compat_l; [apply Rmult_le_pos; lra|now apply pow_bound].
Qed.
Lemma mul3 : forall a b c A B C, Rabs a <= A -> Rabs b <= B -> Rabs c <= C -> Rabs (a * b * c) <= A * B * C.
Proof. intros. rewrite !Rabs_mult. apply Rmult_le_compat; [apply Rmult_le_pos; apply Rabs_pos|apply Rabs_pos| |assumption]. apply Rmult_le_compat; auto using Rabs_pos. Qed.
Lemma mul2 : forall a b A B, Rabs a <= A -> Rabs b <= B -> Rabs (a * b) <= A * B.
Proof. intros. rewrite Rabs_mult. apply Rmult_le_compat; auto using Rabs_pos. Qed.
Lemma bow_bound : forall i j x y dx dy B d, Rabs x <= B -> Rabs y <= B -> Rabs dx <= d -> Rabs dy <= d ->
  Rabs (bow i j x y dx dy) <= INR (i + j) * INR (i + j - 1) * B ^ (i + j - 2) * (d * d).
Proof.
  intros i j x y dx dy B d X Y DX DY. unfold bow.
  pose proof (mul3 _ _ _ _ _ _ (ddpow_bound x B i X) (pow_bound y B j Y) (mul2 _ _ _ _ DX DX)) as T1.
  pose proof (mul3 _ _ _ _ _ _ (dpow_bound x B i X) (dpow_bound y B j Y) (mul2 _ _ _ _ DX DY)) as T2.
  pose proof (mul3 _ _ _ _ _ _ (pow_bound x B i X) (ddpow_bound y B j Y) (mul2 _ _ _ _ DY DY)) as T3.
  assert (S1 : INR i * INR (i - 1) * B ^ (i - 2) * B ^ j = INR i * INR (i - 1) * B ^ (i + j - 2)).
  { destruct i as [|[|k]]; [cbn; ring..|]. replace (S (S k) + j - 2)%nat with (S (S k) - 2 + j)%nat by lia. rewrite pow_add. ring. }
  assert (S2 : INR i * B ^ (i - 1) * (INR j * B ^ (j - 1)) = INR i * INR j * B ^ (i + j - 2)).
  { destruct i as [|i]; [cbn [INR]; ring|]. destruct j as [|j]; [cbn [INR]; ring|]. replace (S i + S j - 2)%nat with (S i - 1 + (S j - 1))%nat by lia. rewrite pow_add. ring. }
  assert (S3 : B ^ i * (INR j * INR (j - 1) * B ^ (j - 2)) = INR j * INR (j - 1) * B ^ (i + j - 2)).
  { destruct j as [|[|k]]; [cbn; ring..|]. replace (i + S (S k) - 2)%nat with (i + (S (S k) - 2))%nat by lia. rewrite pow_add. ring. }
  rewrite S1 in T1. rewrite S2 in T2. rewrite S3 in T3.
  assert (N : INR i * INR (i - 1) + 2 * (INR i * INR j) + INR j * INR (j - 1) = INR (i + j) * INR (i + j - 1)).
  { destruct i as [|i]; [cbn; ring|]. destruct j as [|j]; [rewrite Nat.add_0_r; cbn [INR]; ring|]. replace (S i - 1)%nat with i by lia. replace (S j - 1)%nat with j by lia.
    replace (S i + S j - 1)%nat with (S (i + j)) by lia. rewrite ?plus_INR, ?S_INR, ?plus_INR. ring. }
  rewrite <- N. eapply Rle_trans; [apply Rabs_triang|]. pose proof (Rabs_triang (ddpow i x * y ^ j * (dx * dx)) (2 * (dpow i x * dpow j y * (dx * dy)))) as T.
  rewrite (Rabs_mult 2), (Rabs_right 2) in T by lra. set (P := B ^ (i + j - 2)) in *. set (D := d * d) in *. 
  set (a := INR i * INR (i - 1)) in *. set (b := INR i * INR j) in *. set (c := INR j * INR (j - 1)) in *.
  assert (R : (a + 2 * b + c) * P * D = a * P * D + 2 * (b * P * D) + c * P * D) by ring. lra.
Qed.
Lemma surf_2_bound : forall n c x y dx dy B d, Rabs x <= B -> Rabs y <= B -> Rabs dx <= d -> Rabs dy <= d -> Rabs (surf_2 n c x y dx dy) <= bend n c B * (d * d).
Proof.
  intros. unfold surf_2, bend. rewrite sumf_mulr. eapply Rle_trans; [apply sumf_abs|]. apply sumf_le. intros i _. rewrite sumf_mulr. eapply Rle_trans; [apply sumf_abs|]. apply sumf_le. intros j _.
  rewrite Rabs_mult. replace (Rabs (c i j) * (INR (i + j) * INR (i + j - 1)) * B ^ (i + j - 2) * (d * d)) with (Rabs (c i j) * (INR (i + j) * INR (i + j - 1) * B ^ (i + j - 2) * (d * d))) by ring.
  apply Rmult_le_compat_l; [apply Rabs_pos|]. now apply bow_bound.
Qed.
Lemma remainder : forall n c x y dx dy B d, Rabs x <= B -> Rabs y <= B -> Rabs (x + dx) <= B -> Rabs (y + dy) <= B -> Rabs dx <= d -> Rabs dy <= d ->
  Rabs (surface n c (x + dx) (y + dy) - (surface n c x y + surf_x n c x y * dx + surf_y n c x y * dy)) <= bend n c B * (d * d) / 2.
Proof.
  intros n c x y dx dy B d X Y X' Y' DX DY.
  pose proof (taylor2 (fun s => surface n c (x + s * dx) (y + s * dy)) (fun s => surf_x n c (x + s * dx) (y + s * dy) * dx + surf_y n c (x + s * dx) (y + s * dy) * dy)
    (fun s => surf_2 n c (x + s * dx) (y + s * dy) dx dy) (bend n c B * (d * d))) as T. cbv beta in T.
  rewrite !Rmult_1_l, !Rmult_0_l, !Rplus_0_r in T.
  match goal with |- Rabs ?a <= _ => match type of T with _ -> _ -> _ -> Rabs ?b <= _ => replace a with b by ring end end. apply T; clear T.
  - intro s. apply (surface_path n c (fun s => x + s * dx) (fun s => y + s * dy)); apply line_derive.
  - intro s. apply second_path.
  - assert (SEG : forall a b s, Rabs a <= B -> Rabs (a + b) <= B -> 0 <= s <= 1 -> Rabs (a + s * b) <= B).
    { intros a b s P Q R. apply Rabs_le_between in P, Q. apply Rabs_le_between. nra. }
    intros s Hs. apply surf_2_bound; auto.
Qed.

(** * The loop *)
Lemma fori_last : forall A (f : A -> A) n a, fori (S n) f a = f (fori n f a).
Proof. intros A f n. induction n as [|n IH]; intro a; [reflexivity|]. change (fori (S (S n)) f a) with (fori (S n) f (f a)). now rewrite IH. Qed.
Lemma newton_solves : forall n u v ab s, square n (fst ab) -> square n (snd ab) -> warp_det n ab (n_x s, n_y s) <> 0 ->
  let s' := newton_step u v ab s in
  let a := low n (coef (fst ab)) in let b := low n (coef (snd ab)) in
  n_x s' = n_x s + n_dx s' /\ n_y s' = n_y s + n_dy s' /\
  surface n a (n_x s) (n_y s) + surf_x n a (n_x s) (n_y s) * n_dx s' + surf_y n a (n_x s) (n_y s) * n_dy s' = u /\
  surface n b (n_x s) (n_y s) + surf_x n b (n_x s) (n_y s) * n_dx s' + surf_y n b (n_x s) (n_y s) * n_dy s' = v.
Proof.
  intros n u v ab s SA SB D s' a b. unfold warp_det in D. cbn [fst snd] in D. fold a b in D. rewrite !slope_x_val, !slope_y_val in D.
  unfold s', newton_step. cbn [n_x n_y n_dx n_dy]. rewrite !(horner_dx n), !(horner_dy n), (horner_low n (fst ab)), (horner_low n (snd ab)) by assumption. fold a b.
  split; [reflexivity|]. split; [reflexivity|]. split; field; exact D.
Qed.
Lemma inverts : forall n u v ab abp x y, square n (fst ab) -> square n (snd ab) -> invert_ab u v ab abp = Ok (x, y) ->
  exists x0 y0, Rabs (x - x0) <= tolerance /\ Rabs (y - y0) <= tolerance /\
    (warp_det n ab (x0, y0) <> 0 -> forall B, Rabs x + tolerance <= B -> Rabs y + tolerance <= B ->
       Rabs (fst (warp n ab (x, y)) - u) <= bend n (low n (coef (fst ab))) B * (tolerance * tolerance) / 2 /\
       Rabs (snd (warp n ab (x, y)) - v) <= bend n (low n (coef (snd ab))) B * (tolerance * tolerance) / 2).
Proof.
  intros n u v ab abp x y QA QB H. unfold invert_ab in H.
  destruct (match abp with None => (u, v) | Some abp => _ end) as [a0 b0].
  rewrite (fori_last _ _ 9) in H.
  set (s := fori 9 _ _) in H. clearbody s. set (s' := newton_step u v ab s) in *.
  destruct (Rltb_spec tolerance (Rmax (Rabs (n_dx s')) (Rabs (n_dy s')))) as [l|l]; [discriminate|]. assert (HX : n_x s' = x) by congruence. assert (HY : n_y s' = y) by congruence. clear H.
  pose proof (Rmax_l (Rabs (n_dx s')) (Rabs (n_dy s'))) as ML. pose proof (Rmax_r (Rabs (n_dx s')) (Rabs (n_dy s'))) as MR.
  assert (EX : n_x s' = n_x s + n_dx s') by reflexivity. assert (EY : n_y s' = n_y s + n_dy s') by reflexivity.
  exists (n_x s), (n_y s). replace (x - n_x s) with (n_dx s') by lra. replace (y - n_y s) with (n_dy s') by lra.
  split; [lra|]. split; [lra|]. intros D B BX BY.
  destruct (newton_solves n u v ab s QA QB D) as (_ & _ & P1 & P2). fold s' in P1, P2.
  assert (BX0 : Rabs (n_x s) <= B). { replace (n_x s) with (x + - n_dx s') by lra. eapply Rle_trans; [apply Rabs_triang|]. rewrite Rabs_Ropp. lra. }
  assert (BY0 : Rabs (n_y s) <= B). { replace (n_y s) with (y + - n_dy s') by lra. eapply Rle_trans; [apply Rabs_triang|]. rewrite Rabs_Ropp. lra. }
  assert (T0 : 0 <= tolerance) by (pose proof (Rabs_pos (n_dx s')); lra).
  unfold warp. cbn [fst snd]. rewrite <- HX, <- HY, EX, EY.
  assert (BX1 : Rabs (n_x s + n_dx s') <= B) by (rewrite <- EX, HX; lra). assert (BY1 : Rabs (n_y s + n_dy s') <= B) by (rewrite <- EY, HY; lra).
  pose proof (remainder n (low n (coef (fst ab))) _ _ _ _ B tolerance BX0 BY0 BX1 BY1 ltac:(lra) ltac:(lra)) as R1. pose proof (remainder n (low n (coef (snd ab))) _ _ _ _ B tolerance BX0 BY0 BX1 BY1 ltac:(lra) ltac:(lra)) as R2.
  rewrite P1 in R1. rewrite P2 in R2. split; assumption.
Qed.
(** Without terms of degree two the surface has no bend *)
Lemma no_bend : forall n c B, (n <= 2)%nat -> bend n (low n c) B = 0.
Proof.
  intros n c B N. unfold bend. rewrite <- (sumf_zero n). apply sumf_ext. intros i Hi. rewrite <- (sumf_zero n). apply sumf_ext. intros j Hj. unfold low.
  destruct (Nat.ltb_spec (i + j) n) as [l|l]; [|rewrite Rabs_R0; ring].
  destruct (Nat.eq_dec (i + j) 0) as [e|e]; [rewrite e; cbn [INR]; ring|]. assert (e' : (i + j)%nat = 1%nat) by lia. rewrite e'. cbn. ring.
Qed.
