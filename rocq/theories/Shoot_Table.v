(** Tables of cumulative trapezoids of a kernel, and means over positions drawn from them. *)
From Coq Require Import ZArith Reals Bool List Lra Lia.
From Coquelicot Require Import Coquelicot.
From Verif Require Import Base Bounds_Model Bounds_Proofs Num_Consts Size_Model Size_Spec Shoot_Model Shoot_Spec.
Import ListNotations.
Open Scope R_scope.

(** * The cell of a position *)
(** Whatever the spacing of the table, a deviate between two entries gives a position between the two nodes. *)
Lemma interp_cell : forall search n xp fp x, searches search -> (1 < n)%nat -> (forall j, (S j < n)%nat -> fp j < fp (S j)) ->
  xp 0%nat <= x < xp (n - 1)%nat ->
  exists j, search n xp x = S j /\ (S j < n)%nat /\ xp j <= x < xp (S j) /\ fp j <= interp search n x xp fp < fp (S j).
Proof.
  intros search n xp fp x SE N FI X. destruct (SE n xp x) as (S1 & S2 & S3). unfold interp. destruct (search n xp x) as [|j] eqn:E.
  { specialize (S3 ltac:(lia)). lra. }
  specialize (S2 ltac:(lia)). replace (Datatypes.S j - 1)%nat with j in * by lia.
  assert (JN : (Datatypes.S j < n)%nat). { destruct (Nat.eq_dec (Datatypes.S j) n) as [e|]; [|lia]. subst n. replace (Datatypes.S j - 1)%nat with j in X by lia. lra. }
  specialize (S3 JN). exists j. split; [reflexivity|]. split; [exact JN|]. split; [lra|].
  destruct (Rltb_spec (xp (n - 1)%nat) x) as [l|_]; [lra|]. destruct (Rltb_spec x (xp 0%nat)) as [l|_]; [lra|].
  replace (Nat.min (Nat.max (Datatypes.S j) 1) (n - 1)) with (Datatypes.S j) by lia. replace (Datatypes.S j - 1)%nat with j by lia.
  specialize (FI j JN). destruct (Rltb_spec interp_eps (Rabs (xp (Datatypes.S j) - xp j))) as [l|_]; [|lra].
  set (w := (x - xp j) / (xp (Datatypes.S j) - xp j)). assert (W : (xp (Datatypes.S j) - xp j) * w = x - xp j) by (unfold w; field; lra).
  assert (W0 : 0 <= w) by (unfold w; apply Rmult_le_pos; [lra|apply Rlt_le, Rinv_0_lt_compat; lra]). assert (W1 : w < 1) by nra. nra.
Qed.
Lemma nodes_le : forall (fp : nat -> R) n, (forall j, (S j < n)%nat -> fp j <= fp (S j)) -> forall i j, (i <= j)%nat -> (j < n)%nat -> fp i <= fp j.
Proof. intros fp n H i j I J. induction I as [|j I IH]; [lra|]. specialize (H j ltac:(lia)). specialize (IH ltac:(lia)). lra. Qed.
(** Positions below a node come from deviates below its entry. *)
Lemma interp_below : forall search n xp fp x i, searches search -> (1 < n)%nat -> (i < n)%nat -> (forall j, (S j < n)%nat -> fp j < fp (S j)) ->
  (forall j, (S j < n)%nat -> xp j <= xp (S j)) -> xp 0%nat <= x < xp (n - 1)%nat -> (interp search n x xp fp < fp i <-> x < xp i).
Proof.
  intros search n xp fp x i SE N I FI XI X. destruct (interp_cell search n xp fp x SE N FI X) as (j & _ & J & [A B] & [C D]).
  assert (FL : forall a b, (a <= b)%nat -> (b < n)%nat -> fp a <= fp b) by (intros; apply (nodes_le fp n); auto; intros k K; specialize (FI k K); lra).
  assert (XL : forall a b, (a <= b)%nat -> (b < n)%nat -> xp a <= xp b) by (intros; apply (nodes_le xp n); auto).
  destruct (le_lt_dec (S j) i) as [L|L].
  - pose proof (FL _ _ L I). pose proof (XL _ _ L I). split; intro; lra.
  - pose proof (FL i j ltac:(lia) ltac:(lia)). pose proof (XL i j ltac:(lia) ltac:(lia)). split; intro; lra.
Qed.

(** * Means over the deviate *)
Lemma cumsum_ext : forall f g k, (forall j, (j < k)%nat -> f j = g j) -> cumsum f k = cumsum g k.
Proof. intros f g k H. induction k as [|k IH]; cbn [cumsum]; [reflexivity|]. rewrite IH by (intros; apply H; lia). rewrite H by lia. reflexivity. Qed.
Lemma cumsum_le : forall f g k, (forall j, (j < k)%nat -> f j <= g j) -> cumsum f k <= cumsum g k.
Proof. intros f g k H. induction k as [|k IH]; cbn [cumsum]; [lra|]. specialize (IH ltac:(intros; apply H; lia)). specialize (H k ltac:(lia)). lra. Qed.
Lemma cumsum_scale : forall f c k, cumsum (fun j => c * f j) k = c * cumsum f k.
Proof. intros. induction k as [|k IH]; cbn [cumsum]; [lra|]. rewrite IH. lra. Qed.
Lemma cumsum_plus : forall f g k, cumsum (fun j => f j + g j) k = cumsum f k + cumsum g k.
Proof. intros. induction k as [|k IH]; cbn [cumsum]; [lra|]. rewrite IH. lra. Qed.
Lemma cumsum_const : forall c k, cumsum (fun _ => c) k = INR k * c.
Proof. intros. induction k as [|k IH]; [cbn; lra|]. rewrite S_INR. cbn [cumsum]. rewrite IH. lra. Qed.
Lemma cumsum_abs : forall f g k, (forall j, (j < k)%nat -> Rabs (f j) <= g j) -> Rabs (cumsum f k) <= cumsum g k.
Proof. intros f g k H. induction k as [|k IH]; cbn [cumsum]; [rewrite Rabs_R0; lra|]. specialize (IH ltac:(intros; apply H; lia)). specialize (H k ltac:(lia)). pose proof (Rabs_triang (cumsum f k) (f k)). lra. Qed.

Lemma step_integral : forall search n xp (v : nat -> R), searches search -> (forall j, (S j < n)%nat -> xp j <= xp (S j)) ->
  forall k, (k < n)%nat -> is_RInt (fun u => v (search n xp u - 1)%nat) (xp 0%nat) (xp k) (cumsum (fun j => v j * (xp (S j) - xp j)) k).
Proof.
  intros search n xp v SE XI k. induction k as [|k IH]; intro K; cbn [cumsum]; [apply (is_RInt_point (V := R_NormedModule))|].
  apply (is_RInt_Chasles (V := R_NormedModule) _ _ (xp k)); [apply IH; lia|].
  pose proof (XI k K) as X. apply (is_RInt_ext (V := R_NormedModule) (fun _ => v k)).
  - intros u U. rewrite Rmin_left, Rmax_right in U by lra. destruct (SE n xp u) as (S1 & S2 & S3).
    assert (XL : forall a b, (a <= b)%nat -> (b < n)%nat -> xp a <= xp b) by (intros; apply (nodes_le xp n); auto).
    assert (search n xp u = S k) as ->; [|replace (S k - 1)%nat with k by lia; reflexivity].
    destruct (Nat.lt_trichotomy (search n xp u) (S k)) as [L|[L|L]]; [|exact L|].
    + specialize (S3 ltac:(lia)). pose proof (XL (search n xp u) k ltac:(lia) ltac:(lia)). lra.
    + specialize (S2 ltac:(lia)). pose proof (XL (S k) (search n xp u - 1)%nat ltac:(lia) ltac:(lia)). lra.
  - replace (v k * (xp (S k) - xp k)) with (scal (xp (S k) - xp k) (v k)) by (unfold scal; cbn; unfold mult; cbn; ring). apply (is_RInt_const (V := R_NormedModule)).
Qed.
Lemma mean_of_cells : forall search n xp fp (g : R -> R) (lo hi : nat -> R) m e, searches search -> (1 < n)%nat -> (forall j, (S j < n)%nat -> fp j < fp (S j)) ->
  (forall j, (S j < n)%nat -> xp j <= xp (S j)) -> xp 0%nat = 0 -> xp (n - 1)%nat = 1 ->
  (forall j x, (S j < n)%nat -> fp j <= x < fp (S j) -> lo j <= g x <= hi j) ->
  m - e <= cumsum (fun j => lo j * (xp (S j) - xp j)) (n - 1) -> cumsum (fun j => hi j * (xp (S j) - xp j)) (n - 1) <= m + e ->
  mean_near (fun u => g (interp search n u xp fp)) m e.
Proof.
  intros search n xp fp g lo hi m e SE N FI XI X0 X1 G LO HI.
  exists (fun u => lo (search n xp u - 1)%nat), (fun u => hi (search n xp u - 1)%nat), (cumsum (fun j => lo j * (xp (S j) - xp j)) (n - 1)), (cumsum (fun j => hi j * (xp (S j) - xp j)) (n - 1)).
  pose proof (step_integral search n xp lo SE XI (n - 1) ltac:(lia)) as I1. pose proof (step_integral search n xp hi SE XI (n - 1) ltac:(lia)) as I2. rewrite X0, X1 in I1, I2.
  split; [|repeat split; assumption]. intros u U. destruct (interp_cell search n xp fp u SE N FI ltac:(lra)) as (j & E & J & _ & C). rewrite E. replace (S j - 1)%nat with j by lia. apply G; assumption.
Qed.

(** * Trapezoids *)
Lemma derive_bound : forall (f f' g g' : R -> R) a b, a <= b -> (forall x, is_derive f x (f' x)) -> (forall x, is_derive g x (g' x)) -> (forall x, a <= x <= b -> Rabs (f' x) <= g' x) ->
  f a = 0 -> g a = 0 -> Rabs (f b) <= g b.
Proof.
  assert (P : forall (h h' : R -> R) a b, a <= b -> (forall x, is_derive h x (h' x)) -> (forall x, a <= x <= b -> 0 <= h' x) -> h a <= h b).
  { intros h h' a b AB D P. destruct (MVT_gen h a b h') as (c & C1 & C2).
    - intros x _. apply D.
    - intros x _. apply derivable_continuous_pt. exists (h' x). apply is_derive_Reals, D.
    - rewrite Rmin_left, Rmax_right in C1 by lra. specialize (P c C1). nra. }
  intros f f' g g' a b AB F G H A B. apply Rabs_le. split.
  - pose proof (P (fun x => g x + f x) (fun x => g' x + f' x) a b AB) as Q. cbv beta in Q. enough (g a + f a <= g b + f b) by lra. apply Q; [intro; apply (is_derive_plus g f); auto|].
    intros x X. specialize (H x X). apply Rabs_le_between in H. lra.
  - pose proof (P (fun x => g x - f x) (fun x => g' x - f' x) a b AB) as Q. cbv beta in Q. enough (g a - f a <= g b - f b) by lra. apply Q; [intro; apply (is_derive_minus g f); auto|].
    intros x X. specialize (H x X). apply Rabs_le_between in H. lra.
Qed.
Lemma trapezoid_C2 : forall (f f1 f2 : R -> R) a b M, a <= b -> (forall x, is_derive f x (f1 x)) -> (forall x, is_derive f1 x (f2 x)) ->
  (forall x, a <= x <= b -> Rabs (f2 x) <= M) -> Rabs (RInt f a b - (f a + f b) / 2 * (b - a)) <= M * (b - a) ^ 3 / 12.
Proof.
  intros f f1 f2 a b M AB D1 D2 B.
  assert (CF : forall x, continuous f x) by (intro x; apply (ex_derive_continuous f); eexists; apply D1).
  assert (T : forall t, a <= t <= b -> Rabs (f t - f a - f1 t * (t - a)) <= M * (t - a) ^ 2 / 2).
  { intros t T. apply (derive_bound (fun t => f t - f a - f1 t * (t - a)) (fun t => - (f2 t * (t - a))) (fun t => M * (t - a) ^ 2 / 2) (fun t => M * (t - a)) a t); [lra| | | |ring|field].
    - intro x. auto_derive; [repeat split; eexists; [apply D1|apply D2]|]. replace (Derive (fun x0 : R => f x0) x) with (f1 x) by (symmetry; apply is_derive_unique, D1). replace (Derive (fun x0 : R => f1 x0) x) with (f2 x) by (symmetry; apply is_derive_unique, D2). ring.
    - intro x. auto_derive; [exact Logic.I|field].
    - intros x X. rewrite Rabs_Ropp, Rabs_mult, (Rabs_pos_eq (x - a)) by lra. apply Rmult_le_compat_r; [lra|apply B; lra]. }
  apply (derive_bound (fun t => RInt f a t - (f a + f t) / 2 * (t - a)) (fun t => f t - (f1 t / 2 * (t - a) + (f a + f t) / 2)) (fun t => M * (t - a) ^ 3 / 12) (fun t => M * (t - a) ^ 2 / 4) a b AB).
  - intro x. apply (is_derive_minus (RInt f a) (fun t => (f a + f t) / 2 * (t - a))).
    + apply (is_derive_RInt f (RInt f a) a); [|apply CF]. apply filter_forall. intro y. apply (RInt_correct (V := R_CompleteNormedModule)). apply (ex_RInt_continuous (V := R_CompleteNormedModule)). intros z _. apply CF.
    + auto_derive; [eexists; apply D1|]. replace (Derive (fun x0 : R => f x0) x) with (f1 x) by (symmetry; apply is_derive_unique, D1). field.
  - intro x. auto_derive; [exact Logic.I|field].
  - intros x X. specialize (T x X). replace (f x - (f1 x / 2 * (x - a) + (f a + f x) / 2)) with ((f x - f a - f1 x * (x - a)) / 2) by field. rewrite Rabs_div, (Rabs_pos_eq 2) by lra. lra.
  - rewrite RInt_point. unfold zero. cbn. field.
  - field.
Qed.
Lemma trapezoid_lip : forall (f : R -> R) a b L, a <= b -> ex_RInt f a b -> (forall x y, a <= x <= b -> a <= y <= b -> Rabs (f x - f y) <= L * Rabs (x - y)) ->
  Rabs (RInt f a b - (f a + f b) / 2 * (b - a)) <= L * (b - a) ^ 2.
Proof.
  intros f a b L AB I B. assert (E : (f a + f b) / 2 * (b - a) = RInt (fun _ => (f a + f b) / 2) a b) by (rewrite RInt_const; unfold scal; cbn; unfold mult; cbn; field). rewrite E.
  rewrite <- (RInt_minus (V := R_CompleteNormedModule)) by (try exact I; apply ex_RInt_const). cbn.
  replace (L * (b * 1 - a * 1)) with (L * (b - a)) by ring.
  apply Rle_trans with ((b - a) * (L * (b - a))); [|right; ring].
  apply (norm_RInt_le_const (V := R_NormedModule) (fun x => minus (f x) ((f a + f b) / 2)) a b (RInt (fun x => minus (f x) ((f a + f b) / 2)) a b)); [exact AB| |].
  - intros x X. change (Rabs (f x - (f a + f b) / 2) <= L * (b - a)). replace (f x - (f a + f b) / 2) with (/ 2 * (f x - f a) + / 2 * (f x - f b)) by field.
    pose proof (Rabs_triang (/ 2 * (f x - f a)) (/ 2 * (f x - f b))) as T. rewrite !Rabs_mult, (Rabs_pos_eq (/ 2)) in T by lra.
    pose proof (B x a X ltac:(lra)) as B1. pose proof (B x b X ltac:(lra)) as B2. rewrite (Rabs_pos_eq (x - a)) in B1 by lra. rewrite (Rabs_minus_sym x b), (Rabs_pos_eq (b - x)) in B2 by lra.
    pose proof (Rabs_pos (f x - f a)). pose proof (Rabs_pos (f x - f b)). lra.
  - apply (RInt_correct (V := R_CompleteNormedModule)). apply (ex_RInt_minus (V := R_NormedModule)); [exact I|apply ex_RInt_const].
Qed.

(** * Kernels with finitely many zeros and knots *)
Record tame (K : R -> R) (X L M : R) (zs ks : list R) : Prop := Tame {
  tm_X : 0 < X; tm_L : 0 <= L; tm_M : 0 <= M;
  tm_lip : forall x y, Rabs (K x - K y) <= L * Rabs (x - y);
  tm_zero : forall z, In z zs -> K z = 0;
  tm_other : forall x, - X <= x <= X -> ~ In x zs -> K x <> 0;
  tm_knots : incl zs ks;
  tm_smooth : forall a b, - X <= a -> a < b -> b <= X -> (forall k, In k ks -> ~ a < k < b) ->
    exists f f1 f2, (forall x, a <= x <= b -> K x = f x) /\ (forall x, is_derive f x (f1 x)) /\ (forall x, is_derive f1 x (f2 x)) /\ forall x, a <= x <= b -> Rabs (f2 x) <= M }.

(** The number of members of a list in [a, b) *)
Definition in_cell (a b k : R) : R := if Rle_dec a k then if Rlt_dec k b then 1 else 0 else 0.
Definition among (ks : list R) (a b : R) : R := fold_right (fun k s => in_cell a b k + s) 0 ks.
Lemma in_cell_pos : forall a b k, 0 <= in_cell a b k.
Proof. intros. unfold in_cell. destruct (Rle_dec a k), (Rlt_dec k b); lra. Qed.
Lemma among_pos : forall ks a b, 0 <= among ks a b.
Proof. intros. induction ks as [|k ks IH]; cbn; [lra|]. pose proof (in_cell_pos a b k). unfold among in IH. lra. Qed.
Lemma among_one : forall ks a b k, In k ks -> a <= k < b -> 1 <= among ks a b.
Proof.
  intros ks a b k I B. induction ks as [|c ks IH]; [destruct I|]. cbn. pose proof (in_cell_pos a b c). pose proof (among_pos ks a b) as P. unfold among in *.
  destruct I as [->|I]; [|specialize (IH I); lra]. unfold in_cell at 1. destruct (Rle_dec a k), (Rlt_dec k b); lra.
Qed.
Lemma in_cell_sum : forall (x : nat -> R) z n, (forall j, (j < n)%nat -> x j <= x (S j)) -> cumsum (fun j => in_cell (x j) (x (S j)) z) n = in_cell (x 0%nat) (x n) z.
Proof.
  intros x z n H. induction n as [|n IH]; cbn [cumsum].
  - unfold in_cell. destruct (Rle_dec (x 0%nat) z), (Rlt_dec z (x 0%nat)); lra.
  - rewrite IH by (intros; apply H; lia). pose proof (H n ltac:(lia)) as A. assert (x 0%nat <= x n) by (apply (nodes_le x (S n)); [intros; apply H|..]; lia).
    unfold in_cell. destruct (Rle_dec (x 0%nat) z), (Rlt_dec z (x n)), (Rle_dec (x n) z), (Rlt_dec z (x (S n))); lra.
Qed.
Lemma among_sum : forall ks (x : nat -> R) n, (forall j, (j < n)%nat -> x j <= x (S j)) -> cumsum (fun j => among ks (x j) (x (S j))) n <= INR (length ks).
Proof.
  intros ks x n H. induction ks as [|k ks IH].
  - cbn [length]. rewrite (cumsum_ext _ (fun _ => 0)) by reflexivity. rewrite cumsum_const. cbn [INR]. lra.
  - rewrite (cumsum_ext _ (fun j => in_cell (x j) (x (S j)) k + among ks (x j) (x (S j)))) by reflexivity. rewrite cumsum_plus, in_cell_sum by exact H. cbn [length]. rewrite S_INR.
    assert (in_cell (x 0%nat) (x n) k <= 1) by (unfold in_cell; destruct (Rle_dec (x 0%nat) k), (Rlt_dec k (x n)); lra). lra.
Qed.
Lemma among_none : forall ks a b, among ks a b < 1 -> forall k, In k ks -> ~ a <= k < b.
Proof. intros ks a b H k I B. pose proof (among_one ks a b k I B). lra. Qed.

Definition sg (x : R) : R := if Rltb 0 x then 1 else if Rltb x 0 then -1 else 0.

Section Tame.
  Variables (K : R -> R) (X L M : R) (zs ks : list R).
  Hypothesis T : tame K X L M zs ks.

  Lemma K_cont : forall x, continuous K x.
  Proof using T.
    intro x. apply continuity_pt_filterlim. intros e E. pose proof (tm_L _ _ _ _ _ _ T) as L0. exists (e / (L + 1)). split; [apply Rdiv_lt_0_compat; lra|]. intros y [_ D]. cbn in *. unfold R_dist in *.
    eapply Rle_lt_trans; [apply (tm_lip _ _ _ _ _ _ T)|]. apply Rle_lt_trans with (L * (e / (L + 1))); [apply Rmult_le_compat_l; lra|].
    replace (L * (e / (L + 1))) with (e * (L / (L + 1))) by (field; lra). assert (L / (L + 1) < 1) by (apply (Rmult_lt_reg_r (L + 1)); [lra|]; unfold Rdiv; rewrite Rmult_assoc, Rinv_l; lra). nra.
  Qed.
  Lemma absK_cont : forall x, continuous (fun x => Rabs (K x)) x.
  Proof using T. intro x. apply (continuous_comp K Rabs); [apply K_cont|apply continuous_Rabs]. Qed.
  Lemma K_int : forall a b, ex_RInt K a b.
  Proof using T. intros. apply (ex_RInt_continuous (V := R_CompleteNormedModule)). intros. apply K_cont. Qed.
  Lemma absK_int : forall a b, ex_RInt (fun x => Rabs (K x)) a b.
  Proof using T. intros. apply (ex_RInt_continuous (V := R_CompleteNormedModule)). intros. apply absK_cont. Qed.
  Lemma absK_lip : forall x y, Rabs (Rabs (K x) - Rabs (K y)) <= L * Rabs (x - y).
  Proof using T. intros. eapply Rle_trans; [apply Rabs_triang_inv2|apply (tm_lip _ _ _ _ _ _ T)]. Qed.

  (** Between zeros the sign does not change. *)
  Lemma no_change : forall a b, - X <= a -> b <= X -> a < b -> (forall z, In z zs -> ~ a <= z < b) -> forall x, a <= x <= b -> 0 <= K a * K x /\ (x < b -> 0 < K a * K x).
  Proof using T.
    intros a b A B AB Z x Q.
    assert (NZ : forall y, a <= y < b -> K y <> 0) by (intros y Y; apply (tm_other _ _ _ _ _ _ T); [lra|]; intro I; exact (Z y I Y)).
    assert (P : 0 <= K a * K x).
    { apply Rnot_lt_le. intro H. assert (AX : a < x). { destruct (Req_dec a x) as [e|]; [subst x; nra|lra]. }
      destruct (IVT_gen K a x 0) as (c & C1 & C2).
      - intro y. apply continuity_pt_filterlim, K_cont.
      - destruct (Rle_lt_dec 0 (K a)); [rewrite Rmin_right, Rmax_left by nra|rewrite Rmin_left, Rmax_right by nra]; nra.
      - rewrite Rmin_left, Rmax_right in C1 by lra. destruct (Rlt_le_dec c b) as [l|l]; [exact (NZ c ltac:(lra) C2)|].
        assert (c = x) by lra. subst c. rewrite C2 in H. lra. }
    split; [exact P|]. intro XB. pose proof (NZ a ltac:(lra)) as N1. pose proof (NZ x ltac:(lra)) as N2. assert (K a * K x <> 0) by (apply Rmult_integral_contrapositive_currified; assumption). lra.
  Qed.
  Lemma same_sign : forall a b, - X <= a -> b <= X -> a < b -> (forall z, In z zs -> ~ a <= z < b) -> exists s, (s = 1 \/ s = -1) /\ (forall x, a <= x < b -> sg (K x) = s) /\ forall x, a <= x <= b -> Rabs (K x) = s * K x.
  Proof using T.
    intros a b A B AB Z. pose proof (no_change a b A B AB Z) as N. destruct (N a ltac:(lra)) as [_ P]. specialize (P AB).
    destruct (Rlt_le_dec 0 (K a)) as [l|l]; [exists 1|exists (-1)]; (split; [auto|]); split; intros x Q; destruct (N x ltac:(lra)) as [N1 N2].
    - specialize (N2 ltac:(lra)). assert (0 < K x) by nra. unfold sg. destruct (Rltb_spec 0 (K x)); lra.
    - assert (0 <= K x) by nra. rewrite Rabs_pos_eq; lra.
    - specialize (N2 ltac:(lra)). assert (K x < 0) by nra. unfold sg. destruct (Rltb_spec 0 (K x)); [lra|]. destruct (Rltb_spec (K x) 0); lra.
    - assert (K a < 0) by nra. assert (K x <= 0) by nra. rewrite Rabs_left1; lra.
  Qed.

  (** ** One cell *)
  Definition mass (a b : R) : R := (Rabs (K b) + Rabs (K a)) * (1 / 2) * (b - a).
  Definition clo (a b : R) : R := if Rlt_dec (among zs a b) 1 then sg (K a) else -1.
  Definition chi (a b : R) : R := if Rlt_dec (among zs a b) 1 then sg (K a) else 1.
  Lemma mass_pos : forall a b, a <= b -> 0 <= mass a b.
  Proof using Type. intros. unfold mass. pose proof (Rabs_pos (K a)). pose proof (Rabs_pos (K b)). apply Rmult_le_pos; lra. Qed.
  Lemma cell_sign : forall a b x, - X <= a -> b <= X -> a <= x < b -> clo a b <= sg (K x) <= chi a b.
  Proof using T.
    intros a b x A B Q. unfold clo, chi. destruct (Rlt_dec (among zs a b) 1) as [l|l].
    - destruct (same_sign a b A B ltac:(lra) (among_none _ _ _ l)) as (s & _ & S1 & _). rewrite !S1 by lra. lra.
    - unfold sg. destruct (Rltb 0 (K x)), (Rltb (K x) 0); lra.
  Qed.
  Lemma zero_cell : forall a b, a <= b -> ~ among zs a b < 1 -> exists z, In z zs /\ a <= z < b.
  Proof using Type.
    intros a b AB H. clear T. induction zs as [|z l IH]; [cbn in H; lra|]. change (among (z :: l) a b) with (in_cell a b z + among l a b) in H. unfold in_cell in H. destruct (Rle_dec a z), (Rlt_dec z b); try (exists z; split; [left; reflexivity|lra]);
      destruct IH as (y & Y1 & Y2); try (exists y; split; [right; exact Y1|exact Y2]); intro Q; apply H; lra.
  Qed.
  Lemma smooth_cell : forall a b, - X <= a -> b <= X -> a < b -> among ks a b < 1 ->
    exists s, (s = 1 \/ s = -1) /\ sg (K a) = s /\ (forall x, a <= x <= b -> Rabs (K x) = s * K x) /\ Rabs (RInt K a b - (K a + K b) / 2 * (b - a)) <= M * (b - a) ^ 3 / 12.
  Proof using T.
    intros a b A B AB H. assert (HK : forall k, In k ks -> ~ a <= k < b) by (apply among_none; exact H).
    destruct (same_sign a b A B AB) as (s & S1 & S2 & S3). { intros z Z. apply HK, (tm_knots _ _ _ _ _ _ T), Z. }
    exists s. split; [exact S1|]. split; [apply S2; lra|]. split; [exact S3|].
    destruct (tm_smooth _ _ _ _ _ _ T a b A AB B) as (f & f1 & f2 & E & D1 & D2 & BD). { intros k I C. apply (HK k I). lra. }
    rewrite !E by lra. rewrite (RInt_ext K f); [apply (trapezoid_C2 f f1 f2); auto; lra|]. intros x Q. rewrite Rmin_left, Rmax_right in Q by lra. apply E. lra.
  Qed.
  Lemma cell_abs : forall a b, - X <= a -> b <= X -> a < b -> Rabs (RInt (fun x => Rabs (K x)) a b - mass a b) <= M * (b - a) ^ 3 / 12 + among ks a b * (L * (b - a) ^ 2).
  Proof using T.
    intros a b A B AB. assert (H3 : 0 <= M * (b - a) ^ 3 / 12). { pose proof (tm_M _ _ _ _ _ _ T). pose proof (pow_le (b - a) 3 ltac:(lra)). assert (0 <= M * (b - a) ^ 3) by (apply Rmult_le_pos; lra). lra. }
    assert (H2 : 0 <= L * (b - a) ^ 2). { pose proof (tm_L _ _ _ _ _ _ T). pose proof (pow_le (b - a) 2 ltac:(lra)). apply Rmult_le_pos; lra. }
    assert (E : mass a b = (Rabs (K a) + Rabs (K b)) / 2 * (b - a)) by (unfold mass; field). rewrite E.
    destruct (Rlt_le_dec (among ks a b) 1) as [l|l].
    - destruct (smooth_cell a b A B AB l) as (s & S1 & _ & S3 & S4). rewrite !S3 by lra. rewrite (RInt_ext _ (fun x => scal s (K x))).
      + rewrite (RInt_scal (V := R_CompleteNormedModule)) by apply K_int. change (Rabs (s * RInt K a b - (s * K a + s * K b) / 2 * (b - a)) <= M * (b - a) ^ 3 / 12 + among ks a b * (L * (b - a) ^ 2)).
        replace (s * RInt K a b - (s * K a + s * K b) / 2 * (b - a)) with (s * (RInt K a b - (K a + K b) / 2 * (b - a))) by field. rewrite Rabs_mult.
        assert (Rabs s = 1) as -> by (destruct S1 as [->| ->]; unfold Rabs; destruct Rcase_abs; lra). pose proof (among_pos ks a b). assert (0 <= among ks a b * (L * (b - a) ^ 2)) by (apply Rmult_le_pos; lra). lra.
      + intros x Q. rewrite Rmin_left, Rmax_right in Q by lra. rewrite S3 by lra. reflexivity.
    - pose proof (trapezoid_lip (fun x => Rabs (K x)) a b L ltac:(lra) (absK_int a b) ltac:(intros; apply absK_lip)). cbv beta in *. assert (1 * (L * (b - a) ^ 2) <= among ks a b * (L * (b - a) ^ 2)) by (apply Rmult_le_compat_r; lra). lra.
  Qed.
  Lemma cell_signed : forall a b v, - X <= a -> b <= X -> a < b -> v = clo a b \/ v = chi a b -> Rabs (RInt K a b - v * mass a b) <= M * (b - a) ^ 3 / 12 + among ks a b * (2 * L * (b - a) ^ 2).
  Proof using T.
    intros a b v A B AB V. assert (H3 : 0 <= M * (b - a) ^ 3 / 12). { pose proof (tm_M _ _ _ _ _ _ T). pose proof (pow_le (b - a) 3 ltac:(lra)). assert (0 <= M * (b - a) ^ 3) by (apply Rmult_le_pos; lra). lra. }
    assert (H2 : 0 <= L * (b - a) ^ 2). { pose proof (tm_L _ _ _ _ _ _ T). pose proof (pow_le (b - a) 2 ltac:(lra)). apply Rmult_le_pos; lra. }
    destruct (Rlt_le_dec (among zs a b) 1) as [lz|lz].
    - assert (VE : v = sg (K a)). { unfold clo, chi in V. destruct (Rlt_dec (among zs a b) 1); [tauto|lra]. } destruct (same_sign a b A B AB (among_none _ _ _ lz)) as (s & S1 & S2 & S3). rewrite S2 in VE by lra. subst v.
      assert (SS : s * s = 1) by (destruct S1 as [->| ->]; lra).
      replace (s * mass a b) with ((K a + K b) / 2 * (b - a)) by (unfold mass; rewrite !S3 by lra; transitivity (s * s * ((K a + K b) / 2 * (b - a))); [rewrite SS; ring|field]).
      destruct (Rlt_le_dec (among ks a b) 1) as [l|l].
      + destruct (smooth_cell a b A B AB l) as (_ & _ & _ & _ & S4). pose proof (among_pos ks a b). assert (0 <= among ks a b * (2 * L * (b - a) ^ 2)) by (apply Rmult_le_pos; lra). lra.
      + pose proof (trapezoid_lip K a b L ltac:(lra) (K_int a b) ltac:(intros; apply (tm_lip _ _ _ _ _ _ T))). assert (1 * (2 * L * (b - a) ^ 2) <= among ks a b * (2 * L * (b - a) ^ 2)) by (apply Rmult_le_compat_r; lra). lra.
    - destruct (zero_cell a b ltac:(lra) ltac:(lra)) as (z & Z1 & Z2). pose proof (tm_zero _ _ _ _ _ _ T z Z1) as Z0.
      assert (SM : forall x, a <= x <= b -> Rabs (K x) <= L * (b - a)). { intros x Q. pose proof (tm_lip _ _ _ _ _ _ T x z) as LI. rewrite Z0, Rminus_0_r in LI. eapply Rle_trans; [exact LI|]. apply Rmult_le_compat_l; [apply (tm_L _ _ _ _ _ _ T)|]. apply Rabs_le. lra. }
      assert (I1 : Rabs (RInt K a b) <= (b - a) * (L * (b - a))). { apply (norm_RInt_le_const (V := R_NormedModule) K a b); [lra|exact SM|]. apply (RInt_correct (V := R_CompleteNormedModule)), K_int. }
      assert (I2 : mass a b <= (b - a) * (L * (b - a))). { unfold mass. pose proof (SM a ltac:(lra)). pose proof (SM b ltac:(lra)). replace ((b - a) * (L * (b - a))) with ((L * (b - a)) * (b - a)) by ring. apply Rmult_le_compat_r; lra. }
      pose proof (mass_pos a b ltac:(lra)) as I3. assert (VB : v = 1 \/ v = -1). { unfold clo, chi in V. destruct (Rlt_dec (among zs a b) 1); [lra|tauto]. }
      assert (1 <= among ks a b) by (apply (among_one ks a b z); [apply (tm_knots _ _ _ _ _ _ T), Z1|exact Z2]). assert (1 * (2 * L * (b - a) ^ 2) <= among ks a b * (2 * L * (b - a) ^ 2)) by (apply Rmult_le_compat_r; lra).
      pose proof (Rabs_triang (RInt K a b) (- (v * mass a b))) as TR. rewrite Rabs_Ropp, Rabs_mult in TR. assert (Rabs v = 1) as RV by (destruct VB as [->| ->]; unfold Rabs; destruct Rcase_abs; lra). rewrite RV, (Rabs_pos_eq (mass a b)) in TR by exact I3.
      replace (RInt K a b - v * mass a b) with (RInt K a b + - (v * mass a b)) by ring. nra.
  Qed.
End Tame.

(** * The whole table *)
Lemma mean_scale : forall f m e c, 0 <= c -> mean_near f m e -> mean_near (fun u => c * f u) (c * m) (c * e).
Proof.
  intros f m e c C (lo & hi & a & b & H1 & H2 & H3 & H4 & H5). exists (fun u => c * lo u), (fun u => c * hi u), (c * a), (c * b). split.
  - intros u U. specialize (H1 u U). split; apply Rmult_le_compat_l; lra.
  - split; [apply (is_RInt_scal (V := R_NormedModule) lo); exact H2|]. split; [apply (is_RInt_scal (V := R_NormedModule) hi); exact H3|]. split.
    + replace (c * m - c * e) with (c * (m - e)) by ring. apply Rmult_le_compat_l; lra.
    + replace (c * m + c * e) with (c * (m + e)) by ring. apply Rmult_le_compat_l; lra.
Qed.
Lemma mean_weaken : forall f m e m' e', mean_near f m e -> Rabs (m - m') <= e' - e -> mean_near f m' e'.
Proof. intros f m e m' e' (lo & hi & a & b & H1 & H2 & H3 & H4 & H5) W. exists lo, hi, a, b. apply Rabs_le_between in W. repeat split; auto; try apply H1; auto; lra. Qed.
Lemma mean_ext : forall f g m e, (forall u, f u = g u) -> mean_near f m e -> mean_near g m e.
Proof. intros f g m e E (lo & hi & a & b & H1 & H2). exists lo, hi, a, b. split; [|exact H2]. intros u U. rewrite <- E. apply H1, U. Qed.

Section Tame2.
  Variables (K : R -> R) (X L M : R) (zs ks : list R).
  Hypothesis T : tame K X L M zs ks.
  Variable N : nat.
  Hypothesis N1 : (1 <= N)%nat.
  Definition node (k : nat) : R := - X + (X - - X) * INR k / INR N.
  Definition hstep : R := 2 * X / INR N.
  Definition cum : nat -> R := cumsum (fun j => mass K (node j) (node (S j))).
  Lemma NP : 1 <= INR N. Proof using N1. change 1 with (INR 1). apply le_INR. exact N1. Qed.
  Lemma hpos : 0 < hstep. Proof using T N1. pose proof NP. pose proof (tm_X _ _ _ _ _ _ T). unfold hstep. apply Rdiv_lt_0_compat; lra. Qed.
  Lemma node_step : forall j, node (S j) - node j = hstep.
  Proof using N1. intro j. pose proof NP. unfold node, hstep. rewrite S_INR. field. lra. Qed.
  Lemma node_0 : node 0 = - X. Proof using N1. pose proof NP. unfold node. cbn [INR]. field. lra. Qed.
  Lemma node_N : node N = X. Proof using N1. pose proof NP. unfold node. field. lra. Qed.
  Lemma node_lt : forall j, node j < node (S j). Proof using T N1. intro j. pose proof (node_step j). pose proof hpos. lra. Qed.
  Lemma node_low : forall j, - X <= node j.
  Proof using T N1. intro j. pose proof NP. unfold node. pose proof (tm_X _ _ _ _ _ _ T). pose proof (pos_INR j). assert (0 <= (X - - X) * INR j / INR N); [|lra]. apply Rmult_le_pos; [apply Rmult_le_pos; lra|apply Rlt_le, Rinv_0_lt_compat; lra]. Qed.
  Lemma node_high : forall j, (j <= N)%nat -> node j <= X.
  Proof using T N1. intros j J. rewrite <- node_N. apply (nodes_le node (S N)); [intros; apply Rlt_le, node_lt|exact J|lia]. Qed.

  Lemma sum_error : forall (f : R -> R) (w : nat -> R) c, (forall a b, ex_RInt f a b) -> 0 <= c ->
    (forall j, (j < N)%nat -> Rabs (RInt f (node j) (node (S j)) - w j) <= M * hstep ^ 3 / 12 + among ks (node j) (node (S j)) * c) ->
    forall k, (k <= N)%nat -> Rabs (RInt f (- X) (node k) - cumsum w k) <= INR N * (M * hstep ^ 3 / 12) + INR (length ks) * c.
  Proof using T N1.
    intros f w c I C H k KN.
    assert (E : RInt f (- X) (node k) = cumsum (fun j => RInt f (node j) (node (S j))) k).
    { clear KN. induction k as [|k IH]; cbn [cumsum]; [rewrite node_0; apply (RInt_point (V := R_CompleteNormedModule))|]. rewrite <- IH. symmetry. apply (RInt_Chasles (V := R_CompleteNormedModule)); apply I. }
    rewrite E. assert (E2 : cumsum (fun j => RInt f (node j) (node (S j))) k - cumsum w k = cumsum (fun j => RInt f (node j) (node (S j)) + -1 * w j) k) by (rewrite cumsum_plus, cumsum_scale; ring). rewrite E2.
    eapply Rle_trans; [apply (cumsum_abs _ (fun j => M * hstep ^ 3 / 12 + c * among ks (node j) (node (S j))))|].
    - intros j J. specialize (H j ltac:(lia)). replace (RInt f (node j) (node (S j)) + -1 * w j) with (RInt f (node j) (node (S j)) - w j) by ring. lra.
    - rewrite cumsum_plus, cumsum_const, cumsum_scale. pose proof (among_sum ks node k ltac:(intros; apply Rlt_le, node_lt)) as A. apply le_INR in KN.
      assert (0 <= M * hstep ^ 3 / 12). { pose proof (tm_M _ _ _ _ _ _ T). pose proof hpos. pose proof (pow_le hstep 3 ltac:(lra)). assert (0 <= M * hstep ^ 3) by (apply Rmult_le_pos; lra). lra. }
      assert (INR k * (M * hstep ^ 3 / 12) <= INR N * (M * hstep ^ 3 / 12)) by (apply Rmult_le_compat_r; lra). assert (c * cumsum (fun j => among ks (node j) (node (S j))) k <= c * INR (length ks)) by (apply Rmult_le_compat_l; lra). lra.
  Qed.
  Definition err1 : R := INR N * (M * hstep ^ 3 / 12) + INR (length ks) * (L * hstep ^ 2).
  Definition err2 : R := INR N * (M * hstep ^ 3 / 12) + INR (length ks) * (2 * L * hstep ^ 2).
  Lemma L2pos : 0 <= L * hstep ^ 2. Proof using T N1. pose proof (tm_L _ _ _ _ _ _ T). pose proof hpos. apply Rmult_le_pos; [lra|apply pow_le; lra]. Qed.
  Lemma table_error : forall k, (k <= N)%nat -> Rabs (RInt (fun x => Rabs (K x)) (- X) (node k) - cum k) <= err1.
  Proof using T N1.
    intros k KN. apply (sum_error (fun x => Rabs (K x)) (fun j => mass K (node j) (node (S j)))); [apply (absK_int K X L M zs ks T)|exact L2pos| |exact KN].
    intros j J. pose proof (cell_abs K X L M zs ks T (node j) (node (S j)) (node_low j) (node_high (S j) ltac:(lia)) (node_lt j)) as C. rewrite node_step in C. exact C.
  Qed.
  Lemma signed_error : forall v, (forall j, v j = clo K zs (node j) (node (S j))) \/ (forall j, v j = chi K zs (node j) (node (S j))) ->
    Rabs (RInt K (- X) X - cumsum (fun j => v j * mass K (node j) (node (S j))) N) <= err2.
  Proof using T N1.
    intros v V. pose proof (sum_error K (fun j => v j * mass K (node j) (node (S j))) (2 * L * hstep ^ 2)) as S. rewrite <- node_N at 2. apply S; [apply (K_int K X L M zs ks T)|pose proof L2pos; lra| |lia].
    intros j J. pose proof (cell_signed K X L M zs ks T (node j) (node (Datatypes.S j)) (v j) (node_low j) (node_high (Datatypes.S j) ltac:(lia)) (node_lt j)) as C. rewrite node_step in C. apply C. destruct V as [V|V]; rewrite V; auto.
  Qed.
  Lemma mass_nonneg : forall j, 0 <= mass K (node j) (node (S j)).
  Proof using T N1. intro j. apply mass_pos, Rlt_le, node_lt. Qed.
  Lemma cum_mono : forall j, cum j <= cum (S j).
  Proof using T N1. intro j. unfold cum. cbn [cumsum]. pose proof (mass_nonneg j). lra. Qed.

  (** ** The mean sign of the kernel at positions drawn from the table *)
  Lemma mean_sign : forall search, searches search -> 0 < cum N ->
    mean_near (fun u => sg (K (interp search (S N) u (fun k => cum k / cum N) node))) (RInt K (- X) X / cum N) (err2 / cum N).
  Proof using T N1.
    intros search SE Z. assert (IZ : 0 < / cum N) by (apply Rinv_0_lt_compat; exact Z).
    assert (EN : (S N - 1)%nat = N) by lia.
    apply (mean_of_cells search (S N) (fun k => cum k / cum N) node (fun x => sg (K x)) (fun j => clo K zs (node j) (node (S j))) (fun j => chi K zs (node j) (node (S j)))); try (rewrite EN).
    - exact SE.
    - lia.
    - intros. apply node_lt.
    - intros j _. apply Rmult_le_compat_r; [lra|apply cum_mono].
    - unfold cum at 1. cbn [cumsum]. unfold Rdiv. ring.
    - field. lra.
    - intros j x J Q. apply (cell_sign K X L M zs ks T); [apply node_low|apply node_high; lia|exact Q].
    - pose proof (signed_error (fun j => clo K zs (node j) (node (S j))) ltac:(left; reflexivity)) as E. apply Rabs_le_between in E.
      rewrite (cumsum_ext _ (fun j => / cum N * (clo K zs (node j) (node (S j)) * mass K (node j) (node (S j))))) by (intros; unfold cum at 1 3; cbn [cumsum]; field; lra).
      rewrite cumsum_scale. replace (RInt K (- X) X / cum N - err2 / cum N) with (/ cum N * (RInt K (- X) X - err2)) by (field; lra). apply Rmult_le_compat_l; lra.
    - pose proof (signed_error (fun j => chi K zs (node j) (node (S j))) ltac:(right; reflexivity)) as E. apply Rabs_le_between in E.
      rewrite (cumsum_ext _ (fun j => / cum N * (chi K zs (node j) (node (S j)) * mass K (node j) (node (S j))))) by (intros; unfold cum at 1 3; cbn [cumsum]; field; lra).
      rewrite cumsum_scale. replace (RInt K (- X) X / cum N + err2 / cum N) with (/ cum N * (RInt K (- X) X + err2)) by (field; lra). apply Rmult_le_compat_l; lra.
  Qed.
  (** With F the integral of |K| up to d, and K of integral 1 *)
  Lemma mean_unit : forall search F d, searches search -> RInt K (- X) X = 1 -> 1 <= F -> Rabs (F - RInt (fun x => Rabs (K x)) (- X) X) <= d -> err1 + d <= 1 / 100 -> 0 <= d ->
    mean_near (fun u => F * sg (K (interp search (S N) u (fun k => cum k / cum N) node))) 1 (5 / 4 * (err1 + d) + 5 / 4 * err2).
  Proof using T N1.
    intros search F d SE U F1 FD E D. pose proof (table_error N ltac:(lia)) as TE. rewrite node_N in TE. apply Rabs_le_between in TE. apply Rabs_le_between in FD.
    assert (E1 : 0 <= err1). { unfold err1. pose proof L2pos. pose proof (tm_M _ _ _ _ _ _ T). pose proof hpos. pose proof (pow_le hstep 3 ltac:(lra)). pose proof (pos_INR N). pose proof (pos_INR (length ks)). assert (0 <= M * hstep ^ 3) by (apply Rmult_le_pos; lra).
      assert (0 <= INR N * (M * hstep ^ 3 / 12)) by (apply Rmult_le_pos; lra). assert (0 <= INR (length ks) * (L * hstep ^ 2)) by (apply Rmult_le_pos; lra). lra. }
    assert (E2 : 0 <= err2). { unfold err2. unfold err1 in E1. pose proof L2pos. pose proof (tm_M _ _ _ _ _ _ T). pose proof hpos. pose proof (pow_le hstep 3 ltac:(lra)). pose proof (pos_INR N). pose proof (pos_INR (length ks)). assert (0 <= M * hstep ^ 3) by (apply Rmult_le_pos; lra).
      assert (0 <= INR N * (M * hstep ^ 3 / 12)) by (apply Rmult_le_pos; lra). assert (0 <= INR (length ks) * (2 * L * hstep ^ 2)) by (apply Rmult_le_pos; lra). lra. }
    assert (Z : 99 / 100 <= cum N) by lra. pose proof (mean_sign search SE ltac:(lra)) as MS. rewrite U in MS. apply (mean_scale _ _ _ F) in MS; [|lra].
    apply (mean_weaken _ _ _ 1 _ MS).
    assert (IZ : 0 < / cum N) by (apply Rinv_0_lt_compat; lra). assert (IB : / cum N <= 100 / 99) by (replace (100 / 99) with (/ (99 / 100)) by field; apply Rinv_le_contravar; lra).
    assert (FZ : Rabs (F - cum N) <= err1 + d) by (apply Rabs_le; lra).
    assert (FB : F * / cum N <= 5 / 4). { assert (F <= cum N + 1 / 100) by lra. apply (Rmult_le_reg_r (cum N)); [lra|]. rewrite Rmult_assoc, Rinv_l by lra. lra. }
    replace (F * (1 / cum N) - 1) with ((F - cum N) * / cum N) by (field; lra). rewrite Rabs_mult, (Rabs_pos_eq (/ cum N)) by lra.
    assert (Rabs (F - cum N) * / cum N <= (err1 + d) * (5 / 4)) by (apply Rmult_le_compat; try apply Rabs_pos; lra).
    replace (F * (err2 / cum N)) with ((F * / cum N) * err2) by (field; lra). assert (F * / cum N * err2 <= 5 / 4 * err2) by (apply Rmult_le_compat_r; lra). lra.
  Qed.
  (** The table is the cumulative distribution. *)
  Lemma table_cdf : forall F d k, (k <= N)%nat -> 1 <= F -> F = RInt (fun x => Rabs (K x)) (- X) X -> err1 <= 1 / 100 -> d = 5 / 2 * err1 ->
    Rabs (cum k / cum N - RInt (fun x => Rabs (K x)) (- X) (node k) / F) <= d.
  Proof using T N1.
    intros F d k KN F1 FE E D. pose proof (table_error N ltac:(lia)) as TE. rewrite node_N, <- FE in TE. apply Rabs_le_between in TE. pose proof (table_error k KN) as TK. set (I := RInt (fun x => Rabs (K x)) (- X) (node k)) in *.
    assert (I0 : 0 <= I). { unfold I. apply RInt_ge_0; [apply node_low|apply (absK_int K X L M zs ks T)|]. intros. apply Rabs_pos. }
    assert (IF : I <= F). { rewrite FE. unfold I. rewrite <- (RInt_Chasles (V := R_CompleteNormedModule) _ (- X) (node k) X); [|apply (absK_int K X L M zs ks T)|apply (absK_int K X L M zs ks T)]. change plus with Rplus. assert (0 <= RInt (fun x => Rabs (K x)) (node k) X); [|lra]. apply RInt_ge_0; [apply node_high, KN|apply (absK_int K X L M zs ks T)|]. intros. apply Rabs_pos. }
    assert (Z : 99 / 100 <= cum N) by lra. assert (IZ : 0 < / cum N) by (apply Rinv_0_lt_compat; lra). assert (IB : / cum N <= 100 / 99) by (replace (100 / 99) with (/ (99 / 100)) by field; apply Rinv_le_contravar; lra).
    replace (cum k / cum N - I / F) with ((- (I - cum k) + (I / F) * (F - cum N)) * / cum N) by (field; split; lra). rewrite Rabs_mult, (Rabs_pos_eq (/ cum N)) by lra.
    pose proof (Rabs_triang (- (I - cum k)) (I / F * (F - cum N))) as TR. rewrite Rabs_Ropp, Rabs_mult in TR. assert (Q : 0 <= I / F <= 1). { split; [apply Rmult_le_pos; [lra|apply Rlt_le, Rinv_0_lt_compat; lra]|apply (Rmult_le_reg_r F); [lra|]; unfold Rdiv; rewrite Rmult_assoc, Rinv_l; lra]. }
    rewrite (Rabs_pos_eq (I / F)) in TR by lra. assert (FN : Rabs (F - cum N) <= err1) by (apply Rabs_le; lra). pose proof (Rabs_pos (F - cum N)). assert (I / F * Rabs (F - cum N) <= 1 * err1) by (apply Rmult_le_compat; lra).
    assert (E1 : 0 <= err1) by lra. subst d. apply Rle_trans with ((2 * err1) * (100 / 99)); [apply Rmult_le_compat; try apply Rabs_pos; lra|lra].
  Qed.
End Tame2.
