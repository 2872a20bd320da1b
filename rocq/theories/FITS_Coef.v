(** What SIP and TPV coefficients mean, and that they are read so. *)
From Coq Require Import ZArith Reals Bool Ascii String List Lra Lia.
From Verif Require Import Base Bounds_Model Bounds_Proofs Geo_Model Util_Model Util_Spec Util_Proofs.
From Verif Require Import FITS_Spec FITS_Model FITS_Poly FITS_Head FITS_Read FITS_Std FITS_Same FITS_More.
Import ListNotations.
Open Scope R_scope.

(** SIP: the correction is the sum of c_ij x^i y^j over i + j <= n *)
Definition sip_sum (n : nat) (c : nat -> nat -> R) (x y : R) : R := sumf (n + 1) (fun i => sumf (n + 1 - i) (fun j => c i j * x ^ i * y ^ j)).
(** TPV: the terms of the convention in their order; [Rad k] is r^k *)
Inductive term : Type := Mono (i j : nat) | Rad (k : nat).
Definition tpv_terms : list term :=
  [Mono 0 0; Mono 1 0; Mono 0 1; Rad 1;
   Mono 2 0; Mono 1 1; Mono 0 2; Mono 3 0; Mono 2 1; Mono 1 2; Mono 0 3; Rad 3;
   Mono 4 0; Mono 3 1; Mono 2 2; Mono 1 3; Mono 0 4; Mono 5 0; Mono 4 1; Mono 3 2; Mono 2 3; Mono 1 4; Mono 0 5; Rad 5;
   Mono 6 0; Mono 5 1; Mono 4 2; Mono 3 3; Mono 2 4; Mono 1 5; Mono 0 6;
   Mono 7 0; Mono 6 1; Mono 5 2; Mono 4 3; Mono 3 4; Mono 2 5; Mono 1 6; Mono 0 7; Rad 7].
Definition term_value (t : term) (x y : R) : R := match t with Mono i j => x ^ i * y ^ j | Rad k => sqrt (x ^ 2 + y ^ 2) ^ k end.
Definition tpv_sum (c : nat -> R) (x y : R) : R := sumf 40 (fun k => c k * term_value (nth k tpv_terms (Rad 0)) x y).
(** PV1_1 and PV2_1 are 1 where not given, the others 0 *)
Definition tpv_number (h : header) (a : axis) (k : nat) : R := number h (KPv a k) (if Nat.eqb k 1 then 1 else 0).

Lemma sumf_cut : forall m n f, (m <= n)%nat -> (forall i, (m <= i)%nat -> f i = 0) -> sumf n f = sumf m f.
Proof.
  intros m n f L Z. replace n with (m + (n - m))%nat by lia. induction (n - m)%nat as [|k IH]; [now rewrite Nat.add_0_r|]. replace (m + S k)%nat with (S (m + k)) by lia. rewrite sumf_last, IH, Z by lia. ring.
Qed.
Lemma sumf_swap : forall n m f, sumf n (fun i => sumf m (fun j => f i j)) = sumf m (fun j => sumf n (fun i => f i j)).
Proof.
  intros n m f. induction n as [|n IH]; [unfold sumf at 1; cbn [seq map fold_right]; rewrite <- (sumf_zero m); reflexivity|]. rewrite sumf_last, IH, <- sumf_plus. apply sumf_ext. intros j _. now rewrite sumf_last.
Qed.
Lemma sip_surface : forall N n c x y, (n <= N)%nat -> (forall i j, (n < i + j)%nat -> c i j = 0) -> surface (N + 1) (low (N + 1) c) x y = sip_sum n c x y.
Proof.
  intros N n c x y L Z. unfold surface, sip_sum. rewrite (sumf_cut (n + 1) (N + 1)) by (try lia; intros i Hi; rewrite <- (sumf_zero (N + 1)); apply sumf_ext; intros j Hj; unfold low; destruct (_ <? _)%nat; rewrite ?Z by lia; ring).
  apply sumf_ext. intros i Hi. rewrite (sumf_cut (n + 1 - i) (N + 1)) by (try lia; intros j Hj; unfold low; destruct (_ <? _)%nat; rewrite ?Z by lia; ring).
  apply sumf_ext. intros j Hj. unfold low. destruct (Nat.ltb_spec (i + j) (N + 1)) as [l|l]; [reflexivity|lia].
Qed.
Lemma hget0_number : forall h k, absent h k \/ given h k -> hget0 h k = Ok (number h k 0).
Proof. intros h k H. unfold absent, given, hget0, number in *. destruct (h k) as [[]|]; try reflexivity. destruct H as [H|[]]. discriminate. Qed.
Lemma surface_add_at_n : forall n m i0 j0 x y, (i0 + j0 < n)%nat -> square n m -> surface n (low n (coef (add_at i0 j0 1 m))) x y = surface n (low n (coef m)) x y + x ^ i0 * y ^ j0.
Proof.
  intros n m i0 j0 x y H S. unfold surface.
  transitivity (sumf n (fun i => sumf n (fun j => low n (coef m) i j * x ^ i * y ^ j) + (if Nat.eqb i i0 then sumf n (fun j => if Nat.eqb j j0 then x ^ i0 * y ^ j0 else 0) else 0))).
  - apply sumf_ext. intros i Hi. destruct (Nat.eqb_spec i i0) as [->|N].
    + rewrite <- sumf_split. apply sumf_ext. intros j Hj. unfold low. rewrite (add_at_coef n) by assumption. rewrite Nat.eqb_refl. cbn [andb]. destruct (Nat.eqb_spec j j0) as [->|M]; [destruct (Nat.ltb_spec (i0 + j0) n); [ring|lia]|ring].
    + rewrite Rplus_0_r. apply sumf_ext. intros j Hj. unfold low. rewrite (add_at_coef n) by assumption. destruct (Nat.eqb_spec i i0); [contradiction|]. reflexivity.
  - rewrite sumf_split. f_equal.
    assert (P : forall k v, (k < n)%nat -> sumf n (fun j => if Nat.eqb j k then v else 0) = v).
    { intros k v K. clear - K. unfold sumf. assert (G : forall l, NoDup l -> In k l -> fold_right Rplus 0 (map (fun j => if Nat.eqb j k then v else 0) l) = v).
      { assert (G0 : forall l, ~ In k l -> fold_right Rplus 0 (map (fun j => if Nat.eqb j k then v else 0) l) = 0).
        { induction l as [|a l IH]; intro NI; [reflexivity|]. cbn [map fold_right]. rewrite IH by (intro I; apply NI; right; exact I). destruct (Nat.eqb_spec a k) as [->|]; [exfalso; apply NI; left; reflexivity|ring]. }
        induction l as [|a l IH]; intros ND I; [destruct I|]. inversion ND as [|? ? NI ND']; subst. cbn [map fold_right]. destruct (Nat.eqb_spec a k) as [->|NE].
        - rewrite G0 by exact NI. ring.
        - rewrite IH; [ring|exact ND'|destruct I as [->|I]; [contradiction|exact I]]. }
      apply G; [apply seq_NoDup|apply in_seq; lia]. }
    rewrite P by lia. apply P. lia.
Qed.
Lemma sip_read : forall h a b na nb, h (KOrder a) = Some (VZ na) -> h (KOrder b) = Some (VZ nb) -> (1 <= Nat.max na nb)%nat ->
  (forall s i j, absent h (KSip s i j) \/ given h (KSip s i j)) -> (forall i j, (na < i + j)%nat -> number h (KSip a i j) 0 = 0) -> (forall i j, (nb < i + j)%nat -> number h (KSip b i j) 0 = 0) ->
  exists d, read_sip_pair h a b = Ok d /\ forall x y, apply_ab (x, y) d = (x + sip_sum na (fun i j => number h (KSip a i j) 0) x y, y + sip_sum nb (fun i j => number h (KSip b i j) 0) x y).
Proof.
  intros h a b na nb HA HB N1 G ZA ZB. unfold read_sip_pair, hint. rewrite HA, HB. cbn [to_nat bind]. set (N := Nat.max na nb) in *.
  assert (RM : forall s, read_matrix h s N = Ok (map (fun i => map (fun j => number h (KSip s i j) 0) (seq 0 (N + 1))) (seq 0 (N + 1)))).
  { intro s. unfold read_matrix. rewrite (mapM_ok _ _ _ (fun i => map (fun j => number h (KSip s i j) 0) (seq 0 (N + 1)))); [reflexivity|]. intros i _.
    apply (mapM_ok _ _ _ (fun j => number h (KSip s i j) 0)). intros j _. apply hget0_number, G. }
  rewrite !RM. cbn [bind]. destruct (Nat.eqb_spec N 0) as [e|_]; [lia|]. eexists. split; [reflexivity|]. intros x y.
  assert (SQ : forall s, square (N + 1) (map (fun i => map (fun j => number h (KSip s i j) 0) (seq 0 (N + 1))) (seq 0 (N + 1)))) by (intro s; apply (table_square (N + 1) (fun i j => number h (KSip s i j) 0))).
  rewrite (apply_ab_warp (N + 1)) by (apply add_at_square, SQ). unfold warp. cbn [fst snd]. rewrite !surface_add_at_n by (try lia; apply SQ).
  assert (SF : forall s n, (n <= N)%nat -> (forall i j, (n < i + j)%nat -> number h (KSip s i j) 0 = 0) ->
    surface (N + 1) (low (N + 1) (coef (map (fun i => map (fun j => number h (KSip s i j) 0) (seq 0 (N + 1))) (seq 0 (N + 1))))) x y = sip_sum n (fun i j => number h (KSip s i j) 0) x y).
  { intros s n L Z. rewrite <- (sip_surface N n) by assumption. apply sumf_ext. intros i Hi. apply sumf_ext. intros j Hj. unfold low. destruct (_ <? _)%nat; [|reflexivity]. now rewrite (table_coef (N + 1) (fun i j => number h (KSip s i j) 0)) by assumption. }
  rewrite (SF a na), (SF b nb) by (assumption || lia). f_equal; ring.
Qed.

(** * TPV *)
Definition key_of (i j : nat) : nat := nth (tri_index i j) pv_keys 0%nat.
Definition tpv_coef (c : nat -> R) : coefs := fun i j => if Nat.leb (i + j) 7 then c (key_of i j) else 0.
Definition degree (k : nat) : nat := match nth k tpv_terms (Rad 0) with Mono i j => i + j | Rad k => k end.
Definition radial (k : nat) : Prop := match nth k tpv_terms (Rad 0) with Mono _ _ => False | Rad _ => True end.
Lemma tpv_sum_surface : forall c x y, (forall k, (k < 40)%nat -> radial k -> c k = 0) -> tpv_sum c x y = surface 8 (tpv_coef c) x y.
Proof.
  intros c x y Z. unfold tpv_sum, surface, sumf.
  assert (Z3 := Z 3%nat ltac:(lia) I). assert (Z11 := Z 11%nat ltac:(lia) I). assert (Z23 := Z 23%nat ltac:(lia) I). assert (Z39 := Z 39%nat ltac:(lia) I).
  cbn [seq map fold_right]. unfold tpv_coef, tpv_terms. cbn [nth term_value Nat.leb Nat.add].
  repeat match goal with |- context [key_of ?i ?j] => let v := eval vm_compute in (key_of i j) in change (key_of i j) with v end.
  rewrite Z3, Z11, Z23, Z39. rewrite !Rmult_0_l, !Rmult_assoc.
  repeat match goal with |- context [c ?k * (?a * ?b)] => generalize (c k * (a * b)); intro end. ring.
Qed.
Lemma key_degree : forall i j, (i + j <= 7)%nat -> (key_of i j < 40)%nat /\ nth (key_of i j) tpv_terms (Rad 0) = Mono i j.
Proof.
  intros i j D. do 8 (destruct i as [|i]; [do 8 (destruct j as [|j]; [try (exfalso; lia); (split; [apply Nat.ltb_lt; reflexivity|reflexivity])|]); exfalso; lia|]). exfalso. lia.
Qed.
Lemma term_key : forall k i j, (k < 40)%nat -> nth k tpv_terms (Rad 0) = Mono i j -> (i + j <= 7)%nat /\ key_of i j = k.
Proof.
  assert (T : upto 40 (fun k => match nth k tpv_terms (Rad 0) with Mono i j => Nat.leb (i + j) 7 && Nat.eqb (key_of i j) k | _ => true end) = true) by (vm_compute; reflexivity).
  intros k i j K E. pose proof (upto_spec _ _ T k K) as H. cbv beta in H. rewrite E in H. apply andb_true_iff in H. destruct H as [A B]. split; [now apply Nat.leb_le|now apply Nat.eqb_eq].
Qed.
Lemma odd_radial : forall q, In q odd_indices -> (q < 40)%nat /\ radial q.
Proof. intros q H. cbn [In odd_indices] in H. destruct H as [<-|[<-|[<-|[<-|[]]]]]; (split; [lia|exact I]). Qed.
Section Tpv.
  Variables (h : header) (d : nat).
  Let g (x : axis) (q : nat) : R := number h (KPv x q) 0.
  Hypothesis NUM : forall x q, absent h (KPv x q) \/ given h (KPv x q).
  Hypothesis RAD : forall x k, (k < 40)%nat -> radial k -> g x k = 0.
  Hypothesis D7 : (d <= 7)%nat.
  Hypothesis HI : forall x k, (k < 40)%nat -> (d < degree k)%nat -> g x k = 0.
  Hypothesis NZ : forall x, exists k, (k < 40)%nat /\ g x k <> 0.
  Hypothesis TOP : exists x j, (j <= d)%nat /\ (d <= 2 * j + 1)%nat /\ g x (key_of (d - j) j) <> 0.
  Lemma g_nth : forall x m, (m < 36)%nat -> nth m (map (g x) pv_keys) 0 = g x (nth m pv_keys 0%nat).
  Proof. intros x m M. now apply nth_keys. Qed.
  Lemma g_key : forall x i j, (i + j <= 7)%nat -> nth (tri_index i j) (map (g x) pv_keys) 0 = g x (key_of i j).
  Proof. intros x i j L. exact (nth_keys (g x) (tri_index i j) (tri_lt i j L)). Qed.
  Lemma nz_index : forall x, exists i j, (i + j <= d)%nat /\ g x (key_of i j) <> 0.
  Proof.
    intro x. destruct (NZ x) as (k & K & G). destruct (nth k tpv_terms (Rad 0)) as [i j|r] eqn:E.
    - destruct (term_key k i j K E) as [L <-]. exists i, j. split; [|exact G]. destruct (Nat.le_gt_cases (i + j) d) as [l|l]; [exact l|]. exfalso. apply G, HI; [exact K|]. unfold degree. now rewrite E.
    - exfalso. apply G, RAD; [exact K|]. unfold radial. now rewrite E.
  Qed.
  Lemma g_deg : forall x i j, (i + j <= 7)%nat -> g x (key_of i j) <> 0 -> (i + j <= d)%nat.
  Proof.
    intros x i j L G. destruct (Nat.le_gt_cases (i + j) d) as [l|l]; [exact l|]. exfalso. apply G. destruct (key_degree i j L) as [K E]. apply HI; [exact K|]. unfold degree. now rewrite E.
  Qed.
  Lemma tpv_read_d : read_tpv h = Ok (fill1 d (map (g X1) pv_keys), fill2 d (map (g X2) pv_keys)).
  Proof.
    assert (LN : forall x i j, (i + j <= 7)%nat -> g x (key_of i j) <> 0 -> exists m, last_nonzero (map (g x) pv_keys) = Ok m /\ (tri_index i j <= m)%nat /\ (m <= tri_index 0 d)%nat).
    { intros x i j L G. pose proof (tri_lt i j L) as T. destruct (last_nonzero_spec (map (g x) pv_keys) (tri_index i j)) as (m & E & M & K & Z); [rewrite g_key by exact L; exact G|].
      rewrite map_length in M. change (length pv_keys) with 36%nat in M. exists m. split; [exact E|]. split; [exact K|]. destruct (tri_all m M) as (i' & j' & D' & <-). apply tri_mono; [|exact D7]. apply (g_deg x); [exact D'|].
      rewrite g_key in Z by exact D'. exact Z. }
    destruct (nz_index X1) as (i1 & j1 & L1 & G1). destruct (nz_index X2) as (i2 & j2 & L2 & G2).
    destruct (LN X1 i1 j1 ltac:(lia) G1) as (m1 & E1 & K1 & U1). destruct (LN X2 i2 j2 ltac:(lia) G2) as (m2 & E2 & K2 & U2).
    rewrite (read_tpv_of h g m1 m2); [|intros; apply hget0_number, NUM|intros x q I; apply odd_radial in I; apply RAD; apply I|exact E1|exact E2].
    destruct TOP as (x & j & J1 & J2 & G). destruct (LN x (d - j)%nat j ltac:(lia) G) as (m & E & K & U).
    rewrite (order_found d j (Nat.max m1 m2)); try lia; [reflexivity|]. destruct x; rewrite E in *; [injection E1 as <-|injection E2 as <-]; lia.
  Qed.
  Lemma fill_surface : forall x y a (sw : bool), surface (d + 1) (low (d + 1) (coef ((if sw then fill2 else fill1) d (map (g a) pv_keys)))) x y
    = surface 8 (if sw then fun i j => tpv_coef (g a) j i else tpv_coef (g a)) x y.
  Proof.
    intros x y a sw. rewrite (surface_shrink (d + 1) 8).
    2: lia.
    2:{ intros i j H. destruct sw; unfold tpv_coef; [rewrite (Nat.add_comm j i)|]; destruct (Nat.leb_spec (i + j) 7) as [l|l]; try reflexivity.
        - destruct (Req_dec (g a (key_of j i)) 0) as [e|e]; [exact e|]. apply (g_deg a) in e; lia.
        - destruct (Req_dec (g a (key_of i j)) 0) as [e|e]; [exact e|]. apply (g_deg a) in e; lia. }
    apply sumf_ext. intros i Hi. apply sumf_ext. intros j Hj. f_equal. f_equal. unfold low.
    assert (Q : forall i j, (i < d + 1)%nat -> (j < d + 1)%nat -> (if Nat.ltb (i + j) (d + 1) then (if Nat.leb (i + j) d then nth (tri_index i j) (map (g a) pv_keys) 0 else 0) else 0) = tpv_coef (g a) i j).
    { intros i' j' Hi' Hj'. unfold tpv_coef. destruct (Nat.ltb_spec (i' + j') (d + 1)) as [l|l].
      - destruct (Nat.leb_spec (i' + j') d) as [l'|l']; [|lia]. destruct (Nat.leb_spec (i' + j') 7) as [l2|l2]; [|lia]. rewrite g_key by lia. reflexivity.
      - destruct (Nat.leb_spec (i' + j') 7) as [l2|l2]; [|reflexivity]. symmetry. destruct (Req_dec (g a (key_of i' j')) 0) as [e|e]; [exact e|]. apply (g_deg a) in e; lia. }
    destruct sw; unfold fill1, fill2.
    - rewrite (table_coef (d + 1) (fun i j => if Nat.leb (i + j) d then nth (tri_index j i) (map (g a) pv_keys) 0 else 0)) by assumption. rewrite (Nat.add_comm i j). now apply Q.
    - rewrite (table_coef (d + 1) (fun i j => if Nat.leb (i + j) d then nth (tri_index i j) (map (g a) pv_keys) 0 else 0)) by assumption. now apply Q.
  Qed.
  Lemma surface_swap : forall n c x y, surface n (fun i j => c j i) x y = surface n c y x.
  Proof.
    intros n c x y. unfold surface. rewrite sumf_swap. apply sumf_ext. intros i _. apply sumf_ext. intros j _. ring.
  Qed.
  Lemma tpv_read : exists dd, read_tpv h = Ok dd /\ forall x y, apply_ab (x, y) dd = (tpv_sum (g X1) x y, tpv_sum (g X2) y x).
  Proof.
    exists (fill1 d (map (g X1) pv_keys), fill2 d (map (g X2) pv_keys)). split; [exact tpv_read_d|]. intros x y.
    rewrite (apply_ab_warp (d + 1)).
    2:{ apply (table_square (d + 1) (fun i j => if Nat.leb (i + j) d then nth (tri_index i j) (map (g X1) pv_keys) 0 else 0)). }
    2:{ apply (table_square (d + 1) (fun i j => if Nat.leb (i + j) d then nth (tri_index j i) (map (g X2) pv_keys) 0 else 0)). }
    pose proof (fill_surface x y X1 false) as F1. pose proof (fill_surface x y X2 true) as F2. cbv iota in F1, F2. unfold warp. cbn [fst snd]. rewrite F1, F2, (surface_swap 8 (tpv_coef (g X2))).
    rewrite (tpv_sum_surface (g X1)), (tpv_sum_surface (g X2)) by (intros; now apply RAD). reflexivity.
  Qed.
End Tpv.
Lemma tpv_meaning : forall h d, (forall a k, absent h (KPv a k) \/ given h (KPv a k)) -> given h (KPv X1 1) -> given h (KPv X2 1) ->
  (forall a k, (k < 40)%nat -> radial k -> tpv_number h a k = 0) -> (d <= 7)%nat -> (forall a k, (k < 40)%nat -> (d < degree k)%nat -> tpv_number h a k = 0) ->
  (forall a, exists k, (k < 40)%nat /\ tpv_number h a k <> 0) ->
  (exists a k i j, (k < 40)%nat /\ nth k tpv_terms (Rad 0) = Mono i j /\ (i + j)%nat = d /\ (i <= j + 1)%nat /\ tpv_number h a k <> 0) ->
  exists dd, read_tpv h = Ok dd /\ forall x y, apply_ab (x, y) dd = (tpv_sum (tpv_number h X1) x y, tpv_sum (tpv_number h X2) y x).
Proof.
  intros h d NUM G1 G2 RAD D7 HI NZ (a & k & i & j & K & E & D & L & G).
  assert (EQ : forall b q, tpv_number h b q = number h (KPv b q) 0).
  { intros b q. unfold tpv_number. destruct (Nat.eqb_spec q 1) as [->|N]; [|reflexivity]. assert (GB : given h (KPv b 1)) by (destruct b; assumption). unfold given, number in *. destruct (h (KPv b 1)) as [[]|]; (reflexivity || contradiction). }
  destruct (term_key k i j K E) as [L7 KE].
  destruct (tpv_read h d NUM) as (dd & RD & V).
  - intros b q Q R. rewrite <- EQ. now apply RAD.
  - exact D7.
  - intros b q Q R. rewrite <- EQ. now apply HI.
  - intro b. destruct (NZ b) as (q & Q & Z). exists q. split; [exact Q|]. rewrite <- EQ. exact Z.
  - exists a, j. split; [lia|]. split; [lia|]. replace (d - j)%nat with i by lia. rewrite KE, <- EQ. exact G.
  - exists dd. split; [exact RD|]. intros x y. rewrite V. f_equal; apply sumf_ext; intros q _; now rewrite EQ.
Qed.
Lemma radial_refused : forall h a k, (forall a k, absent h (KPv a k) \/ given h (KPv a k)) -> (k < 40)%nat -> radial k -> tpv_number h a k <> 0 -> read_tpv h = Err NotImplementedErr.
Proof.
  intros h a k NUM K R N. unfold read_tpv. rewrite (mapM_ok _ _ _ (fun p => number h (KPv (fst p) (snd p)) 0)) by (intros; apply hget0_number, NUM). cbn [bind].
  assert (E : existsb (fun x => negb (Reqb x 0)) (map (fun p : axis * nat => number h (KPv (fst p) (snd p)) 0) (list_prod [X1; X2] odd_indices)) = true).
  { apply existsb_exists. exists (number h (KPv a k) 0). split.
    - apply in_map_iff. exists (a, k). split; [reflexivity|]. apply in_prod; [destruct a; cbn; tauto|]. unfold radial in R.
      do 40 (destruct k as [|k]; [first [contradiction R|(cbn; tauto)]|]). exfalso. lia.
    - unfold tpv_number in N. destruct (Nat.eqb_spec k 1) as [->|_]; [destruct R|]. destruct (Reqb_spec (number h (KPv a k) 0) 0) as [e|e]; [contradiction|reflexivity]. }
  now rewrite E.
Qed.
Lemma tpv_default : exists h dd, (forall a k, absent h (KPv a k) \/ given h (KPv a k)) /\ (forall a k, (k < 40)%nat -> radial k -> tpv_number h a k = 0) /\
  read_tpv h = Ok dd /\ (forall x y, (tpv_sum (tpv_number h X1) x y, tpv_sum (tpv_number h X2) y x) = (x + y, y)) /\ forall x y, apply_ab (x, y) dd = (y, y).
Proof.
  set (h := hsets empty [(KPv X1 2, VR 1); (KPv X2 1, VR 1)]).
  assert (H : forall a k, h (KPv a k) = match a with X1 => if Nat.eqb k 2 then Some (VR 1) else None | X2 => if Nat.eqb k 1 then Some (VR 1) else None end).
  { intros a k. unfold h. cbn [hsets]. unfold hset. destruct (key_eq_dec (KPv X2 1) (KPv a k)) as [e|e]; [injection e as <- <-; reflexivity|]. destruct (key_eq_dec (KPv X1 2) (KPv a k)) as [f|f]; [injection f as <- <-; reflexivity|].
    destruct a; [destruct (Nat.eqb_spec k 2) as [->|]|destruct (Nat.eqb_spec k 1) as [->|]]; try congruence; reflexivity. }
  assert (NUM : forall a k, absent h (KPv a k) \/ given h (KPv a k)).
  { intros a k. unfold absent, given. rewrite H. destruct a; destruct (_ =? _)%nat; auto. }
  assert (NB : forall a k, number h (KPv a k) 0 = match a with X1 => if Nat.eqb k 2 then 1 else 0 | X2 => if Nat.eqb k 1 then 1 else 0 end).
  { intros a k. unfold number. rewrite H. destruct a; destruct (_ =? _)%nat; reflexivity. }
  destruct (tpv_read h 1 NUM) as (dd & RD & V).
  - intros a k _ R. rewrite NB. destruct a; [destruct (Nat.eqb_spec k 2) as [->|]|destruct (Nat.eqb_spec k 1) as [->|]]; (destruct R || reflexivity).
  - lia.
  - intros a k _ R. rewrite NB. destruct a; [destruct (Nat.eqb_spec k 2) as [->|]|destruct (Nat.eqb_spec k 1) as [->|]]; try reflexivity; unfold degree in R; cbn in R; lia.
  - intro a. exists (match a with X1 => 2%nat | X2 => 1%nat end). destruct a; (split; [lia|]); rewrite NB; cbn [Nat.eqb]; lra.
  - exists X1, 1%nat. split; [lia|]. split; [lia|]. rewrite NB. change (key_of (1 - 1) 1) with 2%nat. cbn [Nat.eqb]. lra.
  - exists h, dd. split; [exact NUM|]. split.
    { intros a k _ R. unfold tpv_number, number. rewrite H. destruct (Nat.eqb_spec k 1) as [->|]; [destruct R|]. destruct a; [destruct (Nat.eqb_spec k 2) as [->|]|]; (destruct R || reflexivity). }
    split; [exact RD|]. split.
    + intros x y. unfold tpv_sum, sumf. cbn [seq map fold_right]. unfold tpv_number, number. rewrite !H. cbn [Nat.eqb]. unfold tpv_terms. cbn [nth term_value pow]. f_equal; ring.
    + intros x y. rewrite V. unfold tpv_sum, sumf. cbn [seq map fold_right]. rewrite !NB. cbn [Nat.eqb]. unfold tpv_terms. cbn [nth term_value pow]. f_equal; ring.
Qed.
