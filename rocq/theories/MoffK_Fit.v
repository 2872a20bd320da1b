(** The fit behind maxk has no pole in its range and stays within bounds: subdivision of the unit square. *)
From Coq Require Import ZArith Reals Bool List Lra Lia.
From Verif Require Import MoffK_Model MoffK_Int.
Import ListNotations.
Open Scope R_scope.

(** * The coefficients as intervals *)
Definition conv (s z : Z) : itv := let l := (z * 2 ^ s / 10 ^ 21)%Z in (l, (l + 1)%Z).
Lemma conv_ok : forall s z, (0 <= s)%Z -> inI s (conv s z) (unit21 z).
Proof.
  intros s z S. unfold inI, conv, unit21. cbn [fst snd]. set (d := (10 ^ 21)%Z). assert (D : (0 < d)%Z) by reflexivity. assert (E : 10 ^ 21 = IZR d) by (unfold d; rewrite (pow_IZR 10 21); reflexivity). rewrite E. clear E.
  apply IZR_lt in D as D'. replace (IZR z / IZR d * IZR (2 ^ s)) with (IZR (z * 2 ^ s) / IZR d) by (rewrite mult_IZR; field; lra). split; [now apply div_le|].
  apply (Rmult_le_reg_r (IZR d)); [exact D'|]. unfold Rdiv. rewrite Rmult_assoc, Rinv_l, Rmult_1_r by lra. rewrite <- mult_IZR. apply IZR_le.
  pose proof (Z.mul_succ_div_gt (z * 2 ^ s) d D). lia.
Qed.
Lemma tab_in : forall s t, (0 <= s)%Z -> Forall2 (Forall2 (inI s)) (map (map (conv s)) t) (map (map unit21) t).
Proof.
  intros s t S. induction t as [|r t IH]; cbn [map]; constructor; [|exact IH]. induction r as [|z r IHr]; cbn [map]; constructor; [now apply conv_ok|exact IHr].
Qed.
Definition fit_table : list (list R) := map (map unit21) rational_poly_vals.

(** * Subdivision *)
Inductive tree : Set := L | N (a b : tree).
Inductive tree2 : Set := T (t : tree) | M (a b : tree2).
Section Check.
  Variable s : Z.
  Hypothesis S0 : (0 <= s)%Z.
  Definition kmul (k : Z) (i : itv) : itv := if (0 <=? k)%Z then ((k * fst i)%Z, (k * snd i)%Z) else ((k * snd i)%Z, (k * fst i)%Z).
  Definition iadd (a b : itv) : itv := ((fst a + fst b)%Z, (snd a + snd b)%Z).
  Fixpoint comb (a b : Z) (p q : list itv) : list itv := match p, q with x :: p, y :: q => iadd (kmul a x) (kmul b y) :: comb a b p q | _, _ => [] end.
  Fixpoint rcomb (a b : R) (p q : list R) : list R := match p, q with x :: p, y :: q => (a * x + b * y) :: rcomb a b p q | _, _ => [] end.
  Lemma kmul_ok : forall k i v, inI s i v -> inI s (kmul k i) (IZR k * v).
  Proof using Type. intros k i v [A B]. unfold inI, kmul. destruct (Z.leb_spec 0 k) as [K|K]; cbn [fst snd]; rewrite !mult_IZR, !Rmult_assoc; first [apply IZR_le in K|apply IZR_lt in K]; split; nra. Qed.
  Lemma comb_ok : forall a b p q vp vq, Forall2 (inI s) p vp -> Forall2 (inI s) q vq -> Forall2 (inI s) (comb a b p q) (rcomb (IZR a) (IZR b) vp vq).
  Proof using Type.
    intros a b p q vp vq F. revert q vq. induction F as [|x vx p vp X F IH]; intros q vq G; [constructor|]. destruct G as [|y vy q vq Y G]; [constructor|]. cbn [comb rcomb]. constructor; [|now apply IH].
    destruct (kmul_ok a x vx X) as [A1 A2], (kmul_ok b y vy Y) as [B1 B2]. unfold inI, iadd. cbn [fst snd]. rewrite !plus_IZR, Rmult_plus_distr_r. lra.
  Qed.
  Lemma polyval_comb : forall a b p q x, length p = length q -> polyval (rcomb a b p q) x = a * polyval p x + b * polyval q x.
  Proof using Type.
    intros a b p q x E. unfold polyval. replace 0 with (a * 0 + b * 0) at 1 by ring. generalize 0 at 1 3 as u. generalize 0 at 1 2 as w. revert q E. induction p as [|y p IH]; intros [|z q] E w u; try discriminate; cbn [rcomb fold_left]; [reflexivity|].
    rewrite <- IH by (now injection E). f_equal. ring.
  Qed.
  Fixpoint ok_y (q d e : list itv) (lo hi : Z) (t : tree) : bool :=
    match t with
    | L => (0 <? fst (ihor s (lo, hi) q))%Z && (0 <=? fst (ihor s (lo, hi) d))%Z && (0 <=? fst (ihor s (lo, hi) e))%Z
    | N a b => let m := ((lo + hi) / 2)%Z in ok_y q d e lo m a && ok_y q d e m hi b
    end.
  Variable tab : list (list itv).
  Variables (l u : Z).
  Fixpoint ok_x (lo hi : Z) (t : tree2) : bool :=
    match t with
    | T t => match irows s tab (lo, hi) with
             | Some r => let o := ((length r - 1) / 2)%nat in
                         let q := skipn o r ++ [one_ s] in let p := repeat (0, 0)%Z (length q - o) ++ firstn o r in
                         (o <=? length q)%nat && ok_y q (comb 1000 (- l) p q) (comb (-1000) u p q) 0 (2 ^ s) t
             | None => false
             end
    | M a b => let m := ((lo + hi) / 2)%Z in ok_x lo m a && ok_x m hi b
    end.
  Lemma split_in : forall lo hi m v, inI s (lo, hi) v -> inI s (lo, m) v \/ inI s (m, hi) v.
  Proof using Type. intros lo hi m v [A B]. unfold inI. cbn [fst snd] in *. destruct (Rle_lt_dec (v * IZR (2 ^ s)) (IZR m)); [left|right]; lra. Qed.
  Lemma fst_pos : forall i v, inI s i v -> (0 < fst i)%Z -> 0 < v.
  Proof using S0. intros i v [A _] P. apply IZR_lt in P. pose proof (B_pos s S0). apply (Rmult_lt_reg_r (IZR (2 ^ s))); lra. Qed.
  Lemma fst_nonneg : forall i v, inI s i v -> (0 <= fst i)%Z -> 0 <= v.
  Proof using S0. intros i v [A _] P. apply IZR_le in P. pose proof (B_pos s S0). apply (Rmult_le_reg_r (IZR (2 ^ s))); lra. Qed.
  Lemma ok_y_sound : forall q d e vq vd ve t lo hi w, Forall2 (inI s) q vq -> Forall2 (inI s) d vd -> Forall2 (inI s) e ve ->
    ok_y q d e lo hi t = true -> inI s (lo, hi) w -> 0 < polyval vq w /\ 0 <= polyval vd w /\ 0 <= polyval ve w.
  Proof using S0.
    intros q d e vq vd ve t lo hi w FQ FD FE. revert lo hi. induction t as [|a IHa b IHb]; intros lo hi C W; cbn [ok_y] in C; apply andb_true_iff in C as [C1 C2].
    - apply andb_true_iff in C1 as [C0 C1]. apply Z.ltb_lt in C0. apply Z.leb_le in C1. apply Z.leb_le in C2.
      split; [|split].
      + exact (fst_pos _ _ (ihor_ok s S0 _ w q vq W FQ) C0).
      + exact (fst_nonneg _ _ (ihor_ok s S0 _ w d vd W FD) C1).
      + exact (fst_nonneg _ _ (ihor_ok s S0 _ w e ve W FE) C2).
    - destruct (split_in lo hi ((lo + hi) / 2)%Z w W); eauto.
  Qed.
  Lemma polyval_zeros : forall k p x, polyval (repeat 0 k ++ p) x = polyval p x.
  Proof using Type. intros k p x. unfold polyval. rewrite fold_left_app. f_equal. induction k as [|k IH]; cbn; [reflexivity|]. rewrite Rmult_0_l, Rplus_0_l. exact IH. Qed.
  Variable vtab : list (list R).
  Hypothesis TAB : Forall2 (Forall2 (inI s)) tab vtab.
  Lemma ok_x_sound : forall t lo hi v, ok_x lo hi t = true -> inI s (lo, hi) v -> forall w, 0 <= w <= 1 ->
    Forall (fun r => 0 < pade_den r v) vtab /\ 0 < pade_den (map (fun r => pade_func r v) vtab) w /\
    IZR l <= 1000 * pade2 vtab v w <= IZR u.
  Proof using S0 TAB.
    induction t as [t|a IHa b IHb]; intros lo hi v C V w W; cbn [ok_x] in C.
    - destruct (irows s tab (lo, hi)) as [r|] eqn:E; [|discriminate]. destruct (irows_ok s S0 tab vtab (lo, hi) v r TAB V E) as [FR DEN]. cbv zeta in C. apply andb_true_iff in C as [CL C]. apply Nat.leb_le in CL.
      split; [exact DEN|]. set (vr := map (fun r => pade_func r v) vtab) in *. pose proof (F2_length s r vr FR) as LEN. set (o := ((length r - 1) / 2)%nat) in *.
      set (q := skipn o r ++ [one_ s]) in *. set (p := repeat (0, 0)%Z (length q - o) ++ firstn o r) in *. set (vq := skipn o vr ++ [1]). set (vp := repeat 0 (length q - o) ++ firstn o vr).
      assert (FQ : Forall2 (inI s) q vq) by (apply Forall2_app; [now apply F2_skipn|constructor; [apply one_ok|constructor]]).
      assert (FP : Forall2 (inI s) p vp). { apply Forall2_app; [|now apply F2_firstn]. generalize (length q - o)%nat. intro k. induction k as [|k IH]; cbn; constructor; [unfold inI; cbn; lra|exact IH]. }
      assert (LPQ : length vp = length vq).
      { rewrite <- (F2_length s q vq FQ). unfold vp. rewrite app_length, repeat_length, firstn_length, <- LEN. assert (o <= length r)%nat by (unfold o; apply Nat.le_trans with (length r - 1)%nat; [apply Nat.div_le_upper_bound; lia|lia]). lia. }
      assert (W' : inI s (0, (2 ^ s))%Z w). { unfold inI. cbn [fst snd]. pose proof (B_pos s S0). split; [apply Rmult_le_pos; lra|]. rewrite <- (Rmult_1_l (IZR (2 ^ s))) at 2. apply Rmult_le_compat_r; lra. }
      destruct (ok_y_sound _ _ _ _ _ _ _ _ _ w FQ (comb_ok 1000 (- l) p q vp vq FP FQ) (comb_ok (-1000) u p q vp vq FP FQ) C W') as (Q & D & U').
      rewrite polyval_comb in D, U' by exact LPQ. unfold vp in D, U'. rewrite polyval_zeros in D, U'. rewrite opp_IZR in D.
      assert (PD : pade_den vr w = polyval vq w) by (unfold pade_den, vq, o; now rewrite LEN). split; [rewrite PD; exact Q|].
      assert (P2 : pade2 vtab v w = polyval (firstn o vr) w / polyval vq w) by (unfold pade2, pade_func at 1; cbv zeta; fold vr; unfold vq, o; now rewrite LEN).
      set (P := polyval (firstn o vr) w) in *. set (Q' := polyval vq w) in *.
      assert (B1 : IZR l <= 1000 * (P / Q')). { apply (Rmult_le_reg_r Q'); [exact Q|]. replace (1000 * (P / Q') * Q') with (1000 * P) by (field; lra). lra. }
      assert (B2 : 1000 * (P / Q') <= IZR u). { apply (Rmult_le_reg_r Q'); [exact Q|]. replace (1000 * (P / Q') * Q') with (1000 * P) by (field; lra). lra. }
      rewrite P2. split; assumption.
    - apply andb_true_iff in C as [C1 C2]. destruct (split_in lo hi ((lo + hi) / 2)%Z v V) as [V'|V']; [exact (IHa _ _ _ C1 V' w W)|exact (IHb _ _ _ C2 V' w W)].
  Qed.
End Check.

Definition scale : Z := 22.
Definition tab22 : list (list itv) := Eval vm_compute in map (map (conv scale)) rational_poly_vals.
Definition left16 : tree2 := (M (M (M (M (M (M (T (N L (N L (N L (N L (N L (N L (N L (N L L))))))))) (T (N L (N L (N L (N L (N L (N L (N L (N L L)))))))))) (M (T (N L (N L (N L (N L (N L (N L (N L L)))))))) (T (N L (N L (N L (N L (N L (N L (N L L)))))))))) (M (M (T (N L (N L (N L (N L (N L (N L (N L L)))))))) (T (N L (N L (N L (N L (N L (N L (N L L))))))))) (T (N L (N L (N L (N L (N L (N L (N L (N L L))))))))))) (M (M (T (N L (N L (N L (N L (N L (N L (N L L)))))))) (T (N L (N L (N L (N L (N L (N L (N L L))))))))) (M (T (N L (N L (N L (N L (N L (N L L))))))) (T (N L (N L (N L (N L (N L (N L L)))))))))) (M (M (M (T (N L (N L (N L (N L (N L (N L L))))))) (T (N L (N L (N L (N L (N L (N L L)))))))) (T (N L (N L (N L (N L (N L (N L (N L L))))))))) (M (T (N L (N L (N L (N L (N L (N L (N L L)))))))) (T (N L (N L (N L (N L (N L (N L L)))))))))) (M (M (M (T (N L (N L (N L (N L (N L (N L L))))))) (T (N L (N L (N L (N L (N L L))))))) (T (N L (N L (N L (N L (N L (N L (N L (N L L)))))))))) (M (T (N L (N L (N L (N L (N L (N L L))))))) (T (N L (N L (N L (N L (N L (N L L)))))))))).
Definition rest16 : tree2 := (M (M (M (M (M (M (M (M (M (M (M (M (T (N L (N L (N L (N L (N L (N L (N L (N L L))))))))) (T (N L (N L (N L (N L (N L (N L (N L (N L L)))))))))) (M (T (N L (N L (N L (N L (N L (N L (N L (N L L))))))))) (T (N L (N L (N L (N L (N L (N L (N L (N L L))))))))))) (M (M (T (N L (N L (N L (N L (N L (N L (N L (N L L))))))))) (T (N L (N L (N L (N L (N L (N L (N L (N L L)))))))))) (M (T (N L (N L (N L (N L (N L (N L (N L (N L L))))))))) (T (N L (N L (N L (N L (N L (N L (N L (N L L)))))))))))) (M (M (T (N L (N L (N L (N L (N L (N L (N L (N L L))))))))) (T (N L (N L (N L (N L (N L (N L (N L (N L L)))))))))) (M (T (N L (N L (N L (N L (N L (N L (N L (N L L))))))))) (T (N L (N L (N L (N L (N L (N L (N L (N L L)))))))))))) (M (M (M (T (N L (N L (N L (N L (N L (N L (N L (N L L))))))))) (T (N L (N L (N L (N L (N L (N L (N L (N L L)))))))))) (M (T (N L (N L (N L (N L (N L (N L (N L (N L L))))))))) (T (N L (N L (N L (N L (N L (N L (N L (N L L))))))))))) (M (M (T (N L (N L (N L (N L (N L (N L (N L (N L L))))))))) (T (N L (N L (N L (N L (N L (N L (N L (N L L)))))))))) (M (T (N L (N L (N L (N L (N L (N L (N L (N L L))))))))) (T (N L (N L (N L (N L (N L (N L (N L (N L L))))))))))))) (M (M (M (M (T (N L (N L (N L (N L (N L (N L (N L (N L L))))))))) (T (N L (N L (N L (N L (N L (N L (N L (N L L)))))))))) (M (T (N L (N L (N L (N L (N L (N L (N L (N L L))))))))) (T (N L (N L (N L (N L (N L (N L (N L L)))))))))) (M (T (N L (N L (N L (N L (N L (N L (N L (N L L))))))))) (T (N L (N L (N L (N L (N L (N L (N L (N L L))))))))))) (M (M (T (N L (N L (N L (N L (N L (N L (N L (N L L))))))))) (T (N L (N L (N L (N L (N L (N L (N L (N L L)))))))))) (M (T (N L (N L (N L (N L (N L (N L (N L (N L L))))))))) (T (N L (N L (N L (N L (N L (N L (N L (N L L))))))))))))) (M (M (M (M (T (N L (N L (N L (N L (N L (N L (N L (N L L))))))))) (T (N L (N L (N L (N L (N L (N L (N L (N L L)))))))))) (M (T (N L (N L (N L (N L (N L (N L (N L L)))))))) (T (N L (N L (N L (N L (N L (N L (N L L)))))))))) (M (M (T (N L (N L (N L (N L (N L (N L (N L L)))))))) (T (N L (N L (N L (N L (N L (N L (N L L))))))))) (M (T (N L (N L (N L (N L (N L (N L (N L L)))))))) (T (N L (N L (N L (N L (N L (N L (N L L))))))))))) (M (M (M (T (N L (N L (N L (N L (N L (N L (N L L)))))))) (T (N L (N L (N L (N L (N L (N L (N L L))))))))) (T (N L (N L (N L (N L (N L (N L (N L (N L L)))))))))) (M (T (N L (N L (N L (N L (N L (N L (N L (N L L))))))))) (T (N L (N L (N L (N L (N L (N L (N L (N L L))))))))))))) (M (M (M (M (T (N L (N L (N L (N L (N L (N L (N L (N L L))))))))) (T (N L (N L (N L (N L (N L (N L (N L L))))))))) (M (T (N L (N L (N L (N L (N L (N L (N L L)))))))) (T (N L (N L (N L (N L (N L (N L (N L L)))))))))) (M (M (T (N L (N L (N L (N L (N L (N L (N L L)))))))) (T (N L (N L (N L (N L (N L (N L (N L L))))))))) (M (T (N L (N L (N L (N L (N L (N L (N L L)))))))) (T (N L (N L (N L (N L (N L (N L (N L L))))))))))) (M (M (M (T (N L (N L (N L (N L (N L (N L (N L L)))))))) (T (N L (N L (N L (N L (N L (N L L)))))))) (M (T (N L (N L (N L (N L (N L (N L L))))))) (T (N L (N L (N L (N L (N L (N L L))))))))) (M (T (N L (N L (N L (N L (N L (N L (N L (N L L))))))))) (T (N L (N L (N L (N L (N L (N L (N L (N L L))))))))))))) (M (M (M (M (T (N L (N L (N L (N L (N L (N L (N L L)))))))) (T (N L (N L (N L (N L (N L (N L (N L L))))))))) (M (T (N L (N L (N L (N L (N L (N L (N L L)))))))) (T (N L (N L (N L (N L (N L (N L (N L L)))))))))) (M (M (T (N L (N L (N L (N L (N L (N L (N L L)))))))) (T (N L (N L (N L (N L (N L (N L L)))))))) (M (T (N L (N L (N L (N L (N L (N L L))))))) (T (N L (N L (N L (N L (N L (N L L)))))))))) (M (M (M (T (N L (N L (N L (N L (N L (N L L))))))) (T (N L (N L (N L (N L (N L (N L L)))))))) (M (T (N L (N L (N L (N L (N L (N L L))))))) (T (N L (N L (N L (N L (N L (N L L))))))))) (M (M (T (N L (N L (N L (N L (N L (N L L))))))) (T (N L (N L (N L (N L (N L (N L L)))))))) (T (N L (N L (N L (N L (N L (N L (N L (N L L))))))))))))) (M (M (M (M (T (N L (N L (N L (N L (N L (N L (N L (N L L))))))))) (T (N L (N L (N L (N L (N L (N L (N L L))))))))) (M (T (N L (N L (N L (N L (N L (N L (N L L)))))))) (T (N L (N L (N L (N L (N L (N L (N L L)))))))))) (M (M (T (N L (N L (N L (N L (N L (N L L))))))) (T (N L (N L (N L (N L (N L (N L L)))))))) (M (T (N L (N L (N L (N L (N L (N L L))))))) (T (N L (N L (N L (N L (N L (N L L)))))))))) (M (M (M (T (N L (N L (N L (N L (N L (N L L))))))) (T (N L (N L (N L (N L (N L (N L L)))))))) (M (T (N L (N L (N L (N L (N L (N L L))))))) (T (N L (N L (N L (N L (N L (N L L))))))))) (M (M (T (N L (N L (N L (N L (N L (N L L))))))) (T (N L (N L (N L (N L (N L L))))))) (M (T (N L (N L (N L (N L (N L L)))))) (T (N L (N L (N L (N L (N L L))))))))))) (M (M (M (M (M (T (N L (N L (N L (N L (N L L)))))) (T (N L (N L (N L (N L (N L L))))))) (M (T (N L (N L (N L (N L (N L L)))))) (T (N L (N L (N L (N L (N L L)))))))) (M (M (T (N L (N L (N L (N L (N L L)))))) (T (N L (N L (N L (N L (N L L))))))) (M (T (N L (N L (N L (N L (N L L)))))) (T (N L (N L (N L (N L (N L L))))))))) (M (M (T (N L (N L (N L (N L (N L (N L (N L (N L L))))))))) (T (N L (N L (N L (N L (N L (N L (N L L))))))))) (M (T (N L (N L (N L (N L (N L (N L (N L L)))))))) (T (N L (N L (N L (N L (N L (N L (N L L))))))))))) (M (M (M (T (N L (N L (N L (N L (N L (N L L))))))) (T (N L (N L (N L (N L (N L (N L L)))))))) (M (T (N L (N L (N L (N L (N L (N L L))))))) (T (N L (N L (N L (N L (N L (N L L))))))))) (M (M (T (N L (N L (N L (N L (N L (N L L))))))) (T (N L (N L (N L (N L (N L (N L L)))))))) (M (T (N L (N L (N L (N L (N L L)))))) (T (N L (N L (N L (N L (N L L))))))))))) (M (M (M (M (M (T (N L (N L (N L (N L (N L L)))))) (T (N L (N L (N L (N L (N L L))))))) (M (T (N L (N L (N L (N L (N L L)))))) (T (N L (N L (N L (N L (N L L)))))))) (M (M (T (N L (N L (N L (N L (N L L)))))) (T (N L (N L (N L (N L (N L L))))))) (M (T (N L (N L (N L (N L (N L (N L L))))))) (T (N L (N L (N L (N L (N L (N L L)))))))))) (M (M (M (T (N L (N L (N L (N L (N L (N L (N L (N L L))))))))) (M (T (N L (N L (N L (N L L))))) (T (N L (N L (N L (N L L))))))) (M (M (T (N L (N L (N L (N L L))))) (T (N L (N L (N L (N L L)))))) (M (T (N L (N L (N L (N L L))))) (T (N L (N L (N L (N L L)))))))) (M (M (M (T (N L (N L (N L (N L L))))) (T (N L (N L (N L (N L L)))))) (M (T (N L (N L (N L (N L L))))) (T (N L (N L (N L (N L L))))))) (M (M (T (N L (N L (N L (N L L))))) (T (N L (N L (N L (N L L)))))) (M (T (N L (N L (N L (N L L))))) (T (N L (N L (N L (N L L)))))))))) (M (M (M (M (M (T (N L (N L (N L (N L L))))) (T (N L (N L (N L (N L L)))))) (M (T (N L (N L (N L (N L L))))) (T (N L (N L (N L (N L L))))))) (M (M (T (N L (N L (N L (N L L))))) (T (N L (N L (N L (N L L)))))) (M (T (N L (N L (N L (N L L))))) (T (N L (N L (N L (N L L)))))))) (M (M (M (T (N L (N L (N L (N L L))))) (T (N L (N L (N L (N L L)))))) (M (T (N L (N L (N L (N L L))))) (T (N L (N L (N L (N L L))))))) (M (M (T (N L (N L (N L (N L L))))) (T (N L (N L (N L (N L L)))))) (M (T (N L (N L (N L (N L L))))) (T (N L (N L (N L (N L L))))))))) (M (M (M (M (T (N L (N L (N L (N L (N L L)))))) (T (N L (N L (N L (N L (N L L))))))) (M (T (N L (N L (N L (N L (N L L)))))) (T (N L (N L (N L (N L (N L L)))))))) (M (M (T (N L (N L (N L (N L (N L (N L L))))))) (T (N L (N L (N L (N L (N L (N L L)))))))) (M (T (N L (N L (N L (N L (N L (N L (N L L)))))))) (T (N L (N L (N L (N L (N L (N L (N L L))))))))))) (M (M (M (M (T (N L (N L (N L L)))) (T (N L (N L (N L L))))) (M (T (N L (N L (N L L)))) (T (N L (N L (N L L)))))) (M (M (T (N L (N L (N L L)))) (T (N L (N L (N L L))))) (M (T (N L (N L (N L L)))) (T (N L (N L (N L L))))))) (M (M (M (T (N L (N L (N L L)))) (T (N L (N L (N L L))))) (M (T (N L (N L (N L L)))) (T (N L (N L (N L L)))))) (M (M (T (N L (N L (N L L)))) (T (N L (N L (N L L))))) (M (T (N L (N L (N L L)))) (T (N L (N L (N L L)))))))))))).
Lemma tab22_ok : Forall2 (Forall2 (inI scale)) tab22 fit_table.
Proof. exact (tab_in scale rational_poly_vals ltac:(discriminate)). Qed.
Lemma left_ok : ok_x scale tab22 (-690) 5290 0 (2 ^ 18) left16 = true.
Proof. vm_compute. reflexivity. Qed.
Lemma rest_ok : ok_x scale tab22 694 5290 (2 ^ 18) (2 ^ 22) rest16 = true.
Proof. vm_compute. reflexivity. Qed.
(** * The fit in its range *)
Lemma fit_range : forall v w, 0 <= v <= 1 -> 0 <= w <= 1 ->
  Forall (fun r => 0 < pade_den r v) fit_table /\ 0 < pade_den (map (fun r => pade_func r v) fit_table) w /\
  -0.69 <= pade2 fit_table v w <= 5.29 /\ (1 / 16 <= v -> 0.694 <= pade2 fit_table v w).
Proof.
  intros v w V W. assert (S0 : (0 <= scale)%Z) by discriminate. destruct (Rlt_le_dec v (1 / 16)) as [c|c].
  - destruct (ok_x_sound scale S0 tab22 (-690) 5290 fit_table tab22_ok left16 0 (2 ^ 18) v left_ok ltac:(unfold inI; cbn; lra) w W) as (A & B & D). repeat split; auto; lra.
  - destruct (ok_x_sound scale S0 tab22 694 5290 fit_table tab22_ok rest16 (2 ^ 18) (2 ^ 22) v rest_ok ltac:(unfold inI; cbn; lra) w W) as (A & B & D). repeat split; auto; lra.
Qed.
