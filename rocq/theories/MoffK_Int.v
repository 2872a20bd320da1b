(** Interval evaluation of the fit behind maxk, on integers scaled by 2^s. *)
From Coq Require Import ZArith Reals Bool List Lra Lia.
From Verif Require Import MoffK_Model.
Import ListNotations.
Open Scope R_scope.

Definition itv : Type := (Z * Z)%type.
Section Scale.
  Variable s : Z.
  Hypothesis S0 : (0 <= s)%Z.
  Let B : R := IZR (2 ^ s).
  Definition inI (i : itv) (v : R) : Prop := IZR (fst i) <= v * B <= IZR (snd i).
  Lemma B_pos : 0 < B.
  Proof using S0. unfold B. apply IZR_lt. apply Z.pow_pos_nonneg; lia. Qed.
  (** ** Rounding *)
  Definition dn (z : Z) : Z := Z.shiftr z s.
  Definition up_ (z : Z) : Z := (- Z.shiftr (- z) s)%Z.
  Lemma div_le : forall z d, (0 < d)%Z -> IZR (z / d) <= IZR z / IZR d.
  Proof using Type.
    intros z d D. apply IZR_lt in D as D'. apply (Rmult_le_reg_r (IZR d)); [exact D'|]. unfold Rdiv. rewrite Rmult_assoc, Rinv_l, Rmult_1_r by lra.
    rewrite <- mult_IZR. apply IZR_le. rewrite Z.mul_comm. now apply Z.mul_div_le.
  Qed.
  Lemma dn_ok : forall z, IZR (dn z) <= IZR z / B.
  Proof using S0. intro z. unfold dn, B. rewrite Z.shiftr_div_pow2 by exact S0. apply div_le. apply Z.pow_pos_nonneg; lia. Qed.
  Lemma up_ok : forall z, IZR z / B <= IZR (up_ z).
  Proof using S0. intro z. pose proof (dn_ok (- z)) as H. unfold up_. rewrite opp_IZR. unfold dn in H. rewrite opp_IZR in H. unfold Rdiv in *. lra. Qed.
  (** ** Horner's rule *)
  Definition istep (x a c : itv) : itv :=
    let '(xl, xh) := x in let '(al, ah) := a in
    if (0 <=? xl)%Z then
      ((dn (if (0 <=? al)%Z then xl * al else xh * al) + fst c)%Z, (up_ (if (0 <=? ah)%Z then xh * ah else xl * ah) + snd c)%Z)
    else
      let p := (xl * al)%Z in let q := (xl * ah)%Z in let r := (xh * al)%Z in let t := (xh * ah)%Z in
      ((dn (Z.min (Z.min p q) (Z.min r t)) + fst c)%Z, (up_ (Z.max (Z.max p q) (Z.max r t)) + snd c)%Z).
  Lemma mul_in : forall xl xh al ah x a, xl <= x <= xh -> al <= a <= ah ->
    Rmin (Rmin (xl * al) (xl * ah)) (Rmin (xh * al) (xh * ah)) <= x * a <= Rmax (Rmax (xl * al) (xl * ah)) (Rmax (xh * al) (xh * ah)).
  Proof using Type.
    intros xl xh al ah x a X A. unfold Rmin, Rmax. repeat destruct (Rle_dec _ _); split; destruct (Rle_lt_dec 0 a); destruct (Rle_lt_dec 0 xl); destruct (Rle_lt_dec 0 xh); nra.
  Qed.
  Lemma IZR_min : forall a b, IZR (Z.min a b) = Rmin (IZR a) (IZR b).
  Proof using Type. intros a b. destruct (Z.min_spec a b) as [[L ->]|[L ->]]; unfold Rmin; destruct (Rle_dec _ _) as [r|r]; try reflexivity; [exfalso; apply r, IZR_le; lia|apply le_IZR in r; f_equal; lia]. Qed.
  Lemma IZR_max : forall a b, IZR (Z.max a b) = Rmax (IZR a) (IZR b).
  Proof using Type. intros a b. destruct (Z.max_spec a b) as [[L ->]|[L ->]]; unfold Rmax; destruct (Rle_dec _ _) as [r|r]; try reflexivity; [exfalso; apply r, IZR_le; lia|apply le_IZR in r; f_equal; lia]. Qed.
  Lemma istep_ok : forall x a c vx va vc, inI x vx -> inI a va -> inI c vc -> inI (istep x a c) (va * vx + vc).
  Proof using S0.
    intros [xl xh] [al ah] [cl ch] vx va vc X A C. unfold inI in *. cbn [fst snd] in *. pose proof B_pos as BP.
    assert (E : (va * vx + vc) * B = (vx * B) * (va * B) / B + vc * B) by (field; lra). rewrite E. clear E.
    set (x := vx * B) in *. set (a := va * B) in *. set (c := vc * B) in *. assert (IB : 0 < / B) by now apply Rinv_0_lt_compat.
    assert (K : forall l h, IZR l <= x * a <= IZR h -> IZR (dn l + cl) <= x * a / B + c <= IZR (up_ h + ch)).
    { intros l h [L H]. rewrite !plus_IZR. pose proof (dn_ok l). pose proof (up_ok h). unfold Rdiv in *.
      assert (IZR l * / B <= x * a * / B) by (apply Rmult_le_compat_r; lra). assert (x * a * / B <= IZR h * / B) by (apply Rmult_le_compat_r; lra). lra. }
    unfold istep. destruct (Z.leb_spec 0 xl) as [P|P]; cbn [fst snd].
    - apply K. apply IZR_le in P. destruct (Z.leb_spec 0 al) as [Q|Q], (Z.leb_spec 0 ah) as [Q'|Q']; rewrite !mult_IZR; first [apply IZR_le in Q|apply IZR_lt in Q]; first [apply IZR_le in Q'|apply IZR_lt in Q']; split; nra.
    - cbv zeta. apply K. rewrite !IZR_min, !IZR_max, !mult_IZR. now apply mul_in.
  Qed.
  Definition ihor (x : itv) (cs : list itv) : itv := fold_left (istep x) cs (0, 0)%Z.
  Lemma ihor_ok : forall x vx cs vs, inI x vx -> Forall2 inI cs vs -> inI (ihor x cs) (polyval vs vx).
  Proof using S0.
    intros x vx cs vs X F. unfold ihor, polyval. assert (Z0 : inI (0, 0)%Z 0) by (unfold inI; cbn; lra). revert Z0. generalize (0, 0)%Z. generalize 0. induction F as [|c v cs vs C F IH]; intros acc ia H; cbn [fold_left]; [exact H|].
    apply IH. now apply istep_ok.
  Qed.
  (** ** Quotients *)
  Definition idiv (a b : itv) : option itv :=
    let '(al, ah) := a in let '(bl, bh) := b in
    if (0 <? bl)%Z then Some (((al * 2 ^ s) / (if (0 <=? al)%Z then bh else bl))%Z, (- ((- ah * 2 ^ s) / (if (0 <=? ah)%Z then bl else bh)))%Z) else None.
  Lemma idiv_ok : forall a b va vb i, inI a va -> inI b vb -> idiv a b = Some i -> 0 < vb /\ inI i (va / vb).
  Proof using S0.
    intros [al ah] [bl bh] va vb i A C. unfold inI in *. cbn [fst snd] in *. unfold idiv. destruct (Z.ltb_spec 0 bl) as [P|P]; [|discriminate]. intro E. injection E as <-. cbn [fst snd].
    pose proof B_pos as BP. apply IZR_lt in P as P'. assert (V : 0 < vb) by (apply (Rmult_lt_reg_r B); lra). split; [exact V|].
    assert (BH : (0 < bh)%Z) by (apply lt_IZR; lra). assert (E : va / vb * B = (va * B) * B / (vb * B)) by (field; split; lra). rewrite E. clear E.
    set (x := va * B) in *. set (y := vb * B) in *. assert (Y : 0 < y) by lra.
    assert (D : forall n m, n <= m -> n / y <= m / y) by (intros; apply Rmult_le_compat_r; [left; now apply Rinv_0_lt_compat|assumption]).
    assert (MB : forall n m, n <= m -> n * B <= m * B) by (intros; apply Rmult_le_compat_r; lra).
    split.
    - eapply Rle_trans; [apply div_le; destruct (0 <=? al)%Z; lia|]. rewrite mult_IZR. fold B.
      apply Rle_trans with (IZR al * B / y); [|apply D, MB; lra]. destruct (Z.leb_spec 0 al) as [Q|Q].
      + apply IZR_le in Q. unfold Rdiv. apply Rmult_le_compat_l; [apply Rmult_le_pos; lra|]. apply Rinv_le_contravar; lra.
      + apply IZR_lt in Q. assert (/ y <= / IZR bl) by (apply Rinv_le_contravar; lra). assert (0 <= - IZR al * B) by (apply Rmult_le_pos; lra). unfold Rdiv. assert (- IZR al * B * / y <= - IZR al * B * / IZR bl) by (apply Rmult_le_compat_l; lra). lra.
    - assert (H : IZR ((- ah * 2 ^ s) / (if (0 <=? ah)%Z then bl else bh)) <= - (x * B / y)).
      { eapply Rle_trans; [apply div_le; destruct (0 <=? ah)%Z; lia|]. rewrite mult_IZR, opp_IZR. fold B. apply Rle_trans with (- (IZR ah * B / y)); [|assert (x * B / y <= IZR ah * B / y) by (apply D, MB; lra); lra].
        destruct (Z.leb_spec 0 ah) as [Q|Q].
        + apply IZR_le in Q. assert (/ y <= / IZR bl) by (apply Rinv_le_contravar; lra). assert (0 <= IZR ah * B) by (apply Rmult_le_pos; lra). unfold Rdiv. assert (IZR ah * B * / y <= IZR ah * B * / IZR bl) by (apply Rmult_le_compat_l; lra). lra.
        + apply IZR_lt in Q. assert (/ IZR bh <= / y) by (apply Rinv_le_contravar; lra). assert (0 <= - IZR ah * B) by (apply Rmult_le_pos; lra). unfold Rdiv. assert (- IZR ah * B * / IZR bh <= - IZR ah * B * / y) by (apply Rmult_le_compat_l; lra). lra. }
      rewrite opp_IZR. lra.
  Qed.
  (** ** The rational functions *)
  Definition one_ : itv := (2 ^ s, 2 ^ s)%Z.
  Lemma one_ok : inI one_ 1.
  Proof using Type. unfold inI, one_. cbn [fst snd]. unfold B. lra. Qed.
  Definition ipade (cs : list itv) (x : itv) : option itv :=
    let order := ((length cs - 1) / 2)%nat in
    idiv (ihor x (firstn order cs)) (ihor x (skipn order cs ++ [one_])).
  Definition pade_den (vs : list R) (v : R) : R := polyval (skipn ((length vs - 1) / 2) vs ++ [1]) v.
  Lemma F2_length : forall cs vs, Forall2 inI cs vs -> length cs = length vs.
  Proof using Type. intros cs vs F. induction F; cbn; congruence. Qed.
  Lemma F2_firstn : forall k cs vs, Forall2 inI cs vs -> Forall2 inI (firstn k cs) (firstn k vs).
  Proof using Type. induction k as [|k IH]; intros cs vs F; [constructor|]. destruct F; cbn; constructor; auto. Qed.
  Lemma F2_skipn : forall k cs vs, Forall2 inI cs vs -> Forall2 inI (skipn k cs) (skipn k vs).
  Proof using Type. induction k as [|k IH]; intros cs vs F; [exact F|]. destruct F; cbn; auto. Qed.
  Lemma ipade_ok : forall cs vs x v i, Forall2 inI cs vs -> inI x v -> ipade cs x = Some i -> 0 < pade_den vs v /\ inI i (pade_func vs v).
  Proof using S0.
    intros cs vs x v i F X E. unfold ipade in E. rewrite (F2_length _ _ F) in E.
    eapply idiv_ok; [| |exact E]; apply ihor_ok; auto; [now apply F2_firstn|]. apply Forall2_app; [now apply F2_skipn|]. constructor; [apply one_ok|constructor].
  Qed.
  Fixpoint irows (t : list (list itv)) (x : itv) : option (list itv) :=
    match t with [] => Some [] | r :: t => match ipade r x with Some i => match irows t x with Some l => Some (i :: l) | None => None end | None => None end end.
  Lemma irows_ok : forall t vt x v l, Forall2 (Forall2 inI) t vt -> inI x v -> irows t x = Some l ->
    Forall2 inI l (map (fun r => pade_func r v) vt) /\ Forall (fun r => 0 < pade_den r v) vt.
  Proof using S0.
    intros t vt x v l F X. revert l. induction F as [|r vr t vt Hr F IH]; intros l E; cbn in E; [injection E as <-; split; constructor|].
    destruct (ipade r x) as [i|] eqn:P; [|discriminate]. destruct (irows t x) as [l'|]; [|discriminate]. injection E as <-. destruct (IH l' eq_refl) as [H1 H2]. destruct (ipade_ok r vr x v i Hr X P) as [K1 K2].
    cbn [map]. split; constructor; auto.
  Qed.
  (** Enclosure of the fit at one point; denominators of either sign *)
  Definition ineg (a : itv) : itv := ((- snd a)%Z, (- fst a)%Z).
  Definition sdiv (a b : itv) : option itv := if (0 <? fst b)%Z then idiv a b else idiv (ineg a) (ineg b).
  Lemma ineg_ok : forall a v, inI a v -> inI (ineg a) (- v).
  Proof using Type. intros a v [A C]. unfold inI, ineg. cbn [fst snd]. rewrite !opp_IZR. lra. Qed.
  Lemma sdiv_ok : forall a b va vb i, inI a va -> inI b vb -> sdiv a b = Some i -> inI i (va / vb).
  Proof using S0.
    intros a b va vb i A C E. unfold sdiv in E. destruct (0 <? fst b)%Z; [exact (proj2 (idiv_ok _ _ _ _ _ A C E))|].
    destruct (idiv_ok _ _ _ _ _ (ineg_ok a va A) (ineg_ok b vb C) E) as [P H]. replace (va / vb) with (- va / - vb) by (field; lra). exact H.
  Qed.
  Definition spade (cs : list itv) (x : itv) : option itv :=
    let order := ((length cs - 1) / 2)%nat in
    sdiv (ihor x (firstn order cs)) (ihor x (skipn order cs ++ [one_])).
  Lemma spade_ok : forall cs vs x v i, Forall2 inI cs vs -> inI x v -> spade cs x = Some i -> inI i (pade_func vs v).
  Proof using S0.
    intros cs vs x v i F X E. unfold spade in E. rewrite (F2_length _ _ F) in E.
    eapply sdiv_ok; [| |exact E]; apply ihor_ok; auto; [now apply F2_firstn|]. apply Forall2_app; [now apply F2_skipn|]. constructor; [apply one_ok|constructor].
  Qed.
  Fixpoint srows (t : list (list itv)) (x : itv) : option (list itv) :=
    match t with [] => Some [] | r :: t => match spade r x with Some i => match srows t x with Some l => Some (i :: l) | None => None end | None => None end end.
  Lemma srows_ok : forall t vt x v l, Forall2 (Forall2 inI) t vt -> inI x v -> srows t x = Some l -> Forall2 inI l (map (fun r => pade_func r v) vt).
  Proof using S0.
    intros t vt x v l F X. revert l. induction F as [|r vr t vt Hr F IH]; intros l E; cbn in E; [injection E as <-; constructor|].
    destruct (spade r x) as [i|] eqn:P; [|discriminate]. destruct (srows t x) as [l'|]; [|discriminate]. injection E as <-. cbn [map]. constructor; [exact (spade_ok r vr x v i Hr X P)|now apply IH].
  Qed.
  Definition ifit (t : list (list itv)) (x y : itv) : option itv := match srows t x with Some l => spade l y | None => None end.
  Lemma ifit_ok : forall t vt x y v w i, Forall2 (Forall2 inI) t vt -> inI x v -> inI y w -> ifit t x y = Some i -> inI i (pade2 vt v w).
  Proof using S0.
    intros t vt x y v w i F X Y E. unfold ifit in E. destruct (srows t x) as [l|] eqn:R; [|discriminate]. exact (spade_ok _ _ _ _ _ (srows_ok t vt x v l F X R) Y E).
  Qed.
End Scale.
