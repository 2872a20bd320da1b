From Coq Require Import ZArith Reals Bool List Lia Lra Permutation ZifyBool.
From Verif Require Import Base Bounds_Model Bounds_Spec.
Import ListNotations.

Ltac bI := unfold BoundsI, boundsI_finish, includesI, includesI_b, andI, addI, addI_pos, shiftI, withBorderI,
  eqI, xmaxI, ymaxI, b_and, b_add, b_add_pos, b_includes, b_includes_b, b_shift, b_withBorder, b_eq_I, parse, parse_raw,
  py_check, delta_of, b_xmax, b_ymax, nlift2, jmin, jmax, leb, py, jx in *; cbn [nv npy bdef bstatic bxmin bdx bymin bdy andb orb negb] in *.

Lemma Rltb_spec a b : reflect (a < b)%R (Rltb a b).
Proof. unfold Rltb. destruct (Rlt_dec a b); constructor; assumption. Qed.
Lemma Reqb_spec a b : reflect (a = b)%R (Reqb a b).
Proof. unfold Reqb. destruct (Req_EM_T a b); constructor; assumption. Qed.

Lemma if_max a b : (if (a <? b)%Z then b else a) = Z.max a b.
Proof. destruct (Z.ltb_spec a b); lia. Qed.
Lemma if_min a b : (if (b <? a)%Z then b else a) = Z.min a b.
Proof. destruct (Z.ltb_spec b a); lia. Qed.

(** ** Characterisation of constructors *)
Lemma includesI_iff b x y :
  includesI b x y = true <-> bdef b = true /\ rectZ (nv (bxmin b)) (nv (xmaxI b)) (nv (bymin b)) (nv (ymaxI b)) x y.
Proof. unfold rectZ. destruct b as [d s [x0 fx] [dx fdx] [y0 fy] [dy fdy]]. bI. destruct d; lia. Qed.

Lemma includesI_ctor4 x1 x2 y1 y2 x y :
  includesI (BoundsI (Args4 x1 x2 y1 y2)) x y = true <-> rectZ (nv x1) (nv x2) (nv y1) (nv y2) x y.
Proof.
  rewrite includesI_iff. unfold rectZ. destruct x1 as [x1 f1], x2 as [x2 f2], y1 as [y1 f3], y2 as [y2 f4]. bI.
  destruct (f2 && f1 && true && (f4 && f3 && true)); cbn [andb];
  destruct ((x2 - x1 + 1 <? 1)%Z && (y2 - y1 + 1 <? 1)%Z) eqn:E1; cbn;
  destruct ((x2 - x1 + 1 <? 1)%Z || (y2 - y1 + 1 <? 1)%Z) eqn:E2; cbn; lia.
Qed.

Lemma includesI_none x y : includesI (BoundsI ArgsNone) x y = false.
Proof. reflexivity. Qed.

Lemma andI_includes b c x y : includesI (andI b c) x y = includesI b x y && includesI c x y.
Proof.
  apply eq_true_iff_eq. rewrite andb_true_iff.
  unfold andI at 1. unfold b_and.
  destruct (negb (bdef b) || negb (bdef c)) eqn:Ed.
  - rewrite includesI_none. rewrite !includesI_iff. split; [discriminate|]. intros [[H1 _] [H2 _]].
    rewrite H1, H2 in Ed. discriminate.
  - apply orb_false_iff in Ed. destruct Ed as [Hb Hc].
    apply negb_false_iff in Hb. apply negb_false_iff in Hc.
    match goal with |- context [if ?c then _ else _] => destruct c eqn:Ec end.
    + rewrite includesI_none, !includesI_iff. unfold rectZ. rewrite Hb, Hc.
      split; [discriminate|]. intros [[_ H1] [_ H2]]. unfold xmaxI, ymaxI in *.
      unfold jmin, jmax, jx in Ec. cbn [nv] in Ec. rewrite !if_max, !if_min in Ec. lia.
    + rewrite includesI_ctor4, !includesI_iff. unfold rectZ. rewrite Hb, Hc.
      unfold xmaxI, ymaxI, jmin, jmax, jx in *. cbn [nv] in *. rewrite !if_max, !if_min in Ec |- *. lia.
Qed.

Lemma bdef_andI b c : bdef (andI b c) = true <-> exists x y, includesI b x y = true /\ includesI c x y = true.
Proof.
  split.
  - intros H. unfold andI, b_and in H.
    destruct (negb (bdef b) || negb (bdef c)) eqn:Ed; [discriminate|].
    apply orb_false_iff in Ed. destruct Ed as [Hb Hc].
    apply negb_false_iff in Hb. apply negb_false_iff in Hc.
    match type of H with context [if ?c then _ else _] => destruct c eqn:Ec end; [discriminate|].
    exists (Z.max (nv (bxmin b)) (nv (bxmin c))), (Z.max (nv (bymin b)) (nv (bymin c))).
    rewrite !includesI_iff, Hb, Hc. unfold rectZ, xmaxI, ymaxI, jmin, jmax, jx in *. cbn [nv] in *. rewrite !if_max, !if_min in Ec. lia.
  - intros (x & y & Hb & Hc).
    assert (H : includesI (andI b c) x y = true) by (rewrite andI_includes, Hb, Hc; reflexivity).
    apply includesI_iff in H. tauto.
Qed.


Lemma eqI_iff_rect b c : wfI b -> wfI c ->
  (eqI b c = true <-> forall x y, includesI b x y = includesI c x y).
Proof.
  intros Wb Wc. split.
  - intros H x y. apply eq_true_iff_eq. rewrite !includesI_iff. unfold rectZ.
    destruct b as [d s [x0 fx] [dx fdx] [y0 fy] [dy fdy]], c as [d' s' [x0' fx'] [dx' fdx'] [y0' fy'] [dy' fdy']].
    bI. destruct d, d'; cbn in H; try discriminate; lia.
  - intros H. unfold wfI in *.
    pose proof (H (nv (bxmin b)) (nv (bymin b))) as H1.
    pose proof (H (nv (xmaxI b)) (nv (ymaxI b))) as H2.
    pose proof (H (nv (bxmin c)) (nv (bymin c))) as H3.
    pose proof (H (nv (xmaxI c)) (nv (ymaxI c))) as H4.
    clear H.
    destruct b as [d s [x0 fx] [dx fdx] [y0 fy] [dy fdy]], c as [d' s' [x0' fx'] [dx' fdx'] [y0' fy'] [dy' fdy']].
    bI. destruct d, d'; cbn [andb] in *.
    + specialize (Wb eq_refl). specialize (Wc eq_refl). lia.
    + specialize (Wb eq_refl). lia.
    + specialize (Wc eq_refl). lia.
    + reflexivity.
Qed.

Lemma wfI_none : wfI (BoundsI ArgsNone).
Proof. intros H; discriminate. Qed.

Lemma wfI_andI b c : wfI (andI b c).
Proof.
  unfold wfI, andI, b_and.
  destruct (negb (bdef b) || negb (bdef c)) eqn:Ed; [discriminate|].
  match goal with |- context [if ?c then _ else _] => destruct c eqn:Ec end; [discriminate|].
  intros _. bI. lia.
Qed.

(** ** Union *)
Lemma nonempty_defI b : wfI b -> bdef b = true ->
  includesI b (nv (bxmin b)) (nv (bymin b)) = true /\ includesI b (nv (xmaxI b)) (nv (ymaxI b)) = true.
Proof. intros W H. specialize (W H). rewrite !includesI_iff. unfold rectZ. bI. rewrite H. lia. Qed.

Lemma addI_rect b c : bdef b = true -> bdef c = true -> forall x y,
  includesI (addI b c) x y = true <->
  rectZ (Z.min (nv (bxmin b)) (nv (bxmin c))) (Z.max (nv (xmaxI b)) (nv (xmaxI c)))
        (Z.min (nv (bymin b)) (nv (bymin c))) (Z.max (nv (ymaxI b)) (nv (ymaxI c))) x y.
Proof.
  intros Hb Hc x y. unfold addI, b_add. rewrite Hb, Hc. cbn [negb].
  rewrite includesI_ctor4. unfold rectZ, xmaxI, ymaxI, jmin, jmax, jx. cbn [nv]. rewrite !if_max, !if_min. lia.
Qed.

Lemma addI_upper b c x y :
  includesI b x y = true \/ includesI c x y = true -> includesI (addI b c) x y = true.
Proof.
  destruct (bdef c) eqn:Hc; [destruct (bdef b) eqn:Hb|].
  - rewrite (addI_rect b c Hb Hc). rewrite !includesI_iff. unfold rectZ. lia.
  - unfold addI, b_add. rewrite Hb, Hc. cbn. rewrite (includesI_iff b), Hb. intros [[? _]|]; [discriminate|assumption].
  - unfold addI, b_add. rewrite Hc. cbn. rewrite (includesI_iff c), Hc. intros [|[? _]]; [assumption|discriminate].
Qed.

Lemma addI_least b c d : wfI b -> wfI c ->
  (forall x y, includesI b x y = true \/ includesI c x y = true -> includesI d x y = true) ->
  forall x y, includesI (addI b c) x y = true -> includesI d x y = true.
Proof.
  intros Wb Wc H x y.
  destruct (bdef c) eqn:Hc; [destruct (bdef b) eqn:Hb|].
  - rewrite (addI_rect b c Hb Hc).
    destruct (nonempty_defI b Wb Hb) as [B1 B2], (nonempty_defI c Wc Hc) as [C1 C2].
    pose proof (H _ _ (or_introl B1)) as D1. pose proof (H _ _ (or_introl B2)) as D2.
    pose proof (H _ _ (or_intror C1)) as D3. pose proof (H _ _ (or_intror C2)) as D4.
    rewrite includesI_iff in *. unfold rectZ in *. intuition lia.
  - unfold addI, b_add. rewrite Hb, Hc. cbn. intros ?. apply H. auto.
  - unfold addI, b_add. rewrite Hc. cbn. intros ?. apply H. auto.
Qed.

Lemma wfI_pos x y : wfI (BoundsI (ArgsPos x y)).
Proof. intros H. bI. lia. Qed.

Lemma bdef_pos x y : bdef (BoundsI (ArgsPos x y)) = true.
Proof.
  bI. destruct ((nv x - nv x + 1 <? 1)%Z && (nv y - nv y + 1 <? 1)%Z) eqn:E; [lia|].
  destruct ((nv x - nv x + 1 <? 1)%Z || (nv y - nv y + 1 <? 1)%Z) eqn:E2; [lia|].
  rewrite andb_false_r. reflexivity.
Qed.

Lemma addI_pos_as_addI b x y : wfI b ->
  eqI (addI_pos b x y) (addI b (BoundsI (ArgsPos x y))) = true.
Proof.
  intros W. unfold addI_pos, b_add_pos, addI, b_add. rewrite bdef_pos. cbn [negb].
  destruct (bdef b) eqn:Hb.
  - assert (E : forall z, (z + (z - z + 1) - 1 = z)%Z) by (intros; lia).
    match goal with |- eqI ?a ?b = true => assert (Eab : a = b) end.
    { f_equal. unfold b_xmax, b_ymax, BoundsI, boundsI_finish, parse, parse_raw, delta_of, nlift2, jmin, jmax, py, jx.
      cbn [nv npy bdef bstatic bxmin bdx bymin bdy]. rewrite !E. reflexivity. }
    rewrite <- Eab. clear Eab. specialize (W Hb). apply eqI_iff_rect; try reflexivity; intros _; bI; rewrite !if_max, !if_min; lia.
  - apply eqI_iff_rect; [apply wfI_pos|apply wfI_pos|reflexivity].
Qed.

Lemma addI_pos_inc b x y a c : wfI b ->
  includesI (addI_pos b x y) a c = includesI (addI b (BoundsI (ArgsPos x y))) a c.
Proof.
  intros W. pose proof (addI_pos_as_addI b x y W) as E.
  destruct (includesI (addI b (BoundsI (ArgsPos x y))) a c) eqn:H;
  [|apply not_true_iff_false in H; apply not_true_iff_false; intros H'; apply H; clear H; rename H' into H];
  rewrite includesI_iff in *; unfold eqI, b_eq_I in E; destruct H as [Hd Hr]; rewrite Hd in E;
  match type of E with context [match ?z with _ => _ end] => destruct z eqn:? end; try discriminate;
  (split; [first [assumption|reflexivity]|]); unfold rectZ, xmaxI, ymaxI, b_xmax, b_ymax, nlift2 in *; cbn [nv] in *; lia.
Qed.

Lemma wfI_addI b c : wfI b -> wfI c -> wfI (addI b c).
Proof.
  intros Wb Wc H. unfold addI, b_add in *.
  destruct (bdef c) eqn:Hc; cbn [negb] in *; [|auto].
  destruct (bdef b) eqn:Hb; [|auto].
  specialize (Wb Hb). specialize (Wc Hc). bI. rewrite !if_max, !if_min. lia.
Qed.

Lemma wfI_addI_pos b x y : wfI b -> wfI (addI_pos b x y).
Proof.
  intros W H. unfold addI_pos, b_add_pos in *. destruct (bdef b) eqn:Hb.
  - specialize (W Hb). bI. rewrite !if_max, !if_min. lia.
  - apply wfI_pos. assumption.
Qed.


Lemma acc_from b l : wfI b ->
  let r := fold_left (fun b p => addI_pos b (fst p) (snd p)) l b in
  wfI r /\
  (forall x y, ptin b x y -> ptin r x y) /\
  (forall p, In p l -> ptin r (nv (fst p)) (nv (snd p))) /\
  (forall d, (forall x y, ptin b x y -> ptin d x y) ->
             (forall p, In p l -> ptin d (nv (fst p)) (nv (snd p))) ->
             forall x y, ptin r x y -> ptin d x y).
Proof.
  unfold ptin. revert b. induction l as [|[px py_] l IH]; intros b W; cbn [fold_left fst snd].
  - split; [exact W|]. split; [auto|]. split; [intros p Hp; destruct Hp|]. auto.
  - set (b' := addI_pos b px py_).
    assert (W' : wfI b') by (apply wfI_addI_pos; assumption).
    destruct (IH b' W') as (H1 & H2 & H3 & H4). split; [|split; [|split]].
    + exact H1.
    + intros x y Hb. apply H2. unfold b'. rewrite addI_pos_inc by assumption. apply addI_upper. auto.
    + intros p [<-|Hp]; [|auto]. cbn [fst snd]. apply H2. unfold b'. rewrite addI_pos_inc by assumption.
      apply addI_upper. right. rewrite includesI_iff. rewrite bdef_pos. unfold rectZ. bI. split; [reflexivity|lia].
    + intros d Hb Hl x y Hr. refine (H4 d _ _ x y Hr).
      * intros a c Hac. unfold b' in Hac. rewrite addI_pos_inc in Hac by assumption.
        refine (addI_least _ _ d W (wfI_pos _ _) _ a c Hac).
        intros a' c' [Ha|Ha]; [auto|].
        specialize (Hl _ (or_introl eq_refl)). cbn [fst snd] in Hl.
        rewrite includesI_iff in Ha. destruct Ha as [_ Ha]. unfold rectZ in Ha. bI.
        assert (a' = nv px) as -> by lia. assert (c' = nv py_) as -> by lia. assumption.
      * intros p Hp. apply Hl. right. exact Hp.
Qed.

Lemma acc_pos_spec l :
  wfI (acc_pos l) /\
  (forall p, In p l -> ptin (acc_pos l) (nv (fst p)) (nv (snd p))) /\
  (forall d, (forall p, In p l -> ptin d (nv (fst p)) (nv (snd p))) ->
             forall x y, ptin (acc_pos l) x y -> ptin d x y).
Proof.
  destruct (acc_from (BoundsI ArgsNone) l wfI_none) as (H1 & _ & H3 & H4).
  split; [exact H1|]. split; [exact H3|]. intros d Hd. apply H4; [|assumption].
  intros x y Hxy. unfold ptin in Hxy. rewrite includesI_none in Hxy. discriminate.
Qed.

Lemma acc_pos_perm l l' : Permutation l l' -> eqI (acc_pos l) (acc_pos l') = true.
Proof.
  intros P. destruct (acc_pos_spec l) as (W & U & L), (acc_pos_spec l') as (W' & U' & L').
  apply eqI_iff_rect; try assumption. intros x y. apply eq_true_iff_eq. split.
  - apply L. intros p Hp. apply U'. eapply Permutation_in; eassumption.
  - apply L'. intros p Hp. apply U. eapply Permutation_in; [symmetry|]; eassumption.
Qed.

(** ** Bounds with real coordinates *)
Ltac bD := unfold BoundsD, includesD, includesD_b, andD, addD, addD_pos, shiftD, withBorderD,
  eqD, xmaxD, ymaxD, b_and, b_add, b_add_pos, b_includes, b_includes_b, b_shift, b_withBorder, b_eq_D, parse, parse_raw,
  py_check, delta_of, b_xmax, b_ymax, nlift2, jmin, jmax, leb, py, jx in *; cbn [nv npy bdef bstatic bxmin bdx bymin bdy andb orb negb] in *.

Ltac rb := repeat (match goal with
  | H : context [Rltb ?a ?b] |- _ => destruct (Rltb_spec a b)
  | |- context [Rltb ?a ?b] => destruct (Rltb_spec a b)
  | H : context [Reqb ?a ?b] |- _ => destruct (Reqb_spec a b)
  | |- context [Reqb ?a ?b] => destruct (Reqb_spec a b)
  end; cbn [negb andb orb] in *; try lra).

Lemma includesD_iff b x y :
  includesD b x y = true <-> bdef b = true /\ rectR (nv (bxmin b)) (nv (xmaxD b)) (nv (bymin b)) (nv (ymaxD b)) x y.
Proof.
  unfold rectR. destruct b as [d s [x0 fx] [dx fdx] [y0 fy] [dy fdy]]. bD.
  rewrite !andb_true_iff, !negb_true_iff.
  split; intros H.
  - decompose [and] H. rb; try discriminate; repeat split; try lra; assumption.
  - decompose [and] H. rb; repeat split; try lra; assumption.
Qed.

Lemma includesD_ctor4 x1 x2 y1 y2 x y :
  includesD (BoundsD (Args4 x1 x2 y1 y2)) x y = true <-> rectR (nv x1) (nv x2) (nv y1) (nv y2) x y.
Proof.
  rewrite includesD_iff. unfold rectR. destruct x1 as [x1 f1], x2 as [x2 f2], y1 as [y1 f3], y2 as [y2 f4]. bD.
  destruct (f2 && f1 && true && (f4 && f3 && true)); cbn [andb];
  rb; split; intros H; try (destruct H as [Hd H]); try discriminate; try (repeat split; lra); try lra.
Qed.

Lemma includesD_none x y : includesD (BoundsD ArgsNone) x y = false.
Proof. apply not_true_iff_false. rewrite includesD_iff. intros [H _]. revert H. bD. rb; discriminate. Qed.

Lemma andD_includes b c x y : includesD (andD b c) x y = includesD b x y && includesD c x y.
Proof.
  apply eq_true_iff_eq. rewrite andb_true_iff.
  unfold andD at 1. unfold b_and.
  destruct (negb (bdef b) || negb (bdef c)) eqn:Ed.
  - rewrite includesD_none. rewrite !includesD_iff. split; [discriminate|]. intros [[H1 _] [H2 _]].
    rewrite H1, H2 in Ed. discriminate.
  - apply orb_false_iff in Ed. destruct Ed as [Hb Hc].
    apply negb_false_iff in Hb. apply negb_false_iff in Hc.
    match goal with |- context [if ?c then _ else _] => destruct c eqn:Ec end.
    + rewrite includesD_none, !includesD_iff. unfold rectR. rewrite Hb, Hc.
      split; [discriminate|]. intros [[_ H1] [_ H2]]. unfold xmaxD, ymaxD in *.
      unfold jmin, jmax, jx in Ec. cbn [nv] in Ec. exfalso. rb; try discriminate.
    + rewrite includesD_ctor4, !includesD_iff. unfold rectR. rewrite Hb, Hc.
      unfold xmaxD, ymaxD, jmin, jmax, jx in *. cbn [nv] in *.
      split; intros H; decompose [and] H; rb; repeat split; try lra; try discriminate.
Qed.


Lemma addD_rect b c : bdef b = true -> bdef c = true -> forall x y,
  includesD (addD b c) x y = true <->
  rectR (Rmin (nv (bxmin b)) (nv (bxmin c))) (Rmax (nv (xmaxD b)) (nv (xmaxD c)))
        (Rmin (nv (bymin b)) (nv (bymin c))) (Rmax (nv (ymaxD b)) (nv (ymaxD c))) x y.
Proof.
  intros Hb Hc x y. unfold addD, b_add. rewrite Hb, Hc. cbn [negb].
  rewrite includesD_ctor4. unfold rectR, xmaxD, ymaxD, jmin, jmax, jx. cbn [nv].
  assert (Emin : forall a b, (if Rltb b a then b else a) = Rmin a b).
  { intros a b0. unfold Rmin. destruct (Rle_dec a b0); rb. }
  assert (Emax : forall a b, (if Rltb a b then b else a) = Rmax a b).
  { intros a b0. unfold Rmax. destruct (Rle_dec a b0); rb. }
  rewrite !Emin, !Emax. tauto.
Qed.

Lemma nonempty_defD b : wfD b -> bdef b = true ->
  includesD b (nv (bxmin b)) (nv (bymin b)) = true /\ includesD b (nv (xmaxD b)) (nv (ymaxD b)) = true.
Proof. intros W H. specialize (W H). rewrite !includesD_iff. unfold rectR. bD. rewrite H. repeat split; lra. Qed.

Lemma addD_upper b c x y :
  includesD b x y = true \/ includesD c x y = true -> includesD (addD b c) x y = true.
Proof.
  destruct (bdef c) eqn:Hc; [destruct (bdef b) eqn:Hb|].
  - rewrite (addD_rect b c Hb Hc). rewrite !includesD_iff. unfold rectR, Rmin, Rmax.
    repeat match goal with |- context [Rle_dec ?a ?b] => destruct (Rle_dec a b) end; intuition lra.
  - unfold addD, b_add. rewrite Hb, Hc. cbn. rewrite (includesD_iff b), Hb. intros [[? _]|]; [discriminate|assumption].
  - unfold addD, b_add. rewrite Hc. cbn. rewrite (includesD_iff c), Hc. intros [|[? _]]; [assumption|discriminate].
Qed.

Lemma addD_least b c d : wfD b -> wfD c ->
  (forall x y, includesD b x y = true \/ includesD c x y = true -> includesD d x y = true) ->
  forall x y, includesD (addD b c) x y = true -> includesD d x y = true.
Proof.
  intros Wb Wc H x y.
  destruct (bdef c) eqn:Hc; [destruct (bdef b) eqn:Hb|].
  - rewrite (addD_rect b c Hb Hc).
    destruct (nonempty_defD b Wb Hb) as [B1 B2], (nonempty_defD c Wc Hc) as [C1 C2].
    pose proof (H _ _ (or_introl B1)) as D1. pose proof (H _ _ (or_introl B2)) as D2.
    pose proof (H _ _ (or_intror C1)) as D3. pose proof (H _ _ (or_intror C2)) as D4.
    rewrite includesD_iff in *. unfold rectR, Rmin, Rmax in *.
    repeat match goal with |- context [Rle_dec ?a ?b] => destruct (Rle_dec a b) end; intuition lra.
  - unfold addD, b_add. rewrite Hb, Hc. cbn. intros ?. apply H. auto.
  - unfold addD, b_add. rewrite Hc. cbn. intros ?. apply H. auto.
Qed.

(** ** Conversions *)
Lemma Int_part_IZR z : Int_part (IZR z) = z.
Proof.
  pose proof (base_Int_part (IZR z)) as [H1 H2].
  rewrite <- minus_IZR in H2. apply le_IZR in H1. apply lt_IZR with (n:=(-1)%Z) in H2. lia.
Qed.

Lemma R_is_int_IZR z : R_is_int (IZR z) = true.
Proof. unfold R_is_int. rewrite Int_part_IZR. destruct (Reqb_spec (IZR z) (IZR z)); congruence. Qed.

Lemma BoundsD_of_I_rect b : wfI b -> bdef b = true -> forall x y,
  includesD (BoundsD_of_I b) x y = true <->
  rectR (IZR (nv (bxmin b))) (IZR (nv (xmaxI b))) (IZR (nv (bymin b))) (IZR (nv (ymaxI b))) x y.
Proof.
  intros W Hd x y. specialize (W Hd). destruct W as [W1 W2]. apply IZR_le in W1. apply IZR_le in W2.
  rewrite includesD_iff. unfold rectR. bI. bD. unfold BoundsD_of_I, nZ_R. cbn [bdef bxmin bdx bymin bdy nv npy].
  rewrite !minus_IZR, !plus_IZR. unfold py_check. cbn [nv npy].
  destruct (npy (bdx b) && npy (bdy b)); cbn [andb]; rb; intuition (try lra; try discriminate).
Qed.

Lemma finish_def b : (1 <= nv (bdx b))%Z -> (1 <= nv (bdy b))%Z ->
  bdef b = true -> bdef (boundsI_finish b) = true.
Proof.
  intros H1 H2 H. unfold boundsI_finish. cbn [bdef].
  destruct (Z.ltb_spec (nv (bdx b)) 1); [lia|]. exact H.
Qed.
Lemma py_checkI_def dx dy : (1 <= nv dx)%Z -> (1 <= nv dy)%Z -> py_check Z Z.ltb 1%Z true dx dy = true.
Proof.
  intros H1 H2. unfold py_check. destruct (Z.ltb_spec (nv dx) 1); [lia|]. destruct (Z.ltb_spec (nv dy) 1); [lia|].
  rewrite andb_false_r. reflexivity.
Qed.

Lemma BoundsI_of_D_of_I b : wfI b -> bdef b = true ->
  exists c, BoundsI_of_D (BoundsD_of_I b) = Ok c /\ eqI b c = true.
Proof.
  intros W Hd. specialize (W Hd).
  unfold BoundsI_of_D, BoundsD_of_I, nZ_R. cbn [bdef bxmin bdx bymin bdy nv npy].
  replace (IZR (nv (bdx b)) - 1 + 1)%R with (IZR (nv (bdx b))) by ring.
  replace (IZR (nv (bdy b)) - 1 + 1)%R with (IZR (nv (bdy b))) by ring.
  rewrite !R_is_int_IZR, !Int_part_IZR. cbn [andb].
  eexists. split; [reflexivity|]. unfold eqI, b_eq_I. rewrite Hd.
  rewrite finish_def; [|cbn; lia|cbn; lia|cbn; apply py_checkI_def; cbn; lia].
  cbn. lia.
Qed.

Lemma BoundsI_copy b : wfI b -> bdef b = true -> eqI b (BoundsI_of_I b) = true.
Proof.
  intros W Hd. specialize (W Hd). unfold BoundsI_of_I, BoundsI, eqI, b_eq_I. rewrite Hd.
  rewrite finish_def; [|cbn; lia|cbn; lia|cbn; apply py_checkI_def; lia].
  cbn. lia.
Qed.
Lemma BoundsI_copy_undef b : (nv (bdx b) < 1 \/ nv (bdy b) < 1)%Z -> npy (bdx b) = true -> npy (bdy b) = true ->
  bdef (BoundsI_of_I b) = false.
Proof.
  intros H Hx Hy. unfold BoundsI_of_I. bI. rewrite Hx, Hy. cbn [andb].
  repeat match goal with |- context [if ?c then _ else _] => destruct c eqn:? end; try reflexivity; lia.
Qed.

Lemma BoundsD_copy b : wfD b -> bdef b = true -> eqD b (BoundsD_of_D b) = true.
Proof.
  intros W Hd. specialize (W Hd). unfold BoundsD_of_D. bD. rewrite Hd.
  destruct (npy (bdx b) && npy (bdy b)); cbn [andb]; rb; try reflexivity.
Qed.

(** ** pytree *)

Lemma constructedI_inv b : constructedI b ->
  bdef b = true -> ((nv (bdx b) <? 1) && (nv (bdy b) <? 1))%Z = false /\ bstatic b = npy (bxmin b) && npy (bymin b).
Proof.
  intros [a ->] H. unfold BoundsI, boundsI_finish in *. cbn [bdef bstatic bxmin bdx bymin bdy nv npy] in *.
  destruct ((_ <? 1) && (_ <? 1))%Z; [discriminate|]. split; reflexivity.
Qed.

Lemma flattenI_roundtrip b (f : num Z -> num Z) :
  constructedI b -> (forall n, nv (f n) = nv n) ->
  exists c, unflattenI (map f (fst (flattenI b))) (snd (flattenI b)) = Ok c
    /\ eqI b c = true /\ bdef c = bdef b /\ (bdef b = true -> bstatic c = bstatic b)
    /\ (forall x y, includesI c x y = includesI b x y).
Proof.
  intros C Hf. pose proof (constructedI_inv b C) as I. unfold flattenI.
  destruct (bdef b) eqn:Hd.
  - destruct (I eq_refl) as [Hdx Hst].
    destruct (bstatic b) eqn:Hs; cbn [fst snd map unflattenI].
    + rewrite Hdx. eexists; split; [reflexivity|]. unfold eqI, b_eq_I. rewrite Hd. cbn [bdef bstatic bxmin bdx bymin bdy].
      repeat split; try assumption; try lia.
      intros x y. unfold includesI, b_includes, b_xmax, b_ymax. cbn [bdef bstatic bxmin bdx bymin bdy]. rewrite Hd. reflexivity.
    + rewrite Hdx. eexists; split; [reflexivity|]. unfold eqI, b_eq_I. rewrite Hd. cbn [bdef bstatic bxmin bdx bymin bdy].
      rewrite !Hf. repeat split; try assumption; try lia.
      intros x y. unfold includesI, b_includes, b_xmax, b_ymax, nlift2. cbn [bdef bstatic bxmin bdx bymin bdy nv]. rewrite Hd, !Hf. reflexivity.
  - cbn. eexists; split; [reflexivity|]. unfold eqI, b_eq_I. rewrite Hd. cbn.
    repeat split; try discriminate. intros x y. unfold includesI, b_includes. cbn. rewrite Hd. reflexivity.
Qed.

Lemma flattenD_roundtrip b (f : num R -> num R) :
  constructedD b -> (forall n, nv (f n) = nv n) -> (forall n, npy (f n) = true -> npy n = true) ->
  exists c, unflattenD (map f (flattenD b)) = Ok c /\ eqD b c = true /\ bdef c = bdef b
    /\ (forall x y, includesD c x y = includesD b x y).
Proof.
  intros [a E] Hf Hp. unfold flattenD. destruct (bdef b) eqn:Hd.
  - cbn [map unflattenD]. eexists; split; [reflexivity|].
    assert (Hdef : bdef (BoundsD (ArgsKwDelta (f (bxmin b)) (f (bdx b)) (f (bymin b)) (f (bdy b)))) = true).
    { unfold BoundsD, parse, parse_raw, py_check. cbn [bdef].
      destruct (npy (f (bdx b)) && npy (f (bdy b))) eqn:Ep; [|reflexivity].
      apply andb_true_iff in Ep. destruct Ep as [E1 E2]. apply Hp in E1. apply Hp in E2.
      rewrite !Hf. subst b. unfold BoundsD, parse in Hd, E1, E2 |- *.
      destruct (parse_raw _ _ _ _ _ _ a) as [d [[xm dx] [ym dy]]]. cbn [bdef bdx bdy bxmin bymin] in *.
      unfold py_check in Hd. rewrite E1, E2 in Hd. cbn [andb] in *. destruct (_ || _); [discriminate|reflexivity]. }
    assert (HI : forall x y, includesD (BoundsD (ArgsKwDelta (f (bxmin b)) (f (bdx b)) (f (bymin b)) (f (bdy b)))) x y = includesD b x y).
    { intros x y. unfold includesD, b_includes. rewrite Hdef, Hd. bD. rewrite !Hf. reflexivity. }
    repeat split; try assumption.
    unfold eqD, b_eq_D. rewrite Hd, Hdef. bD. rewrite !Hf. rb.
  - cbn [map unflattenD]. eexists; split; [reflexivity|]. 
    assert (Hdef : bdef (BoundsD ArgsNone) = false) by (bD; rb; reflexivity).
    repeat split; try assumption.
    + unfold eqD, b_eq_D. rewrite Hd, Hdef. reflexivity.
    + intros x y. rewrite includesD_none. unfold includesD, b_includes. rewrite Hd. reflexivity.
Qed.

(** ** measures *)
Definition deffun (dx dy : num Z) : bool :=
  negb (((nv dx <? 1) && (nv dy <? 1)) || (npy dx && npy dy && ((nv dx <? 1) || (nv dy <? 1))))%Z.
Lemma constructedI_def b : constructedI b -> bdef b = deffun (bdx b) (bdy b).
Proof.
  intros [a ->]. unfold BoundsI, boundsI_finish, parse.
  destruct a as [|x1 x2 y1 y2|x y|x1 y1 x2 y2|x1 x2 y1 y2|x dx y dy|b]; cbn [parse_raw];
    cbn [bdef bdx bdy]; unfold deffun, py_check; try reflexivity;
    match goal with |- context [(?a <? 1)%Z && (?b <? 1)%Z] => destruct (a <? 1)%Z, (b <? 1)%Z end; cbn;
    rewrite ?andb_true_r, ?andb_false_r; try reflexivity; destruct (_ && _); reflexivity.
Qed.

Lemma shiftI_includes b px py_ x y : constructedI b ->
  includesI (shiftI b px py_) x y = includesI b (x - nv px) (y - nv py_).
Proof.
  intros C. pose proof (constructedI_def b C) as E.
  assert (C' : constructedI (shiftI b px py_)) by (eexists; reflexivity).
  apply constructedI_def in C'. apply eq_true_iff_eq. rewrite !includesI_iff.
  replace (bdx (shiftI b px py_)) with (bdx b) in C' by reflexivity.
  replace (bdy (shiftI b px py_)) with (bdy b) in C' by reflexivity.
  rewrite C', E. unfold rectZ, shiftI, b_shift, xmaxI, ymaxI, b_xmax, b_ymax, BoundsI, boundsI_finish, parse, nlift2, py.
  cbn [parse_raw nv npy bdef bstatic bxmin bdx bymin bdy]. lia.
Qed.

Fixpoint rangeZ (lo : Z) (n : nat) : list Z :=
  match n with O => [] | S n => lo :: rangeZ (lo + 1) n end.
Lemma in_rangeZ n lo z : In z (rangeZ lo n) <-> (lo <= z < lo + Z.of_nat n)%Z.
Proof.
  revert lo. induction n as [|n IH]; intros lo; cbn [rangeZ In].
  - lia.
  - rewrite IH. lia.
Qed.
Lemma NoDup_rangeZ n lo : NoDup (rangeZ lo n).
Proof.
  revert lo. induction n as [|n IH]; intros lo; cbn; constructor; [|apply IH].
  rewrite in_rangeZ. lia.
Qed.
Lemma length_rangeZ n lo : length (rangeZ lo n) = n.
Proof. revert lo. induction n; intros; cbn; auto. Qed.

Lemma NoDup_prod {A B} (l : list A) (m : list B) : NoDup l -> NoDup m -> NoDup (list_prod l m).
Proof.
  intros Hl Hm. induction Hl as [|a l Ha Hl IH]; cbn; [constructor|].
  assert (Hmap : NoDup (map (fun y => (a, y)) m)).
  { clear -Hm. induction Hm as [|b m Hb Hm IHm]; cbn; constructor; auto.
    rewrite in_map_iff. intros (c & Ec & Hc). injection Ec as <-. contradiction. }
  revert Hmap. assert (Hdis : forall p, In p (map (fun y => (a, y)) m) -> ~ In p (list_prod l m)).
  { intros [x y] H1 H2. apply in_map_iff in H1. destruct H1 as (c & Ec & _). injection Ec as <- <-.
    apply in_prod_iff in H2. tauto. }
  induction (map (fun y => (a, y)) m) as [|p q IHq]; cbn; intros H; [assumption|].
  inversion H; subst. constructor.
  - rewrite in_app_iff. intros [?|?]; [contradiction|]. apply (Hdis p); cbn; auto.
  - apply IHq; [|assumption]. intros p' Hp'. apply Hdis. cbn; auto.
Qed.

Lemma areaI_counts b : wfI b -> exists l : list (Z * Z),
  NoDup l /\ (forall x y, In (x, y) l <-> includesI b x y = true) /\ areaI b = Z.of_nat (length l).
Proof.
  intros W. destruct (bdef b) eqn:Hd.
  - specialize (W Hd).
    exists (list_prod (rangeZ (nv (bxmin b)) (Z.to_nat (nv (bdx b)))) (rangeZ (nv (bymin b)) (Z.to_nat (nv (bdy b))))).
    split; [apply NoDup_prod; apply NoDup_rangeZ|]. split.
    + intros x y. rewrite in_prod_iff, !in_rangeZ, includesI_iff. unfold rectZ. bI. rewrite Hd. lia.
    + rewrite prod_length, !length_rangeZ. unfold areaI. rewrite Hd. lia.
  - exists []. repeat split.
    + constructor.
    + intros [].
    + rewrite includesI_iff, Hd. intros [? _]. discriminate.
    + unfold areaI. rewrite Hd. reflexivity.
Qed.

Lemma centerI_spec b : wfI b -> bdef b = true -> exists cx cy tx ty,
  centerI b = Ok (cx, cy) /\ true_centerI_x2 b = Ok (tx, ty) /\
  includesI b cx cy = true /\ (0 <= 2 * cx - tx <= 1)%Z /\ (0 <= 2 * cy - ty <= 1)%Z.
Proof.
  intros W Hd. specialize (W Hd). unfold centerI, true_centerI_x2. rewrite Hd.
  do 4 eexists. split; [reflexivity|]. split; [reflexivity|].
  rewrite includesI_iff. unfold rectZ. bI. rewrite Hd.
  pose proof (Z.div_mod (nv (bdx b)) 2 ltac:(lia)). pose proof (Z.mod_pos_bound (nv (bdx b)) 2 ltac:(lia)).
  pose proof (Z.div_mod (nv (bdy b)) 2 ltac:(lia)). pose proof (Z.mod_pos_bound (nv (bdy b)) 2 ltac:(lia)).
  lia.
Qed.

Lemma withBorderI_rect b dx dy x y :
  includesI (withBorderI b dx dy) x y = true <->
  rectZ (nv (bxmin b) - nv dx) (nv (xmaxI b) + nv dx) (nv (bymin b) - nv dy) (nv (ymaxI b) + nv dy) x y.
Proof.
  assert (C' : constructedI (withBorderI b dx dy)) by (eexists; reflexivity).
  apply constructedI_def in C'. rewrite includesI_iff, C'.
  unfold deffun, rectZ, withBorderI, b_withBorder, xmaxI, ymaxI, b_xmax, b_ymax, BoundsI, boundsI_finish, parse, nlift2, py.
  cbn [parse_raw nv npy bdef bstatic bxmin bdx bymin bdy]. lia.
Qed.

Lemma withBorderI_spec b dx dy : wfI b -> bdef b = true -> (0 <= nv dx)%Z -> (0 <= nv dy)%Z -> forall x y,
  includesI (withBorderI b dx dy) x y = true <->
  exists x' y', includesI b x' y' = true /\ (Z.abs (x - x') <= nv dx)%Z /\ (Z.abs (y - y') <= nv dy)%Z.
Proof.
  intros W Hd Hx Hy x y. specialize (W Hd).
  assert (E : includesI (withBorderI b dx dy) x y = true <->
     rectZ (nv (bxmin b) - nv dx) (nv (xmaxI b) + nv dx) (nv (bymin b) - nv dy) (nv (ymaxI b) + nv dy) x y).
  { apply withBorderI_rect. }
  rewrite E. unfold rectZ. split.
  - intros H. exists (Z.max (nv (bxmin b)) (Z.min x (nv (xmaxI b)))), (Z.max (nv (bymin b)) (Z.min y (nv (ymaxI b)))).
    rewrite includesI_iff, Hd. unfold rectZ. bI. lia.
  - intros (x' & y' & Hin & H1 & H2). rewrite includesI_iff in Hin. unfold rectZ in Hin. lia.
Qed.

(** shrinking: negative border *)
Lemma withBorderI_neg b dx dy : wfI b -> bdef b = true -> (nv dx <= 0)%Z -> (nv dy <= 0)%Z -> forall x y,
  includesI (withBorderI b dx dy) x y = true <->
  forall x' y', (Z.abs (x - x') <= - nv dx)%Z -> (Z.abs (y - y') <= - nv dy)%Z -> includesI b x' y' = true.
Proof.
  intros W Hd Hx Hy x y. specialize (W Hd).
  assert (E : includesI (withBorderI b dx dy) x y = true <->
     rectZ (nv (bxmin b) - nv dx) (nv (xmaxI b) + nv dx) (nv (bymin b) - nv dy) (nv (ymaxI b) + nv dy) x y).
  { apply withBorderI_rect. }
  rewrite E. unfold rectZ. split.
  - intros H x' y' H1 H2. rewrite includesI_iff, Hd. unfold rectZ. lia.
  - intros H. pose proof (H (x + nv dx) (y + nv dy))%Z as Ha. pose proof (H (x - nv dx) (y - nv dy))%Z as Hb.
    rewrite includesI_iff in Ha, Hb. unfold rectZ in *. lia.
Qed.

Lemma originI_least b : wfI b -> bdef b = true ->
  includesI b (fst (originI b)) (snd (originI b)) = true /\
  forall x y, includesI b x y = true -> (fst (originI b) <= x /\ snd (originI b) <= y)%Z.
Proof.
  intros W Hd. split.
  - apply nonempty_defI; assumption.
  - intros x y H. rewrite includesI_iff in H. unfold rectZ in H. cbn. lia.
Qed.
