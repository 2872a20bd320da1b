From Coq Require Import ZArith Bool List Lia ZifyBool.
From Verif Require Import Base Array_Model Bounds_Model Bounds_Spec Bounds_Proofs MSum Wrap_Model Wrap_Spec Wrap_Proofs Image_Model Image_Spec.
Import ListNotations.
Open Scope Z_scope.
Ltac Zify.zify_post_hook ::= Z.div_mod_to_equations.

Section P.
  Context {V D W : Type}.
  Variable T : vops V D W.
  Notation image := (image V D W).

  (** the image represents the pixel map *)
  Definition repr (im : image) (m : pmap (V:=V) (D:=D)) : Prop :=
    wfimg im /\ px m = nv (bxmin (ibnd im)) /\ py_ m = nv (bymin (ibnd im)) /\
    pw m = ncol (iarr im) /\ ph m = nrow (iarr im) /\ pdt m = idt im /\
    forall i j, 0 <= i < nrow (iarr im) -> 0 <= j < ncol (iarr im) ->
      elt (iarr im) i j = pf m (px m + j) (py_ m + i).

  Lemma repr_of (im : image) : wfimg im -> repr im (pm_of im).
  Proof.
    intros H. split; [exact H|]. cbn. repeat (split; [reflexivity|]).
    intros i j Hi Hj. f_equal; lia.
  Qed.

  Lemma includesI_arr (im : image) x y : wfimg im ->
    includesI (ibnd im) x y =
    (nv (bxmin (ibnd im)) <=? x) && (x <? nv (bxmin (ibnd im)) + ncol (iarr im)) &&
    (nv (bymin (ibnd im)) <=? y) && (y <? nv (bymin (ibnd im)) + nrow (iarr im)).
  Proof.
    intros (_ & Hd & _ & _ & _ & Hx & Hy).
    bI. rewrite Hd, Hx, Hy. cbn. lia.
  Qed.

  Lemma repr_inside im m x y : repr im m -> includesI (ibnd im) x y = inside m x y.
  Proof.
    intros (Hw & Hx & Hy & Hpw & Hph & _). rewrite (includesI_arr im x y Hw). unfold inside.
    rewrite Hx, Hy, Hpw, Hph. reflexivity.
  Qed.

  Lemma repr_pix im m x y : repr im m -> pix im x y = pget m x y.
  Proof.
    intros Hr. unfold pix, getValue, pget. pose proof Hr as (Hw & Hx & Hy & Hpw & Hph & Hdt & He).
    destruct Hw as (_ & Hd & _). rewrite Hd. cbn [negb]. rewrite (repr_inside im m x y Hr).
    destruct (inside m x y) eqn:E; cbn [negb]; [|reflexivity].
    unfold inside in E. f_equal. unfold xmin_, ymin_. rewrite He by lia. f_equal; lia.
  Qed.

  (** replacing the pixels *)
  Lemma repr_with im m a f :
    repr im m -> nrow a = nrow (iarr im) -> ncol a = ncol (iarr im) ->
    (forall i j, 0 <= i < nrow (iarr im) -> 0 <= j < ncol (iarr im) -> elt a i j = f (px m + j) (py_ m + i)) ->
    repr (with_arr im a) (upd m f).
  Proof.
    intros ((Hc & Hd & Hs & H1 & H2 & H3 & H4) & Hx & Hy & Hpw & Hph & Hdt & He) Ha Hb Hf.
    split; [|split; [|split; [|split; [|split; [|split]]]]]; cbn; try assumption; try congruence.
    - unfold wfimg. cbn. rewrite Ha, Hb. repeat (split; [assumption|]). assumption.
    - rewrite Ha, Hb. exact Hf.
  Qed.

  Lemma constructedI_shift b dx dy : constructedI (shiftI b dx dy).
  Proof. eexists. reflexivity. Qed.

  Lemma includes_b_corners im m b : repr im m -> bdef b = true -> wfI b ->
    includesI_b (ibnd im) b =
    inside m (nv (bxmin b)) (nv (bymin b)) && inside m (nv (bxmin b) + nv (bdx b) - 1) (nv (bymin b) + nv (bdy b) - 1)
    && (1 <=? nv (bdx b)) && (1 <=? nv (bdy b)).
  Proof.
    intros (Hw & Hx & Hy & Hpw & Hph & Hdt & He) Hb Hwf. specialize (Hwf Hb).
    destruct Hw as (_ & Hd & _ & _ & _ & H3 & H4).
    unfold inside. rewrite Hx, Hy, Hpw, Hph, <- H3, <- H4. bI. rewrite Hd, Hb. cbn. lia.
  Qed.

  Lemma shape_eqb_iff a b c d : shape_eqb (a, b) (c, d) = (a =? c) && (b =? d).
  Proof. reflexivity. Qed.
  Lemma numpyShape_img (im : image) : wfimg im -> numpyShapeI (ibnd im) = (nrow (iarr im), ncol (iarr im)).
  Proof. intros (_ & Hd & _ & _ & _ & H3 & H4). unfold numpyShapeI. rewrite Hd, H3, H4. reflexivity. Qed.

  Hypothesis LAW : lawful T.

  Lemma inplace_value_spec o d d2 a b : (int_only o = true -> isint T d = true) ->
    inplace_value T o d d2 a b = rcast T d (bop T o d d2 a b).
  Proof.
    destruct LAW as (L0 & L1 & L2). intros Hi.
    destruct o; cbn in *; try (apply L2; auto; apply Hi; reflexivity).
    all: destruct (deqb T d2 d) eqn:E; try reflexivity; apply L0 in E; subst d2; cbn [andb].
    all: try (symmetry; apply L1; discriminate).
    destruct (isint T d) eqn:F; cbn [negb]; [reflexivity|]. symmetry. apply L1. intros _. exact F.
  Qed.

  Lemma step_refines im m o s :
    repr im m -> iconst im = Some false -> mirrors o s ->
    repr (fst (step T im o)) (fst (sstep T m s)) /\ iconst (fst (step T im o)) = Some false /\
    snd (step T im o) = snd (sstep T m s).
  Proof.
    intros Hr Hc Hm. pose proof Hr as (Hw & Hx & Hy & Hpw & Hph & Hdt & He).
    pose proof Hw as (Hcon & Hd & Hs & Hrow & Hcol & Hdx & Hdy).
    destruct Hm; cbn [step sstep].
    - unfold setValue, if_mutable, isconst. rewrite Hc, Hd. cbn [negb]. rewrite (repr_inside im m x y Hr).
      destruct (inside m x y) eqn:E; cbn [negb fst snd]; [|auto].
      split; [|auto]. apply repr_with; [exact Hr|reflexivity|reflexivity|].
      intros i j Hi Hj. unfold at_upd, nidx, xmin_, ymin_. cbn [elt]. unfold inside in E.
      destruct (Z.ltb_spec (y - nv (bymin (ibnd im))) 0); [lia|].
      destruct (Z.ltb_spec (x - nv (bxmin (ibnd im))) 0); [lia|].
      replace ((i =? y - nv (bymin (ibnd im))) && (j =? x - nv (bxmin (ibnd im)))) with ((px m + j =? x) && (py_ m + i =? y)) by lia.
      rewrite Hdt, He by assumption. reflexivity.
    - unfold addValue, if_mutable, isconst. rewrite Hc, Hd. cbn [negb]. rewrite (repr_inside im m x y Hr).
      destruct (inside m x y) eqn:E; cbn [negb fst snd]; [|auto].
      split; [|auto]. apply repr_with; [exact Hr|reflexivity|reflexivity|].
      intros i j Hi Hj. unfold at_upd, nidx, xmin_, ymin_. cbn [elt]. unfold inside in E.
      destruct (Z.ltb_spec (y - nv (bymin (ibnd im))) 0); [lia|].
      destruct (Z.ltb_spec (x - nv (bxmin (ibnd im))) 0); [lia|].
      replace ((i =? y - nv (bymin (ibnd im))) && (j =? x - nv (bxmin (ibnd im)))) with ((px m + j =? x) && (py_ m + i =? y)) by lia.
      rewrite Hdt, He by assumption. reflexivity.
    - unfold fill, if_mutable, isconst. rewrite Hc, Hd. cbn [negb fst snd].
      split; [|auto]. apply repr_with; [exact Hr|reflexivity|reflexivity|]. intros. cbn. rewrite Hdt. reflexivity.
    - unfold setZero, if_mutable, isconst. rewrite Hc. cbn [negb fst snd].
      split; [|auto]. apply repr_with; [exact Hr|reflexivity|reflexivity|]. intros. cbn. rewrite Hdt. reflexivity.
    - unfold invertSelf, if_mutable, isconst. rewrite Hc, Hd. cbn [negb fst snd].
      split; [|auto]. apply repr_with; [exact Hr|reflexivity|reflexivity|]. intros i j Hi Hj. cbn [elt amap].
      unfold invert_value. rewrite Hdt, He by assumption. destruct (viszero T (pf m (px m + j) (py_ m + i))); reflexivity.
    - unfold replaceNegative, if_mutable, isconst. rewrite Hc. cbn [negb fst snd].
      split; [|auto]. apply repr_with; [exact Hr|reflexivity|reflexivity|]. intros i j Hi Hj. cbn [elt amap].
      rewrite Hdt, He by assumption. reflexivity.
    - (* setSubImage *)
      unfold setSubImage, if_mutable, isconst. rewrite Hc, Hd, Hs, H2. cbn [negb andb].
      rewrite (includes_b_corners im m b Hr H1 H0).
      destruct (inside m (nv (bxmin b)) (nv (bymin b)) && inside m (nv (bxmin b) + nv (bdx b) - 1) (nv (bymin b) + nv (bdy b) - 1)
        && (1 <=? nv (bdx b)) && (1 <=? nv (bdy b))) eqn:E; cbn [negb fst snd]; [|auto].
      pose proof (repr_of r H3) as (_ & Rx & Ry & Rw & Rh & Rd & Re).
      pose proof (numpyShape_img r H3) as Hshape. rewrite Hshape.
      assert (Hbs : numpyShapeI b = (nv (bdy b), nv (bdx b))) by (unfold numpyShapeI; rewrite H1; reflexivity).
      rewrite Hbs, shape_eqb_iff. cbn [pw ph pm_of].
      rewrite (Z.eqb_sym (ncol (iarr r))), (Z.eqb_sym (nrow (iarr r))), andb_comm.
      destruct ((nv (bdx b) =? ncol (iarr r)) && (nv (bdy b) =? nrow (iarr r))) eqn:F; cbn [negb fst snd]; [|auto].
      split; [|auto]. apply repr_with; [exact Hr|reflexivity|reflexivity|]. intros i j Hi Hj.
      unfold slice_set. cbn [elt]. unfold inside in E. unfold xmin_, ymin_.
      assert (Bx : nv (xmaxI b) = nv (bxmin b) + nv (bdx b) - 1) by reflexivity.
      assert (By : nv (ymaxI b) = nv (bymin b) + nv (bdy b) - 1) by reflexivity.
      rewrite Bx, By, <- Hx, <- Hy.
      match goal with |- (if ?c then _ else _) = (if ?c' then _ else _) => replace c with c' by lia; destruct c' eqn:G end.
      + cbn [elt amap]. rewrite Hdt. unfold aligned. cbn [px py_ pf pm_of].
        f_equal. f_equal; lia.
      + apply He; assumption.
    - (* copyFrom *)
      unfold copyFrom, if_mutable, isconst. rewrite Hc.
      rewrite (numpyShape_img im Hw), (numpyShape_img r H). rewrite shape_eqb_iff. unfold same_shape.
      rewrite Hpw, Hph. cbn [pw ph pm_of]. rewrite andb_comm.
      destruct ((ncol (iarr im) =? ncol (iarr r)) && (nrow (iarr im) =? nrow (iarr r))) eqn:F; cbn [negb fst snd]; [|auto].
      split; [|auto]. apply repr_with; [exact Hr|reflexivity|reflexivity|]. intros i j Hi Hj. cbn [elt].
      rewrite Hdt. unfold aligned. cbn [px py_ pf pm_of]. f_equal. f_equal; lia.
    - (* in-place with image *)
      unfold inplace, consistent, serr, same_shape. cbn [sval_dt].
      rewrite Hdt, Hpw, Hph. cbn [pw ph pm_of].
      replace (pdt (pm_of r)) with (idt r) by reflexivity.
      destruct (int_only o && negb (isint T (idt im))) eqn:E1; cbn [fst snd]; [auto|].
      rewrite andb_comm.
      destruct ((ncol (iarr im) =? ncol (iarr r)) && (nrow (iarr im) =? nrow (iarr r))) eqn:F; cbn [negb fst snd]; [|auto].
      destruct (int_only o && negb (isint T (idt r))) eqn:E2; cbn [fst snd]; [auto|].
      split; [|auto]. apply repr_with; [exact Hr|reflexivity|reflexivity|]. intros i j Hi Hj. cbn [elt operand_dt operand_at].
      rewrite inplace_value_spec.
      + rewrite He by assumption. unfold aligned. cbn [px py_ pf pm_of]. do 3 f_equal; lia.
      + intros Ho. rewrite Ho in E1. cbn in E1. apply negb_false_iff in E1. exact E1.
    - unfold inplace, consistent, serr. cbn [sval_dt]. rewrite Hdt.
      destruct (int_only o && negb (isint T (idt im))) eqn:E1; cbn [fst snd]; [auto|].
      split; [|auto]. apply repr_with; [exact Hr|reflexivity|reflexivity|]. intros i j Hi Hj. cbn [elt operand_dt operand_at].
      rewrite inplace_value_spec.
      + rewrite He by assumption. reflexivity.
      + intros Ho. rewrite Ho in E1. cbn in E1. apply negb_false_iff in E1. exact E1.
    - (* shift *)
      cbn [fst snd done]. unfold done, shift. cbn [fst snd iconst]. split; [|auto].
      assert (Hd' : bdef (shiftI (ibnd im) (py dx) (py dy)) = true).
      { rewrite (constructedI_def _ (constructedI_shift _ _ _)). rewrite (constructedI_def _ Hcon) in Hd. exact Hd. }
      assert (Hs' : bstatic (shiftI (ibnd im) (py dx) (py dy)) = true).
      { destruct Hcon as [a Ea]. rewrite Ea in Hs |- *. unfold shiftI, b_shift, BoundsI, boundsI_finish in *. cbn in *.
        rewrite !andb_true_r. exact Hs. }
      split; [|cbn; split; [lia|split; [lia|split; [assumption|split; [assumption|split; [assumption|]]]]]].
      + unfold wfimg. cbn. split; [apply constructedI_shift|]. split; [exact Hd'|]. split; [exact Hs'|].
        repeat (split; [assumption|]). assumption.
      + intros i j Hi Hj. rewrite He by assumption. f_equal; lia.
  Qed.

  Lemma run_refines l sl im m :
    repr im m -> iconst im = Some false -> Forall2 mirrors l sl ->
    repr (run T im l) (srun T m sl) /\ iconst (run T im l) = Some false /\ errors T im l = serrors T m sl.
  Proof.
    intros Hr Hc H. revert im m Hr Hc. induction H as [|o s l sl Hm Hl IH]; intros im m Hr Hc.
    - auto.
    - destruct (step_refines im m o s Hr Hc Hm) as (A & B & C).
      cbn [run srun fold_left errors serrors]. destruct (IH _ _ A B) as (E & F & G).
      split; [exact E|]. split; [exact F|]. rewrite C, G. reflexivity.
  Qed.
End P.

(** ** Sub-images *)
Section Q.
  Context {V D W : Type}.
  Variable T : vops V D W.
  Notation image := (image V D W).

  Lemma getValue_pget (im : image) x y : wfimg im ->
    getValue im x y = if includesI (ibnd im) x y then Ok (pf (pm_of im) x y) else Err GalSimBoundsError.
  Proof.
    intros (_ & Hd & _). unfold getValue. rewrite Hd. cbn [negb].
    destruct (includesI (ibnd im) x y); reflexivity.
  Qed.


  Lemma okb_of_static b (H : okb b) : forall x y, includesI b x y =
    (nv (bxmin b) <=? x) && (x <? nv (bxmin b) + nv (bdx b)) && (nv (bymin b) <=? y) && (y <? nv (bymin b) + nv (bdy b)).
  Proof. intros x y. destruct H as (_ & _ & Hd & _). bI. rewrite Hd. cbn. lia. Qed.

  Lemma BoundsI_delta_def x0 dx y0 dy : 1 <= nv dx -> 1 <= nv dy ->
    bdef (BoundsI (ArgsKwDelta x0 dx y0 dy)) = true.
  Proof. intros. rewrite (constructedI_def _ (ex_intro _ _ eq_refl)). unfold deffun. cbn. lia. Qed.

  (** rebuilding the bounds from an array *)
  Lemma Image_array_ok (a : arr V) b d w c : bdef b = true -> nv (bdx b) = ncol a -> nv (bdy b) = nrow a ->
    bstatic b = npy (bxmin b) && npy (bymin b) -> 1 <= ncol a -> 1 <= nrow a -> bstatic b = true ->
    exists im, Image_array T a b d w c = Ok im /\ iarr im = a /\ idt im = d /\ iwcs im = w /\ iconst im = Some c /\
      eqI (ibnd im) b = true /\ nv (bxmin (ibnd im)) = nv (bxmin b) /\ nv (bymin (ibnd im)) = nv (bymin b) /\ wfimg im.
  Proof.
    intros Hd Hx Hy Hst Hc Hr Hs. unfold Image_array. rewrite Hd, Hx, Hy, !Z.eqb_refl. cbn [negb].
    eexists. split; [reflexivity|]. cbn [iarr idt iwcs iconst ibnd].
    assert (Hdef : bdef (BoundsI (ArgsKwDelta (bxmin b) (py (ncol a)) (bymin b) (py (nrow a)))) = true)
      by (apply BoundsI_delta_def; cbn; assumption).
    repeat (split; [reflexivity|]). split; [|split; [reflexivity|split; [reflexivity|]]].
    - unfold eqI, b_eq_I. rewrite Hdef, Hd. cbn. rewrite Hx, Hy, !Z.eqb_refl. reflexivity.
    - unfold wfimg. cbn [ibnd iarr]. split; [eexists; reflexivity|]. split; [exact Hdef|].
      split; [rewrite <- Hs, Hst; reflexivity|]. repeat (split; [assumption|]). split; reflexivity.
  Qed.

  Lemma constructed_static b : constructedI b -> bstatic b = npy (bxmin b) && npy (bymin b).
  Proof. intros [a ->]. reflexivity. Qed.

  Lemma subImage_contained (im : image) b : wfimg im -> okb b -> includesI_b (ibnd im) b = true ->
    exists s, subImage T im b = Ok s /\ wfimg s /\ eqI (ibnd s) b = true /\ idt s = idt im /\ iwcs s = iwcs im /\
      iconst s = Some false /\
      forall x y, getValue s x y = if includesI b x y then getValue im x y else Err GalSimBoundsError.
  Proof.
    intros Hw Hb Hi. pose proof Hb as (Hcon & Hwf & Hd & Hs). specialize (Hwf Hd).
    pose proof Hw as (_ & Hid & His & _ & _ & Hdx & Hdy).
    unfold subImage. rewrite Hid, His, Hs, Hi. cbn [negb andb bind].
    assert (Bx : nv (xmaxI b) = nv (bxmin b) + nv (bdx b) - 1) by reflexivity.
    assert (By : nv (ymaxI b) = nv (bymin b) + nv (bdy b) - 1) by reflexivity.
    edestruct (Image_array_ok (slice (iarr im) (nv (bymin b) - ymin_ im) (nv (ymaxI b) - ymin_ im + 1)
       (nv (bxmin b) - xmin_ im) (nv (xmaxI b) - xmin_ im + 1)) b (idt im) (iwcs im) false)
      as (s & Es & Ha & Hdt & Hwc & Hco & Heq & Hxm & Hym & Hws); cbn [slice nrow ncol]; try assumption;
      try (apply constructed_static; assumption); try lia.
    exists s. rewrite Es. split; [reflexivity|]. split; [exact Hws|]. split; [exact Heq|].
    split; [exact Hdt|]. split; [exact Hwc|]. split; [exact Hco|].
    intros x y. rewrite (getValue_pget s x y Hws), (getValue_pget im x y Hw).
    rewrite (includesI_arr s x y Hws), Ha, Hxm, Hym. cbn [slice nrow ncol].
    rewrite (okb_of_static b Hb x y), (includesI_arr im x y Hw).
    assert (Hcont : nv (bxmin (ibnd im)) <= nv (bxmin b) /\ nv (bxmin b) + nv (bdx b) <= nv (bxmin (ibnd im)) + ncol (iarr im) /\
                    nv (bymin (ibnd im)) <= nv (bymin b) /\ nv (bymin b) + nv (bdy b) <= nv (bymin (ibnd im)) + nrow (iarr im)).
    { revert Hi. bI. rewrite Hid, Hd, Hdx, Hdy. cbn. lia. }
    match goal with |- (if ?c then _ else _) = (if ?c' then _ else _) => replace c with c' by lia; destruct c' eqn:G end; [|reflexivity].
    match goal with |- _ = (if ?c then _ else _) => replace c with true by lia end.
    cbn [pm_of pf]. rewrite Ha, Hxm, Hym. cbn [slice elt]. unfold xmin_, ymin_. do 2 f_equal; lia.
  Qed.

  Lemma subImage_not_contained (im : image) b : wfimg im -> okb b -> includesI_b (ibnd im) b = false ->
    subImage T im b = Err GalSimBoundsError.
  Proof.
    intros (_ & Hid & His & _) (_ & _ & _ & Hs) Hi. unfold subImage. rewrite Hid, His, Hs, Hi. reflexivity.
  Qed.

  (** writing a sub-image back *)
  Lemma write_back (im : image) b s : wfimg im -> okb b -> iconst im = Some false ->
    subImage T im b = Ok s ->
    (forall x y v, getValue im x y = Ok v -> rcast T (idt im) v = v) ->
    snd (setSubImage T im b s) = None /\
    forall x y, getValue (fst (setSubImage T im b s)) x y = getValue im x y.
  Proof.
    intros Hw Hb Hc Hsub Hrep.
    destruct (includesI_b (ibnd im) b) eqn:Hi; [|rewrite (subImage_not_contained im b Hw Hb Hi) in Hsub; discriminate].
    destruct (subImage_contained im b Hw Hb Hi) as (s' & Es & Hws & Heq & Hdt & _ & _ & Hget).
    assert (s' = s) by congruence. subst s'.
    pose proof Hb as (Hcon & Hwf & Hd & Hs). pose proof Hwf as Hwf'. specialize (Hwf Hd).
    pose proof Hw as (_ & Hid & His & _ & _ & Hdx & Hdy).
    unfold setSubImage, if_mutable, isconst. rewrite Hc, Hid, His, Hs, Hi. cbn [negb andb].
    assert (Hsh : shape_eqb (numpyShapeI b) (numpyShapeI (ibnd s)) = true).
    { unfold eqI, b_eq_I in Heq. unfold numpyShapeI, shape_eqb. rewrite Hd in Heq |- *.
      destruct (bdef (ibnd s)); [cbn; lia|discriminate]. }
    rewrite Hsh. cbn [negb snd fst]. split; [reflexivity|].
    intros x y. unfold getValue, with_arr, done. cbn [fst ibnd iarr]. rewrite Hid. cbn [negb].
    destruct (includesI (ibnd im) x y) eqn:Hxy; cbn [negb]; [|reflexivity].
    f_equal. unfold slice_set. cbn [elt xmin_ ymin_ ibnd].
    destruct (includesI b x y) eqn:Hbxy.
    - assert (G := Hget x y). rewrite Hbxy, (getValue_pget s x y Hws), (getValue_pget im x y Hw), Hxy in G.
      destruct (includesI (ibnd s) x y) eqn:Hsxy; [|discriminate].
      assert (G' : pf (pm_of s) x y = pf (pm_of im) x y) by congruence. cbn [pf pm_of] in G'.
      rewrite (okb_of_static b Hb x y) in Hbxy.
      assert (Bx : nv (xmaxI b) = nv (bxmin b) + nv (bdx b) - 1) by reflexivity.
      assert (By : nv (ymaxI b) = nv (bymin b) + nv (bdy b) - 1) by reflexivity.
      unfold xmin_, ymin_ in *. rewrite Bx, By.
      cbn [ibnd].
      match goal with |- (if ?c then _ else _) = _ => replace c with true by lia end.
      cbn [amap elt].
      assert (Hsx : nv (bxmin (ibnd s)) = nv (bxmin b) /\ nv (bymin (ibnd s)) = nv (bymin b)).
      { unfold eqI, b_eq_I in Heq. rewrite Hd in Heq. destruct (bdef (ibnd s)); [lia|discriminate]. }
      destruct Hsx as [Hsx Hsy]. rewrite Hsx, Hsy in G'.
      replace (y - nv (bymin (ibnd im)) - (nv (bymin b) - nv (bymin (ibnd im)))) with (y - nv (bymin b)) by lia.
      replace (x - nv (bxmin (ibnd im)) - (nv (bxmin b) - nv (bxmin (ibnd im)))) with (x - nv (bxmin b)) by lia.
      rewrite G'. apply (Hrep x y). rewrite (getValue_pget im x y Hw), Hxy. reflexivity.
    - rewrite (okb_of_static b Hb x y) in Hbxy.
      assert (Bx : nv (xmaxI b) = nv (bxmin b) + nv (bdx b) - 1) by reflexivity.
      assert (By : nv (ymaxI b) = nv (bymin b) + nv (bdy b) - 1) by reflexivity.
      unfold xmin_, ymin_ in *. rewrite Bx, By. cbn [ibnd].
      match goal with |- (if ?c then _ else _) = _ => replace c with false by lia end. reflexivity.
  Qed.

  (** ** const images *)
  Lemma const_step (im : image) o : iconst im = Some true -> checked_op o = true ->
    (is_shift o = false -> step T im o = (im, Some GalSimImmutableError)) /\
    iarr (fst (step T im o)) = iarr im /\ iconst (fst (step T im o)) = Some true.
  Proof.
    intros Hc Ho.
    destruct o; try discriminate Ho; cbn [step is_shift];
      unfold setValue, addValue, fill, setZero, invertSelf, replaceNegative, setSubImage, copyFrom, resize, if_mutable, isconst;
      rewrite ?Hc; cbn; auto.
    split; [discriminate|auto].
  Qed.
  Lemma const_run l (im : image) : iconst im = Some true -> forallb checked_op l = true ->
    iarr (run T im l) = iarr im.
  Proof.
    revert im. induction l as [|o l IH]; intros im Hc Hl; [reflexivity|].
    cbn in Hl. apply andb_true_iff in Hl as [Ho Hl].
    destruct (const_step im o Hc Ho) as (_ & A & B). cbn [run fold_left].
    change (iarr (run T (fst (step T im o)) l) = iarr im). rewrite IH; auto.
  Qed.

  (** ** shifts *)
  Lemma shift_wf (im : image) dx dy : wfimg im -> wfimg (shift T im (py dx) (py dy)).
  Proof.
    intros (Hcon & Hd & Hs & Hrest). unfold wfimg, shift. cbn [ibnd iarr].
    split; [apply constructedI_shift|].
    split; [rewrite (constructedI_def _ (constructedI_shift _ _ _)); rewrite (constructedI_def _ Hcon) in Hd; exact Hd|].
    split; [|exact Hrest].
    destruct Hcon as [a Ea]. rewrite Ea in Hs |- *. unfold shiftI, b_shift, BoundsI, boundsI_finish in *. cbn in *.
    rewrite !andb_true_r. exact Hs.
  Qed.
  Lemma shift_pixels (im : image) dx dy x y : wfimg im ->
    getValue (shift T im (py dx) (py dy)) (x + dx) (y + dy) = getValue im x y.
  Proof.
    intros Hw. rewrite (getValue_pget _ _ _ (shift_wf im dx dy Hw)), (getValue_pget im x y Hw).
    rewrite (includesI_arr _ _ _ (shift_wf im dx dy Hw)), (includesI_arr im x y Hw).
    cbn. match goal with |- (if ?c then _ else _) = (if ?c' then _ else _) => replace c with c' by lia; destruct c'; [|reflexivity] end.
    do 2 f_equal; lia.
  Qed.

  (** ** binary operators *)
  Lemma binop_ok o (im : image) r : wfimg im ->
    (forall r', r = OImg r' -> wfimg r') ->
    consistent T im r (int_only o) = None ->
    exists s, binop T o im r = Ok s /\ wfimg s /\ eqI (ibnd s) (ibnd im) = true /\ iwcs s = iwcs im /\
      idt s = prom T (idt im) (operand_dt r) /\
      forall x y v, getValue im x y = Ok v ->
        getValue s x y = Ok (bop T o (idt im) (operand_dt r) v
          (match r with
           | OImg r' => aligned (pm_of r') (nv (bxmin (ibnd im))) (nv (bymin (ibnd im))) x y
           | OScalar _ c => c end)).
  Proof.
    intros Hw Hr Hc. unfold binop. rewrite Hc.
    pose proof Hw as (Hcon & Hd & Hs & Hrow & Hcol & Hdx & Hdy).
    edestruct (Image_array_ok (Arr (nrow (iarr im)) (ncol (iarr im))
                         (fun i j => bop T o (idt im) (operand_dt r) (elt (iarr im) i j) (operand_at r i j)))
                 (ibnd im) (prom T (idt im) (operand_dt r)) (iwcs im) false)
      as (s & Es & Ha & Hdt & Hwc & Hco & Heq & Hxm & Hym & Hws); cbn [nrow ncol]; try assumption;
      try (apply constructed_static; assumption).
    exists s. split; [exact Es|]. split; [exact Hws|]. split; [exact Heq|]. split; [exact Hwc|]. split; [exact Hdt|].
    intros x y v Hv. rewrite (getValue_pget s x y Hws), (includesI_arr s x y Hws), Ha, Hxm, Hym. cbn [nrow ncol].
    rewrite (getValue_pget im x y Hw), (includesI_arr im x y Hw) in Hv.
    match type of Hv with (if ?c then _ else _) = _ => destruct c eqn:E; [|discriminate] end.
    injection Hv as <-. f_equal. cbn [pf pm_of]. rewrite Ha, Hxm, Hym. cbn [elt]. f_equal.
    destruct r as [r'|d c]; [|reflexivity]. cbn [operand_at]. unfold aligned. cbn [pf pm_of px py_]. f_equal; lia.
  Qed.

  Lemma inplace_ok o (im : image) r : lawful T -> wfimg im ->
    consistent T im r (int_only o) = None ->
    snd (inplace T o im r) = None /\ ibnd (fst (inplace T o im r)) = ibnd im /\
    forall s, binop T o im r = Ok s ->
    forall x y v, getValue s x y = Ok v -> getValue (fst (inplace T o im r)) x y = Ok (rcast T (idt im) v).
  Proof.
    intros L Hw Hc. unfold inplace. rewrite Hc. cbn [fst snd done]. split; [reflexivity|]. split; [reflexivity|].
    intros s Hs x y v Hv. unfold binop in Hs. rewrite Hc in Hs.
    pose proof Hw as (Hcon & Hd & Hst & Hrow & Hcol & Hdx & Hdy).
    unfold Image_array in Hs. cbn [nrow ncol] in Hs. rewrite Hd, Hdx, Hdy, !Z.eqb_refl in Hs. cbn [negb] in Hs.
    injection Hs as <-. unfold getValue in *. cbn [ibnd iarr with_arr xmin_ ymin_] in *. rewrite Hd. cbn [negb].
    destruct (negb (bdef _)) in Hv; [discriminate|].
    rewrite (includesI_arr im x y Hw).
    match type of Hv with (if negb ?c then _ else _) = _ => destruct c eqn:E; [|discriminate] end. cbn [negb] in Hv.
    injection Hv as <-. cbn [elt].
    match goal with |- (if negb ?c then _ else _) = _ => replace c with true end.
    - cbn [negb]. unfold done. cbn [fst ibnd iarr with_arr elt xmin_ ymin_]. f_equal. apply inplace_value_spec; [exact L|].
      intros Ho. unfold consistent in Hc. rewrite Ho in Hc. cbn [andb] in Hc. destruct (isint T (idt im)); [reflexivity|discriminate].
    - revert E. bI. cbn. lia.
  Qed.

  (** ** wrapping *)
  Lemma wrap_ok (im : image) b :
    (forall a c, bop T Add (idt im) (idt im) a c = bop T Add (idt im) (idt im) c a) ->
    (forall a c e, bop T Add (idt im) (idt im) a (bop T Add (idt im) (idt im) c e) = bop T Add (idt im) (idt im) (bop T Add (idt im) (idt im) a c) e) ->
    (forall a, bop T Add (idt im) (idt im) (vzero T) a = a) ->
    wfimg im -> okb b -> includesI_b (ibnd im) b = true ->
    exists s, snd (wrap T im b HNone) = Ok s /\ wfimg s /\ eqI (ibnd s) b = true /\
      ibnd (fst (wrap T im b HNone)) = ibnd im /\
      forall x y,
        (includesI b x y = true ->
          getValue s x y = Ok (congruent_sum V (bop T Add (idt im) (idt im)) (vzero T) (pf (pm_of im))
             (nv (bxmin (ibnd im))) (ncol (iarr im)) (nv (bymin (ibnd im))) (nrow (iarr im)) (nv (bdx b)) (nv (bdy b)) x y) /\
          getValue (fst (wrap T im b HNone)) x y = getValue s x y) /\
        (includesI b x y = false -> getValue (fst (wrap T im b HNone)) x y = getValue im x y).
  Proof.
    intros A1 A2 A3 Hw Hb Hi. unfold wrap.
    pose proof Hb as (Hcon & Hwf & Hd & Hs). specialize (Hwf Hd).
    pose proof Hw as (Hic & Hid & His & Hrow & Hcol & Hdx & Hdy).
    assert (Hcont : nv (bxmin (ibnd im)) <= nv (bxmin b) /\ nv (bxmin b) + nv (bdx b) <= nv (bxmin (ibnd im)) + ncol (iarr im) /\
                    nv (bymin (ibnd im)) <= nv (bymin b) /\ nv (bymin b) + nv (bdy b) <= nv (bymin (ibnd im)) + nrow (iarr im)).
    { revert Hi. bI. rewrite Hid, Hd, Hdx, Hdy. cbn. lia. }
    cbn [wrap_array].
    destruct (wrap_nonhermitian_spec V (bop T Add (idt im) (idt im)) (vzero T) (vconj T) A1 A2 A3 (iarr im)
       (nv (bxmin b) - xmin_ im) (nv (bymin b) - ymin_ im) (nv (bdx b)) (nv (bdy b)))
      as (a & -> & Ar & Ac & Ae); unfold xmin_, ymin_ in *; try lia.
    set (im' := with_arr im a).
    assert (Hw' : wfimg im') by (unfold wfimg, im'; cbn [with_arr ibnd iarr]; rewrite Ar, Ac; auto 10).
    destruct (subImage_contained im' b Hw' Hb Hi) as (s & Es & Hws & Heq & Hdt & Hwc & Hco & Hget).
    cbn [fst snd]. exists s. split; [exact Es|]. split; [exact Hws|]. split; [exact Heq|]. split; [reflexivity|].
    assert (Hin : forall x y, includesI (ibnd im') x y = includesI (ibnd im) x y) by reflexivity.
    intros x y. split.
    - intros Hxy. rewrite Hget, Hxy. split; [|reflexivity].
      rewrite (getValue_pget im' x y Hw'), Hin. rewrite (okb_of_static b Hb) in Hxy.
      rewrite (includesI_arr im x y Hw). match goal with |- (if ?c then _ else _) = _ => replace c with true by lia end.
      f_equal. cbn [pf pm_of im' with_arr iarr ibnd]. rewrite Ae.
      match goal with |- (if ?c then _ else _) = _ => replace c with true by lia end.
      rewrite (congruent_sum_shift V (bop T Add (idt im) (idt im)) (vzero T) (vconj T) A1 A2 A3 _ (pf (pm_of im)) 0 0 (ncol (iarr im)) (nrow (iarr im)) _ _ _ _ (nv (bxmin (ibnd im))) (nv (bymin (ibnd im)))).
      + f_equal; lia.
      + intros i j Hi' Hj'. cbn [pf pm_of]. f_equal; lia.
    - intros Hxy. rewrite (getValue_pget im' x y Hw'), Hin, (getValue_pget im x y Hw), (includesI_arr im x y Hw).
      match goal with |- (if ?c then _ else _) = _ => destruct c eqn:E end; [|reflexivity]. f_equal.
      cbn [pf pm_of im' with_arr iarr ibnd]. rewrite Ae. rewrite (okb_of_static b Hb) in Hxy.
      match goal with |- (if ?c then _ else _) = _ => replace c with false by lia end. reflexivity.
  Qed.
End Q.

(** ** Hermitian wrapping *)
Section H.
  Context {V D W : Type}.
  Variable T : vops V D W.
  Notation image := (image V D W).

  Lemma wrap_herm_x_ok (im : image) b F X Y :
    (forall a c, bop T Add (idt im) (idt im) a c = bop T Add (idt im) (idt im) c a) ->
    (forall a c e, bop T Add (idt im) (idt im) a (bop T Add (idt im) (idt im) c e) = bop T Add (idt im) (idt im) (bop T Add (idt im) (idt im) a c) e) ->
    (forall a, bop T Add (idt im) (idt im) (vzero T) a = a) ->
    wfimg im -> okb b -> includesI_b (ibnd im) b = true ->
    nv (bxmin (ibnd im)) = 0 -> ncol (iarr im) = X + 1 ->
    nv (bymin (ibnd im)) = - Y -> nrow (iarr im) = 2 * Y + 1 ->
    hermitianF V (vconj T) F ->
    (forall x y, 0 <= x <= X -> - Y <= y <= Y -> pf (pm_of im) x y = F x y) ->
    nv (bxmin b) = 0 -> 2 <= nv (bdx b) ->
    exists s, snd (wrap T im b HX) = Ok s /\ wfimg s /\ eqI (ibnd s) b = true /\
      forall x y, includesI b x y = true ->
        getValue s x y = Ok (congruent_sum V (bop T Add (idt im) (idt im)) (vzero T) F
           (- X) (2 * X + 1) (- Y) (2 * Y + 1) (2 * (nv (bdx b) - 1)) (nv (bdy b)) x y).
  Proof.
    intros A1 A2 A3 Hw Hb Hi Hx0 HX Hy0 HY HF Hpf Hbx Hbd. unfold wrap.
    pose proof Hb as (Hcon & Hwf & Hd & Hs). specialize (Hwf Hd).
    pose proof Hw as (Hic & Hid & His & Hrow & Hcol & Hdx & Hdy).
    assert (Hcont : nv (bxmin (ibnd im)) <= nv (bxmin b) /\ nv (bxmin b) + nv (bdx b) <= nv (bxmin (ibnd im)) + ncol (iarr im) /\
                    nv (bymin (ibnd im)) <= nv (bymin b) /\ nv (bymin b) + nv (bdy b) <= nv (bymin (ibnd im)) + nrow (iarr im)).
    { revert Hi. bI. rewrite Hid, Hd, Hdx, Hdy. cbn. lia. }
    unfold hcheck, xmin_. rewrite Hx0, Hbx. cbn [Z.eqb wrap_array].
    assert (Exm : xmax_ im = X). { unfold xmax_. change (nv (xmaxI (ibnd im))) with (nv (bxmin (ibnd im)) + nv (bdx (ibnd im)) - 1). lia. }
    assert (Exb : nv (xmaxI b) = nv (bdx b) - 1). { change (nv (xmaxI b)) with (nv (bxmin b) + nv (bdx b) - 1). lia. }
    unfold ymin_. rewrite Exm, Hy0, Exb.
    assert (Hh : half_x V F X Y (iarr im)).
    { split; [exact HY|]. split; [exact HX|]. intros i j Hi' Hj'. rewrite <- Hpf by lia. cbn [pf pm_of]. f_equal; lia. }
    destruct (wrap_hermitian_x_spec V (bop T Add (idt im) (idt im)) (vzero T) (vconj T) A1 A2 A3 F X Y (iarr im)
       (nv (bdx b) - 1) (nv (bymin b)) (nv (bdy b)) HF Hh) as (a & -> & Ar & Ac & Ae); try lia.
    set (im' := with_arr im a).
    assert (Hw' : wfimg im') by (unfold wfimg, im'; cbn [with_arr ibnd iarr]; rewrite Ar, Ac; auto 10).
    destruct (subImage_contained T im' b Hw' Hb Hi) as (s & Es & Hws & Heq & Hdt & Hwc & Hco & Hget).
    cbn [fst snd]. exists s. split; [exact Es|]. split; [exact Hws|]. split; [exact Heq|].
    intros x y Hxy. rewrite Hget, Hxy. rewrite (okb_of_static b Hb) in Hxy.
    rewrite (getValue_pget im' x y Hw'). change (includesI (ibnd im') x y) with (includesI (ibnd im) x y).
    rewrite (includesI_arr im x y Hw). match goal with |- (if ?c then _ else _) = _ => replace c with true by lia end.
    f_equal. cbn [pf pm_of im' with_arr iarr ibnd].
    rewrite Hx0, Hy0. replace (y - - Y) with (y + Y) by lia. rewrite Z.sub_0_r. rewrite Ae by lia.
    match goal with |- (if ?c then _ else _) = _ => replace c with true by lia end. reflexivity.
  Qed.

  Lemma wrap_herm_y_ok (im : image) b F X Y :
    (forall a c, bop T Add (idt im) (idt im) a c = bop T Add (idt im) (idt im) c a) ->
    (forall a c e, bop T Add (idt im) (idt im) a (bop T Add (idt im) (idt im) c e) = bop T Add (idt im) (idt im) (bop T Add (idt im) (idt im) a c) e) ->
    (forall a, bop T Add (idt im) (idt im) (vzero T) a = a) ->
    wfimg im -> okb b -> includesI_b (ibnd im) b = true ->
    nv (bymin (ibnd im)) = 0 -> nrow (iarr im) = Y + 1 ->
    nv (bxmin (ibnd im)) = - X -> ncol (iarr im) = 2 * X + 1 ->
    hermitianF V (vconj T) F ->
    (forall x y, - X <= x <= X -> 0 <= y <= Y -> pf (pm_of im) x y = F x y) ->
    nv (bymin b) = 0 -> 2 <= nv (bdy b) ->
    exists s, snd (wrap T im b HY) = Ok s /\ wfimg s /\ eqI (ibnd s) b = true /\
      forall x y, includesI b x y = true ->
        getValue s x y = Ok (congruent_sum V (bop T Add (idt im) (idt im)) (vzero T) F
           (- X) (2 * X + 1) (- Y) (2 * Y + 1) (nv (bdx b)) (2 * (nv (bdy b) - 1)) x y).
  Proof.
    intros A1 A2 A3 Hw Hb Hi Hy0 HY Hx0 HX HF Hpf Hby Hbd. unfold wrap.
    pose proof Hb as (Hcon & Hwf & Hd & Hs). specialize (Hwf Hd).
    pose proof Hw as (Hic & Hid & His & Hrow & Hcol & Hdx & Hdy).
    assert (Hcont : nv (bxmin (ibnd im)) <= nv (bxmin b) /\ nv (bxmin b) + nv (bdx b) <= nv (bxmin (ibnd im)) + ncol (iarr im) /\
                    nv (bymin (ibnd im)) <= nv (bymin b) /\ nv (bymin b) + nv (bdy b) <= nv (bymin (ibnd im)) + nrow (iarr im)).
    { revert Hi. bI. rewrite Hid, Hd, Hdx, Hdy. cbn. lia. }
    unfold hcheck, ymin_. rewrite Hy0, Hby. cbn [Z.eqb wrap_array].
    assert (Exm : ymax_ im = Y). { unfold ymax_. change (nv (ymaxI (ibnd im))) with (nv (bymin (ibnd im)) + nv (bdy (ibnd im)) - 1). lia. }
    assert (Exb : nv (ymaxI b) = nv (bdy b) - 1). { change (nv (ymaxI b)) with (nv (bymin b) + nv (bdy b) - 1). lia. }
    unfold xmin_. rewrite Exm, Hx0, Exb.
    assert (Hh : half_y V F X Y (iarr im)).
    { split; [exact HY|]. split; [exact HX|]. intros i j Hi' Hj'. rewrite <- Hpf by lia. cbn [pf pm_of]. f_equal; lia. }
    destruct (wrap_hermitian_y_spec V (bop T Add (idt im) (idt im)) (vzero T) (vconj T) A1 A2 A3 F X Y (iarr im)
       (nv (bdy b) - 1) (nv (bxmin b)) (nv (bdx b)) HF Hh) as (a & -> & Ar & Ac & Ae); try lia.
    set (im' := with_arr im a).
    assert (Hw' : wfimg im') by (unfold wfimg, im'; cbn [with_arr ibnd iarr]; rewrite Ar, Ac; auto 10).
    destruct (subImage_contained T im' b Hw' Hb Hi) as (s & Es & Hws & Heq & Hdt & Hwc & Hco & Hget).
    cbn [fst snd]. exists s. split; [exact Es|]. split; [exact Hws|]. split; [exact Heq|].
    intros x y Hxy. rewrite Hget, Hxy. rewrite (okb_of_static b Hb) in Hxy.
    rewrite (getValue_pget im' x y Hw'). change (includesI (ibnd im') x y) with (includesI (ibnd im) x y).
    rewrite (includesI_arr im x y Hw). match goal with |- (if ?c then _ else _) = _ => replace c with true by lia end.
    f_equal. cbn [pf pm_of im' with_arr iarr ibnd].
    rewrite Hx0, Hy0. replace (x - - X) with (x + X) by lia. rewrite Z.sub_0_r. rewrite Ae by lia.
    match goal with |- (if ?c then _ else _) = _ => replace c with true by lia end. reflexivity.
  Qed.

  (** ** transposes and flips, seen through pixel positions *)
  Lemma wf_flip (im : image) (a : arr V) : wfimg im -> nrow a = nrow (iarr im) -> ncol a = ncol (iarr im) ->
    wfimg (_Image a (ibnd im) (idt im) (None : option W)).
  Proof. intros (A & B & C & E & F & G & H) Hr Hc. unfold wfimg, _Image. cbn [ibnd iarr]. rewrite Hr, Hc. auto 10. Qed.
  Lemma wf_transp (im : image) (a : arr V) : wfimg im -> nrow a = ncol (iarr im) -> ncol a = nrow (iarr im) ->
    wfimg (_Image a (boundsT (ibnd im)) (idt im) (None : option W)).
  Proof.
    intros (A & B & C & E & F & G & H) Hr Hc. unfold wfimg, _Image. cbn [ibnd iarr]. rewrite Hr, Hc.
    split; [eexists; reflexivity|]. split; [apply BoundsI_delta_def; lia|].
    split; [rewrite (constructed_static _ A) in C; unfold boundsT, BoundsI, boundsI_finish; cbn; rewrite andb_comm; exact C|].
    split; [assumption|]. split; [assumption|]. cbn. auto.
  Qed.

  Ltac mv Hw := intros x y; unfold pix;
    first [rewrite !getValue_pget by (first [exact Hw | apply wf_flip; [exact Hw|reflexivity|reflexivity] | apply wf_transp; [exact Hw|reflexivity|reflexivity]])];
    rewrite !includesI_arr by (first [exact Hw | apply wf_flip; [exact Hw|reflexivity|reflexivity] | apply wf_transp; [exact Hw|reflexivity|reflexivity]]).

  Lemma transpose_moved (im : image) : wfimg im -> moved im (transpose im) (fun x y => y) (fun x y => x).
  Proof. intros Hw. unfold moved, transpose. mv Hw. cbn.
    match goal with |- match (if ?c then _ else _) with _ => _ end = match (if ?c' then _ else _) with _ => _ end => replace c with c' by lia; destruct c'; reflexivity end. Qed.
  Lemma flip_lr_moved (im : image) : wfimg im -> moved im (flip_lr im) (fun x y => xmin_ im + xmax_ im - x) (fun x y => y).
  Proof. intros Hw. pose proof Hw as (_ & _ & _ & _ & _ & Hdx & Hdy). unfold moved, flip_lr, xmax_, xmin_. mv Hw.
    cbn. rewrite Hdx.
    match goal with |- match (if ?c then _ else _) with _ => _ end = match (if ?c' then _ else _) with _ => _ end => replace c with c' by lia; destruct c'; [|reflexivity] end.
    do 2 f_equal; lia. Qed.
  Lemma flip_ud_moved (im : image) : wfimg im -> moved im (flip_ud im) (fun x y => x) (fun x y => ymin_ im + ymax_ im - y).
  Proof. intros Hw. pose proof Hw as (_ & _ & _ & _ & _ & Hdx & Hdy). unfold moved, flip_ud, ymax_, ymin_. mv Hw.
    cbn. rewrite Hdy.
    match goal with |- match (if ?c then _ else _) with _ => _ end = match (if ?c' then _ else _) with _ => _ end => replace c with c' by lia; destruct c'; [|reflexivity] end.
    do 2 f_equal; lia. Qed.
  Lemma rot_cw_moved (im : image) : wfimg im -> moved im (rot_cw im) (fun x y => xmin_ im + xmax_ im - y) (fun x y => x).
  Proof. intros Hw. pose proof Hw as (_ & _ & _ & _ & _ & Hdx & Hdy). unfold moved, rot_cw, xmax_, xmin_. mv Hw.
    cbn. rewrite Hdx.
    match goal with |- match (if ?c then _ else _) with _ => _ end = match (if ?c' then _ else _) with _ => _ end => replace c with c' by lia; destruct c'; [|reflexivity] end.
    do 2 f_equal; lia. Qed.
  Lemma rot_ccw_moved (im : image) : wfimg im -> moved im (rot_ccw im) (fun x y => y) (fun x y => ymin_ im + ymax_ im - x).
  Proof. intros Hw. pose proof Hw as (_ & _ & _ & _ & _ & Hdx & Hdy). unfold moved, rot_ccw, ymax_, ymin_. mv Hw.
    cbn. rewrite Hdy.
    match goal with |- match (if ?c then _ else _) with _ => _ end = match (if ?c' then _ else _) with _ => _ end => replace c with c' by lia; destruct c'; [|reflexivity] end.
    do 2 f_equal; lia. Qed.
  Lemma rot_180_moved (im : image) : wfimg im -> moved im (rot_180 im) (fun x y => xmin_ im + xmax_ im - x) (fun x y => ymin_ im + ymax_ im - y).
  Proof. intros Hw. pose proof Hw as (_ & _ & _ & _ & _ & Hdx & Hdy). unfold moved, rot_180, ymax_, ymin_, xmax_, xmin_. mv Hw.
    cbn. rewrite Hdx, Hdy.
    match goal with |- match (if ?c then _ else _) with _ => _ end = match (if ?c' then _ else _) with _ => _ end => replace c with c' by lia; destruct c'; [|reflexivity] end.
    do 2 f_equal; lia. Qed.
  Lemma wf_transpose (im : image) : wfimg im -> wfimg (transpose im).
  Proof. intros Hw. apply wf_transp; auto. Qed.
  Lemma wf_flip_lr (im : image) : wfimg im -> wfimg (flip_lr im).
  Proof. intros Hw. apply wf_flip; auto. Qed.
  Lemma wf_flip_ud (im : image) : wfimg im -> wfimg (flip_ud im).
  Proof. intros Hw. apply wf_flip; auto. Qed.
  Lemma wf_rot_cw (im : image) : wfimg im -> wfimg (rot_cw im).
  Proof. intros Hw. apply wf_transp; auto. Qed.
  Lemma wf_rot_ccw (im : image) : wfimg im -> wfimg (rot_ccw im).
  Proof. intros Hw. apply wf_transp; auto. Qed.
  Lemma wf_rot_180 (im : image) : wfimg im -> wfimg (rot_180 im).
  Proof. intros Hw. apply wf_flip; auto. Qed.

  Lemma dihedral_laws (im : image) : wfimg im -> forall x y,
    pix (transpose (transpose im)) x y = pix im x y /\
    pix (flip_lr (flip_lr im)) x y = pix im x y /\
    pix (flip_ud (flip_ud im)) x y = pix im x y /\
    pix (rot_cw (rot_ccw im)) x y = pix im x y /\
    pix (rot_ccw (rot_cw im)) x y = pix im x y /\
    pix (rot_cw (rot_cw im)) x y = pix (rot_180 im) x y /\
    pix (flip_lr (flip_ud im)) x y = pix (rot_180 im) x y /\
    pix (flip_ud (transpose im)) x y = pix (rot_cw im) x y /\
    pix (flip_lr (transpose im)) x y = pix (rot_ccw im) x y.
  Proof.
    intros Hw x y.
    pose proof (wf_transpose im Hw) as W1. pose proof (wf_flip_lr im Hw) as W2. pose proof (wf_flip_ud im Hw) as W3.
    pose proof (wf_rot_cw im Hw) as W4. pose proof (wf_rot_ccw im Hw) as W5.
    split; [|split; [|split; [|split; [|split; [|split; [|split; [|split]]]]]]].
    - rewrite (transpose_moved _ W1), (transpose_moved _ Hw). reflexivity.
    - rewrite (flip_lr_moved _ W2), (flip_lr_moved _ Hw). f_equal. unfold xmin_, xmax_. cbn. lia.
    - rewrite (flip_ud_moved _ W3), (flip_ud_moved _ Hw). f_equal. unfold ymin_, ymax_. cbn. lia.
    - rewrite (rot_cw_moved _ W5), (rot_ccw_moved _ Hw). f_equal. unfold xmin_, xmax_, ymin_, ymax_. cbn. lia.
    - rewrite (rot_ccw_moved _ W4), (rot_cw_moved _ Hw). f_equal. unfold xmin_, xmax_, ymin_, ymax_. cbn. lia.
    - rewrite (rot_cw_moved _ W4), (rot_cw_moved _ Hw), (rot_180_moved _ Hw). f_equal; unfold xmin_, xmax_, ymin_, ymax_; cbn; lia.
    - rewrite (flip_lr_moved _ W3), (flip_ud_moved _ Hw), (rot_180_moved _ Hw). f_equal; unfold xmin_, xmax_, ymin_, ymax_; cbn; lia.
    - rewrite (flip_ud_moved _ W1), (transpose_moved _ Hw), (rot_cw_moved _ Hw). f_equal; unfold xmin_, xmax_, ymin_, ymax_; cbn; lia.
    - rewrite (flip_lr_moved _ W1), (transpose_moved _ Hw), (rot_ccw_moved _ Hw). f_equal; unfold xmin_, xmax_, ymin_, ymax_; cbn; lia.
  Qed.

  (** ** pytree *)
  Lemma img_roundtrip {AF PH HD} (x : imgx (V:=V) (D:=D) (W:=W) AF PH HD) ch ax :
    img_flatten AF PH HD x = Ok (ch, ax) ->
    (photons _ _ _ x <> None -> added_flux _ _ _ x <> None) ->
    Ok (img_unflatten AF PH HD ch ax) = imgx_as_rebuilt x.
  Proof.
    destruct x as [im af ph hd]. unfold img_flatten, imgx_as_rebuilt, isconst. cbn [base added_flux photons header].
    destruct (iconst im); [|discriminate]. intros E Hp. injection E as <- <-.
    destruct (bstatic (ibnd im)), af, ph; cbn; try reflexivity; exfalso; apply Hp; congruence.
  Qed.
End H.

Section R.
  Context {V D W : Type}.
  Variable T : vops V D W.
  Notation image := (image V D W).

  Lemma setOrigin_setCenter_ok (im : image) x0 y0 : wfimg im ->
    originI (ibnd (setOrigin T im (py x0) (py y0))) = (x0, y0) /\
    snd (setCenter T im (py x0) (py y0)) = None /\
    centerI (ibnd (fst (setCenter T im (py x0) (py y0)))) = Ok (x0, y0) /\
    iarr (fst (setCenter T im (py x0) (py y0))) = iarr im.
  Proof.
    intros Hw. pose proof Hw as (Hcon & Hd & Hs & Hr & Hc & Hdx & Hdy).
    split; [unfold originI, setOrigin, shift; cbn; f_equal; lia|].
    unfold setCenter, centerI. rewrite Hd. unfold done, shift. cbn [fst snd iarr ibnd].
    split; [reflexivity|]. split; [|reflexivity].
    match goal with |- (if bdef ?b then _ else _) = _ => assert (Hd' : bdef b = true) end.
    { rewrite (constructedI_def _ (constructedI_shift _ _ _)). rewrite (constructedI_def _ Hcon) in Hd. exact Hd. }
    rewrite Hd'. do 2 f_equal; cbn; lia.
  Qed.

  Lemma wrap_herm_precheck (im : image) b :
    (nv (bxmin b) <> 0 \/ xmin_ im <> 0 -> wfimg im -> okb b ->
       wrap T im b HX = (im, Err GalSimIncompatibleValuesError)) /\
    (nv (bymin b) <> 0 \/ ymin_ im <> 0 -> wfimg im -> okb b ->
       wrap T im b HY = (im, Err GalSimIncompatibleValuesError)).
  Proof.
    split; intros H Hw Hb; pose proof Hw as (_ & _ & Hs & _); destruct Hb as (_ & _ & _ & Hbs);
      unfold wrap, hcheck; rewrite Hs, Hbs.
    - destruct (Z.eqb_spec (xmin_ im) 0); [|reflexivity]. destruct (Z.eqb_spec (nv (bxmin b)) 0); [lia|reflexivity].
    - destruct (Z.eqb_spec (ymin_ im) 0); [|reflexivity]. destruct (Z.eqb_spec (nv (bymin b)) 0); [lia|reflexivity].
  Qed.

  Lemma wrap_total (im : image) b s : add_monoid T (idt im) -> wfimg im -> okb b -> includesI_b (ibnd im) b = true ->
    snd (wrap T im b HNone) = Ok s ->
    rect_sum V (bop T Add (idt im) (idt im)) (vzero T) (pf (pm_of s)) (nv (bxmin b)) (nv (bdx b)) (nv (bymin b)) (nv (bdy b)) =
    rect_sum V (bop T Add (idt im) (idt im)) (vzero T) (pf (pm_of im))
      (nv (bxmin (ibnd im))) (ncol (iarr im)) (nv (bymin (ibnd im))) (nrow (iarr im)).
  Proof.
    intros (A1 & A2 & A3) Hw Hb Hi Hs.
    destruct (wrap_ok T im b A1 A2 A3 Hw Hb Hi) as (s' & Es & Hws & Heq & _ & Hv).
    assert (s' = s) by congruence. subst s'.
    rewrite <- (congruent_total V (bop T Add (idt im) (idt im)) (vzero T) (vconj T) A1 A2 A3 (pf (pm_of im))
       (nv (bxmin (ibnd im))) (ncol (iarr im)) (nv (bymin (ibnd im))) (nrow (iarr im)) (nv (bdx b)) (nv (bdy b)) (nv (bxmin b)) (nv (bymin b))).
    - unfold rect_sum at 1 2. apply zsum_ext. intros i Hi'. apply zsum_ext. intros j Hj'.
      destruct (Hv (nv (bxmin b) + j) (nv (bymin b) + i)) as [Hv1 _].
      assert (Hin : includesI b (nv (bxmin b) + j) (nv (bymin b) + i) = true) by (rewrite (okb_of_static b Hb); lia).
      destruct (Hv1 Hin) as [Hg _]. rewrite (getValue_pget s _ _ Hws) in Hg.
      destruct (includesI (ibnd s) (nv (bxmin b) + j) (nv (bymin b) + i)); [|discriminate].
      injection Hg as Hg. exact Hg.
    - destruct Hb as (_ & Hwf & Hd & _). specialize (Hwf Hd). lia.
    - destruct Hb as (_ & Hwf & Hd & _). specialize (Hwf Hd). lia.
  Qed.

  Lemma shape_mismatch o (im r : image) :
    nrow (iarr im) <> nrow (iarr r) \/ ncol (iarr im) <> ncol (iarr r) ->
    (exists e, binop T o im (OImg r) = Err e) /\
    (exists e, inplace T o im (OImg r) = (im, Some e)).
  Proof.
    intros H. unfold binop, inplace, consistent.
    destruct (int_only o && negb (isint T (idt im))); [split; eexists; reflexivity|].
    replace ((nrow (iarr im) =? nrow (iarr r)) && (ncol (iarr im) =? ncol (iarr r))) with false by lia.
    cbn [negb]. split; eexists; reflexivity.
  Qed.
End R.
