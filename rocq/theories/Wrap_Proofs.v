From Coq Require Import ZArith Bool Lia ZifyBool.
From Verif Require Import Base Array_Model MSum Wrap_Model Wrap_Spec.
Open Scope Z_scope.
Ltac Zify.zify_post_hook ::= Z.div_mod_to_equations.

Section P.
  Variable V : Type.
  Variable add : V -> V -> V.
  Variable zero : V.
  Variable conj : V -> V.
  Hypothesis add_comm : forall a b, add a b = add b a.
  Hypothesis add_assoc : forall a b c, add a (add b c) = add (add a b) c.
  Hypothesis add_zero : forall a, add zero a = a.

  Notation sum := (zsum add zero).
  Local Hint Resolve add_comm add_assoc add_zero : mon.

  Lemma nwin_exact n w : 0 < w -> 0 <= n -> nwin (n * w) w = n.
  Proof.
    intros Hw Hn. unfold nwin. destruct (Z.eq_dec n 0) as [->|Hn0].
    - rewrite Z.max_l by lia. rewrite Z.div_small; lia.
    - rewrite Z.max_r by nia. replace (n * w - w + 1 + w - 1) with (n * w) by lia.
      apply Z.div_mul. lia.
  Qed.

  (** index-based reduction *)
  Lemma index_val sim nx ny nxw nyw r b :
    0 < nxw -> 0 < nyw -> 0 <= nx -> 0 <= ny ->
    nrow sim = ny * nyw -> ncol sim = nx * nxw ->
    elt (block_reduce_index V add zero sim nxw nyw) r b =
    sum ny (fun k => sum nx (fun l => elt sim (k * nyw + r) (l * nxw + b))).
  Proof.
    intros Hx Hy Hnx Hny Hr Hc. unfold block_reduce_index. cbn [elt].
    rewrite Hr, Hc, !nwin_exact by assumption.
    destruct (Z.eq_dec nx 0) as [->|Hnx0].
    - rewrite Z.mul_0_r. rewrite (zsum_zero V add zero) with (n := ny); auto with mon.
    - rewrite (zsum_blocks V add zero add_comm add_assoc add_zero) by assumption.
      apply zsum_ext. intros k Hk. apply zsum_ext. intros l Hl.
      replace (k * nx + l) with (l + k * nx) by ring.
      rewrite Z.div_add, Z.mod_add, Z.div_small, Z.mod_small by lia. reflexivity.
  Qed.

  (** loop-based reduction *)
  Lemma loop_x_val n sim yl nxw xl fim :
    fst (loop_x V add n sim yl nxw (xl, fim)) = xl + Z.of_nat n * nxw /\
    forall r b, snd (loop_x V add n sim yl nxw (xl, fim)) r b =
      add (fim r b) (nsum add zero n (fun l => elt sim (yl + r) (xl + l * nxw + b))).
  Proof.
    revert xl fim. induction n as [|n IH]; intros xl fim.
    - cbn. split; [lia|]. intros. rewrite add_comm, add_zero. reflexivity.
    - cbn [loop_x]. destruct (IH (xl + nxw) (fun r b => add (fim r b) (elt sim (yl + r) (xl + b)))) as [A B].
      split; [rewrite A; lia|]. intros r b. rewrite B, <- add_assoc. f_equal.
      change (S n) with (1 + n)%nat. rewrite (nsum_app V add zero add_comm add_assoc add_zero 1 n).
      cbn [nsum]. rewrite add_zero. f_equal; [f_equal; lia|].
      apply nsum_ext. intros i Hi. f_equal. lia.
  Qed.
  Lemma loop_y_val n sim nx nxw nyw yl fim :
    forall r b, snd (loop_y V add n sim nx nxw nyw (yl, fim)) r b =
      add (fim r b) (nsum add zero n (fun k => nsum add zero nx (fun l => elt sim (yl + k * nyw + r) (l * nxw + b)))).
  Proof.
    revert yl fim. induction n as [|n IH]; intros yl fim r b.
    - cbn. rewrite add_comm, add_zero. reflexivity.
    - cbn [loop_y]. rewrite IH.
      destruct (loop_x_val nx sim yl nxw 0 fim) as [_ B]. rewrite B, <- add_assoc. f_equal.
      change (S n) with (1 + n)%nat. rewrite (nsum_app V add zero add_comm add_assoc add_zero 1 n).
      cbn [nsum]. rewrite add_zero. f_equal.
      + apply nsum_ext. intros i Hi. f_equal; lia.
      + apply nsum_ext. intros i Hi. apply nsum_ext. intros l Hl. f_equal. lia.
  Qed.
  Lemma loop_val sim nx ny nxw nyw r b :
    elt (block_reduce_loop V add zero sim nx ny nxw nyw) r b =
    sum ny (fun k => sum nx (fun l => elt sim (k * nyw + r) (l * nxw + b))).
  Proof.
    unfold block_reduce_loop. cbn [elt]. rewrite loop_y_val, add_zero. reflexivity.
  Qed.

  Lemma reductions_agree sim nx ny nxw nyw :
    0 < nxw -> 0 < nyw -> 0 <= nx -> 0 <= ny ->
    nrow sim = ny * nyw -> ncol sim = nx * nxw ->
    aeq (block_reduce_loop V add zero sim nx ny nxw nyw) (block_reduce_index V add zero sim nxw nyw).
  Proof.
    intros. split; [reflexivity|]. split; [reflexivity|].
    intros i j _ _. rewrite loop_val. symmetry. apply index_val; assumption.
  Qed.

  (** shape of the padded array *)
  Lemma nblocks_spec n w : 0 < w -> 0 <= n -> n <= nblocks n w * w /\ 0 <= nblocks n w /\ (0 < n -> 0 < nblocks n w).
  Proof.
    intros Hw Hn. unfold nblocks.
    pose proof (Z.div_mod n w ltac:(lia)). pose proof (Z.mod_pos_bound n w Hw).
    assert (0 <= n / w) by (apply Z.div_pos; lia).
    destruct (Z.eqb_spec (n mod w) 0); (split; [nia|split; [lia|]]); intros; nia.
  Qed.

  Lemma cong_iff i c w : 0 < w -> (i mod w =? c mod w) = ((i - c) mod w =? 0).
  Proof.
    intros Hw. destruct (Z.eqb_spec (i mod w) (c mod w)) as [E|E]; destruct (Z.eqb_spec ((i - c) mod w) 0) as [F|F]; try reflexivity; exfalso.
    - apply F. rewrite Zminus_mod, E, Z.sub_diag. apply Z.mod_0_l. lia.
    - apply E. apply Z.mod_divide in F; [|lia]. destruct F as [k F].
      replace i with (c + k * w) by lia. apply Z.mod_add. lia.
  Qed.

  (** one axis: the strided cyclic sum over the padded axis is the congruence sum over the axis *)
  Lemma axis_sum N w r s f : 0 < w -> 0 < N ->
    sum (nblocks N w) (fun k => (fun i => if i <? N then f i else zero) ((k * w + r - - s) mod (nblocks N w * w))) =
    sum N (fun i => if (i - (s + r)) mod w =? 0 then f i else zero).
  Proof.
    intros Hw HN. destruct (nblocks_spec N w Hw ltac:(lia)) as (A & _ & B). specialize (B HN).
    transitivity (sum (nblocks N w) (fun k => (fun i => if i <? N then f i else zero) ((k * w + (s + r)) mod (nblocks N w * w)))).
    { apply zsum_ext. intros k Hk. cbv beta. replace (k * w + r - - s) with (k * w + (s + r)) by lia. reflexivity. }
    rewrite (zsum_residue V add zero add_comm add_assoc add_zero (nblocks N w) w (s + r)
      (fun i => if i <? N then f i else zero) B Hw).
    rewrite <- (zsum_pad V add zero add_comm add_assoc add_zero N (nblocks N w * w)) by lia.
    apply zsum_ext. intros i Hi. rewrite cong_iff by assumption.
    destruct (i <? N), ((i - (s + r)) mod w =? 0); reflexivity.
  Qed.

  Lemma fim_val im xmin ymin nxw nyw r b :
    0 < nxw -> 0 < nyw -> 0 < nrow im -> 0 < ncol im ->
    let nx := nblocks (ncol im) nxw in let ny := nblocks (nrow im) nyw in
    let sim := aroll (apad zero im (ny * nyw - nrow im) (nx * nxw - ncol im)) (- ymin) (- xmin) in
    sum ny (fun k => sum nx (fun l => elt sim (k * nyw + r) (l * nxw + b))) =
    congruent_sum V add zero (fun x y => elt im y x) 0 (ncol im) 0 (nrow im) nxw nyw (xmin + b) (ymin + r).
  Proof.
    intros Hx Hy Hr Hc nx ny sim. unfold congruent_sum.
    transitivity (sum ny (fun k => (fun i => if i <? nrow im then
        sum (ncol im) (fun j => if (j - (xmin + b)) mod nxw =? 0 then elt im i j else zero) else zero)
      ((k * nyw + r - - ymin) mod (ny * nyw)))).
    - apply zsum_ext. intros k Hk. unfold sim, aroll, apad. cbn [elt nrow ncol].
      replace (nrow im + (ny * nyw - nrow im)) with (ny * nyw) by lia.
      replace (ncol im + (nx * nxw - ncol im)) with (nx * nxw) by lia.
      set (i := (k * nyw + r - - ymin) mod (ny * nyw)).
      destruct (i <? nrow im) eqn:E.
      + rewrite <- (axis_sum (ncol im) nxw b xmin (fun j => elt im i j)) by assumption.
        apply zsum_ext. intros l Hl. fold nx. cbn [andb]. reflexivity.
      + apply zsum_zero; auto with mon.
    - unfold ny. rewrite (axis_sum (nrow im) nyw r ymin (fun i => sum (ncol im) (fun j => if (j - (xmin + b)) mod nxw =? 0 then elt im i j else zero))) by assumption.
      apply zsum_ext. intros i Hi. rewrite !Z.add_0_l.
      destruct ((i - (ymin + r)) mod nyw =? 0); cbn [andb].
      + apply zsum_ext. intros j Hj. rewrite !Z.add_0_l. reflexivity.
      + symmetry. apply zsum_zero; auto with mon.
  Qed.

  (** wrap_nonhermitian on a region inside the array *)
  Lemma wrap_nonhermitian_spec im xmin ymin nxw nyw :
    0 < nxw -> 0 < nyw -> 0 <= xmin -> xmin + nxw <= ncol im -> 0 <= ymin -> ymin + nyw <= nrow im ->
    exists a, wrap_nonhermitian V add zero im xmin ymin nxw nyw = Ok a /\
      nrow a = nrow im /\ ncol a = ncol im /\
      forall i j, elt a i j =
        if (ymin <=? i) && (i <? ymin + nyw) && (xmin <=? j) && (j <? xmin + nxw)
        then congruent_sum V add zero (fun x y => elt im y x) 0 (ncol im) 0 (nrow im) nxw nyw j i
        else elt im i j.
  Proof.
    intros Hx Hy Hx0 Hx1 Hy0 Hy1. unfold wrap_nonhermitian.
    destruct (Z.eqb_spec nxw 0); [lia|]. destruct (Z.eqb_spec nyw 0); [lia|]. cbn [orb].
    set (nx := nblocks (ncol im) nxw). set (ny := nblocks (nrow im) nyw).
    set (sim := aroll _ _ _).
    set (fim := if 50 <? nx * ny then _ else _).
    destruct (nblocks_spec (ncol im) nxw Hx ltac:(lia)) as (Ax & Bx & _).
    destruct (nblocks_spec (nrow im) nyw Hy ltac:(lia)) as (Ay & By & _).
    fold nx in Ax, Bx. fold ny in Ay, By.
    assert (Hsr : nrow sim = ny * nyw) by (unfold sim, aroll, apad; cbn; lia).
    assert (Hsc : ncol sim = nx * nxw) by (unfold sim, aroll, apad; cbn; lia).
    assert (Hfr : nrow fim = nyw) by (unfold fim; destruct (50 <? nx * ny); reflexivity).
    assert (Hfc : ncol fim = nxw) by (unfold fim; destruct (50 <? nx * ny); reflexivity).
    assert (Hf : forall r b, elt fim r b = congruent_sum V add zero (fun x y => elt im y x) 0 (ncol im) 0 (nrow im) nxw nyw (xmin + b) (ymin + r)).
    { intros r b. rewrite <- (fim_val im xmin ymin nxw nyw r b) by lia. fold nx ny sim.
      unfold fim. destruct (50 <? nx * ny); [apply index_val; assumption|apply loop_val]. }
    unfold dyn_update_slice. rewrite Hfr, Hfc.
    destruct (Z.leb_spec nyw (nrow im)); [|lia]. destruct (Z.leb_spec nxw (ncol im)); [|lia]. cbn [andb].
    eexists. split; [reflexivity|]. split; [reflexivity|]. split; [reflexivity|].
    intros i j. unfold slice_set, clampi. cbn [elt].
    replace (Z.max 0 (Z.min ymin (nrow im - nyw))) with ymin by lia.
    replace (Z.max 0 (Z.min xmin (ncol im - nxw))) with xmin by lia.
    destruct ((ymin <=? i) && (i <? ymin + nyw) && (xmin <=? j) && (j <? xmin + nxw)); [|reflexivity].
    rewrite Hf. f_equal; lia.
  Qed.

  (** congruence sums over a complete set of residues add up to the whole *)
  Lemma congruent_total F x1 nx y1 ny wx wy x0 y0 : 0 < wx -> 0 < wy ->
    rect_sum V add zero (fun x y => congruent_sum V add zero F x1 nx y1 ny wx wy x y) x0 wx y0 wy =
    rect_sum V add zero F x1 nx y1 ny.
  Proof.
    intros Hx Hy. unfold rect_sum, congruent_sum.
    transitivity (sum wy (fun r => sum ny (fun i => if i mod wy =? (y0 - y1 + r) mod wy then
      sum nx (fun j => F (x1 + j) (y1 + i)) else zero))).
    - apply zsum_ext. intros r Hr.
      rewrite (zsum_swap V add zero add_comm add_assoc add_zero). apply zsum_ext. intros i Hi.
      rewrite cong_iff by assumption. replace (i - (y0 - y1 + r)) with (y1 + i - (y0 + r)) by lia.
      destruct ((y1 + i - (y0 + r)) mod wy =? 0); cbn [andb].
      + rewrite <- (zsum_all_residues V add zero add_comm add_assoc add_zero nx wx (x0 - x1) (fun j => F (x1 + j) (y1 + i))) by assumption.
        apply zsum_ext. intros b Hb. apply zsum_ext. intros j Hj. rewrite cong_iff by assumption.
        replace (j - (x0 - x1 + b)) with (x1 + j - (x0 + b)) by lia. reflexivity.
      + apply zsum_zero; auto with mon. intros b Hb. apply zsum_zero; auto with mon.
    - apply (zsum_all_residues V add zero add_comm add_assoc add_zero ny wy (y0 - y1) (fun i => sum nx (fun j => F (x1 + j) (y1 + i)))). assumption.
  Qed.

  (** change of origin and of the summand *)
  Lemma congruent_sum_shift F G x1 y1 nx ny wx wy x y dx dy :
    (forall i j, 0 <= i < ny -> 0 <= j < nx -> F (x1 + j) (y1 + i) = G (x1 + dx + j) (y1 + dy + i)) ->
    congruent_sum V add zero F x1 nx y1 ny wx wy x y =
    congruent_sum V add zero G (x1 + dx) nx (y1 + dy) ny wx wy (x + dx) (y + dy).
  Proof.
    intros H. unfold congruent_sum. apply zsum_ext. intros i Hi. apply zsum_ext. intros j Hj.
    replace (y1 + dy + i - (y + dy)) with (y1 + i - y) by lia.
    replace (x1 + dx + j - (x + dx)) with (x1 + j - x) by lia.
    destruct (_ && _); [apply H; assumption|reflexivity].
  Qed.

  (** ** Hermitian images *)
  (** The full-plane function F restricted to x >= 0, |y| <= ymax, stored with rows y = -ymax.. *)
  Definition half_x (F : Z -> Z -> V) (xmax ymax : Z) (im : arr V) : Prop :=
    nrow im = 2 * ymax + 1 /\ ncol im = xmax + 1 /\
    forall i j, 0 <= i < nrow im -> 0 <= j < ncol im -> elt im i j = F j (i - ymax).
  Definition half_y (F : Z -> Z -> V) (xmax ymax : Z) (im : arr V) : Prop :=
    nrow im = ymax + 1 /\ ncol im = 2 * xmax + 1 /\
    forall i j, 0 <= i < nrow im -> 0 <= j < ncol im -> elt im i j = F (j - xmax) i.

  Lemma wrap_hermitian_x_spec F xmax ymax im bx bymin nyw :
    hermitianF V conj F -> half_x F xmax ymax im -> 0 < bx <= xmax -> 0 < nyw -> - ymax <= bymin -> bymin + nyw <= ymax + 1 ->
    exists a, wrap_hermitian_x V add zero conj im (- xmax) (- ymax) (- bx + 1) bymin (2 * bx) nyw = Ok a /\
      nrow a = nrow im /\ ncol a = ncol im /\
      forall x y, 0 <= x <= xmax -> -ymax <= y <= ymax ->
        elt a (y + ymax) x =
        if (x <=? bx) && (bymin <=? y) && (y <? bymin + nyw)
        then congruent_sum V add zero F (- xmax) (2 * xmax + 1) (- ymax) (2 * ymax + 1) (2 * bx) nyw x y
        else F x y.
  Proof.
    intros HF (Hr & Hc & He) Hbx Hny Hb1 Hb2.
    assert (Ex : forall i j, 0 <= i < 2 * ymax + 1 -> 0 <= j < 2 * xmax + 1 ->
       elt (expand_hermitian_x V conj im) i j = F (j - xmax) (i - ymax)).
    { intros i j Hi Hj. unfold expand_hermitian_x, aconcat1, amap, afliplr, aflipud, slice. cbn [elt nrow ncol].
      destruct (Z.ltb_spec j (ncol im - 1)).
      - rewrite He by lia. rewrite <- HF. f_equal; lia.
      - rewrite He by lia. f_equal; lia. }
    unfold wrap_hermitian_x.
    assert (Er : nrow (expand_hermitian_x V conj im) = 2 * ymax + 1) by (unfold expand_hermitian_x, aconcat1, expand_hermitian_y, aconcat0, amap, afliplr, aflipud, slice; cbn [nrow ncol]; lia).
    assert (Ec : ncol (expand_hermitian_x V conj im) = 2 * xmax + 1) by (unfold expand_hermitian_x, aconcat1, expand_hermitian_y, aconcat0, amap, afliplr, aflipud, slice; cbn [nrow ncol]; lia).
    destruct (wrap_nonhermitian_spec (expand_hermitian_x V conj im) (- bx + 1 - - xmax) (bymin - - ymax) (2 * bx) nyw) as (a & -> & Ar & Ac & Ae); try lia.
    exists (contract_hermitian_x V a). split; [reflexivity|]. unfold contract_hermitian_x.
    cbn [nrow ncol slice elt]. rewrite Ar, Ac, Er, Ec.
    assert (Hh : (2 * xmax + 1) / 2 = xmax) by lia.
    rewrite Hh. split; [lia|]. split; [lia|].
    intros x y Hx Hy. rewrite Ae, Er, Ec. rewrite !Z.add_0_r.
    replace ((bymin - - ymax <=? y + ymax) && (y + ymax <? bymin - - ymax + nyw) && (- bx + 1 - - xmax <=? x + xmax) && (x + xmax <? - bx + 1 - - xmax + 2 * bx))
      with ((x <=? bx) && (bymin <=? y) && (y <? bymin + nyw)) by lia.
    destruct ((x <=? bx) && (bymin <=? y) && (y <? bymin + nyw)).
    - rewrite (congruent_sum_shift _ F 0 0 (2 * xmax + 1) (2 * ymax + 1) _ _ _ _ (- xmax) (- ymax)).
      + f_equal; lia.
      + intros i j Hi Hj. rewrite Ex by lia. f_equal; lia.
    - rewrite Ex by lia. f_equal; lia.
  Qed.

  Lemma wrap_hermitian_y_spec F xmax ymax im by_ bxmin nxw :
    hermitianF V conj F -> half_y F xmax ymax im -> 0 < by_ <= ymax -> 0 < nxw -> - xmax <= bxmin -> bxmin + nxw <= xmax + 1 ->
    exists a, wrap_hermitian_y V add zero conj im (- xmax) (- ymax) bxmin (- by_ + 1) nxw (2 * by_) = Ok a /\
      nrow a = nrow im /\ ncol a = ncol im /\
      forall x y, - xmax <= x <= xmax -> 0 <= y <= ymax ->
        elt a y (x + xmax) =
        if (y <=? by_) && (bxmin <=? x) && (x <? bxmin + nxw)
        then congruent_sum V add zero F (- xmax) (2 * xmax + 1) (- ymax) (2 * ymax + 1) nxw (2 * by_) x y
        else F x y.
  Proof.
    intros HF (Hr & Hc & He) Hby Hnx Hb1 Hb2.
    assert (Ex : forall i j, 0 <= i < 2 * ymax + 1 -> 0 <= j < 2 * xmax + 1 ->
       elt (expand_hermitian_y V conj im) i j = F (j - xmax) (i - ymax)).
    { intros i j Hi Hj. unfold expand_hermitian_y, aconcat0, amap, afliplr, aflipud, slice. cbn [elt nrow ncol].
      destruct (Z.ltb_spec i (nrow im - 1)).
      - rewrite He by lia. rewrite <- HF. f_equal; lia.
      - rewrite He by lia. f_equal; lia. }
    unfold wrap_hermitian_y.
    assert (Er : nrow (expand_hermitian_y V conj im) = 2 * ymax + 1) by (unfold expand_hermitian_x, aconcat1, expand_hermitian_y, aconcat0, amap, afliplr, aflipud, slice; cbn [nrow ncol]; lia).
    assert (Ec : ncol (expand_hermitian_y V conj im) = 2 * xmax + 1) by (unfold expand_hermitian_x, aconcat1, expand_hermitian_y, aconcat0, amap, afliplr, aflipud, slice; cbn [nrow ncol]; lia).
    destruct (wrap_nonhermitian_spec (expand_hermitian_y V conj im) (bxmin - - xmax) (- by_ + 1 - - ymax) nxw (2 * by_)) as (a & -> & Ar & Ac & Ae); try lia.
    exists (contract_hermitian_y V a). split; [reflexivity|]. unfold contract_hermitian_y.
    cbn [nrow ncol slice elt]. rewrite Ar, Ac, Er, Ec.
    assert (Hh : (2 * ymax + 1) / 2 = ymax) by lia.
    rewrite Hh. split; [lia|]. split; [lia|].
    intros x y Hx Hy. rewrite Ae, Er, Ec. rewrite !Z.add_0_r.
    replace ((- by_ + 1 - - ymax <=? y + ymax) && (y + ymax <? - by_ + 1 - - ymax + 2 * by_) && (bxmin - - xmax <=? x + xmax) && (x + xmax <? bxmin - - xmax + nxw))
      with ((y <=? by_) && (bxmin <=? x) && (x <? bxmin + nxw)) by lia.
    destruct ((y <=? by_) && (bxmin <=? x) && (x <? bxmin + nxw)).
    - rewrite (congruent_sum_shift _ F 0 0 (2 * xmax + 1) (2 * ymax + 1) _ _ _ _ (- xmax) (- ymax)).
      + f_equal; lia.
      + intros i j Hi Hj. rewrite Ex by lia. f_equal; lia.
    - rewrite Ex by lia. f_equal; lia.
  Qed.
End P.
