(** Proofs about == and hash of profiles. *)
From Coq Require Import Reals Bool List String Lra Lia.
From Verif Require Import Base Bounds_Model Bounds_Proofs Geo_Model GSP_Model Prof_Model Prof_Proofs PEq_Model PEq_Spec.
Import ListNotations.
Open Scope R_scope.

Lemma qprof_ind2 : forall P : qprof -> Prop,
  (forall k ps g, P (QLeaf k ps g)) -> (forall o J x y fr g pg, P o -> P (QTr o J x y fr g pg)) ->
  (forall l g pg, Forall P l -> P (QSum l g pg)) -> (forall l g pg, Forall P l -> P (QConv l g pg)) ->
  (forall o g pg, P o -> P (QDec o g pg)) -> forall p, P p.
Proof.
  intros P HL HT HS HC HD. fix IH 1. intros [k ps g|o J x y fr g pg|l g pg|l g pg|o g pg].
  - apply HL.
  - apply HT. apply IH.
  - apply HS. induction l as [|a l IHl]; constructor; [apply IH|exact IHl].
  - apply HC. induction l as [|a l IHl]; constructor; [apply IH|exact IHl].
  - apply HD. apply IH.
Qed.
Lemma cls_spec : forall a b, reflect (a = b) (cls_eqb a b).
Proof. intros [] []; constructor; congruence. Qed.
Lemma same_refl : forall {A} (f : A -> A -> bool) l, Forall (fun a => f a a = true) l -> same_list f l l = true.
Proof. intros A f l F. induction F as [|a l H F IH]; [reflexivity|]. cbn [same_list]. rewrite H. exact IH. Qed.
Lemma same_sym : forall {A} (f : A -> A -> bool) l, Forall (fun a => forall b, f a b = f b a) l -> forall l', same_list f l l' = same_list f l' l.
Proof.
  intros A f l F. induction F as [|a l H F IH]; intros [|b l']; try reflexivity. cbn [same_list].
  fold (same_list f l l'). fold (same_list f l' l). rewrite H, IH. reflexivity.
Qed.
Lemma same_spec : forall {A B} (f : A -> A -> bool) (g : A -> B) (Q : A -> Prop) l, Forall (fun a => forall b, Q b -> (f a b = true <-> g a = g b)) l ->
  forall l', Forall Q l' -> (same_list f l l' = true <-> map g l = map g l').
Proof.
  intros A B f g Q l F. induction F as [|a l H F IH]; intros [|b l'] G; cbn [same_list map].
  - split; reflexivity.
  - split; discriminate.
  - split; discriminate.
  - fold (same_list f l l'). inversion G as [|b' l0 Qb G']; subst. rewrite andb_true_iff, (H b Qb), (IH l' G'). split; [intros [-> ->]; reflexivity|].
    intro E. injection E as E1 E2. split; assumption.
Qed.
Lemma Reqb_refl' : forall x, Reqb x x = true.
Proof. intro x. destruct (Reqb_spec x x); congruence. Qed.
Lemma Reqb_sym' : forall x y, Reqb x y = Reqb y x.
Proof. intros x y. destruct (Reqb_spec x y), (Reqb_spec y x); congruence. Qed.
Lemma Reqb_iff : forall x y, Reqb x y = true <-> x = y.
Proof. intros x y. destruct (Reqb_spec x y); split; congruence. Qed.
Lemma gsp_refl : forall g, gspR_eqb g g = true.
Proof. intro g. destruct (gspR_eqb_spec g g); congruence. Qed.
Lemma gsp_sym : forall g h, gspR_eqb g h = gspR_eqb h g.
Proof. intros g h. destruct (gspR_eqb_spec g h), (gspR_eqb_spec h g); congruence. Qed.
Lemma gsp_iff : forall g h, gspR_eqb g h = true <-> g = h.
Proof. intros g h. destruct (gspR_eqb_spec g h); split; congruence. Qed.
Lemma bool_sym : forall a b, Bool.eqb a b = Bool.eqb b a.
Proof. intros [] []; reflexivity. Qed.
Lemma cls_sym : forall a b, cls_eqb a b = cls_eqb b a.
Proof. intros [] []; reflexivity. Qed.
Lemma every : forall (ok : num -> Prop) l, fold_right (fun o acc => nums ok o /\ acc) True l <-> Forall (nums ok) l.
Proof.
  intros ok l. induction l as [|a l IH]; cbn [fold_right]; [split; constructor|]. rewrite IH. split; [intros [H F]; constructor; assumption|].
  intro F. inversion F; subst. split; assumption.
Qed.
Lemma every_num : forall (ok : num -> Prop) l, fold_right (fun a acc => ok a /\ acc) True l <-> Forall ok l.
Proof.
  intros ok l. induction l as [|a l IH]; cbn [fold_right]; [split; constructor|]. rewrite IH. split; [intros [H F]; constructor; assumption|].
  intro F. inversion F; subst. split; assumption.
Qed.

Section PEq.
  Variable rnd : R -> R.
  Lemma num_refl : forall a, num_eq rnd a a = true.
  Proof. intros [x|x]; apply Reqb_refl'. Qed.
  Lemma num_sym : forall a b, num_eq rnd a b = num_eq rnd b a.
  Proof. intros [x|x] [y|y]; apply Reqb_sym'. Qed.
  Lemma peq_refl : forall p, peq rnd p p = true.
  Proof.
    intro p. induction p as [k ps g|o J x y fr g pg IH|l g pg IH|l g pg IH|o g pg IH] using qprof_ind2; cbn [peq].
    - rewrite gsp_refl, (same_refl _ ps) by (apply Forall_forall; intros a _; apply num_refl). destruct (cls_spec k k); [reflexivity|congruence].
    - rewrite IH, !num_refl, gsp_refl, eqb_reflx, (same_refl Reqb) by (apply Forall_forall; intros a _; apply Reqb_refl'). reflexivity.
    - rewrite gsp_refl, eqb_reflx, (same_refl _ l IH). reflexivity.
    - rewrite gsp_refl, eqb_reflx, (same_refl _ l IH). reflexivity.
    - rewrite IH, gsp_refl, eqb_reflx. reflexivity.
  Qed.
  Lemma peq_sym : forall p q, peq rnd p q = peq rnd q p.
  Proof.
    intro p. induction p as [k ps g|o J x y fr g pg IH|l g pg IH|l g pg IH|o g pg IH] using qprof_ind2; intros [k' ps' g'|o' J' x' y' fr' g' pg'|l' g' pg'|l' g' pg'|o' g' pg'];
      try reflexivity; cbn [peq]; rewrite gsp_sym.
    - rewrite cls_sym, (same_sym _ ps) by (apply Forall_forall; intros a _; apply num_sym). reflexivity.
    - rewrite IH, (num_sym x), (num_sym y), (num_sym fr), bool_sym, (same_sym Reqb) by (apply Forall_forall; intros a _; apply Reqb_sym'). reflexivity.
    - rewrite bool_sym, (same_sym _ l IH). reflexivity.
    - rewrite bool_sym, (same_sym _ l IH). reflexivity.
    - rewrite IH, bool_sym. reflexivity.
  Qed.

  Section Ok.
    Variable ok : num -> Prop.
    Hypothesis Hok : forall a b, ok a -> ok b -> (num_eq rnd a b = true <-> item a = item b).
    Lemma jac_iff : forall J J', same_list Reqb (jac_ rnd J) (jac_ rnd J') = true <-> jac_ rnd J = jac_ rnd J'.
    Proof.
      intros J J'. rewrite (same_spec Reqb (fun x : R => x) (fun _ => True)).
      - rewrite !map_id. reflexivity.
      - apply Forall_forall. intros x _ y _. apply Reqb_iff.
      - apply Forall_forall. intros x _. exact Logic.I.
    Qed.
    Lemma py_map : forall l l', map (fun a => Py (item a)) l = map (fun a => Py (item a)) l' <-> map item l = map item l'.
    Proof.
      induction l as [|a l IH]; intros [|b l']; cbn [map]; try (split; discriminate); [split; reflexivity|].
      split; intro E; injection E as E1 E2; [rewrite E1; f_equal; apply IH; exact E2|rewrite E1; f_equal; apply IH; exact E2].
    Qed.
    Lemma peq_says : forall p q, nums ok p -> nums ok q -> (peq rnd p q = true <-> says rnd p = says rnd q).
    Proof using Hok.
      intro p. induction p as [k ps g|o J x y fr g pg IH|l g pg IH|l g pg IH|o g pg IH] using qprof_ind2; intros [k' ps' g'|o' J' x' y' fr' g' pg'|l' g' pg'|l' g' pg'|o' g' pg'] Np Nq;
        try (cbn [peq says]; try destruct J as [[[? ?] ?] ?]; try destruct J' as [[[? ?] ?] ?]; split; discriminate); cbn [peq]; cbn [nums] in Np, Nq.
      - rewrite !andb_true_iff, gsp_iff. apply every_num in Np. apply every_num in Nq.
        rewrite (same_spec (num_eq rnd) item ok ps).
        2:{ rewrite Forall_forall in *. intros a Ha b Hb. apply Hok; auto. }
        2:{ exact Nq. }
        destruct (cls_spec k k') as [->|N]; cbn [says]; [|split; [intros [K _]; discriminate|intro E; injection E; intros; contradiction]].
        rewrite <- py_map. split; [intros (_ & -> & ->); reflexivity|intro E; injection E as E1 E2; repeat split; assumption].
      - destruct Np as (No & Nx & Ny & Nf), Nq as (No' & Nx' & Ny' & Nf').
        rewrite !andb_true_iff, gsp_iff, eqb_true_iff, (IH o' No No'), (Hok x x' Nx Nx'), (Hok y y' Ny Ny'), (Hok fr fr' Nf Nf'), jac_iff.
        destruct J as [[[a b] c] d], J' as [[[a' b'] c'] d']. cbn [says jac_]. split.
        + intros (((((E1 & E2) & E3 & E4) & E5) & E6) & E7). injection E2 as -> -> -> ->. rewrite E1, E3, E4, E5, E6, E7. reflexivity.
        + intro E. injection E as E1 E2 E3 E4 E5 E6 E7 E8 E9 E10. rewrite E2, E3, E4, E5. repeat split; assumption.
      - apply every in Np. apply every in Nq. rewrite !andb_true_iff, gsp_iff, eqb_true_iff. cbn [says].
        rewrite (same_spec (peq rnd) (says rnd) (nums ok) l).
        2:{ rewrite Forall_forall in *. intros a Ha b Hb. apply IH; auto. }
        2:{ exact Nq. }
        split; [intros (-> & -> & ->); reflexivity|intro E; injection E as E1 E2 E3; repeat split; assumption].
      - apply every in Np. apply every in Nq. rewrite !andb_true_iff, gsp_iff, eqb_true_iff. cbn [says].
        rewrite (same_spec (peq rnd) (says rnd) (nums ok) l).
        2:{ rewrite Forall_forall in *. intros a Ha b Hb. apply IH; auto. }
        2:{ exact Nq. }
        split; [intros ((-> & ->) & ->); reflexivity|intro E; injection E as E1 E2 E3; repeat split; assumption].
      - rewrite !andb_true_iff, gsp_iff, eqb_true_iff, (IH o' Np Nq). cbn [says].
        split; [intros ((-> & ->) & ->); reflexivity|intro E; injection E as E1 E2 E3; repeat split; assumption].
    Qed.
  End Ok.

  Hypothesis idem : forall x, rnd (rnd x) = rnd x.
  Lemma key_says : forall p, hkey rnd (says rnd p) = hkey rnd p.
  Proof using idem.
    intro p. induction p as [k ps g|o J x y fr g pg IH|l g pg IH|l g pg IH|o g pg IH] using qprof_ind2; cbn [says].
    - cbn [hkey]. rewrite map_map. reflexivity.
    - destruct J as [[[a b] c] d]. cbn [hkey jac_ item]. rewrite IH, !idem. reflexivity.
    - cbn [hkey]. rewrite map_map. do 3 f_equal. f_equal. apply map_ext_in. rewrite Forall_forall in IH. exact IH.
    - cbn [hkey]. rewrite map_map. do 3 f_equal. f_equal. apply map_ext_in. rewrite Forall_forall in IH. exact IH.
    - cbn [hkey]. rewrite IH. reflexivity.
  Qed.
  Lemma says_hash : forall p q h, says rnd p = says rnd q -> hash_of rnd h p = hash_of rnd h q.
  Proof using idem. intros p q h E. unfold hash_of. rewrite <- (key_says p), E, key_says. reflexivity. Qed.
  Lemma exact_ok : forall a b, exact_num rnd a -> exact_num rnd b -> (num_eq rnd a b = true <-> item a = item b).
  Proof. unfold exact_num. intros [x|x] [y|y] A B; cbn [num_eq item] in *; try rewrite A, B; apply Reqb_iff. Qed.
  Lemma python_ok : forall a b, python_num a -> python_num b -> (num_eq rnd a b = true <-> item a = item b).
  Proof. intros [x|x] [y|y] A B; try contradiction. apply Reqb_iff. Qed.
  Lemma peq_traced : forall p, peq rnd p (traced rnd p) = true.
  Proof using idem.
    assert (N : forall a, num_eq rnd a (jx rnd a) = true) by (intros [x|x]; unfold jx; cbn [num_eq item]; rewrite idem; apply Reqb_refl').
    assert (M : forall l (f : qprof -> qprof), Forall (fun p => peq rnd p (f p) = true) l -> same_list (peq rnd) l (map f l) = true).
    { intros l f F. induction F as [|a l H F IH]; [reflexivity|]. cbn [same_list map]. rewrite H. exact IH. }
    intro p. induction p as [k ps g|o J x y fr g pg IH|l g pg IH|l g pg IH|o g pg IH] using qprof_ind2.
    - cbn [traced peq]. rewrite gsp_refl. assert (E : same_list (num_eq rnd) ps (map (jx rnd) ps) = true).
      { induction ps as [|a ps IH]; [reflexivity|]. cbn [same_list map]. rewrite N. exact IH. }
      rewrite E. destruct (cls_spec k k); [reflexivity|congruence].
    - destruct J as [[[a b] c] d]. cbn [traced peq]. rewrite IH, !N, gsp_refl, eqb_reflx.
      replace (jac_ rnd (rnd a, rnd b, rnd c, rnd d)) with (jac_ rnd (a, b, c, d)) by (cbn [jac_]; rewrite !idem; reflexivity).
      rewrite (same_refl Reqb) by (apply Forall_forall; intros z _; apply Reqb_refl'). reflexivity.
    - cbn [traced peq]. rewrite (M l _ IH), gsp_refl, eqb_reflx. reflexivity.
    - cbn [traced peq]. rewrite (M l _ IH), gsp_refl, eqb_reflx. reflexivity.
    - cbn [traced peq]. rewrite IH, gsp_refl, eqb_reflx. reflexivity.
  Qed.
  Lemma traced_exact : forall p, nums (exact_num rnd) (traced rnd p).
  Proof using idem.
    assert (N : forall a, exact_num rnd (jx rnd a)) by (intro a; unfold exact_num, jx; cbn [item]; apply idem).
    intro p. induction p as [k ps g|o J x y fr g pg IH|l g pg IH|l g pg IH|o g pg IH] using qprof_ind2.
    - cbn [traced nums]. apply every_num. apply Forall_forall. intros a Ha. apply in_map_iff in Ha. destruct Ha as (b & <- & _). apply N.
    - destruct J as [[[a b] c] d]. cbn [traced nums]. repeat split; auto.
    - cbn [traced nums]. apply every. rewrite Forall_forall in *. intros a Ha. apply in_map_iff in Ha. destruct Ha as (b & <- & Hb). apply IH; exact Hb.
    - cbn [traced nums]. apply every. rewrite Forall_forall in *. intros a Ha. apply in_map_iff in Ha. destruct Ha as (b & <- & Hb). apply IH; exact Hb.
    - exact IH.
  Qed.
  Lemma mixed : forall x f g, rnd x <> x -> let G s := QLeaf KGaussian [s; Py f] g in
    peq rnd (G (Py x)) (G (Jx (rnd x))) = true /\ peq rnd (G (Jx (rnd x))) (G (Py (rnd x))) = true /\ peq rnd (G (Py x)) (G (Py (rnd x))) = false /\
    exists h, hash_of rnd h (G (Py x)) <> hash_of rnd h (G (Jx (rnd x))).
  Proof using idem.
    intros x f g N G. unfold G. cbn [peq same_list cls_eqb num_eq item]. rewrite !idem, gsp_refl, !Reqb_refl'. repeat split.
    - destruct (Reqb_spec x (rnd x)); [congruence|reflexivity].
    - exists (fun k => match k with HTup (_ :: HNum s :: _) => if Reqb s x then 0%Z else 1%Z | _ => 0%Z end).
      unfold hash_of. cbn [hkey leaf_name leaf_nums map item List.app]. rewrite Reqb_refl'. destruct (Reqb_spec (rnd x) x); [congruence|discriminate].
  Qed.
End PEq.
