(** Sums, convolutions and gsparams of profile trees. *)
From Coq Require Import Reals Bool List Lra Lia Psatz Permutation.
From Coquelicot Require Import Complex.
From Verif Require Import Base Bounds_Model Bounds_Proofs Geo_Model Geo_Proofs GSP_Model GSP_Spec GSP_Proofs Prof_Model Prof_Spec Prof_Proofs Prof_Draw.
Import ListNotations.
Open Scope R_scope.

(** * Combining gsparams with real values *)
Definition emb (g : gspR) : gsp pnum := gbuild (fun f => PFlt (gget f g)).
Lemma gget_gbuild : forall A (h : field -> A) f, gget f (gbuild h) = h f.
Proof. intros A h []; reflexivity. Qed.
Lemma emb_inj : forall a b, same (emb a) (emb b) -> a = b.
Proof. intros a b H. apply gsp_ext. intros f. specialize (H f). unfold emb in H. rewrite !gget_gbuild in H. exact H. Qed.
Lemma pmin_emb : forall l x, pmin plt (PFlt x) (map PFlt l) = PFlt (pmin Rltb x l).
Proof.
  unfold pmin. induction l as [|a l IH]; intros x; cbn [map fold_left]; auto. unfold plt at 2. cbn [pval]. destruct (Rltb a x); apply IH.
Qed.
Lemma pmax_emb : forall l x, pmax plt (PFlt x) (map PFlt l) = PFlt (pmax Rltb x l).
Proof.
  unfold pmax. induction l as [|a l IH]; intros x; cbn [map fold_left]; auto. unfold plt at 2. cbn [pval]. destruct (Rltb x a); apply IH.
Qed.
Lemma eqb_emb : forall a b, gsp_eqb peq (emb a) (emb b) = gspR_eqb a b.
Proof. intros a b. reflexivity. Qed.
Lemma combine_emb : forall l, combine plt peq (map emb l) = match gspR_combine l with Ok c => Ok (emb c) | Err e => Err e end.
Proof.
  intros [|a [|b t]]; try reflexivity. unfold gspR_combine, combine. change (map emb (a :: b :: t)) with (emb a :: emb b :: map emb t). cbv iota beta.
  replace (forallb (fun x => gsp_eqb peq x (emb a)) (emb b :: map emb t)) with (forallb (fun x => gsp_eqb Reqb x a) (b :: t)).
  2:{ change (emb b :: map emb t) with (map emb (b :: t)). generalize (b :: t). intros l.
      induction l as [|c l IH]; cbn [map forallb]; auto. rewrite IH. reflexivity. }
  destruct (forallb (fun x => gsp_eqb Reqb x a) (b :: t)); auto. cbv zeta. change (emb b :: map emb t) with (map emb (b :: t)). generalize (b :: t). clear b t. intros l.
  assert (MX : forall (h : gsp pnum -> pnum) (h' : gspR -> R), (forall g, h (emb g) = PFlt (h' g)) -> pmax plt (h (emb a)) (map h (map emb l)) = PFlt (pmax Rltb (h' a) (map h' l))).
  { intros h h' E. rewrite E, map_map, <- pmax_emb, map_map. f_equal. apply map_ext. auto. }
  assert (MN : forall (h : gsp pnum -> pnum) (h' : gspR -> R), (forall g, h (emb g) = PFlt (h' g)) -> pmin plt (h (emb a)) (map h (map emb l)) = PFlt (pmin Rltb (h' a) (map h' l))).
  { intros h h' E. rewrite E, map_map, <- pmin_emb, map_map. f_equal. apply map_ext. auto. }
  f_equal. apply gsp_ext. intros f. match goal with |- _ = gget _ (emb ?x) => change (emb x) with (gbuild (fun f => PFlt (gget f x))) end. rewrite gget_gbuild.
  destruct f; cbn [gget g_min g_max g_fold g_hlr g_maxk g_kacc g_xacc g_tab g_rrel g_rabs g_irel g_iabs g_shoot]; first [apply MX|apply MN]; reflexivity.
Qed.
Definition combinesR (l : list gspR) (c : gspR) : Prop := combines (map emb l) (emb c).
Lemma combineR_ok : forall l, l <> [] -> exists c, gspR_combine l = Ok c /\ combinesR l c.
Proof.
  intros l N. destruct (combine_combines (map emb l)) as (c & E & P). { destruct l; [congruence|discriminate]. }
  rewrite combine_emb in E. destruct (gspR_combine l) as [d|]; [|discriminate]. injection E as <-. exists d. auto.
Qed.
Lemma combinesR_unique : forall l l' c c', (forall g, In g l <-> In g l') -> combinesR l c -> combinesR l' c' -> c = c'.
Proof.
  intros l l' c c' I A B. apply emb_inj. apply (combines_unique (map emb l) (map emb l')); auto.
  intros g. rewrite !in_map_iff. split; intros (x & E & X); exists x; split; auto; apply I; auto.
Qed.
Lemma combineR_incl : forall l l', l <> [] -> (forall g, In g l <-> In g l') -> gspR_combine l = gspR_combine l'.
Proof.
  intros l l' N I. destruct (combineR_ok l N) as (c & E & P). assert (N' : l' <> []). { intros ->. destruct l as [|a]; [congruence|]. apply (I a). left; auto. }
  destruct (combineR_ok l' N') as (c' & E' & P'). rewrite E, E'. f_equal. eapply combinesR_unique; eauto.
Qed.
(** Replacing members by what they combine to changes nothing. *)
Lemma combineR_stage : forall l1 m l2 c m', m <> [] -> gspR_combine m = Ok c -> m' <> [] -> (forall g, In g m' -> g = c) ->
  gspR_combine (l1 ++ m' ++ l2) = gspR_combine (l1 ++ m ++ l2).
Proof.
  intros l1 m l2 c m' N E N' H. destruct (combineR_ok m N) as (d & Ed & P). assert (d = c) by congruence. subst d.
  assert (NE : forall k : list gspR, k <> [] -> l1 ++ k ++ l2 <> []). { intros k K. destruct l1, k; try discriminate; congruence. }
  destruct (combineR_ok (l1 ++ m' ++ l2) (NE _ N')) as (a & Ea & Pa). destruct (combineR_ok (l1 ++ m ++ l2) (NE _ N)) as (b & Eb & Pb).
  rewrite Ea, Eb. f_equal. apply (combinesR_unique (l1 ++ m ++ l2) (l1 ++ m ++ l2)); [tauto| |auto].
  assert (IC : In c m'). { destruct m' as [|x]; [congruence|]. left. apply H. left; auto. }
  unfold combinesR in *. intros f. destruct (Pa f) as [(g & I & V) S0]. split.
  - apply in_map_iff in I. destruct I as (x & <- & I). rewrite !in_app_iff in I. destruct I as [I|[I|I]].
    + exists (emb x). split; auto. apply in_map. rewrite !in_app_iff. auto.
    + apply H in I. subst x. destruct (P f) as [(y & Iy & Vy) _]. exists y. split; [|congruence]. apply in_map_iff in Iy. destruct Iy as (z & <- & Iz). apply in_map. rewrite !in_app_iff. auto.
    + exists (emb x). split; auto. apply in_map. rewrite !in_app_iff. auto.
  - intros g' I'. apply in_map_iff in I'. destruct I' as (x & <- & I'). rewrite !in_app_iff in I'. destruct I' as [I'|[I'|I']].
    + apply S0. apply in_map. rewrite !in_app_iff. auto.
    + apply strict_trans with (pval (gget f (emb c))). { apply S0. apply in_map. rewrite !in_app_iff. auto. } apply P. apply in_map. auto.
    + apply S0. apply in_map. rewrite !in_app_iff. auto.
Qed.

(** * Setting gsparams *)
Fixpoint setg (g : gspR) (p : prof) : prof :=
  match p with
  | PLeaf own fam fl _ => PLeaf own fam fl g
  | PTr o J off fr _ pg => PTr (setg g o) J off fr g pg
  | PSum l _ pg => PSum (map (setg g) l) g pg
  | PConv l _ pg => PConv (map (setg g) l) g pg
  | PDec o _ pg => PDec (setg g o) g pg
  end.
Lemma setg_same : forall h p, uniform h p -> setg h p = p.
Proof.
  intros h p. induction p as [own fam fl g|o J off fr g pg IH|l g pg IH|l g pg IH|o g pg IH] using prof_ind2; intros U; cbn [setg].
  - destruct U as [U _]. cbn in U. congruence.
  - destruct U as [[U _] V]. rewrite (IH V). congruence.
  - destruct U as [[U _] V]. apply every_list in V. rewrite Forall_forall in IH, V.
    replace (map (setg h) l) with l; [congruence|]. symmetry. rewrite <- (map_id l) at 2. apply map_ext_in. intros o Ho. apply IH; auto. apply V; auto.
  - destruct U as [[U _] V]. apply every_list in V. rewrite Forall_forall in IH, V.
    replace (map (setg h) l) with l; [congruence|]. symmetry. rewrite <- (map_id l) at 2. apply map_ext_in. intros o Ho. apply IH; auto. apply V; auto.
  - destruct U as [[U _] V]. rewrite (IH V). congruence.
Qed.
Lemma uniform_gs : forall h p, uniform h p -> gsparams p = h.
Proof. intros h [] U; destruct U as [U _]; cbn in *; tauto. Qed.
Lemma withGSP_unfold : forall g p, withGSP g p = if gspR_eqb g (gsparams p) then p else
  match p with
  | PLeaf own fam fl _ => PLeaf own fam fl g
  | PTr o J off fr _ pg => PTr (if pg then withGSP g o else o) J off fr g pg
  | PSum l _ pg =>
      PSum (flat_map (fun o => match o with
                               | PSum l' _ _ => map (fun o' => if pg then withGSP g o' else o') l'
                               | _ => [if pg then withGSP g o else o]
                               end) l) g pg
  | PConv l _ pg => PConv (map (fun o => if pg then withGSP g o else o) l) g pg
  | PDec o _ pg => PDec (if pg then withGSP g o else o) g pg
  end.
Proof. intros g []; reflexivity. Qed.
Lemma flat_map_single : forall A B (f : A -> list B) (h : A -> B) l, (forall a, In a l -> f a = [h a]) -> flat_map f l = map h l.
Proof.
  intros A B f h l. induction l as [|a l IH]; intros H; cbn [flat_map map]; auto. rewrite (H a) by (left; auto). cbn [app]. rewrite IH; auto. intros b Hb. apply H. right; auto.
Qed.
Lemma withGSP_setg : forall h g p, uniform h p -> withGSP g p = setg g p.
Proof.
  intros h g p. induction p as [own fam fl g0|o J off fr g0 pg IH|l g0 pg IH|l g0 pg IH|o g0 pg IH] using prof_ind2; intros U; rewrite withGSP_unfold;
    pose proof (uniform_gs h _ U) as G; cbn [gsparams] in G; subst g0; cbn [gsparams];
    (destruct (gspR_eqb_spec g h) as [->|NE]; [symmetry; apply setg_same; auto|]); cbn [setg].
  - reflexivity.
  - destruct U as [[_ ->] V]. rewrite (IH V). reflexivity.
  - destruct U as [(_ & -> & NS) V]. apply every_list in V. rewrite Forall_forall in IH, V, NS. f_equal. apply flat_map_single. intros o Ho.
    specialize (NS o Ho). rewrite <- (IH o Ho (V o Ho)). destruct o; try reflexivity. contradiction.
  - destruct U as [(_ & ->) V]. apply every_list in V. rewrite Forall_forall in IH, V. f_equal. apply map_ext_in. intros o Ho. apply IH; auto. apply V; auto.
  - destruct U as [[_ ->] V]. rewrite (IH V). reflexivity.
Qed.
Lemma uniform_setg : forall h g p, uniform h p -> uniform g (setg g p).
Proof.
  intros h g p. induction p as [own fam fl g0|o J off fr g0 pg IH|l g0 pg IH|l g0 pg IH|o g0 pg IH] using prof_ind2; intros U; cbn [setg].
  - split; cbn; auto.
  - destruct U as [[_ ->] V]. split; [split; auto|]. apply IH; auto.
  - destruct U as [(_ & -> & NS) V]. apply every_list in V. rewrite Forall_forall in IH, V, NS. split; [split; [|split]; auto|].
    + apply Forall_forall. intros o Ho. apply in_map_iff in Ho. destruct Ho as (x & <- & Hx). specialize (NS x Hx). destruct x; auto.
    + apply every_list. apply Forall_forall. intros o Ho. apply in_map_iff in Ho. destruct Ho as (x & <- & Hx). apply (IH x Hx). apply V; auto.
  - destruct U as [(_ & ->) V]. apply every_list in V. rewrite Forall_forall in IH, V. split; [split; auto|].
    apply every_list. apply Forall_forall. intros o Ho. apply in_map_iff in Ho. destruct Ho as (x & <- & Hx). apply (IH x Hx). apply V; auto.
  - destruct U as [[_ ->] V]. split; [split; auto|]. apply IH; auto.
Qed.
Lemma setg_setg : forall g c p, setg g (setg c p) = setg g p.
Proof.
  intros g c p. induction p as [own fam fl g0|o J off fr g0 pg IH|l g0 pg IH|l g0 pg IH|o g0 pg IH] using prof_ind2; cbn [setg]; try congruence.
  - rewrite map_map. f_equal. apply map_ext_in. rewrite Forall_forall in IH. auto.
  - rewrite map_map. f_equal. apply map_ext_in. rewrite Forall_forall in IH. auto.
Qed.
Lemma withGSP_twice : forall h g c p, uniform h p -> withGSP g (withGSP c p) = withGSP g p.
Proof.
  intros h g c p U. rewrite (withGSP_setg h c p U), (withGSP_setg c g _ (uniform_setg h c p U)), setg_setg, (withGSP_setg h g p U). reflexivity.
Qed.

(** * Permutations of the components *)
Lemma sumR_perm : forall l l', Permutation l l' -> sumR l = sumR l'.
Proof. unfold sumR. induction 1; cbn [fold_right]; try reflexivity; try congruence. ring. Qed.
Lemma prodR_perm : forall l l', Permutation l l' -> prodR l = prodR l'.
Proof. unfold prodR. induction 1; cbn [fold_right]; try reflexivity; try congruence. ring. Qed.
Lemma sumC_perm : forall l l', Permutation l l' -> sumC l = sumC l'.
Proof. unfold sumC. induction 1; cbn [fold_right]; try reflexivity; try congruence. ring. Qed.
Lemma prodC_perm : forall l l', Permutation l l' -> prodC l = prodC l'.
Proof. unfold prodC. induction 1; cbn [fold_right]; try reflexivity; try congruence. ring. Qed.
Lemma maxR_spec : forall a t, In (maxR (a :: t)) (a :: t) /\ forall y, In y (a :: t) -> y <= maxR (a :: t).
Proof.
  intros a t. unfold maxR. revert a. induction t as [|b t IH]; intros a; cbn [fold_left].
  - split; [left; auto|]. intros y [->|[]]. lra.
  - destruct (IH (Rmax a b)) as [I M]. split.
    + destruct I as [I|I]; [|right; right; auto]. rewrite <- I. unfold Rmax. destruct (Rle_dec a b); [right; left|left]; auto.
    + intros y [Y|[Y|Y]].
      * subst y. apply Rle_trans with (Rmax a b); [apply Rmax_l|apply M; left; auto].
      * subst y. apply Rle_trans with (Rmax a b); [apply Rmax_r|apply M; left; auto].
      * apply M. right; auto.
Qed.
Lemma minR_spec : forall a t, In (minR (a :: t)) (a :: t) /\ forall y, In y (a :: t) -> minR (a :: t) <= y.
Proof.
  intros a t. unfold minR. revert a. induction t as [|b t IH]; intros a; cbn [fold_left].
  - split; [left; auto|]. intros y [->|[]]. lra.
  - destruct (IH (Rmin a b)) as [I M]. split.
    + destruct I as [I|I]; [|right; right; auto]. rewrite <- I. unfold Rmin. destruct (Rle_dec a b); [left|right; left]; auto.
    + intros y [Y|[Y|Y]].
      * subst y. apply Rle_trans with (Rmin a b); [apply M; left; auto|apply Rmin_l].
      * subst y. apply Rle_trans with (Rmin a b); [apply M; left; auto|apply Rmin_r].
      * apply M. right; auto.
Qed.
Lemma maxR_incl : forall l l', (forall x, In x l <-> In x l') -> maxR l = maxR l'.
Proof.
  intros [|a t] [|b t'] H; auto.
  - exfalso. apply (H b). left; auto.
  - exfalso. apply (H a). left; auto.
  - destruct (maxR_spec a t) as [I M]. destruct (maxR_spec b t') as [I' M']. apply Rle_antisym; [apply M', H, I|apply M, H, I'].
Qed.
Lemma minR_incl : forall l l', (forall x, In x l <-> In x l') -> minR l = minR l'.
Proof.
  intros [|a t] [|b t'] H; auto.
  - exfalso. apply (H b). left; auto.
  - exfalso. apply (H a). left; auto.
  - destruct (minR_spec a t) as [I M]. destruct (minR_spec b t') as [I' M']. apply Rle_antisym; [apply M, H, I'|apply M', H, I].
Qed.
Lemma perm_in : forall A (l l' : list A), Permutation l l' -> forall x, In x l <-> In x l'.
Proof. intros A l l' P x. split; apply Permutation_in; auto. apply Permutation_sym; auto. Qed.
Lemma forallb_perm : forall A (f : A -> bool) l l', Permutation l l' -> forallb f l = forallb f l'.
Proof. intros A f l l'. induction 1; cbn; try congruence. destruct (f x), (f y); auto. Qed.
Lemma existsb_perm : forall A (f : A -> bool) l l', Permutation l l' -> existsb f l = existsb f l'.
Proof. intros A f l l'. induction 1; cbn; try congruence. destruct (f x), (f y); auto. Qed.
Lemma agree_refl : forall A (a : res A), agree a a.
Proof. intros A []; cbn; auto. Qed.
Lemma agree_trans : forall A (a b c : res A), agree a b -> agree b c -> agree a c.
Proof. intros A [] [] [] H1 H2; cbn in *; try tauto; congruence. Qed.
Lemma sumres_perm : forall l l', Permutation l l' -> agree (sumres l) (sumres l').
Proof.
  induction 1.
  - cbn. auto.
  - cbn [sumres]. destruct x as [v|e]; cbn [bind]; [|cbn; auto]. destruct (sumres l), (sumres l'); cbn in *; try tauto. congruence.
  - cbn [sumres]. destruct x as [v|e], y as [w|e']; cbn [bind]; try (cbn; auto; fail); destruct (sumres l); cbn; auto. ring.
  - eapply agree_trans; eauto.
Qed.
Lemma vsum_perm : forall t t', Permutation t t' -> forall c, fold_left vadd t c = fold_left vadd t' c.
Proof.
  induction 1; intros c; cbn [fold_left]; auto.
  - f_equal. unfold vadd. cbn [fst snd]. f_equal; ring.
  - rewrite IHPermutation1. auto.
Qed.
Definition vsum (l : list vec) : vec := match l with [] => (0, 0) | c :: t => fold_left vadd t c end.
Lemma vsum_coord : forall l, vsum l = (sumR (map fst l), sumR (map snd l)).
Proof.
  assert (K : forall t c, fold_left vadd t c = (fst c + sumR (map fst t), snd c + sumR (map snd t))).
  { induction t as [|b t IH]; intros c; cbn [fold_left map sumR fold_right]. - destruct c; cbn [fst snd]. f_equal; ring.
    - rewrite IH. unfold vadd. cbn [fst snd]. unfold sumR. f_equal; ring. }
  intros [|c t]; cbn [vsum]; auto. rewrite K. reflexivity.
Qed.
(** (p, n) pairs multiply like numbers p + n and p - n *)
Lemma calc_pn_sum : forall l, l <> [] -> fst (calc_pn l) + snd (calc_pn l) = prodR (map (fun c => fst c + snd c) l).
Proof.
  intros [|a t] N; [congruence|]. cbn [calc_pn map]. clear N. revert a. induction t as [|b t IH]; intros a; cbn [fold_left map prodR fold_right].
  - ring.
  - rewrite IH. cbn [map prodR fold_right fst snd]. fold (prodR (map (fun c => fst c + snd c) t)). ring.
Qed.
Lemma calc_pn_char : forall l, l <> [] -> let s := prodR (map (fun c => fst c + snd c) l) in let d := prodR (map (fun c => fst c - snd c) l) in
  calc_pn l = ((s + d) / 2, (s - d) / 2).
Proof.
  intros l N s d. pose proof (calc_pn_sum l N) as A. pose proof (calc_pn_diff l N) as B. fold s in A. fold d in B.
  destruct (calc_pn l) as [p n]. cbn [fst snd] in *. f_equal; lra.
Qed.
Lemma calc_pn_perm : forall l l', Permutation l l' -> calc_pn l = calc_pn l'.
Proof.
  intros l l' P. destruct l as [|a t]. { apply Permutation_nil in P. subst. reflexivity. }
  assert (N : l' <> []). { intros ->. apply Permutation_sym, Permutation_nil in P. discriminate. }
  rewrite !calc_pn_char by (auto; discriminate). cbv zeta. rewrite !(prodR_perm _ _ (Permutation_map _ P)). reflexivity.
Qed.

Lemma sum_alike : forall l l' g pg, Permutation l l' -> alike (PSum l g pg) (PSum l' g pg).
Proof.
  intros l l' g pg P. constructor; cbn [flux centroid pnflux maxk stepk max_sb is_axisymmetric is_analytic_k is_analytic_x has_hard_edges kValue xValue gsparams]; intros.
  - apply sumR_perm, Permutation_map, P.
  - rewrite !(sumR_perm _ _ (Permutation_map _ P)). reflexivity.
  - rewrite !(sumR_perm _ _ (Permutation_map _ P)). reflexivity.
  - apply maxR_incl, perm_in, Permutation_map, P.
  - apply minR_incl, perm_in, Permutation_map, P.
  - apply sumR_perm, Permutation_map, P.
  - apply forallb_perm, P.
  - apply forallb_perm, P.
  - apply forallb_perm, P.
  - apply existsb_perm, P.
  - apply sumC_perm, Permutation_map, P.
  - apply sumres_perm, Permutation_map, P.
  - reflexivity.
Qed.
Lemma perm_single : forall A B (l l' : list A) (f : A -> B) (d : B), Permutation l l' ->
  match l with [o] => f o | _ => d end = match l' with [o] => f o | _ => d end.
Proof.
  intros A B l l' f d P. destruct l as [|a [|b t]].
  - apply Permutation_nil in P. subst. reflexivity.
  - apply Permutation_length_1_inv in P. subst. reflexivity.
  - pose proof (Permutation_length P) as E. destruct l' as [|a' [|b' t']]; try discriminate. reflexivity.
Qed.
Lemma conv_alike : forall l l' g pg, Permutation l l' -> alike (PConv l g pg) (PConv l' g pg).
Proof.
  intros l l' g pg P. constructor; cbn [flux centroid pnflux maxk stepk max_sb is_axisymmetric is_analytic_k is_analytic_x has_hard_edges kValue xValue gsparams]; intros.
  - apply prodR_perm, Permutation_map, P.
  - change (vsum (map centroid l) = vsum (map centroid l')). rewrite !vsum_coord, !map_map. rewrite !(sumR_perm _ _ (Permutation_map _ P)). reflexivity.
  - apply calc_pn_perm, Permutation_map, P.
  - apply minR_incl, perm_in, Permutation_map, P.
  - rewrite !(sumR_perm _ _ (Permutation_map _ P)). reflexivity.
  - rewrite !(sumR_perm _ _ (Permutation_map _ P)), !(prodR_perm _ _ (Permutation_map _ P)). reflexivity.
  - apply forallb_perm, P.
  - apply forallb_perm, P.
  - apply perm_single, P.
  - apply perm_single, P.
  - apply prodC_perm, Permutation_map, P.
  - cbn. auto.
  - reflexivity.
Qed.

(** * Constructors *)
Definition flat (l : list prof) : list prof := flat_map (fun o => match o with PSum l' _ _ => l' | _ => [o] end) l.
Lemma flat_perm : forall l l', Permutation l l' -> Permutation (flat l) (flat l').
Proof.
  unfold flat. induction 1; cbn [flat_map].
  - constructor.
  - apply Permutation_app_head. auto.
  - rewrite !app_assoc. apply Permutation_app_tail, Permutation_app_comm.
  - eapply Permutation_trans; eauto.
Qed.
Lemma mkSum_eq : forall l gs pg, mkSum l gs pg = match l with [] => Err TypeError | _ =>
    bind (match gs with Some g => Ok g | None => gspR_combine (map gsparams (flat l)) end) (fun g => Ok (PSum (if pg then map (withGSP g) (flat l) else flat l) g pg)) end.
Proof. intros []; reflexivity. Qed.
Lemma combine_gs_perm : forall l l', Permutation l l' -> gspR_combine (map gsparams l) = gspR_combine (map gsparams l').
Proof.
  intros l l' P. destruct l as [|a t]. { apply Permutation_nil in P. subst. reflexivity. }
  apply combineR_incl; [discriminate|]. apply perm_in, Permutation_map, P.
Qed.
Lemma mkSum_perm : forall l l' gs pg s, Permutation l l' -> mkSum l gs pg = Ok s -> exists s', mkSum l' gs pg = Ok s' /\ alike s s'.
Proof.
  intros l l' gs pg s P E. rewrite mkSum_eq in E. rewrite mkSum_eq. pose proof (flat_perm l l' P) as F.
  destruct l as [|a t]; [discriminate|]. destruct l' as [|a' t']. { apply Permutation_sym, Permutation_nil in P. discriminate. }
  rewrite <- (combine_gs_perm _ _ F).
  destruct (match gs with Some g => Ok g | None => gspR_combine (map gsparams (flat (a :: t))) end) as [g|]; [|discriminate]. cbn [bind] in *.
  injection E as <-. eexists. split; [reflexivity|]. destruct pg; apply sum_alike; [apply Permutation_map|]; auto.
Qed.
Lemma flat_nonempty : forall l, l <> [] -> (forall l' g pg, In (PSum l' g pg) l -> l' <> []) -> flat l <> [].
Proof.
  intros [|a t] N H; [congruence|]. unfold flat. cbn [flat_map]. destruct a as [| |l0 g0 pg0| |]; try discriminate.
  specialize (H l0 g0 pg0 (or_introl eq_refl)). destruct l0; [congruence|discriminate].
Qed.
Lemma flat_app : forall a b, flat (a ++ b) = flat a ++ flat b.
Proof. intros. unfold flat. apply flat_map_app. Qed.
Definition sound_sums : prof -> Prop := everywhere (fun p => match p with PSum [] _ _ => False | _ => True end).
Lemma mkSum_nest : forall l1 m l2 s, Forall (fun o => exists h, uniform h o) m -> flat m <> [] -> mkSum m None true = Ok s ->
  mkSum (l1 ++ s :: l2) None true = mkSum (l1 ++ m ++ l2) None true.
Proof.
  intros l1 m l2 s U NF E. rewrite mkSum_eq in E. destruct m as [|m0 mt] eqn:EM; [discriminate|]. rewrite <- EM in *. assert (NM : m <> []) by (subst; discriminate).
  destruct (gspR_combine (map gsparams (flat m))) as [c|] eqn:EC; [|discriminate]. cbn [bind] in E. injection E as <-.
  assert (NMF : map gsparams (flat m) <> []) by (destruct (flat m); [congruence|discriminate]).
  assert (UF : forall o, In o (flat m) -> exists h, uniform h o).
  { intros o Ho. unfold flat in Ho. apply in_flat_map in Ho. destruct Ho as (x & Hx & Ho). rewrite Forall_forall in U. destruct (U x Hx) as [h Uh].
    destruct x as [| |l0 g0 pg0| |]; try (destruct Ho as [<-|[]]; exists h; auto; fail). exists h. destruct Uh as [_ V]. apply every_list in V. rewrite Forall_forall in V. apply V; auto. }
  assert (S0 : flat (PSum (map (withGSP c) (flat m)) c true :: l2) = map (withGSP c) (flat m) ++ flat l2) by reflexivity.
  rewrite !mkSum_eq. rewrite !flat_app, S0.
  assert (G : gspR_combine (map gsparams (flat l1 ++ map (withGSP c) (flat m) ++ flat l2)) = gspR_combine (map gsparams (flat l1 ++ flat m ++ flat l2))).
  { rewrite !map_app. apply combineR_stage with c; auto.
    - destruct (flat m); [congruence|discriminate].
    - intros g Hg. rewrite map_map in Hg. apply in_map_iff in Hg. destruct Hg as (o & <- & Ho). destruct (UF o Ho) as [h Uh].
      rewrite (withGSP_setg h c o Uh). apply uniform_gs. eapply uniform_setg; eauto. }
  rewrite G. destruct (l1 ++ PSum (map (withGSP c) (flat m)) c true :: l2) eqn:X; [destruct l1; discriminate|]. clear X.
  destruct (l1 ++ m ++ l2) eqn:X; [destruct l1, m; try discriminate; congruence|]. clear X.
  destruct (gspR_combine (map gsparams (flat l1 ++ flat m ++ flat l2))) as [g|]; cbn [bind]; auto. f_equal. f_equal. rewrite !map_app. f_equal. f_equal.
  rewrite map_map. apply map_ext_in. intros o Ho. destruct (UF o Ho) as [h Uh]. eapply withGSP_twice; eauto.
Qed.
