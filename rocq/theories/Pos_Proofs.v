(** Proofs about positions and position arguments. *)
From Coq Require Import ZArith Reals Bool String List Lra Lia Permutation.
From Coquelicot Require Import Complex.
From Verif Require Import Base Bounds_Model Bounds_Proofs FFT_Model FFT_Proofs Geo_Model Draw_Model Draw_Proofs Noise_Model Noise_Proofs
  Shear_Model Pos_Model Pos_Spec.
Import ListNotations.
Open Scope R_scope.

Lemma is_int_spec : forall x, is_int x = true <-> integral x.
Proof.
  intro x. unfold is_int. destruct (Reqb_spec x (IZR (truncR x))) as [e|n].
  - split; auto. intros _. now exists (truncR x).
  - split; [discriminate|]. intros [z ->]. now rewrite truncR_IZR in n.
Qed.
Lemma is_int_false : forall x, is_int x = false <-> ~ integral x.
Proof. intro x. rewrite <- is_int_spec. destruct (is_int x); split; congruence. Qed.
Lemma trunc_int : forall x, integral x -> IZR (truncR x) = x.
Proof. intros x [z ->]. now rewrite truncR_IZR. Qed.

Lemma pos2_ok : forall c x y, (c = PosI -> integral (nv x) /\ integral (nv y)) -> pos2 c x y = Ok (Pos c x y).
Proof.
  intros c [x kx] [y ky] H. unfold pos2, mkPos. cbn [parse_args bind fst snd]. destruct c; [reflexivity|].
  destruct (H eq_refl) as [X Y]. cbn [nv] in *. unfold check_is_int_then_cast. cbn [cast_to_float bind nv npy].
  rewrite (proj2 (is_int_spec x) X). cbn [bind]. rewrite (proj2 (is_int_spec y) Y). cbn [bind]. now rewrite !trunc_int.
Qed.
Lemma pos2_class : forall c x y p, pos2 c x y = Ok p -> p = Pos c x y /\ valid p.
Proof.
  intros c [x kx] [y ky] p. unfold pos2, mkPos. cbn [parse_args bind fst snd]. destruct c.
  - cbn. intro H. injection H as <-. split; auto. discriminate.
  - unfold check_is_int_then_cast. cbn [cast_to_float bind nv npy].
    destruct (is_int x) eqn:EX; cbn [bind]; [|destruct kx; discriminate]. destruct (is_int y) eqn:EY; cbn [bind]; [|destruct ky; discriminate].
    apply is_int_spec in EX. apply is_int_spec in EY. rewrite !trunc_int by assumption. intro H. injection H as <-. split; auto. intros _. auto.
Qed.
Lemma pos2_err : forall c x y e, pos2 c x y = Err e ->
  c = PosI /\ ~ (integral (nv x) /\ integral (nv y)) /\ (e = TypeError \/ e = RuntimeError) /\ (npy x = true -> npy y = true -> e = TypeError).
Proof.
  intros c [x kx] [y ky] e. unfold pos2, mkPos. cbn [parse_args bind fst snd nv]. destruct c; [discriminate|].
  unfold check_is_int_then_cast. cbn [cast_to_float bind nv npy].
  destruct (is_int x) eqn:EX; cbn [bind].
  - destruct (is_int y) eqn:EY; cbn [bind]; [discriminate|]. apply is_int_false in EY. intro H. injection H as <-.
    split; auto. split; [tauto|]. destruct ky; split; auto; discriminate.
  - apply is_int_false in EX. intro H. injection H as <-. split; auto. split; [tauto|]. destruct kx; split; auto; discriminate.
Qed.

Lemma integral_plus : forall a b, integral a -> integral b -> integral (a + b).
Proof. intros a b [z ->] [w ->]. exists (z + w)%Z. now rewrite plus_IZR. Qed.
Lemma integral_minus : forall a b, integral a -> integral b -> integral (a - b).
Proof. intros a b [z ->] [w ->]. exists (z - w)%Z. now rewrite minus_IZR. Qed.
Lemma integral_mult : forall a b, integral a -> integral b -> integral (a * b).
Proof. intros a b [z ->] [w ->]. exists (z * w)%Z. now rewrite mult_IZR. Qed.
Lemma integral_opp : forall a, integral a -> integral (- a).
Proof. intros a [z ->]. exists (- z)%Z. now rewrite opp_IZR. Qed.

Lemma join_eq : forall p q, (if pcls_eqb (pc q) (pc p) then pc p else PosD) = join (pc p) (pc q).
Proof. intros p q. now destruct (pc p), (pc q). Qed.
Lemma join_I : forall a b, join a b = PosI -> a = PosI /\ b = PosI.
Proof. intros [] []; cbn; auto; discriminate. Qed.
Lemma add_ok : forall p q, valid p -> valid q ->
  exists r, p_add p (VPos q) = Ok r /\ point r = vadd (point p) (point q) /\ pc r = join (pc p) (pc q) /\ valid r.
Proof.
  intros p q P Q. unfold p_add. rewrite join_eq.
  assert (V : join (pc p) (pc q) = PosI -> integral (nv (px p) + nv (px q)) /\ integral (nv (py_ p) + nv (py_ q))).
  { intro J. destruct (join_I _ _ J) as [A B]. destruct (P A), (Q B). split; apply integral_plus; auto. }
  rewrite pos2_ok by exact V. eexists. split; [reflexivity|]. repeat split; apply V; auto.
Qed.
Lemma sub_ok : forall p q, valid p -> valid q ->
  exists r, p_sub p (VPos q) = Ok r /\ point r = vsub (point p) (point q) /\ pc r = join (pc p) (pc q) /\ valid r.
Proof.
  intros p q P Q. unfold p_sub. rewrite join_eq.
  assert (V : join (pc p) (pc q) = PosI -> integral (nv (px p) - nv (px q)) /\ integral (nv (py_ p) - nv (py_ q))).
  { intro J. destruct (join_I _ _ J) as [A B]. destruct (P A), (Q B). split; apply integral_minus; auto. }
  rewrite pos2_ok by exact V. eexists. split; [reflexivity|]. repeat split; apply V; auto.
Qed.
Lemma neg_ok : forall p, valid p -> exists r, p_neg p = Ok r /\ point r = (- fst (point p), - snd (point p)) /\ pc r = pc p /\ valid r.
Proof.
  intros p P. unfold p_neg. assert (V : pc p = PosI -> integral (- nv (px p)) /\ integral (- nv (py_ p))).
  { intro J. destruct (P J). split; apply integral_opp; auto. }
  rewrite pos2_ok by exact V. eexists. split; [reflexivity|]. repeat split; apply V; auto.
Qed.
Lemma mul_ok : forall p k, valid p -> (pc p = PosI -> integral (nv k)) ->
  exists r, p_mul p (VNum k) = Ok r /\ p_rmul (VNum k) p = Ok r /\ point r = (nv k * fst (point p), nv k * snd (point p)) /\ pc r = pc p /\ valid r.
Proof.
  intros p k P K. unfold p_rmul, p_mul, check_scalar.
  assert (V : pc p = PosI -> integral (nv (px p) * nv k) /\ integral (nv (py_ p) * nv k)).
  { intro J. destruct (P J). split; apply integral_mult; auto. }
  assert (E : match pc p with PosD => Ok k | PosI => if is_int (nv k) then Ok k else Err TypeError end = Ok k).
  { destruct (pc p) eqn:C; auto. now rewrite (proj2 (is_int_spec _) (K eq_refl)). }
  rewrite E. cbn [bind]. rewrite pos2_ok by exact V. eexists. split; [reflexivity|]. split; [reflexivity|]. split; [|split; [reflexivity|exact V]].
  unfold point. cbn. f_equal; ring.
Qed.
Lemma mul_err : forall p v, valid p -> (exists k, v = VNum k /\ pc p = PosI /\ ~ integral (nv k)) \/ (forall k, v <> VNum k) ->
  p_mul p v = Err TypeError /\ p_div p v = Err TypeError.
Proof.
  intros p v _ [[k [-> [C K]]] | N]; unfold p_mul, p_div, check_scalar.
  - rewrite C, (proj2 (is_int_false _) K). auto.
  - destruct v; auto. now destruct (N n).
Qed.
Lemma div_ok : forall p k r, nv k <> 0 -> p_div p (VNum k) = Ok r ->
  pc r = pc p /\ valid r /\ point r = (fst (point p) / nv k, snd (point p) / nv k).
Proof.
  intros p k r N. unfold p_div. destruct (check_scalar (pc p) (VNum k)) as [n|] eqn:E; [|discriminate]. cbn [bind].
  assert (n = k) as -> by (unfold check_scalar in E; destruct (pc p); [congruence|]; destruct (is_int (nv k)); congruence).
  unfold ndiv. destruct (Reqb_spec (nv k) 0) as [z|_]; [contradiction|]. rewrite !andb_false_r. cbn [bind].
  intro H. destruct (pos2_class _ _ _ _ H) as [-> V]. split; auto.
Qed.
Lemma div_total : forall p k, valid p -> nv k <> 0 ->
  (pc p = PosI -> integral (nv k) /\ integral (nv (px p) / nv k) /\ integral (nv (py_ p) / nv k)) -> exists r, p_div p (VNum k) = Ok r.
Proof.
  intros p k P N H. unfold p_div.
  assert (E : check_scalar (pc p) (VNum k) = Ok k).
  { unfold check_scalar. destruct (pc p); auto. destruct (H eq_refl) as [K _]. now rewrite (proj2 (is_int_spec _) K). }
  rewrite E. cbn [bind]. unfold ndiv. destruct (Reqb_spec (nv k) 0) as [z|_]; [contradiction|]. rewrite !andb_false_r. cbn [bind].
  rewrite pos2_ok; [eauto|]. intro C. destruct (H C) as [_ [X Y]]. split; assumption.
Qed.
Lemma div_int_err : forall p k, valid p -> pc p = PosI -> nv k <> 0 -> ~ (integral (nv (px p) / nv k) /\ integral (nv (py_ p) / nv k)) ->
  exists e, p_div p (VNum k) = Err e /\ (e = TypeError \/ e = RuntimeError) /\ (on_host p = true -> npy k = true -> e = TypeError).
Proof.
  intros p k P C N H. destruct (p_div p (VNum k)) as [r|e] eqn:E.
  - exfalso. apply H. destruct (div_ok _ _ _ N E) as [CR [V PT]]. rewrite C in CR. destruct (V CR) as [A B].
    unfold point in PT. injection PT as X Y. cbn [fst snd] in *. rewrite X in A. rewrite Y in B. auto.
  - exists e. split; auto. unfold p_div in E. destruct (check_scalar (pc p) (VNum k)) as [n|e'] eqn:EC; cbn [bind] in E.
    + assert (n = k) as -> by (unfold check_scalar in EC; rewrite C in EC; destruct (is_int (nv k)); congruence).
      unfold ndiv in E. destruct (Reqb_spec (nv k) 0) as [z|_]; [contradiction|]. rewrite !andb_false_r in E. cbn [bind] in E.
      destruct (pos2_err _ _ _ _ E) as [_ [_ [A B]]]. split; auto. unfold on_host. intros OH KH. apply andb_true_iff in OH. destruct OH as [X Y].
      apply B; cbn [nlift2 npy]; now rewrite ?X, ?Y, ?KH.
    + injection E as <-. unfold check_scalar in EC. rewrite C in EC. destruct (is_int (nv k)); [discriminate|]. injection EC as <-. auto.
Qed.
Lemma eq_ok : forall p q, p_eq p (VPos q) = true <-> pc p = pc q /\ point p = point q.
Proof.
  intros p q. unfold p_eq, point. destruct (pc p), (pc q); cbn [pcls_eqb andb]; try (split; [discriminate | intros [? _]; discriminate]);
    destruct (Reqb_spec (nv (px p)) (nv (px q))) as [X|X], (Reqb_spec (nv (py_ p)) (nv (py_ q))) as [Y|Y]; cbn; split; intros;
    try discriminate; try (split; congruence); destruct H as [_ H]; injection H; congruence.
Qed.
Lemma shear_ok : forall p s, p_shear p s = Ok (Pos PosD (jx (fst (mapp (getMatrix s) (point p)))) (jx (snd (mapp (getMatrix s) (point p))))).
Proof. reflexivity. Qed.
Lemma round_ok : forall p, exists r, p_round p = Ok r /\ pc r = PosI /\ valid r /\
  Rabs (nv (px r) - nv (px p)) <= / 2 /\ Rabs (nv (py_ r) - nv (py_ p)) <= / 2 /\ (valid p -> pc p = PosI -> point r = point p).
Proof.
  intro p. unfold p_round. assert (V : integral (IZR (roundR (nv (px p)))) /\ integral (IZR (roundR (nv (py_ p))))) by (split; eexists; reflexivity).
  rewrite pos2_ok by (intros _; exact V). eexists. split; [reflexivity|]. split; [reflexivity|]. split; [intros _; exact V|].
  cbn [px py_ nv jx]. split; [apply roundR_err|]. split; [apply roundR_err|]. intros W C. destruct (W C) as [[a A] [b B]].
  unfold point. cbn [px py_ nv jx]. rewrite A, B, !roundR_IZR. reflexivity.
Qed.

(** * Constructors *)
Lemma ctor_forms : forall c x y, pos2 c x y = mkPos c [VSeq [VNum x; VNum y]] [] /\
  pos2 c x y = mkPos c [] [("x"%string, VNum x); ("y"%string, VNum y)] /\ pos2 c x y = mkPos c [] [("y"%string, VNum y); ("x"%string, VNum x)] /\
  (forall c', pos2 c x y = mkPos c [VPos (Pos c' x y)] []).
Proof. intros. repeat split. Qed.
Lemma ctor_valid : forall c args kw p, mkPos c args kw = Ok p -> pc p = c /\ valid p.
Proof.
  intros c args kw p. unfold mkPos. destruct (parse_args args kw) as [[x y]|]; [|discriminate]. cbn [bind fst snd].
  destruct x as [x| | |], y as [y| | |]; destruct c; cbn [check_is_int_then_cast cast_to_float bind]; try discriminate;
    try (intro H; injection H as <-; split; [reflexivity | discriminate]);
    try (unfold check_is_int_then_cast; cbn [cast_to_float bind]; destruct (is_int (nv x)); [|destruct (npy x)]; discriminate).
  intro H. assert (G : pos2 PosI x y = Ok p) by exact H. destruct (pos2_class _ _ _ _ G) as [-> V]. auto.
Qed.

(** * Arguments *)
Lemma parse_two : forall x y, parse_args [x; y] [] = Ok (x, y).
Proof. intros [n|q|[|a [|b [|]]]|] y; reflexivity. Qed.
Lemma kw_get_perm : forall kw kw' k, NoDup (map fst kw) -> Permutation kw kw' -> kw_get k kw = kw_get k kw'.
Proof.
  intros kw kw' k N P. induction P as [|[a v] l l' P IH|[a v] [b w] l|l l' l'' P1 IH1 P2 IH2].
  - reflexivity.
  - cbn [map fst] in N. inversion N; subst. cbn [kw_get]. destruct (String.eqb k a); auto.
  - cbn [map fst] in N. inversion N as [|? ? NI N']; subst. cbn [kw_get]. destruct (String.eqb_spec k b) as [e|e], (String.eqb_spec k a) as [f|f]; auto.
    exfalso. apply NI. left. cbn. congruence.
  - rewrite IH1 by exact N. apply IH2. eapply Permutation_NoDup; [|exact N]. now apply Permutation_map.
Qed.
Lemma kw_del_perm : forall kw kw' k, NoDup (map fst kw) -> Permutation kw kw' -> Permutation (kw_del k kw) (kw_del k kw').
Proof.
  intros kw kw' k N P. induction P as [|[a v] l l' P IH|[a v] [b w] l|l l' l'' P1 IH1 P2 IH2].
  - constructor.
  - cbn [map fst] in N. inversion N; subst. cbn [kw_del]. destruct (String.eqb k a); auto.
  - cbn [map fst] in N. inversion N as [|? ? NI N']; subst. cbn [kw_del]. destruct (String.eqb_spec k b) as [e|e], (String.eqb_spec k a) as [f|f]; auto.
    + exfalso. apply NI. left. cbn. congruence.
    + apply perm_swap.
  - eapply Permutation_trans; [apply IH1; exact N|]. apply IH2. eapply Permutation_NoDup; [|exact N]. now apply Permutation_map.
Qed.
Lemma kw_del_in : forall kw k x, In x (map fst (kw_del k kw)) -> In x (map fst kw).
Proof. induction kw as [|[a v] l IH]; intros k x; cbn; auto. destruct (String.eqb k a); cbn; auto. intros [->|H]; eauto. Qed.
Lemma kw_del_nodup : forall kw k, NoDup (map fst kw) -> NoDup (map fst (kw_del k kw)).
Proof.
  induction kw as [|[a v] l IH]; intros k N; cbn in *; auto. inversion N; subst. destruct (String.eqb k a); auto. cbn. constructor; auto.
  intro H. apply H1. eapply kw_del_in; eauto.
Qed.
Lemma pop_others_perm : forall others kw kw', NoDup (map fst kw) -> Permutation kw kw' ->
  match pop_others others kw, pop_others others kw' with
  | Ok (l, r), Ok (l', r') => l = l' /\ Permutation r r'
  | Err e, Err e' => e = e'
  | _, _ => False
  end.
Proof.
  induction others as [|n t IH]; intros kw kw' N P; cbn [pop_others]; [auto|].
  unfold kw_pop. rewrite (kw_get_perm _ _ n N P). destruct (kw_get n kw') as [v|]; [|auto].
  specialize (IH _ _ (kw_del_nodup _ n N) (kw_del_perm _ _ n N P)).
  destruct (pop_others t (kw_del n kw)) as [[l r]|], (pop_others t (kw_del n kw')) as [[l' r']|]; cbn [bind fst snd]; auto; try contradiction.
  destruct IH as [-> R]. auto.
Qed.
Lemma args_xy_perm : forall args kw kw' n1 n2 i others, NoDup (map fst kw) -> Permutation kw kw' ->
  match pos_args_xy args kw n1 n2 i others, pos_args_xy args kw' n1 n2 i others with
  | Ok (x, y, v, o, r), Ok (x', y', v', o', r') => x = x' /\ y = y' /\ v = v' /\ o = o' /\ Permutation r r' /\ NoDup (map fst r)
  | Err e, Err e' => e = e'
  | _, _ => False
  end.
Proof.
  intros args kw kw' n1 n2 i others N P. unfold pos_args_xy. destruct args as [|a rest].
  - unfold kw_pop. rewrite (kw_get_perm _ _ n1 N P). destruct (kw_get n1 kw'); auto.
    rewrite (kw_get_perm _ _ n2 (kw_del_nodup _ n1 N) (kw_del_perm _ _ n1 N P)). destruct (kw_get n2 (kw_del n1 kw')); auto.
    repeat split; auto; [apply kw_del_perm; [apply kw_del_nodup|apply kw_del_perm]; auto | apply kw_del_nodup, kw_del_nodup; auto].
  - cbv zeta. destruct (is_pos_arg i a) as [p|]; destruct (Nat.leb (length (a :: rest)) (1 + length others)); auto 6;
      destruct (canindex a) as [[x y]|]; auto 6; destruct rest; auto; destruct (Nat.leb _ _); auto 6.
Qed.
Lemma parse_perm : forall args kw kw' n1 n2 i others, NoDup (map fst kw) -> Permutation kw kw' ->
  parse_pos_args args kw n1 n2 i others = parse_pos_args args kw' n1 n2 i others.
Proof.
  intros args kw kw' n1 n2 i others N P. unfold parse_pos_args. pose proof (args_xy_perm args kw kw' n1 n2 i others N P) as H.
  destruct (pos_args_xy args kw n1 n2 i others) as [[[[[x y] v] o] r]|], (pos_args_xy args kw' n1 n2 i others) as [[[[[x' y'] v'] o'] r']|];
    cbn [bind]; try contradiction; [|congruence].
  destruct H as [<- [<- [<- [<- [R NR]]]]]. pose proof (pop_others_perm o r r' NR R) as Q.
  destruct (pop_others o r) as [[l s]|], (pop_others o r') as [[l' s']|]; cbn [bind fst snd]; try contradiction; [|congruence].
  destruct Q as [<- S]. destruct s as [|a s].
  - apply Permutation_nil in S. subst. reflexivity.
  - destruct s'; [apply Permutation_sym, Permutation_nil in S; discriminate | reflexivity].
Qed.
Lemma forms_agree : forall x y more vals kw n1 n2 i others c, (length vals <= length others)%nat -> (i = true -> c = PosI) ->
  let two := parse_pos_args (VNum x :: VNum y :: vals) kw n1 n2 i others in
  two = parse_pos_args (VSeq (VNum x :: VNum y :: more) :: vals) kw n1 n2 i others /\
  two = parse_pos_args (VPos (Pos c x y) :: vals) kw n1 n2 i others /\
  (vals = [] -> n1 <> n2 -> two = parse_pos_args [] ((n1, VNum x) :: (n2, VNum y) :: kw) n1 n2 i others).
Proof.
  intros x y more vals kw n1 n2 i others c L I two. unfold two, parse_pos_args, pos_args_xy. cbn [length is_pos_arg canindex Nat.add].
  assert (A : Nat.leb (S (length vals)) (S (length others)) = true) by (apply Nat.leb_le; lia).
  assert (B : Nat.leb (S (S (length vals))) (S (S (length others))) = true) by (apply Nat.leb_le; lia).
  rewrite A, B. cbn [pc px py_]. split; [reflexivity|]. split.
  - destruct c; [destruct i; [now specialize (I eq_refl)|]|]; reflexivity.
  - intros -> NE. unfold kw_pop. cbn [kw_get kw_del]. rewrite String.eqb_refl. cbn [kw_get kw_del].
    rewrite String.eqb_refl. reflexivity.
Qed.
Lemma combine_pop : forall names vals extra, NoDup names -> length names = length vals ->
  pop_others names (combine names vals ++ extra) = Ok (vals, extra).
Proof.
  induction names as [|n t IH]; intros vals extra N L; destruct vals as [|v vals]; try discriminate; [reflexivity|].
  cbn [combine app pop_others]. unfold kw_pop. cbn [kw_get kw_del]. rewrite String.eqb_refl. inversion N; subst.
  rewrite IH by (auto; now injection L). reflexivity.
Qed.
Lemma others_split : forall p v1 names1 names2 v2 n1 n2 (i : bool), NoDup (names1 ++ names2) -> length v1 = length names1 -> length v2 = length names2 ->
  (i = true -> pc p = PosI) ->
  parse_pos_args (VPos p :: v1) (combine names2 v2) n1 n2 i (names1 ++ names2) =
  bind (pos2 (if i then PosI else PosD) (px p) (py_ p)) (fun q => Ok (q, v1 ++ v2)).
Proof.
  intros p v1 names1 names2 v2 n1 n2 i N L1 L2 I. unfold parse_pos_args, pos_args_xy. cbn [length Nat.add]. rewrite app_length.
  assert (A : Nat.leb (S (length v1)) (S (length names1 + length names2)) = true) by (apply Nat.leb_le; lia). rewrite A.
  assert (E : is_pos_arg i (VPos p) = Some p).
  { cbn. destruct (pc p) eqn:EC; auto. destruct i; auto. specialize (I eq_refl). discriminate. }
  rewrite E. cbn [bind]. rewrite L1, skipn_app, skipn_all2, Nat.sub_diag by lia. cbn [app skipn].
  assert (ND2 : NoDup names2). { clear - N. induction names1; cbn in N; auto. inversion N; auto. }
  rewrite <- (app_nil_r (combine names2 v2)), combine_pop by auto. cbn [bind fst snd]. reflexivity.
Qed.
Lemma parse_errors : forall args kw n1 n2 i others e, parse_pos_args args kw n1 n2 i others = Err e ->
  e = TypeError \/ (e = KeyError /\ others <> []) \/ (e = RuntimeError /\ i = true).
Proof.
  intros args kw n1 n2 i others e. unfold parse_pos_args.
  assert (X : forall e, pos_args_xy args kw n1 n2 i others = Err e -> e = TypeError).
  { intro e'. unfold pos_args_xy. destruct args as [|a rest].
    - destruct (kw_pop n1 kw) as [[? ?]|]; [|congruence]. destruct (kw_pop n2 l) as [[? ?]|]; congruence.
    - destruct (is_pos_arg i a), (Nat.leb (length (a :: rest)) (1 + length others)); try discriminate;
      destruct (canindex a) as [[? ?]|]; try discriminate; destruct rest; try congruence; destruct (Nat.leb _ _); congruence. }
  assert (Y : forall x y v o r, pos_args_xy args kw n1 n2 i others = Ok (x, y, v, o, r) -> o <> [] -> others <> []).
  { intros x y v o r. unfold pos_args_xy. destruct args as [|a rest].
    - destruct (kw_pop n1 kw) as [[? ?]|]; [|congruence]. destruct (kw_pop n2 l) as [[? ?]|]; congruence.
    - assert (S : forall n, skipn n others <> [] -> others <> []) by (intros n S E; rewrite E in S; destruct n; auto).
      destruct (is_pos_arg i a), (Nat.leb (length (a :: rest)) (1 + length others));
      try (intros H; injection H; intros; subst; eapply S; eassumption);
      destruct (canindex a) as [[? ?]|]; try (intros H; injection H; intros; subst; eapply S; eassumption);
      destruct rest; try discriminate; destruct (Nat.leb _ _); try discriminate; intros H; injection H; intros; subst; eapply S; eassumption. }
  destruct (pos_args_xy args kw n1 n2 i others) as [[[[[x y] v] o] r]|e'] eqn:E; cbn [bind].
  2:{ intro H. injection H as <-. left. auto. }
  assert (Z : forall o r e, pop_others o r = Err e -> e = KeyError /\ o <> []).
  { clear. induction o as [|n t IH]; intros r e; cbn [pop_others]; [discriminate|]. destruct (kw_pop n r) as [[? r']|]; [|intro H; injection H as <-; split; [auto|discriminate]].
    destruct (pop_others t r') as [|e'] eqn:E; cbn [bind]; [discriminate|]. intro H. injection H as <-. destruct (IH _ _ E). split; [auto|discriminate]. }
  destruct (pop_others o r) as [[l s]|e'] eqn:EP; cbn [bind fst snd].
  2:{ intro H. injection H as <-. destruct (Z _ _ _ EP) as [-> NO]. right. left. split; auto. eapply Y; eauto. }
  destruct s; [|intro H; injection H as <-; auto].
  destruct (mkPos (if i then PosI else PosD) [x; y] []) as [|e'] eqn:EM; cbn [bind]; [discriminate|]. intro H. injection H as <-.
  unfold mkPos in EM. rewrite parse_two in EM. cbn [bind fst snd] in EM. destruct i.
  - assert (W : forall v e, check_is_int_then_cast v = Err e -> e = TypeError \/ e = RuntimeError).
    { intros w e0. unfold check_is_int_then_cast. destruct w as [n| | |]; cbn; try (intro H; injection H as <-; auto).
      destruct (is_int (nv n)); [discriminate|]. destruct (npy n); intro H; injection H as <-; auto. }
    cbv beta iota zeta in EM. destruct (check_is_int_then_cast x) eqn:EX; cbn [bind] in EM.
    + destruct (check_is_int_then_cast y) eqn:EY; cbn [bind] in EM; [discriminate|]. injection EM as ->. destruct (W _ _ EY); auto.
    + injection EM as ->. destruct (W _ _ EX); auto.
  - destruct x, y; cbn in EM; try discriminate; injection EM as <-; auto.
Qed.
Lemma parse_valid : forall args kw n1 n2 i others p l, parse_pos_args args kw n1 n2 i others = Ok (p, l) ->
  pc p = (if i then PosI else PosD) /\ valid p /\ length l = length others.
Proof.
  intros args kw n1 n2 i others p l. unfold parse_pos_args.
  assert (Y : forall x y v o r, pos_args_xy args kw n1 n2 i others = Ok (x, y, v, o, r) -> (length v + length o = length others)%nat).
  { intros x y v o r. unfold pos_args_xy. destruct args as [|a rest].
    - destruct (kw_pop n1 kw) as [[? ?]|]; [|congruence]. destruct (kw_pop n2 l0) as [[? ?]|]; [|congruence]. intro H. injection H as <- <- <- <- <-. reflexivity.
    - assert (S : forall k : list pval, (length k <= length others)%nat -> (length k + length (skipn (length k) others) = length others)%nat) by (intros; rewrite skipn_length; lia).
      destruct (is_pos_arg i a), (Nat.leb_spec (length (a :: rest)) (1 + length others)) as [LE|LE]; cbn [length Nat.add] in LE;
      try (intros H; injection H; intros; subst; apply S; lia);
      destruct (canindex a) as [[? ?]|]; try (intros H; injection H; intros; subst; apply S; lia);
      destruct rest as [|b rest]; try discriminate; destruct (Nat.leb_spec (length (a :: b :: rest)) (2 + length others)) as [LE2|LE2]; try discriminate; cbn [length Nat.add] in LE2; intros H; injection H; intros; subst; apply S; lia. }
  destruct (pos_args_xy args kw n1 n2 i others) as [[[[[x y] v] o] r]|e'] eqn:E; cbn [bind]; [|discriminate].
  assert (Z : forall o r l s, pop_others o r = Ok (l, s) -> length l = length o).
  { clear. induction o as [|n t IH]; intros r l s; cbn [pop_others]; [intro H; injection H as <- <-; reflexivity|].
    destruct (kw_pop n r) as [[? r']|]; [|discriminate]. destruct (pop_others t r') as [[l' s']|] eqn:E; cbn [bind fst snd]; [|discriminate].
    intro H. injection H as <- <-. cbn. f_equal. eauto. }
  destruct (pop_others o r) as [[l' s]|e'] eqn:EP; cbn [bind fst snd]; [|discriminate].
  destruct s; [|discriminate]. destruct (mkPos (if i then PosI else PosD) [x; y] []) as [q|e'] eqn:EM; cbn [bind]; [|discriminate].
  intro H. injection H as <- <-. destruct (ctor_valid _ _ _ _ EM). split; auto. split; auto. rewrite app_length, (Z _ _ _ _ EP). eapply Y; eauto.
Qed.

Lemma parse_args_ok : forall args kw x y, parse_args args kw = Ok (x, y) ->
  (args = [] /\ kw = [] /\ x = VNum (py 0) /\ y = VNum (py 0)) \/ (kw = [] /\ (args = [x; y] \/ args = [VSeq [x; y]] \/ exists p, args = [VPos p] /\ x = VNum (px p) /\ y = VNum (py_ p)))
  \/ (args = [] /\ (kw = [("x"%string, x); ("y"%string, y)] \/ kw = [("y"%string, y); ("x"%string, x)])).
Proof.
  intros args kw x y H. unfold parse_args in H. destruct kw as [|[k v] kw].
  - destruct args as [|a [|b [|e args]]].
    + inversion H; subst. left. auto.
    + right. left. split; auto. destruct a as [n|p|l|]; try discriminate.
      * inversion H; subst. right. right. now exists p.
      * destruct l as [|a [|b [|e l]]]; try discriminate. inversion H; subst. auto.
    + assert (H' : Ok (a, b) = Ok (x, y)) by (destruct a as [| |[|? [|? [|]]]|]; exact H). inversion H'; subst. right. left. auto.
    + destruct a as [| |[|? [|? [|]]]|]; discriminate.
  - right. right. destruct args; [|discriminate]. split; auto. unfold kw_pop in H. cbn [kw_get kw_del] in H.
    destruct (String.eqb_spec "x" k) as [<-|N].
    + destruct kw as [|[k' v'] kw]; [discriminate|]. cbn [kw_get kw_del] in H. destruct (String.eqb_spec "y" k') as [<-|N'].
      * destruct kw; [|discriminate]. inversion H; subst. auto.
      * destruct (kw_get "y" kw); discriminate.
    + destruct kw as [|[k' v'] kw]; [discriminate|]. cbn [kw_get kw_del] in H. destruct (String.eqb_spec "x" k') as [<-|N'].
      * cbn [kw_get kw_del] in H. destruct (String.eqb_spec "y" k) as [<-|N''].
        -- destruct kw; [|discriminate]. inversion H; subst. auto.
        -- destruct (kw_get "y" kw); [|discriminate]. discriminate.
      * destruct (kw_get "x" kw); [|discriminate]. cbn [kw_get kw_del] in H. destruct (String.eqb "y" k).
        -- discriminate.
        -- destruct (String.eqb "y" k'); [discriminate|]. destruct (kw_get "y" _); discriminate.
Qed.
Lemma conv_value : forall c v n, (match c with PosD => cast_to_float | PosI => check_is_int_then_cast end) v = Ok n -> exists m, v = VNum m /\ nv n = nv m.
Proof.
  intros c v n H. destruct v as [m| | |]; try (destruct c; discriminate). exists m. split; auto. destruct c; cbn in H.
  - injection H as <-. auto.
  - unfold check_is_int_then_cast in H. cbn in H. destruct (is_int (nv m)) eqn:E; [|discriminate]. injection H as <-. cbn.
    unfold is_int in E. destruct (Reqb_spec (nv m) (IZR (truncR (nv m)))); [auto|discriminate].
Qed.
Lemma only_forms : forall c args kw p, mkPos c args kw = Ok p ->
  (args = [] /\ kw = [] /\ nv (px p) = 0 /\ nv (py_ p) = 0) \/
  (exists q, kw = [] /\ args = [VPos q] /\ point q = point p) \/
  (exists x y, point p = (nv x, nv y) /\ ((kw = [] /\ (args = [VNum x; VNum y] \/ args = [VSeq [VNum x; VNum y]])) \/
     (args = [] /\ (kw = [("x"%string, VNum x); ("y"%string, VNum y)] \/ kw = [("y"%string, VNum y); ("x"%string, VNum x)])))).
Proof.
  intros c args kw p H. unfold mkPos in H. destruct (parse_args args kw) as [[x y]|] eqn:E; [|discriminate]. cbn [bind fst snd] in H.
  destruct ((match c with PosD => cast_to_float | PosI => check_is_int_then_cast end) x) as [a|] eqn:A; [|discriminate].
  destruct ((match c with PosD => cast_to_float | PosI => check_is_int_then_cast end) y) as [b|] eqn:B; [|discriminate]. injection H as <-.
  apply conv_value in A as [m [-> A]]. apply conv_value in B as [n [-> B]]. unfold point. cbn [px py_].
  apply parse_args_ok in E as [[-> [-> [X Y]]]|[[-> [->|[->|[q [-> [X Y]]]]]]|[-> [->| ->]]]].
  - left. inversion X; inversion Y; subst. cbn in A, B. auto.
  - right. right. exists m, n. rewrite A, B. auto 8.
  - right. right. exists m, n. rewrite A, B. auto 8.
  - right. left. inversion X; inversion Y; subst. exists q. rewrite A, B. auto.
  - right. right. exists m, n. rewrite A, B. auto 8.
  - right. right. exists m, n. rewrite A, B. auto 8.
Qed.
