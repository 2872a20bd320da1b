From Coq Require Import Reals Bool List Arith Lia.
From Coquelicot Require Import Complex.
From Verif Require Import Base Bounds_Model Geo_Model GSP_Model Prof_Model VecV_Model VecV_Spec.
Import ListNotations.

Section Ind.
  Variable P : prof -> Prop.
  Hypothesis HL : forall own fam fl g, P (PLeaf own fam fl g).
  Hypothesis HT : forall o J off fr g pg, P o -> P (PTr o J off fr g pg).
  Hypothesis HS : forall l g pg, List.Forall P l -> P (PSum l g pg).
  Hypothesis HC : forall l g pg, List.Forall P l -> P (PConv l g pg).
  Hypothesis HD : forall o g pg, P o -> P (PDec o g pg).
  Fixpoint tree_ind (p : prof) : P p :=
    let all := fix all (l : list prof) : List.Forall P l :=
      match l with [] => Forall_nil P | x :: t => Forall_cons x (tree_ind x) (all t) end in
    match p with
    | PLeaf own fam fl g => HL own fam fl g
    | PTr o J off fr g pg => HT o J off fr g pg (tree_ind o)
    | PSum l g pg => HS l g pg (all l)
    | PConv l g pg => HC l g pg (all l)
    | PDec o g pg => HD o g pg (tree_ind o)
    end.
End Ind.

Lemma seqres_ok : forall A B (l : list B) (f : B -> res A) (h : B -> A), List.Forall (fun o => f o = Ok (h o)) l ->
  seqres (map f l) = Ok (map h l).
Proof. intros A B l f h F. induction F as [|o l E _ IH]; [reflexivity|]. cbn [map seqres]. rewrite E, IH. reflexivity. Qed.
Lemma seqres_inv : forall A B (l : list B) (f : B -> res A) vs, seqres (map f l) = Ok vs ->
  length vs = length l /\ List.Forall (fun o => exists v, f o = Ok v) l.
Proof.
  intros A B l f. induction l as [|o l IH]; intros vs E; cbn [map seqres] in E; [injection E as <-; split; [reflexivity|constructor]|].
  destruct (f o) as [v|] eqn:E1; [|discriminate]. cbn [bind] in E. destruct (seqres (map f l)) as [w|]; [|discriminate]. cbn [bind] in E.
  injection E as <-. destruct (IH w eq_refl) as [L F]. split; [cbn; congruence|]. constructor; [exists v; exact E1|exact F].
Qed.
Lemma rows_ok : forall A B (l : list B) (h : B -> list A) n, (forall o, In o l -> length (h o) = n) ->
  rows n (map (fun o => Ar (h o)) l) = Some (map h l).
Proof.
  intros A B l h n H. induction l as [|o l IH]; [reflexivity|]. cbn [map rows]. rewrite (H o), Nat.eqb_refl by (left; reflexivity).
  rewrite IH by (intros; apply H; right; assumption). reflexivity.
Qed.
Lemma stack_rows : forall A B (l : list B) (h : B -> list A) n, l <> [] -> (forall o, In o l -> length (h o) = n) ->
  jnp_array (map (fun o => Ar (h o)) l) = Ok (Rows (map h l)).
Proof.
  intros A B [|o l] h n N H; [congruence|]. unfold jnp_array. cbn [map]. rewrite (H o) by (left; reflexivity).
  change (Ar (h o) :: map (fun o => Ar (h o)) l) with (map (fun o => Ar (h o)) (o :: l)). rewrite (rows_ok _ _ _ _ n H). reflexivity.
Qed.
Lemma combine_map : forall A B C (f : A -> B) (g : A -> C) l, List.combine (map f l) (map g l) = map (fun a => (f a, g a)) l.
Proof. intros. induction l as [|a l IH]; [reflexivity|]. cbn. rewrite IH. reflexivity. Qed.
Lemma mul_maps : forall A X Y Z (m : X -> Y -> Z) (f : A -> X) (g : A -> Y) l,
  nd_map2 m (Ar (map f l)) (Ar (map g l)) = Ok (Ar (map (fun a => m (f a) (g a)) l)).
Proof. intros. unfold nd_map2. rewrite !map_length, Nat.eqb_refl, combine_map, map_map. reflexivity. Qed.
(** Adding the rows is adding at each position. *)
Lemma add_rows_ok : forall A B V (add : V -> V -> V) (zero : V), (forall v, add v zero = v) ->
  forall (l : list B) (f : B -> A -> V) (ks : list A), l <> [] ->
  add_rows add (map (fun o => map (f o) ks) l) = map (fun k => fold_right add zero (map (fun o => f o k) l)) ks.
Proof.
  intros A B V add zero Z l f ks N. induction l as [|o l IH]; [congruence|]. destruct l as [|o' l].
  - cbn. apply map_ext. intros. rewrite Z. reflexivity.
  - specialize (IH ltac:(discriminate)). cbn [map add_rows]. cbn [map add_rows] in IH. rewrite IH. rewrite combine_map, map_map. reflexivity.
Qed.
Lemma cplus_0 : forall v : C, Cplus v (RtoC 0) = v.
Proof. intros. apply Cplus_0_r. Qed.

Lemma Forall_in : forall A (P : A -> Prop) l, List.Forall P l -> forall x, In x l -> P x.
Proof. intros A P l F. apply Forall_forall. exact F. Qed.
Lemma sum_entries : forall l ks, l <> [] -> List.Forall (fun o => kValues o ks = Ok (Ar (map (kValue o) ks))) l ->
  forall g pg, entrywise (PSum l g pg) ks.
Proof.
  intros l ks N F g pg. unfold entrywise. cbn [kValues].
  rewrite (seqres_ok _ _ l (fun o => kValues o ks) (fun o => Ar (map (kValue o) ks)) F). cbn [bind].
  rewrite (stack_rows _ _ l (fun o => map (kValue o) ks) (length ks) N) by (intros; apply map_length). cbn [bind sum_axis0].
  rewrite (add_rows_ok _ _ _ Cplus (RtoC 0) cplus_0 l kValue ks N). reflexivity.
Qed.
Lemma entries : forall p ks, no_conv p = true -> entrywise p ks.
Proof.
  intros p. induction p as [own fam fl g|o J off fr g pg IH|l g pg IH|l g pg IH|o g pg IH] using tree_ind; intros ks H; cbn [no_conv] in H.
  - reflexivity.
  - unfold entrywise. cbn [kValues kValue]. rewrite (IH _ H). cbn [bind]. rewrite map_map, mul_maps. reflexivity.
  - apply andb_true_iff in H. destruct H as [N H]. apply sum_entries.
    + intros ->. discriminate N.
    + rewrite forallb_forall in H. apply Forall_forall. intros o Io. apply (Forall_in _ _ _ IH o Io). apply H. exact Io.
  - discriminate.
  - unfold entrywise. cbn [kValues kValue]. rewrite (IH _ H). cbn [bind nd_map]. rewrite map_map. reflexivity.
Qed.

(** * Convolution *)
Lemma prodC_mult : forall A (f g : A -> C) l, prodC (map (fun a => Cmult (f a) (g a)) l) = Cmult (prodC (map f l)) (prodC (map g l)).
Proof.
  intros. induction l as [|a l IH].
  - cbn. rewrite Cmult_1_l. reflexivity.
  - cbn [map prodC fold_right]. unfold prodC in IH. rewrite IH. ring.
Qed.
Lemma prodC_one : forall A (l : list A), prodC (map (fun _ => RtoC 1) l) = RtoC 1.
Proof. intros. induction l as [|a l IH]; [reflexivity|]. cbn [map prodC fold_right]. unfold prodC in IH. rewrite IH. apply Cmult_1_l. Qed.
Lemma prodC_swap : forall A B (f : A -> B -> C) l m,
  prodC (map (fun a => prodC (map (f a) m)) l) = prodC (map (fun b => prodC (map (fun a => f a b) l)) m).
Proof.
  intros. induction l as [|a l IH].
  - cbn [map]. change (prodC []) with (RtoC 1). rewrite prodC_one. reflexivity.
  - cbn [map]. change (Cmult (prodC (map (f a) m)) (prodC (map (fun a => prodC (map (f a) m)) l)) =
      prodC (map (fun b => Cmult (f a b) (prodC (map (fun a => f a b) l))) m)).
    rewrite IH, prodC_mult. reflexivity.
Qed.
Lemma conv_value : forall l g pg ks, l <> [] -> forallb no_conv l = true ->
  kValues (PConv l g pg) ks = Ok (Sc (prodC (map (kValue (PConv l g pg)) ks))).
Proof.
  intros l g pg ks N H. cbn [kValues].
  rewrite (seqres_ok _ _ l (fun o => kValues o ks) (fun o => Ar (map (kValue o) ks))).
  - cbn [bind]. rewrite (stack_rows _ _ l (fun o => map (kValue o) ks) (length ks) N) by (intros; apply map_length). cbn [bind prod_all].
    rewrite map_map. do 2 f_equal. cbn [kValue]. apply prodC_swap.
  - rewrite forallb_forall in H. apply Forall_forall. intros o Io. apply entries. apply H. exact Io.
Qed.
Lemma conv_never : forall l g pg ks, (exists e, kValues (PConv l g pg) ks = Err e) \/ (exists v, kValues (PConv l g pg) ks = Ok (Sc v)).
Proof.
  intros. cbn [kValues]. destruct (seqres _) as [vs|e]; [|left; exists e; reflexivity]. cbn [bind].
  destruct (jnp_array vs) as [s|e]; [|left; exists e; reflexivity]. right. destruct s as [s|s]; cbn [bind prod_all]; eexists; reflexivity.
Qed.
Lemma conv_refuted : forall l g pg ks, ~ entrywise (PConv l g pg) ks.
Proof. intros l g pg ks E. unfold entrywise in E. destruct (conv_never l g pg ks) as [[e E']|[v E']]; rewrite E' in E; discriminate E. Qed.
(** A transformed convolution: an array of the right length, every entry of which carries the same product. *)
Lemma moved_conv : forall l g pg J off fr g' pg' ks, l <> [] -> forallb no_conv l = true ->
  kValues (PTr (PConv l g pg) J off fr g' pg') ks =
  Ok (Ar (map (fun k => Cmult (prodC (map (fun k' => kValue (PConv l g pg) (mapp (mT J) k')) ks)) (kfactor J off fr k)) ks)).
Proof.
  intros l g pg J off fr g' pg' ks N H.
  change (bind (kValues (PConv l g pg) (map (mapp (mT J)) ks)) (fun v => nd_map2 Cmult v (Ar (map (kfactor J off fr) ks))) =
    Ok (Ar (map (fun k => Cmult (prodC (map (fun k' => kValue (PConv l g pg) (mapp (mT J) k')) ks)) (kfactor J off fr k)) ks))).
  rewrite conv_value by assumption. cbn [bind nd_map2]. rewrite map_map, map_map. reflexivity.
Qed.
(** A sum of a convolution and a profile without one. *)
Lemma mixed_sum : forall l g pg p g' pg' ks, l <> [] -> forallb no_conv l = true -> no_conv p = true ->
  kValues (PSum [PConv l g pg; p] g' pg') ks = Err ValueError /\ kValues (PSum [p; PConv l g pg] g' pg') ks = Err ValueError.
Proof.
  intros l g pg p g' pg' ks N H Hp. pose proof (conv_value l g pg ks N H) as E1. pose proof (entries p ks Hp) as E2. unfold entrywise in E2.
  change (bind (bind (kValues (PConv l g pg) ks) (fun x => bind (bind (kValues p ks) (fun y => Ok [y])) (fun y => Ok (x :: y))))
    (fun vs => bind (jnp_array vs) (fun s => Ok (sum_axis0 Cplus (RtoC 0) s))) = Err ValueError /\
    bind (bind (kValues p ks) (fun x => bind (bind (kValues (PConv l g pg) ks) (fun y => Ok [y])) (fun y => Ok (x :: y))))
    (fun vs => bind (jnp_array vs) (fun s => Ok (sum_axis0 Cplus (RtoC 0) s))) = Err ValueError).
  rewrite E1, E2. cbn [bind]. split.
  - reflexivity.
  - unfold jnp_array. cbn [rows]. rewrite Nat.eqb_refl. reflexivity.
Qed.

(** * xValue *)
Lemma sumres_ok : forall A (f : A -> res R) l s, sumres (map f l) = Ok s ->
  exists h : list R, seqres (map f l) = Ok h /\ s = sumR h.
Proof.
  intros A f l. induction l as [|a l IH]; intros s E; cbn [map sumres seqres] in *.
  - exists []. split; [reflexivity|]. injection E as <-. reflexivity.
  - destruct (f a) as [v|]; [|discriminate]. cbn [bind] in *. destruct (sumres (map f l)) as [w|]; [|discriminate]. cbn [bind] in E.
    destruct (IH w eq_refl) as [h [E1 E2]]. exists (v :: h). rewrite E1. split; [reflexivity|]. injection E as <-. rewrite E2. reflexivity.
Qed.
Definition okR (r : res R) : R := match r with Ok v => v | Err _ => 0%R end.
Lemma ok_okR : forall r, is_ok r = true -> r = Ok (okR r).
Proof. intros [v|e] H; [reflexivity|discriminate]. Qed.
Lemma sumres_parts : forall A (f : A -> res R) l, is_ok (sumres (map f l)) = true ->
  (forall a, In a l -> is_ok (f a) = true) /\ okR (sumres (map f l)) = fold_right Rplus 0%R (map (fun a => okR (f a)) l).
Proof.
  intros A f l. induction l as [|a l IH]; intros E; cbn [map sumres] in *.
  - split; [intros ? []|reflexivity].
  - destruct (f a) as [v|] eqn:Ef; [|discriminate]. cbn [bind] in *. destruct (sumres (map f l)) as [w|] eqn:Es; [|discriminate].
    destruct (IH eq_refl) as [I1 I2]. split.
    + intros b [<-|Ib]; [rewrite Ef; reflexivity|auto].
    + cbn [bind okR fold_right]. cbn [okR] in *. rewrite <- I2. reflexivity.
Qed.
Lemma xentries : forall delta p xs, no_delta delta p = true -> xs <> [] -> (forall x, In x xs -> is_ok (xValue p x) = true) ->
  xValues delta p xs = Ok (Ar (map (fun x => okR (xValue p x)) xs)).
Proof.
  intros delta p. induction p as [own fam fl g|o J off fr g pg IH|l g pg IH|l g pg IH|o g pg IH] using tree_ind;
    intros xs H N K; cbn [no_delta] in H.
  - cbn [xValues xValue]. apply negb_true_iff in H. rewrite H.
    rewrite (seqres_ok _ _ xs (lf_x (fam fl g)) (fun x => okR (lf_x (fam fl g) x))); [reflexivity|].
    apply Forall_forall. intros x Ix. apply ok_okR. exact (K x Ix).
  - cbn [xValues]. rewrite IH; [|exact H|destruct xs; [congruence|discriminate]|].
    + cbn [bind nd_map]. rewrite !map_map. do 2 f_equal. apply map_ext_in. intros x Ix. specialize (K x Ix). cbn [xValue] in *.
      destruct (xValue o _); [reflexivity|discriminate].
    + intros y Iy. apply in_map_iff in Iy. destruct Iy as [x [<- Ix]]. specialize (K x Ix). cbn [xValue] in K. destruct (xValue o _); [reflexivity|discriminate].
  - cbn [xValues]. apply andb_true_iff in H. destruct H as [Nl H]. assert (Nl' : l <> []) by (intros ->; discriminate Nl).
    rewrite (seqres_ok _ _ l (fun o => xValues delta o xs) (fun o => Ar (map (fun x => okR (xValue o x)) xs))).
    + cbn [bind]. rewrite (stack_rows _ _ l (fun o => map (fun x => okR (xValue o x)) xs) (length xs) Nl') by (intros; apply map_length). cbn [bind sum_axis0].
      rewrite (add_rows_ok _ _ _ Rplus 0%R Rplus_0_r l (fun o x => okR (xValue o x)) xs Nl'). do 2 f_equal. apply map_ext_in. intros x Ix.
      cbn [xValue]. symmetry. exact (proj2 (sumres_parts _ (fun o => xValue o x) l (K x Ix))).
    + rewrite forallb_forall in H. apply Forall_forall. intros o Io. apply (Forall_in _ _ _ IH o Io); [exact (H o Io)|exact N|].
      intros x Ix. exact (proj1 (sumres_parts _ (fun o => xValue o x) l (K x Ix)) o Io).
  - destruct xs as [|x xs]; [congruence|]. specialize (K x (or_introl eq_refl)). discriminate K.
  - destruct xs as [|x xs]; [congruence|]. specialize (K x (or_introl eq_refl)). discriminate K.
Qed.
Lemma xentries_v : forall delta p xs (v : vec -> R), no_delta delta p = true -> xs <> [] ->
  (forall x, In x xs -> xValue p x = Ok (v x)) -> xValues delta p xs = Ok (Ar (map v xs)).
Proof.
  intros delta p xs v H N K. rewrite xentries; [|exact H|exact N|intros x Ix; rewrite (K x Ix); reflexivity].
  do 2 f_equal. apply map_ext_in. intros x Ix. rewrite (K x Ix). reflexivity.
Qed.
Lemma delta_raises : forall (delta : prof -> bool) own fam fl g J off fr rest g' pg xs,
  let d := PLeaf own fam fl g in delta d = true ->
  xValues delta d xs = Err TypeError /\ xValues delta (PTr d J off fr g' pg) xs = Err TypeError /\
  xValues delta (PSum (d :: rest) g' pg) xs = Err TypeError.
Proof.
  intros delta own fam fl g J off fr rest g' pg xs d H. unfold d in *.
  assert (E : forall ys, xValues delta (PLeaf own fam fl g) ys = Err TypeError) by (intros; cbn [xValues]; rewrite H; reflexivity).
  split; [apply E|]. split.
  - change (bind (xValues delta (PLeaf own fam fl g) (map (fun x => mapp (minv J) (vsub x off)) xs)) (fun v => Ok (nd_map (fun a => a * fr)%R v)) = Err TypeError).
    rewrite E. reflexivity.
  - change (bind (bind (xValues delta (PLeaf own fam fl g) xs) (fun x => bind (seqres (map (fun o => xValues delta o xs) rest)) (fun y => Ok (x :: y))))
      (fun vs => bind (jnp_array vs) (fun s => Ok (sum_axis0 Rplus 0%R s))) = Err TypeError). rewrite E. reflexivity.
Qed.
