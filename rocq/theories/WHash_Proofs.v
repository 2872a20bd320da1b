(** Proofs about equality and hashes of WCS objects. *)
From Coq Require Import ZArith Reals Bool String List Lra.
From Verif Require Import Base Bounds_Model Bounds_Proofs WHash_Model WHash_Spec.
Import ListNotations.
Open Scope R_scope.

Lemma feq_ok : forall a b, feq a b = true <-> fval a = fval b.
Proof. intros a b. unfold feq. destruct (Reqb_spec (fval a) (fval b)); split; intros; auto; congruence. Qed.
Lemma neq_ok : forall a b, neq a b = true <-> nval a = nval b.
Proof. intros a b. unfold neq. destruct (Reqb_spec (nval a) (nval b)); split; intros; auto; congruence. Qed.
Lemma peq_ok : forall a b, peq a b = true <-> pclass a = pclass b /\ pvals a = pvals b.
Proof.
  intros [x y|x y] [x' y'|x' y']; cbn [peq pclass pvals]; try (split; [discriminate|intros [E _]; discriminate]).
  - rewrite andb_true_iff, !feq_ok. split; [intros [-> ->]; auto|intros [_ E]; injection E; auto].
  - rewrite andb_true_iff, !Z.eqb_eq. split; [intros [-> ->]; auto|]. intros [_ E]. injection E as A B. split; apply eq_IZR; assumption.
Qed.
Lemma seq_ok : forall a b, seq a b = true <-> svals a = svals b.
Proof. intros [a b] [a' b']. unfold seq, svals. cbn [fst snd]. rewrite andb_true_iff, !feq_ok. split; [intros [-> ->]; auto|intros E; injection E; auto]. Qed.
Lemma pvals_len : forall p, exists x y, pvals p = [x; y].
Proof. intros [x y|x y]; cbn; eauto. Qed.
Lemma pair_vals : forall o w o' w', pvals o ++ pvals w = pvals o' ++ pvals w' -> pvals o = pvals o' /\ pvals w = pvals w'.
Proof.
  intros o w o' w' E. destruct (pvals_len o) as (x1 & y1 & E1), (pvals_len w) as (x2 & y2 & E2), (pvals_len o') as (x3 & y3 & E3), (pvals_len w') as (x4 & y4 & E4).
  rewrite E1, E2, E3, E4 in *. cbn in E. injection E as -> -> -> ->. auto.
Qed.
Lemma oeq_meaning : forall u v, oeq u v = true <-> meaning u = meaning v.
Proof.
  intros u v. destruct u as [s|s g|a b c d|s o w|s g o w|a b c d o w|r e], v as [s'|s' g'|a' b' c' d'|s' o' w'|s' g' o' w'|a' b' c' d' o' w'|r' e'];
    cbn [oeq meaning]; try (split; discriminate); rewrite ?andb_true_iff, ?neq_ok, ?seq_ok, ?peq_ok, ?feq_ok.
  - split; [intros ->; auto|intro E; injection E; auto].
  - split; [intros [-> ->]; auto|]. intro E. injection E as E1 E2 E3. split; [exact E1|]. unfold svals. rewrite E2, E3. reflexivity.
  - cbn [map]. split; [intros [[[-> ->] ->] ->]; auto|intro E; injection E; auto].
  - split; [intros [[-> [-> ->]] [-> ->]]; auto|]. intro E. injection E as E1 E2 E3 E4. apply pair_vals in E4. intuition.
  - split; [intros [[[-> ->] [-> ->]] [-> ->]]; auto|]. intro E. unfold svals in *. cbn [app] in E. injection E as E1 E2 E3 E4 E5 E6.
    apply pair_vals in E6. rewrite E4, E5. intuition.
  - cbn [map app]. split; [intros [[[[[-> ->] ->] ->] [-> ->]] [-> ->]]; auto|]. intro E. injection E as E1 E2 E3 E4 E5 E6 E7. apply pair_vals in E7. intuition.
  - split; [intros [-> ->]; auto|intro E; injection E; auto].
Qed.

(** Texts determine the values *)
Lemma tn_val : forall a b, tn a = tn b -> nval a = nval b.
Proof. intros [z|f] [z'|f'] E; cbn in *; congruence. Qed.
Lemma tp_val : forall a b r r', tp a ++ r = tp b ++ r' -> pclass a = pclass b /\ pvals a = pvals b /\ r = r'.
Proof.
  intros [x y|x y] [x' y'|x' y'] r r' E; cbn in *; injection E; intros; try discriminate; subst; auto.
Qed.
Lemma text_equal : forall u v, text u = text v -> oeq u v = true.
Proof.
  intros u v E. apply oeq_meaning.
  destruct u as [s|s g|a b c d|s o w|s g o w|a b c d o w|r e], v as [s'|s' g'|a' b' c' d'|s' o' w'|s' g' o' w'|a' b' c' d' o' w'|r' e'];
    cbn [text app ts] in E; try (exfalso; injection E; intros; discriminate); cbn [meaning map app svals].
  - injection E as E1. rewrite (tn_val _ _ E1). reflexivity.
  - injection E as E1 E2 E3. unfold svals. rewrite (tn_val _ _ E1), E2, E3. reflexivity.
  - injection E as E1 E2 E3 E4. rewrite (tn_val _ _ E1), (tn_val _ _ E2), (tn_val _ _ E3), (tn_val _ _ E4). reflexivity.
  - injection E as E1 E2. rewrite (tn_val _ _ E1). apply tp_val in E2. destruct E2 as (-> & -> & E2).
    rewrite <- (app_nil_r (tp w)), <- (app_nil_r (tp w')) in E2. apply tp_val in E2. destruct E2 as (-> & -> & _). reflexivity.
  - injection E as E1 E2 E3 E4. unfold svals. rewrite (tn_val _ _ E1), E2, E3. apply tp_val in E4. destruct E4 as (-> & -> & E4).
    rewrite <- (app_nil_r (tp w)), <- (app_nil_r (tp w')) in E4. apply tp_val in E4. destruct E4 as (-> & -> & _). reflexivity.
  - injection E as E1 E2 E3 E4 E5. rewrite (tn_val _ _ E1), (tn_val _ _ E2), (tn_val _ _ E3), (tn_val _ _ E4). apply tp_val in E5. destruct E5 as (-> & -> & E5).
    rewrite <- (app_nil_r (tp w)), <- (app_nil_r (tp w')) in E5. apply tp_val in E5. destruct E5 as (-> & -> & _). reflexivity.
  - injection E as E1 E2. rewrite E1, E2. reflexivity.
Qed.

(** Values determine the texts of plain numbers *)
Lemma fplain_eq : forall a b, fplain a -> fplain b -> fval a = fval b -> a = b.
Proof.
  intros [n m] [n' m'] [A1 A2] [B1 B2] E. unfold fval in E. cbn [fneg fmag] in *.
  destruct n, n'; [f_equal; lra| | |f_equal; lra].
  - assert (M : m = 0) by lra. specialize (A2 M). discriminate A2.
  - assert (M : m' = 0) by lra. specialize (B2 M). discriminate B2.
Qed.
Lemma nplain_eq : forall a b, nplain a -> nplain b -> nval a = nval b -> a = b.
Proof. intros [z|f] [z'|f'] A B E; cbn in *; try contradiction. f_equal. apply fplain_eq; auto. Qed.
Lemma pplain_eq : forall a b, pplain a -> pplain b -> pclass a = pclass b -> pvals a = pvals b -> a = b.
Proof.
  intros [x y|x y] [x' y'|x' y'] A B C E; cbn in *; try discriminate; injection E as E1 E2.
  - destruct A, B. f_equal; apply fplain_eq; auto.
  - f_equal; apply eq_IZR; auto.
Qed.
Lemma splain_eq : forall a b, splain a -> splain b -> svals a = svals b -> a = b.
Proof. intros [a b] [a' b'] [A1 A2] [B1 B2] E. injection E as E1 E2. cbn [fst snd] in *. f_equal; apply fplain_eq; auto. Qed.
Lemma plain_equal : forall u v, oplain u -> oplain v -> oeq u v = true -> u = v.
Proof.
  intros u v. destruct u as [s|s g|a b c d|s o w|s g o w|a b c d o w|r e], v as [s'|s' g'|a' b' c' d'|s' o' w'|s' g' o' w'|a' b' c' d' o' w'|r' e'];
    cbn [oeq oplain]; try discriminate; rewrite ?andb_true_iff, ?neq_ok, ?seq_ok, ?peq_ok, ?feq_ok; intuition; f_equal;
    auto using nplain_eq, splain_eq, pplain_eq, fplain_eq.
Qed.
Lemma inverse_equal : let I := fjac (Flt false 1) (Flt false 0) (Flt false 0) (Flt false 1) in
  let J := inverse (Flt false 1) (Flt false 0) (Flt false 0) (Flt false 1) in oeq I J = true /\ text I <> text J.
Proof.
  cbv zeta. unfold inverse. cbn [fval fneg fmag]. replace (1 * 1 - 0 * 0) with 1 by ring.
  assert (F : fof 1 = Flt false 1). { unfold fof. rewrite Rabs_R1. f_equal. destruct (Rltb_spec 1 0); [lra|reflexivity]. }
  rewrite F. unfold fdiv, fopp. cbn [fneg fmag negb xorb]. split.
  - apply oeq_meaning. cbn [fjac meaning map nval fval fneg fmag]. do 2 f_equal; [field|]. f_equal; [field|]. f_equal; [field|]. f_equal. field.
  - unfold fjac. cbn [text tn]. intro E. injection E. discriminate.
Qed.
