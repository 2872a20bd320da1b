(** Proofs about angles: wrapping, units, formatting and parsing. *)
From Coq Require Import ZArith Reals Bool Ascii String List Lra Lia Psatz ZifyBool.
From Verif Require Import Base Bounds_Model Bounds_Proofs FFT_Model FFT_Proofs Angle_Model Angle_Spec.
Import ListNotations.
Open Scope R_scope.

(** * Wrapping *)
Lemma floorR_bounds : forall x, IZR (floorR x) <= x < IZR (floorR x) + 1.
Proof. intros x. unfold floorR. destruct (base_Int_part x). lra. Qed.
Lemma floorR_unique : forall x z, IZR z <= x < IZR z + 1 -> floorR x = z.
Proof.
  intros x z H. pose proof (floorR_bounds x). assert (IZR z < IZR (floorR x + 1) /\ IZR (floorR x) < IZR (z + 1)) as [A B] by (rewrite !plus_IZR; lra).
  apply lt_IZR in A. apply lt_IZR in B. lia.
Qed.
Lemma floorR_add : forall x k, floorR (x + IZR k) = (floorR x + k)%Z.
Proof. intros x k. apply floorR_unique. rewrite plus_IZR. pose proof (floorR_bounds x). lra. Qed.

Definition centre (c : option R) : R := match c with None => 0 | Some c => c end.
Lemma wrap_ok : forall r c, same_direction (wrap r c) r /\ centre c - PI <= wrap r c < centre c + PI.
Proof.
  intros r c. unfold wrap. fold (centre c). set (k := floorR ((r - (centre c - PI)) / (2 * PI))). pose proof PI_RGT_0 as P. split.
  - exists (- k)%Z. rewrite opp_IZR. ring.
  - pose proof (floorR_bounds ((r - (centre c - PI)) / (2 * PI))) as [A B]. fold k in A, B.
    apply Rmult_le_compat_r with (r := 2 * PI) in A; [|lra]. apply Rmult_lt_compat_r with (r := 2 * PI) in B; [|lra].
    replace ((r - (centre c - PI)) / (2 * PI) * (2 * PI)) with (r - (centre c - PI)) in A, B by (field; lra). lra.
Qed.
Lemma within_unique : forall x y c, same_direction x y -> c - PI <= x < c + PI -> c - PI <= y < c + PI -> x = y.
Proof.
  intros x y c [k E] A B. pose proof PI_RGT_0. assert (k = 0%Z).
  { assert (-1 < IZR k < 1) as [U V]. { split; apply Rmult_lt_reg_r with (2 * PI); lra. }
    apply lt_IZR in V. apply (lt_IZR (-1)) in U. lia. }
  subst k. lra.
Qed.
Lemma same_sym : forall x y, same_direction x y -> same_direction y x.
Proof. intros x y [k E]. exists (- k)%Z. rewrite opp_IZR. lra. Qed.
Lemma same_trans : forall x y z, same_direction x y -> same_direction y z -> same_direction x z.
Proof. intros x y z [k E] [k' E']. exists (k + k')%Z. rewrite plus_IZR. lra. Qed.
Lemma wrap_unique : forall r c y, same_direction y r -> centre c - PI <= y < centre c + PI -> wrap r c = y.
Proof. intros r c y S B. destruct (wrap_ok r c) as [W X]. apply within_unique with (centre c); auto. eapply same_trans; eauto. apply same_sym; auto. Qed.
Lemma cos_sin_period : forall x y, same_direction x y -> cos x = cos y /\ sin x = sin y.
Proof.
  intros x y [k ->]. destruct (Z_le_gt_dec 0 k) as [H|H].
  - replace (IZR k) with (INR (Z.to_nat k)) by (rewrite INR_IZR_INZ, Z2Nat.id; auto).
    replace (y + INR (Z.to_nat k) * (2 * PI)) with (y + 2 * INR (Z.to_nat k) * PI) by ring. split; [apply cos_period|apply sin_period].
  - assert (E : y = y + IZR k * (2 * PI) + 2 * INR (Z.to_nat (- k)) * PI).
    { rewrite INR_IZR_INZ, Z2Nat.id, opp_IZR by lia. ring. }
    split; [rewrite E at 2; rewrite cos_period|rewrite E at 2; rewrite sin_period]; reflexivity.
Qed.

(** * Digits *)
Lemma dig_spec : forall n, (0 <= n <= 9)%Z -> nat_of_ascii (dig n) = (48 + Z.to_nat n)%nat.
Proof. intros n H. unfold dig. rewrite nat_ascii_embedding; [reflexivity|lia]. Qed.
Lemma is_digit_dig : forall n, (0 <= n <= 9)%Z -> is_digit (dig n) = true.
Proof. intros n H. unfold is_digit. rewrite dig_spec by auto. apply andb_true_intro. split; apply Nat.leb_le; lia. Qed.
Lemma reads_dval : forall t n, reads t n -> dval t = n.
Proof.
  intros t n H. induction H as [|t n k c H IH K E]; [reflexivity|].
  unfold dval in *. rewrite fold_left_app. cbn [fold_left]. rewrite IH, E. lia.
Qed.
Lemma reads_digits : forall t n, reads t n -> forallb is_digit t = true.
Proof.
  intros t n H. induction H as [|t n k c H IH K E]; [reflexivity|]. rewrite forallb_app, IH. cbn. unfold is_digit. rewrite E.
  rewrite andb_true_r. apply andb_true_intro. split; apply Nat.leb_le; lia.
Qed.
Lemma dec_f_ok : forall f n, (0 <= n)%Z -> (Z.to_nat (Z.log2 n) < f)%nat ->
  reads (dec_f f n) n /\ dec_f f n <> [] /\ (forall p, (0 < p)%nat -> (n < 10 ^ Z.of_nat p)%Z -> (length (dec_f f n) <= p)%nat).
Proof.
  induction f as [|f IH]; intros n N L; [lia|]. cbn [dec_f]. destruct (Z.ltb_spec n 10) as [l|l].
  - split; [|split].
    + apply (reads_snoc [] 0 n (dig n)); [constructor|lia|apply dig_spec; lia].
    + discriminate.
    + intros p P _. cbn. lia.
  - assert (Q : (0 <= n / 10)%Z) by (apply Z.div_pos; lia).
    assert (Lg : (Z.to_nat (Z.log2 (n / 10)) < f)%nat).
    { assert (Z.log2 (n / 10) <= Z.log2 n - 1)%Z; [|pose proof (Z.log2_nonneg (n / 10)); pose proof (Z.log2_nonneg n); lia].
      transitivity (Z.log2 (n / 2)); [apply Z.log2_le_mono; apply Z.div_le_compat_l; lia|].
      replace (n / 2)%Z with (Z.shiftr n 1) by (rewrite Z.shiftr_div_pow2; [reflexivity|lia]).
      pose proof (Z.log2_le_mono 2 n ltac:(lia)) as L2. change (Z.log2 2) with 1%Z in L2.
      rewrite Z.log2_shiftr by lia. lia. }
    destruct (IH (n / 10)%Z Q Lg) as [A [B D]]. split; [|split].
    + pose proof (Z.mod_pos_bound n 10 ltac:(lia)). rewrite (Z.div_mod n 10) at 3 by lia.
      apply reads_snoc; [exact A|lia|apply dig_spec; lia].
    + destruct (dec_f f (n / 10)); discriminate.
    + intros p P Hp. rewrite app_length. cbn [length]. destruct p as [|p]; [lia|]. destruct p as [|p].
      * change (10 ^ Z.of_nat 1)%Z with 10%Z in Hp. lia.
      * assert (n / 10 < 10 ^ Z.of_nat (S p))%Z.
        { apply Z.div_lt_upper_bound; [lia|]. rewrite Nat2Z.inj_succ, Z.pow_succ_r in Hp by lia. exact Hp. }
        specialize (D (S p) ltac:(lia) H). lia.
Qed.
Lemma dec_ok : forall n, (0 <= n)%Z ->
  reads (dec n) n /\ dec n <> [] /\ (forall p, (0 < p)%nat -> (n < 10 ^ Z.of_nat p)%Z -> (length (dec n) <= p)%nat).
Proof. intros n H. apply dec_f_ok; auto. Qed.
Lemma reads_zeros : forall t n w, reads t n -> reads (repeat "0"%char w ++ t) n.
Proof.
  intros t n w H. induction H as [|t n k c H IH K E].
  - rewrite app_nil_r. induction w as [|w IH]; [constructor|]. 
    replace (repeat "0"%char (S w)) with (repeat "0"%char w ++ ["0"%char]) by (rewrite <- repeat_cons; reflexivity).
    apply (reads_snoc _ 0 0 "0"%char IH); [lia|reflexivity].
  - rewrite app_assoc. apply reads_snoc; auto.
Qed.
Lemma decw_ok : forall w n, (0 <= n)%Z ->
  reads (decw w n) n /\ decw w n <> [] /\ ((0 < w)%nat -> (n < 10 ^ Z.of_nat w)%Z -> length (decw w n) = w).
Proof.
  intros w n H. destruct (dec_ok n H) as [A [B D]]. unfold decw. split; [apply reads_zeros; auto|]. split.
  - intros E. apply app_eq_nil in E. tauto.
  - intros P Hn. rewrite app_length, repeat_length. specialize (D w P Hn). lia.
Qed.

(** * Stripping *)
Lemma drop_while_app : forall f a b, existsb (fun c => negb (f c)) a = true -> drop_while f (a ++ b) = drop_while f a ++ b.
Proof. intros f a b. induction a as [|c a IH]; cbn; [discriminate|]. destruct (f c); cbn; auto. Qed.
Lemma drop_while_all : forall f a, forallb f a = true -> drop_while f a = [].
Proof. intros f a. induction a as [|c a IH]; cbn; auto. destruct (f c); cbn; [auto|discriminate]. Qed.
Lemma drop_while_suffix : forall f a, exists z, a = z ++ drop_while f a /\ forallb f z = true /\ (forall c t, drop_while f a = c :: t -> f c = false).
Proof.
  intros f a. induction a as [|c a [z [E [Z0 H]]]]; cbn.
  - exists []. repeat split; auto. discriminate.
  - destruct (f c) eqn:F.
    + exists (c :: z). cbn. rewrite F. rewrite <- E. auto.
    + exists []. repeat split; auto. intros c' t [= -> ->]. exact F.
Qed.
(** stripping on the right *)
Definition rdrop (f : ascii -> bool) (l : text) : text := rev (drop_while f (rev l)).
Lemma rdrop_spec : forall f l, exists z, l = rdrop f l ++ z /\ forallb f z = true /\ (forall t c, rdrop f l = t ++ [c] -> f c = false).
Proof.
  intros f l. destruct (drop_while_suffix f (rev l)) as [z [E [Z0 H]]]. exists (rev z). unfold rdrop. split; [|split].
  - rewrite <- rev_app_distr, <- E, rev_involutive. reflexivity.
  - apply forallb_forall. intros c I. apply in_rev in I. rewrite forallb_forall in Z0. auto.
  - intros t c X. apply (f_equal (@rev ascii)) in X. rewrite rev_involutive, rev_app_distr in X. cbn in X. eapply H; exact X.
Qed.
Lemma rdrop_keep : forall f a c b, f c = false -> rdrop f (a ++ [c] ++ b) = a ++ [c] ++ rdrop f b.
Proof.
  intros f a c b F. unfold rdrop. rewrite !rev_app_distr. cbn [rev app].
  assert (X : forall u v, drop_while f (u ++ c :: v) = drop_while f u ++ c :: v).
  { intros u v. induction u as [|d u IH]; cbn; [rewrite F; reflexivity|]. destruct (f d); auto. }
  rewrite <- app_assoc. cbn [app]. rewrite X, rev_app_distr. cbn [rev]. rewrite <- app_assoc, rev_involutive. reflexivity.
Qed.

(** * Tokens *)
Lemma is_num_numeric : forall c, is_num c = true -> numeric c.
Proof.
  intros [b0 b1 b2 b3 b4 b5 b6 b7]. unfold numeric.
  destruct b0, b1, b2, b3, b4, b5, b6, b7; intros H; try discriminate H; cbn; auto 12.
Qed.
Lemma plain_not_num : forall t, plain t -> forall c, In c t -> is_num c = false.
Proof. intros t P c I. destruct (is_num c) eqn:E; auto. exfalso. apply (P c I), is_num_numeric; auto. Qed.
Lemma num_not_space : forall c, is_num c = true -> is_space c = false.
Proof.
  intros [b0 b1 b2 b3 b4 b5 b6 b7]. destruct b0, b1, b2, b3, b4, b5, b6, b7; intros H; try discriminate H; reflexivity.
Qed.
Lemma digit_num : forall c, is_digit c = true -> is_num c = true.
Proof. intros c H. unfold is_num. rewrite H. apply orb_true_r. Qed.
Lemma digit_not_dot : forall c, is_digit c = true -> Ascii.eqb c "."%char = false.
Proof. intros c H. destruct (Ascii.eqb_spec c "."%char); auto. subst. discriminate H. Qed.

Lemma runs_head : forall c t, exists w ws, runs (c :: t) = (c :: w) :: ws.
Proof.
  intros c t. cbn [runs]. destruct (runs t) as [|[|c' w] ws]; eauto. destruct (Bool.eqb (is_num c) (is_num c')); eauto.
Qed.
Lemma runs_block : forall w rest b, w <> [] -> (forall c, In c w -> is_num c = b) ->
  (forall c t, rest = c :: t -> is_num c = negb b) -> runs (w ++ rest) = w :: runs rest.
Proof.
  induction w as [|c w IH]; intros rest b N H D; [contradiction|]. destruct w as [|c2 w].
  - cbn [app]. destruct rest as [|c' t]; [reflexivity|]. destruct (runs_head c' t) as [w' [ws E]]. 
    change (runs (c :: c' :: t)) with (match runs (c' :: t) with (d :: v) :: vs => if Bool.eqb (is_num c) (is_num d) then (c :: d :: v) :: vs else [c] :: (d :: v) :: vs | vs => [c] :: vs end).
    rewrite E. rewrite (H c (or_introl eq_refl)), (D c' t eq_refl). destruct b; reflexivity.
  - assert (E : runs ((c2 :: w) ++ rest) = (c2 :: w) :: runs rest).
    { apply (IH rest b); auto; [discriminate|]. intros x I. apply H. right; auto. }
    cbn [app] in *. change (runs (c :: c2 :: w ++ rest)) with (match runs (c2 :: w ++ rest) with (d :: v) :: vs => if Bool.eqb (is_num c) (is_num d) then (c :: d :: v) :: vs else [c] :: (d :: v) :: vs | vs => [c] :: vs end).
    rewrite E. rewrite (H c (or_introl eq_refl)), (H c2 (or_intror (or_introl eq_refl))). destruct b; reflexivity.
Qed.

(** * Numbers *)
Lemma no_dot : forall l r, forallb is_digit l = true -> before_dot (l ++ "."%char :: r) = l /\ after_dot (l ++ "."%char :: r) = r /\
  before_dot l = l /\ after_dot l = [].
Proof.
  induction l as [|c l IH]; intros r H; [cbn; auto|]. cbn [forallb] in H. apply andb_prop in H as [H1 H2].
  destruct (IH r H2) as [A [B [D E]]]. cbn [app before_dot after_dot]. rewrite (digit_not_dot c H1), A, B, D, E. auto.
Qed.
Lemma float_int : forall D, D <> [] -> forallb is_digit D = true -> to_float D = Ok (IZR (dval D)).
Proof.
  intros D N H. destruct (no_dot D [] H) as [_ [_ [A B]]]. unfold to_float. rewrite A, B, app_nil_r, H. cbn [forallb andb].
  destruct D; [contradiction|]. cbn [length Nat.eqb negb]. f_equal. cbn [dval fold_left pow]. change (IZR (dval [])) with 0.
  rewrite ?Rdiv_1. unfold Rdiv. rewrite Rmult_0_l, Rplus_0_r. reflexivity.
Qed.
Lemma float_dec : forall D F, D <> [] -> forallb is_digit D = true -> forallb is_digit F = true ->
  to_float (D ++ "."%char :: F) = Ok (IZR (dval D) + IZR (dval F) / 10 ^ length F).
Proof.
  intros D F N H K. destruct (no_dot D F H) as [A [B _]]. unfold to_float. rewrite A, B, H, K. 
  destruct D; [contradiction|]. reflexivity.
Qed.
Lemma dval_zeros : forall z t, forallb (Ascii.eqb "0"%char) z = true -> IZR (dval (t ++ z)) = IZR (dval t) * 10 ^ length z.
Proof.
  induction z as [|c z IH]; intros t H; [rewrite app_nil_r; cbn; ring|].
  cbn [forallb] in H. apply andb_prop in H as [H1 H2]. apply Ascii.eqb_eq in H1. subst c.
  replace (t ++ "0"%char :: z) with ((t ++ ["0"%char]) ++ z) by (rewrite <- app_assoc; reflexivity).
  rewrite IH by auto. unfold dval at 1. rewrite fold_left_app. fold (dval t). cbn [fold_left length pow].
  change (Z.of_nat (nat_of_ascii "0"%char) - 48)%Z with 0%Z. rewrite Z.add_0_r, mult_IZR. ring.
Qed.

(** The seconds: what remains of S.F after trailing zeros and a trailing point are removed. *)
Definition trimmed (t : text) : text := rstrip "."%char (rstrip "0"%char t).
Lemma last_digit : forall D, D <> [] -> forallb is_digit D = true -> exists D' c, D = D' ++ [c] /\ is_digit c = true.
Proof.
  intros D N H. destruct (exists_last N) as [D' [c E]]. exists D', c. split; auto. subst. rewrite forallb_app in H. apply andb_prop in H as [_ H].
  cbn in H. rewrite andb_true_r in H. exact H.
Qed.
Lemma trim_seconds : forall X S F, S <> [] -> forallb is_digit S = true -> forallb is_digit F = true ->
  exists T, trimmed (X ++ S ++ "."%char :: F) = X ++ T /\ T <> [] /\ (forall c, In c T -> is_num c = true) /\
    to_float T = Ok (IZR (dval S) + IZR (dval F) / 10 ^ length F).
Proof.
  intros X S F N HS HF. destruct (rdrop_spec (Ascii.eqb "0"%char) F) as [z [E [Z0 L]]].
  set (F' := rdrop (Ascii.eqb "0"%char) F) in *.
  assert (HF' : forallb is_digit F' = true) by (rewrite E in HF; rewrite forallb_app in HF; apply andb_prop in HF; tauto).
  assert (R1 : rstrip "0"%char (X ++ S ++ "."%char :: F) = (X ++ S) ++ ["."%char] ++ F').
  { change (rdrop (Ascii.eqb "0"%char) (X ++ S ++ "."%char :: F) = (X ++ S) ++ ["."%char] ++ F').
    replace (X ++ S ++ "."%char :: F) with ((X ++ S) ++ ["."%char] ++ F) by (rewrite <- app_assoc; reflexivity).
    apply rdrop_keep. reflexivity. }
  assert (V : IZR (dval F) / 10 ^ length F = IZR (dval F') / 10 ^ length F').
  { rewrite E. rewrite dval_zeros by auto. rewrite app_length, pow_add. 
    assert (10 ^ length F' <> 0) by (apply pow_nonzero; lra). assert (10 ^ length z <> 0) by (apply pow_nonzero; lra). field. auto. }
  unfold trimmed. rewrite R1, V. destruct F' as [|c0 F0] eqn:EF.
  - destruct (last_digit S N HS) as [S' [c [ES C0]]]. exists S. split; [|split; [|split]]; auto.
    + rewrite ES. change (rdrop (Ascii.eqb "."%char) ((X ++ S' ++ [c]) ++ ["."%char] ++ []) = X ++ S' ++ [c]).
      replace ((X ++ S' ++ [c]) ++ ["."%char] ++ []) with ((X ++ S') ++ [c] ++ ["."%char]) by (rewrite <- !app_assoc; reflexivity).
      rewrite rdrop_keep; [rewrite <- app_assoc; cbn; rewrite ?app_nil_r; reflexivity|].
      rewrite Ascii.eqb_sym. apply digit_not_dot; auto.
    + intros d I. apply digit_num. rewrite forallb_forall in HS. auto.
    + rewrite float_int by auto. f_equal. change (IZR (dval [])) with 0. unfold Rdiv. rewrite Rmult_0_l, Rplus_0_r. reflexivity.
  - assert (NF : c0 :: F0 <> []) by discriminate. destruct (last_digit _ NF HF') as [G [c [EG C0]]].
    exists (S ++ "."%char :: c0 :: F0). split; [|split; [|split]].
    + rewrite EG. change (rdrop (Ascii.eqb "."%char) ((X ++ S) ++ ["."%char] ++ G ++ [c]) = X ++ S ++ "."%char :: G ++ [c]).
      replace ((X ++ S) ++ ["."%char] ++ G ++ [c]) with ((X ++ S ++ ["."%char] ++ G) ++ [c] ++ []) by (rewrite <- !app_assoc; reflexivity).
      rewrite rdrop_keep by (rewrite Ascii.eqb_sym; apply digit_not_dot; auto). cbn. rewrite <- !app_assoc. reflexivity.
    + destruct S; discriminate.
    + intros d I. apply in_app_or in I. rewrite forallb_forall in HS, HF'. destruct I as [I|[<-|I]]; [apply digit_num; auto|reflexivity|apply digit_num; auto].
    + apply float_dec; auto.
Qed.

(** * Parsing *)
Definition sign_text (t : text) : Prop := t = [] \/ t = txt "-" \/ t = txt "+".
Definition sign_value (t : text) : R := if text_eqb t (txt "-") then -1 else 1.
Lemma parse_fields : forall sg D s1 M s2 T tail d m v, sign_text sg ->
  (D <> [] /\ forallb is_digit D = true) -> (M <> [] /\ forallb is_digit M = true) -> (T <> [] /\ forall c, In c T -> is_num c = true) ->
  (s1 <> [] /\ plain s1) -> (s2 <> [] /\ plain s2) -> plain tail ->
  to_float D = Ok d -> to_float M = Ok m -> to_float T = Ok v ->
  parse_dms (sg ++ D ++ s1 ++ M ++ s2 ++ T ++ tail) = Ok (sign_value sg * (d + m / 60 + v / 3600)).
Proof.
  intros sg D s1 M s2 T tail d m v SG [ND HD] [NM HM] [NT HT] [N1 P1] [N2 P2] PT FD FM FT.
  set (tail' := rdrop is_space tail).
  destruct (exists_last NT) as [T' [ct ET]]. assert (Ct : is_num ct = true) by (apply HT; rewrite ET; apply in_or_app; right; left; reflexivity).
  assert (St : strip (sg ++ D ++ s1 ++ M ++ s2 ++ T ++ tail) = sg ++ D ++ s1 ++ M ++ s2 ++ T ++ tail').
  { unfold strip.
    assert (L : drop_while is_space (sg ++ D ++ s1 ++ M ++ s2 ++ T ++ tail) = sg ++ D ++ s1 ++ M ++ s2 ++ T ++ tail).
    { destruct D as [|c D]; [contradiction|]. cbn [forallb] in HD. apply andb_prop in HD as [HD _].
      destruct SG as [-> | [-> | ->]]; cbn; rewrite ?(num_not_space c (digit_num c HD)); reflexivity. }
    rewrite L. change (rdrop is_space (sg ++ D ++ s1 ++ M ++ s2 ++ T ++ tail) = sg ++ D ++ s1 ++ M ++ s2 ++ T ++ tail').
    rewrite ET. replace (sg ++ D ++ s1 ++ M ++ s2 ++ (T' ++ [ct]) ++ tail) with ((sg ++ D ++ s1 ++ M ++ s2 ++ T') ++ [ct] ++ tail) by (rewrite <- !app_assoc; reflexivity).
    rewrite rdrop_keep by (apply num_not_space; auto). rewrite <- !app_assoc. reflexivity. }
  assert (PT' : plain tail').
  { intros c I. apply PT. destruct (rdrop_spec is_space tail) as [z [E _]]. rewrite E. apply in_or_app. left. exact I. }
  assert (A : forall X, (forall c, In c X -> is_digit c = true) -> forall c, In c X -> is_num c = true) by (intros; apply digit_num; auto).
  rewrite forallb_forall in HD, HM.
  set (last := match tail' with [] => [] | _ => [tail'] end).
  assert (Hd : forall (w r : text) b, w <> [] -> (forall c, In c w -> is_num c = b) -> forall c t, w ++ r = c :: t -> is_num c = b).
  { intros w r b Nw Hw c t E. destruct w as [|c' w]; [contradiction|]. injection E as <- _. apply Hw. left; auto. }
  assert (RT : runs (T ++ tail') = T :: last).
  { rewrite (runs_block T tail' true); auto; [|intros c t E; apply (plain_not_num tail' PT'); rewrite E; left; auto].
    f_equal. unfold last. destruct tail' as [|c t] eqn:Et; [reflexivity|]. rewrite <- (app_nil_r (c :: t)) at 1.
    rewrite (runs_block (c :: t) [] false); auto; [discriminate|apply plain_not_num; auto|discriminate]. }
  assert (R0 : runs (D ++ s1 ++ M ++ s2 ++ T ++ tail') = D :: s1 :: M :: s2 :: T :: last).
  { pose proof (A D HD) as AD. pose proof (A M HM) as AM. pose proof (plain_not_num s1 P1) as A1. pose proof (plain_not_num s2 P2) as A2.
    rewrite (runs_block D _ true ND AD (Hd s1 _ false N1 A1)). f_equal.
    rewrite (runs_block s1 _ false N1 A1 (Hd M _ true NM AM)). f_equal.
    rewrite (runs_block M _ true NM AM (Hd s2 _ false N2 A2)). f_equal.
    rewrite (runs_block s2 _ false N2 A2 (Hd T _ true NT HT)). f_equal. exact RT. }
  assert (PR : forall x, parse_rest x (D :: s1 :: M :: s2 :: T :: last) = Ok (x * (d + m / 60 + v / 3600))).
  { intros x. unfold parse_rest. cbn [nth]. rewrite FD, FM, FT. unfold last. destruct tail'; reflexivity. }
  unfold parse_dms. rewrite St. destruct SG as [-> | SG].
  - cbn [app]. rewrite R0. cbn [length Nat.leb hd]. rewrite FD, PR. reflexivity.
  - assert (Sg : exists c, sg = [c] /\ is_num c = false) by (destruct SG as [-> | ->]; eexists; split; reflexivity).
    destruct Sg as [c [Ec Cn]].
    assert (R1 : runs (sg ++ D ++ s1 ++ M ++ s2 ++ T ++ tail') = sg :: D :: s1 :: M :: s2 :: T :: last).
    { rewrite (runs_block sg _ false); [rewrite R0; reflexivity|rewrite Ec; discriminate|rewrite Ec; intros x [<-|[]]; auto|exact (Hd D _ true ND (A D HD))]. }
    rewrite R1. cbn [length Nat.leb hd tl].
    assert (Fs : to_float sg = Err ValueError) by (destruct SG as [-> | ->]; reflexivity). rewrite Fs.
    assert (Ss : strip sg = sg) by (destruct SG as [-> | ->]; reflexivity). rewrite Ss, FD. cbn [bind].
    rewrite PR. reflexivity.
Qed.

(** * Formatting *)
Definition precision (prec : option nat) : nat := match prec with None => 8%nat | Some p => p end.
Lemma split_fields : forall N g, (0 <= N)%Z -> (0 < g)%Z ->
  let d := (N / (3600 * g))%Z in let N1 := (N - d * (3600 * g))%Z in
  let m := (N1 / (60 * g))%Z in let N2 := (N1 - m * (60 * g))%Z in
  let s := (N2 / g)%Z in let f := (N2 - s * g)%Z in
  (0 <= d /\ 0 <= m < 60 /\ 0 <= s < 60 /\ 0 <= f < g /\ N = ((d * 60 + m) * 60 + s) * g + f)%Z.
Proof.
  intros N g HN Hg d N1 m N2 s f.
  assert (D : (0 <= d)%Z) by (apply Z.div_pos; lia).
  assert (E1 : (0 <= N1 < 3600 * g)%Z). { unfold N1, d. pose proof (Z.mod_pos_bound N (3600 * g) ltac:(lia)). rewrite Z.mod_eq in H by lia. lia. }
  assert (E2 : (0 <= N2 < 60 * g)%Z). { unfold N2, m. pose proof (Z.mod_pos_bound N1 (60 * g) ltac:(lia)). rewrite Z.mod_eq in H by lia. lia. }
  assert (E3 : (0 <= f < g)%Z). { unfold f, s. pose proof (Z.mod_pos_bound N2 g ltac:(lia)). rewrite Z.mod_eq in H by lia. lia. }
  assert (M : (0 <= m < 60)%Z) by (split; [apply Z.div_pos; lia|apply Z.div_lt_upper_bound; lia]).
  assert (Sx : (0 <= s < 60)%Z) by (split; [apply Z.div_pos; lia|apply Z.div_lt_upper_bound; lia]).
  repeat (split; [lia|]). unfold f, N2, N1. ring.
Qed.
Definition sign_of (x : R) (plus : bool) : text := if Rltb x 0 then txt "-" else if plus then txt "+" else [].
Lemma format_fields : forall x (s1 s2 : text) (s3 : option text) prec pad plus, exists d m s f D M S F,
  let p := precision prec in
  (0 <= d /\ 0 <= m < 60 /\ 0 <= s < 60 /\ 0 <= f < 10 ^ Z.of_nat p)%Z /\
  Rabs (IZR (((d * 60 + m) * 60 + s) * 10 ^ Z.of_nat p + f) - 3600 * IZR (10 ^ Z.of_nat p) * Rabs x) <= / 2 /\
  reads D d /\ reads M m /\ reads S s /\ reads F f /\ D <> [] /\ M <> [] /\ S <> [] /\
  (pad = true -> length M = 2%nat /\ length S = 2%nat /\ (2 <= length D)%nat) /\ ((0 < p)%nat -> length F = p) /\
  make_dms x (s1, s2, s3) prec pad plus =
    (let body := sign_of x plus ++ D ++ s1 ++ M ++ s2 ++ S ++ ["."%char] ++ F in
     match prec with None | Some O => trimmed body | Some _ => body end) ++ match s3 with None => [] | Some t => t end.
Proof.
  intros x s1 s2 s3 prec pad plus. set (p := precision prec). set (g := (10 ^ Z.of_nat p)%Z).
  assert (G : (0 < g)%Z) by (apply Z.pow_pos_nonneg; lia).
  assert (G' : 0 < IZR g) by (apply IZR_lt; auto).
  set (y := 3600 * IZR g * Rabs x + / 2). pose proof (Rabs_pos x) as Ax.
  assert (Y : / 2 <= y). { unfold y. assert (0 <= 3600 * IZR g * Rabs x) by (apply Rmult_le_pos; lra). lra. }
  set (N := floorR y). pose proof (floorR_bounds y) as [B1 B2]. fold N in B1, B2.
  assert (HN : (0 <= N)%Z). { assert (IZR (-1) < IZR N) by lra. apply lt_IZR in H. lia. }
  destruct (split_fields N g HN G) as [Hd [Hm [Hs [Hf E]]]].
  set (d := (N / (3600 * g))%Z) in *. set (N1 := (N - d * (3600 * g))%Z) in *.
  set (m := (N1 / (60 * g))%Z) in *. set (N2 := (N1 - m * (60 * g))%Z) in *.
  set (s := (N2 / g)%Z) in *. set (f := (N2 - s * g)%Z) in *.
  assert (FM : forall n, (0 <= n)%Z -> reads ((if pad then decw 2 else dec) n) n /\ (if pad then decw 2 else dec) n <> [] /\ (pad = true -> (n < 100)%Z -> length ((if pad then decw 2 else dec) n) = 2%nat) /\ (pad = true -> (2 <= length ((if pad then decw 2 else dec) n))%nat)).
  { intros n Hn. destruct pad.
    - destruct (decw_ok 2 n Hn) as [a [b c]]. split; auto. split; auto. split; [intros _ l; apply c; [lia|exact l]|].
      intros _. unfold decw. rewrite app_length, repeat_length. lia.
    - destruct (dec_ok n Hn) as [a [b c]]. split; auto. split; auto. split; discriminate. }
  destruct (FM d Hd) as [RD [ND [_ LD]]]. destruct (FM m ltac:(lia)) as [RM [NM [LM _]]]. destruct (FM s ltac:(lia)) as [RS [NS [LS _]]].
  destruct (decw_ok p f ltac:(lia)) as [RF [NF LF]].
  set (fmt := if pad then decw 2 else dec) in *.
  exists d, m, s, f, (fmt d), (fmt m), (fmt s), (decw p f). cbv zeta. fold p. fold g.
  split; [tauto|]. split.
  { rewrite <- E. apply Rabs_le. unfold y in B1, B2. lra. }
  split; auto. split; auto. split; auto. split; auto. split; auto. split; auto. split; auto.
  split; [intros Hp; split; [apply LM; auto; lia|split; [apply LS; auto; lia|apply LD; auto]]|].
  split; [intros Hp; apply LF; auto; apply Hf|].
  unfold make_dms, sign_of. fold (precision prec). fold p. fold g. fold fmt.
  assert (YE : forall z, z = Rabs x -> floorR (3600 * IZR g * z + / 2) = N) by (intros z ->; reflexivity).
  destruct (Rltb_spec x 0) as [l|l].
  - rewrite (YE (- x)) by (symmetry; apply Rabs_left; auto). fold d N1 m N2 s f. destruct s3, prec as [[|q]|]; rewrite ?app_nil_r; reflexivity.
  - destruct plus; rewrite (YE x) by (symmetry; apply Rabs_right; lra); fold d N1 m N2 s f; destruct s3, prec as [[|q]|]; rewrite ?app_nil_r; reflexivity.
Qed.

Lemma reads_pos : forall t n, reads t n -> (0 <= n)%Z.
Proof. intros t n H. induction H; lia. Qed.
Lemma round_trip : forall x (s1 s2 : text) (s3 : option text) prec pad plus, s1 <> [] -> plain s1 -> s2 <> [] -> plain s2 ->
  (forall t, s3 = Some t -> plain t) ->
  exists y, parse_dms (make_dms x (s1, s2, s3) prec pad plus) = Ok y /\ Rabs (y - x) <= / 2 / (3600 * 10 ^ precision prec).
Proof.
  intros x s1 s2 s3 prec pad plus N1 P1 N2 P2 P3.
  destruct (format_fields x s1 s2 s3 prec pad plus) as [d [m [s [f [D [M [S [F H]]]]]]]]. cbv zeta in H.
  set (p := precision prec) in *. destruct H as [[Hd [Hm [Hs Hf]]] [Er [RD [RM [RS [RF [ND [NM [NS [_ [LF E]]]]]]]]]]].
  set (g := (10 ^ Z.of_nat p)%Z) in *.
  set (tail := match s3 with None => [] | Some t => t end) in *.
  assert (PT : plain tail) by (unfold tail; destruct s3; [apply P3; auto|intros c []]).
  pose proof (reads_digits D d RD) as DD. pose proof (reads_digits M m RM) as DM. pose proof (reads_digits S s RS) as DS. pose proof (reads_digits F f RF) as DF.
  assert (Gp : IZR g = 10 ^ p) by (unfold g; rewrite <- pow_IZR; reflexivity).
  assert (G0 : 0 < 10 ^ p) by (apply pow_lt; lra).
  assert (V : exists T, (let body := sign_of x plus ++ D ++ s1 ++ M ++ s2 ++ S ++ ["."%char] ++ F in
     match prec with None | Some O => trimmed body | Some _ => body end) = sign_of x plus ++ D ++ s1 ++ M ++ s2 ++ T /\
     T <> [] /\ (forall c, In c T -> is_num c = true) /\ to_float T = Ok (IZR s + IZR f / 10 ^ p)).
  { assert (W : IZR f / 10 ^ length F = IZR f / 10 ^ p).
    { destruct (Nat.eq_dec p 0) as [z|z].
      - assert (f = 0%Z) by (unfold g in Hf; rewrite z in Hf; change (10 ^ Z.of_nat 0)%Z with 1%Z in Hf; lia). rewrite H. unfold Rdiv. rewrite !Rmult_0_l. reflexivity.
      - rewrite LF by lia. reflexivity. }
    assert (Tr : exists T, trimmed (sign_of x plus ++ D ++ s1 ++ M ++ s2 ++ S ++ ["."%char] ++ F) = sign_of x plus ++ D ++ s1 ++ M ++ s2 ++ T /\
       T <> [] /\ (forall c, In c T -> is_num c = true) /\ to_float T = Ok (IZR s + IZR f / 10 ^ p)).
    { destruct (trim_seconds (sign_of x plus ++ D ++ s1 ++ M ++ s2) S F NS DS DF) as [T [T1 [T2 [T3 T4]]]].
      exists T. rewrite <- !app_assoc in T1. split; [exact T1|]. split; auto. split; auto. rewrite T4, (reads_dval S s RS), (reads_dval F f RF), W. reflexivity. }
    destruct prec as [[|q]|]; try exact Tr. exists (S ++ ["."%char] ++ F). split; [reflexivity|]. split; [destruct S; discriminate|]. split.
    - intros c I. apply in_app_or in I. rewrite forallb_forall in DS, DF. destruct I as [I|[<-|I]]; [apply digit_num; auto|reflexivity|apply digit_num; auto].
    - cbn [app]. rewrite float_dec by auto. rewrite (reads_dval S s RS), (reads_dval F f RF), W. reflexivity. }
  destruct V as [T [V1 [V2 [V3 V4]]]]. 
  assert (E' : make_dms x (s1, s2, s3) prec pad plus = (sign_of x plus ++ D ++ s1 ++ M ++ s2 ++ T) ++ tail) by (rewrite E; f_equal; exact V1).
  rewrite E'.
  assert (FD : to_float D = Ok (IZR d)) by (rewrite float_int, (reads_dval D d RD) by auto; reflexivity).
  assert (FM : to_float M = Ok (IZR m)) by (rewrite float_int, (reads_dval M m RM) by auto; reflexivity).
  exists (sign_value (sign_of x plus) * (IZR d + IZR m / 60 + (IZR s + IZR f / 10 ^ p) / 3600)). split.
  - rewrite <- !app_assoc. apply parse_fields; auto. unfold sign_of, sign_text. destruct (Rltb x 0), plus; auto.
  - assert (Q : IZR d + IZR m / 60 + (IZR s + IZR f / 10 ^ p) / 3600 = IZR (((d * 60 + m) * 60 + s) * g + f) / (3600 * 10 ^ p)).
    { rewrite !plus_IZR, !mult_IZR, !plus_IZR, !mult_IZR, !plus_IZR, !mult_IZR, Gp. field. lra. }
    rewrite Q. rewrite Gp in Er. set (N := IZR (((d * 60 + m) * 60 + s) * g + f)) in *.
    assert (K : Rabs (N / (3600 * 10 ^ p) - Rabs x) <= / 2 / (3600 * 10 ^ p)).
    { replace (N / (3600 * 10 ^ p) - Rabs x) with ((N - 3600 * 10 ^ p * Rabs x) * / (3600 * 10 ^ p)) by (field; lra).
      assert (0 < 3600 * 10 ^ p) by lra.
      rewrite Rabs_mult, (Rabs_right (/ _)) by (apply Rle_ge, Rlt_le, Rinv_0_lt_compat; lra).
      apply Rmult_le_compat_r; [apply Rlt_le, Rinv_0_lt_compat; lra|exact Er]. }
    unfold sign_value, sign_of. destruct (Rltb_spec x 0) as [l|l].
    + cbn. rewrite (Rabs_left x) in K by auto. rewrite <- Rabs_Ropp. replace (- (-1 * (N / (3600 * 10 ^ p)) - x)) with (N / (3600 * 10 ^ p) - - x) by ring. exact K.
    + rewrite (Rabs_right x) in K by lra. destruct plus; cbn; rewrite Rmult_1_l; exact K.
Qed.
Lemma number_alone : forall sg T, sign_text sg -> T <> [] -> (forall c, In c T -> is_num c = true) ->
  parse_dms (sg ++ T) = Err ValueError.
Proof.
  intros sg T SG NT HT. destruct (exists_last NT) as [T' [ct ET]].
  assert (Ct : is_space ct = false) by (apply num_not_space, HT; rewrite ET; apply in_or_app; right; left; reflexivity).
  assert (St : strip (sg ++ T) = sg ++ T).
  { unfold strip. assert (L : drop_while is_space (sg ++ T) = sg ++ T).
    { destruct T as [|c T]; [contradiction|]. destruct SG as [-> | [-> | ->]]; cbn; rewrite ?(num_not_space c (HT c (or_introl eq_refl))); reflexivity. }
    rewrite L. change (rdrop is_space (sg ++ T) = sg ++ T). rewrite ET, app_assoc. rewrite <- (app_nil_r ((sg ++ T') ++ [ct])), <- app_assoc.
    rewrite rdrop_keep by auto. reflexivity. }
  assert (RT : runs T = [T]). { rewrite <- (app_nil_r T) at 1. rewrite (runs_block T [] true); auto. discriminate. }
  unfold parse_dms. rewrite St. destruct SG as [-> | SG].
  - cbn [app]. rewrite RT. reflexivity.
  - assert (Sg : exists c, sg = [c] /\ is_num c = false) by (destruct SG as [-> | ->]; eexists; split; reflexivity). destruct Sg as [c [Ec Cn]].
    rewrite (runs_block sg T false).
    + rewrite RT. cbn [length Nat.leb hd tl].
      assert (Fs : to_float sg = Err ValueError) by (destruct SG as [-> | ->]; reflexivity). rewrite Fs.
      unfold to_float. destruct (_ && _); reflexivity.
    + rewrite Ec; discriminate.
    + rewrite Ec; intros x [<-|[]]; auto.
    + intros x t E. apply HT. rewrite E. left; auto.
Qed.
Lemma no_separator : forall x prec pad plus, parse_dms (make_dms x ([], [], None) prec pad plus) = Err ValueError.
Proof.
  intros x prec pad plus. destruct (format_fields x [] [] None prec pad plus) as [d [m [s [f [D [M [S [F H]]]]]]]]. cbv zeta in H.
  destruct H as [_ [_ [RD [RM [RS [RF [ND [NM [NS [_ [_ E]]]]]]]]]]]. rewrite app_nil_r in E. cbn [app] in E.
  apply reads_digits in RD, RM, RS, RF. 
  assert (A : forallb is_digit (D ++ M ++ S) = true) by (rewrite !forallb_app, RD, RM, RS; reflexivity).
  assert (NA : D ++ M ++ S <> []) by (destruct D; [contradiction|discriminate]).
  assert (SG : sign_text (sign_of x plus)) by (unfold sign_of, sign_text; destruct (Rltb x 0), plus; auto).
  assert (Q : exists T, make_dms x ([], [], None) prec pad plus = sign_of x plus ++ T /\ T <> [] /\ (forall c, In c T -> is_num c = true)).
  { assert (Tr : exists T, trimmed (sign_of x plus ++ D ++ M ++ S ++ "."%char :: F) = sign_of x plus ++ T /\ T <> [] /\ (forall c, In c T -> is_num c = true)).
    { destruct (trim_seconds (sign_of x plus) (D ++ M ++ S) F NA A RF) as [T [T1 [T2 [T3 _]]]]. exists T. rewrite <- !app_assoc in T1. auto. }
    destruct Tr as [T [T1 T2]]. destruct prec as [[|q]|];
      [exists T; split; [exact (eq_trans E T1)|exact T2]| |exists T; split; [exact (eq_trans E T1)|exact T2]].
    eexists. split; [exact E|]. split; [destruct D; [contradiction|discriminate]|].
    intros c I. rewrite forallb_forall in A, RF. replace (D ++ M ++ S ++ "."%char :: F) with ((D ++ M ++ S) ++ "."%char :: F) in I by (rewrite <- !app_assoc; reflexivity).
    apply in_app_or in I. destruct I as [I|[<-|I]]; [apply digit_num; auto|reflexivity|apply digit_num; auto]. }
  destruct Q as [T [Q1 [Q2 Q3]]]. rewrite Q1. apply number_alone; auto.
Qed.
Lemma format_round_trip : forall unit rad sep prec pad plus, 0 < unit -> usable sep -> (forall p, prec = Some p -> (0 <= p)%Z) ->
  exists t x, format_with unit rad sep prec pad plus = Ok t /\ parse_dms t = Ok x /\
    Rabs (x * unit - rad) <= unit / (2 * 3600 * 10 ^ match prec with None => 8 | Some p => Z.to_nat p end).
Proof.
  intros unit rad sep prec pad plus U Us P.
  assert (S0 : exists s1 s2 s3, separators sep = Ok (s1, s2, s3) /\ s1 <> [] /\ plain s1 /\ s2 <> [] /\ plain s2 /\ forall t, s3 = Some t -> plain t).
  { destruct sep as [|a [|b [|c [|]]]]; cbn in Us; try contradiction; do 3 eexists; (split; [reflexivity|]); intuition; try discriminate; try (match goal with H : Some _ = Some _ |- _ => injection H as <-; assumption end). }
  destruct S0 as [s1 [s2 [s3 [E [A [B [C0 [D F]]]]]]]]. unfold format_with. rewrite E. cbn [bind].
  set (pr := match prec with None => None | Some p => Some (Z.to_nat p) end).
  destruct (round_trip (rad / unit) s1 s2 s3 pr pad plus A B C0 D F) as [y [Y1 Y2]].
  exists (make_dms (rad / unit) (s1, s2, s3) pr pad plus), y. split; [|split; [exact Y1|]].
  - destruct prec as [p|]; [|reflexivity]. specialize (P p eq_refl). destruct (Z.leb_spec 0 p); [reflexivity|lia].
  - assert (Pe : precision pr = match prec with None => 8%nat | Some p => Z.to_nat p end) by (destruct prec; reflexivity). rewrite <- Pe.
    set (q := precision pr) in *. assert (0 < 10 ^ q) by (apply pow_lt; lra).
    replace (y * unit - rad) with ((y - rad / unit) * unit) by (field; lra). rewrite Rabs_mult, (Rabs_right unit) by lra.
    replace (unit / (2 * 3600 * 10 ^ q)) with (/ 2 / (3600 * 10 ^ q) * unit) by (field; lra). apply Rmult_le_compat_r; lra.
Qed.
