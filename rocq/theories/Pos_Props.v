(** Properties C76 (positions) and C95 (position arguments). *)
From Coq Require Import ZArith Reals Bool String List Lra Lia Permutation.
From Coquelicot Require Import Complex.
From Verif Require Import Base Geo_Model Shear_Model Pos_Model Pos_Spec Pos_Proofs.
Import ListNotations.
Open Scope R_scope.

(** * C76 *)
(** Sums and differences always succeed; they are integer exactly for two integer positions. *)
Theorem C76_add : forall p q, valid p -> valid q ->
  exists r, p_add p (VPos q) = Ok r /\ point r = vadd (point p) (point q) /\ pc r = join (pc p) (pc q) /\ valid r.
Proof. exact add_ok. Qed.
Print Assumptions C76_add.
Theorem C76_sub : forall p q, valid p -> valid q ->
  exists r, p_sub p (VPos q) = Ok r /\ point r = vsub (point p) (point q) /\ pc r = join (pc p) (pc q) /\ valid r.
Proof. exact sub_ok. Qed.
Print Assumptions C76_sub.
Theorem C76_neg : forall p, valid p -> exists r, p_neg p = Ok r /\ point r = (- fst (point p), - snd (point p)) /\ pc r = pc p /\ valid r.
Proof. exact neg_ok. Qed.
Print Assumptions C76_neg.
(** Multiplication by a scalar from either side; an integer position takes integer scalars only. *)
Theorem C76_mul : forall p k, valid p -> (pc p = PosI -> integral (nv k)) ->
  exists r, p_mul p (VNum k) = Ok r /\ p_rmul (VNum k) p = Ok r /\ point r = (nv k * fst (point p), nv k * snd (point p)) /\ pc r = pc p /\ valid r.
Proof. exact mul_ok. Qed.
Print Assumptions C76_mul.
Theorem C76_rejects : forall p v, valid p -> (exists k, v = VNum k /\ pc p = PosI /\ ~ integral (nv k)) \/ (forall k, v <> VNum k) ->
  p_mul p v = Err TypeError /\ p_div p v = Err TypeError.
Proof. exact mul_err. Qed.
Print Assumptions C76_rejects.
Theorem C76_only_positions : forall p v, (forall q, v <> VPos q) -> p_add p v = Err TypeError /\ p_sub p v = Err TypeError.
Proof. intros p v H. destruct v; auto. now destruct (H p0). Qed.
Print Assumptions C76_only_positions.
(** The laws of a vector space. *)
Theorem C76_vector_space : forall p q r k l, valid p -> valid q -> valid r ->
  let add a b := bind a (fun a => bind b (fun b => p_add a (VPos b))) in
  let mul x a := bind a (fun a => p_mul a (VNum x)) in
  (pc p = PosI \/ pc q = PosI -> integral (nv k) /\ integral (nv l)) ->
  agree (add (Ok p) (Ok q)) (add (Ok q) (Ok p)) /\
  agree (add (add (Ok p) (Ok q)) (Ok r)) (add (Ok p) (add (Ok q) (Ok r))) /\
  agree (add (Ok p) (bind (Ok p) p_neg)) (mul (Num 0 (npy k)) (Ok p)) /\
  agree (add (Ok p) (bind (Ok q) p_neg)) (p_sub p (VPos q)) /\
  agree (mul k (add (Ok p) (Ok q))) (add (mul k (Ok p)) (mul k (Ok q))) /\
  agree (mul k (mul l (Ok p))) (mul (nlift2 Rmult k l) (Ok p)) /\
  agree (add (mul k (Ok p)) (mul l (Ok p))) (mul (nlift2 Rplus k l) (Ok p)) /\
  agree (mul (py 1) (Ok p)) (Ok p).
Proof.
  intros p q r k l P Q R add mul KL.
  assert (A : forall a b, valid a -> valid b -> exists s, add (Ok a) (Ok b) = Ok s /\ point s = vadd (point a) (point b) /\ pc s = join (pc a) (pc b) /\ valid s) by exact add_ok.
  assert (M : forall x a, valid a -> (pc a = PosI -> integral (nv x)) -> exists s, mul x (Ok a) = Ok s /\ point s = (nv x * fst (point a), nv x * snd (point a)) /\ pc s = pc a /\ valid s).
  { intros x a VA I. destruct (mul_ok a x VA I) as [s [S1 [_ S2]]]. exists s. split; auto. }
  assert (I0 : integral 0) by (exists 0%Z; auto). assert (I1 : integral 1) by (exists 1%Z; auto).
  assert (KP : pc p = PosI -> integral (nv k)) by tauto. assert (LP : pc p = PosI -> integral (nv l)) by tauto. assert (KQ : pc q = PosI -> integral (nv k)) by tauto.
  destruct (A p q P Q) as [pq [E1 [T1 [C1 V1]]]]. destruct (A q p Q P) as [qp [E2 [T2 [C2 V2]]]].
  destruct (A pq r V1 R) as [s3 [E3 [T3 [C3 V3]]]]. destruct (A q r Q R) as [qr [E4 [T4 [C4 V4]]]]. destruct (A p qr P V4) as [s5 [E5 [T5 [C5 V5]]]].
  destruct (neg_ok p P) as [np [E6 [T6 [C6 V6]]]]. destruct (A p np P V6) as [s7 [E7 [T7 [C7 V7]]]].
  destruct (M (Num 0 (npy k)) p P (fun _ => I0)) as [s8 [E8 [T8 [C8 V8]]]].
  destruct (neg_ok q Q) as [nq [E9 [T9 [C9 V9]]]]. destruct (A p nq P V9) as [s10 [E10 [T10 [C10 V10]]]]. destruct (sub_ok p q P Q) as [s11 [E11 [T11 [C11 V11]]]].
  assert (KPQ : pc pq = PosI -> integral (nv k)) by (rewrite C1; intro J; apply join_I in J; tauto).
  destruct (M k pq V1 KPQ) as [s12 [E12 [T12 [C12 V12]]]]. destruct (M k p P KP) as [kp [E13 [T13 [C13 V13]]]]. destruct (M k q Q KQ) as [kq [E14 [T14 [C14 V14]]]].
  destruct (A kp kq V13 V14) as [s15 [E15 [T15 [C15 V15]]]]. destruct (M l p P LP) as [lp [E16 [T16 [C16 V16]]]].
  destruct (M k lp V16 ltac:(rewrite C16; exact KP)) as [s17 [E17 [T17 [C17 V17]]]].
  destruct (M (nlift2 Rmult k l) p P (fun J => integral_mult _ _ (KP J) (LP J))) as [s18 [E18 [T18 [C18 V18]]]].
  destruct (A kp lp V13 V16) as [s19 [E19 [T19 [C19 V19]]]].
  destruct (M (nlift2 Rplus k l) p P (fun J => integral_plus _ _ (KP J) (LP J))) as [s20 [E20 [T20 [C20 V20]]]].
  destruct (M (py 1) p P (fun _ => I1)) as [s21 [E21 [T21 [C21 V21]]]].
  split; [|split; [|split; [|split; [|split; [|split; [|split]]]]]].
  - exists pq, qp. rewrite C1, C2, T1, T2. repeat split; auto; [now destruct (pc p), (pc q) | unfold vadd; f_equal; ring].
  - exists s3, s5. rewrite E1, E4, C3, C5, C1, C4, T3, T5, T1, T4. repeat split; auto; [now destruct (pc p), (pc q), (pc r) | unfold vadd; cbn [fst snd]; f_equal; ring].
  - exists s7, s8. cbn [bind]. rewrite E6, C7, C8, C6, T7, T8, T6. repeat split; auto; [now destruct (pc p) | unfold vadd; cbn [fst snd nv]; f_equal; ring].
  - exists s10, s11. cbn [bind]. rewrite E9, C10, C11, C9, T10, T11, T9. repeat split; auto; unfold vadd, vsub; cbn [fst snd]; f_equal; ring.
  - exists s12, s15. rewrite E1, E13, E14, C12, C15, C1, C13, C14, T12, T15, T1, T13, T14. repeat split; auto. unfold vadd. cbn [fst snd]. f_equal; ring.
  - exists s17, s18. rewrite E16, C17, C18, C16, T17, T18, T16. repeat split; auto. cbn [fst snd nlift2 nv]. f_equal; ring.
  - exists s19, s20. rewrite E13, E16, C19, C20, C13, C16, T19, T20, T13, T16. repeat split; auto; [now destruct (pc p) | unfold vadd; cbn [fst snd nlift2 nv]; f_equal; ring].
  - exists s21, p. rewrite C21, T21. repeat split; auto. unfold point. cbn [fst snd py nv]. f_equal; ring.
Qed.
Print Assumptions C76_vector_space.
(** Division: what it gives, when it succeeds, and how an integer position refuses a fractional result. *)
Theorem C76_div : forall p k, valid p -> nv k <> 0 ->
  (forall r, p_div p (VNum k) = Ok r -> pc r = pc p /\ valid r /\ point r = (fst (point p) / nv k, snd (point p) / nv k)) /\
  ((pc p = PosI -> integral (nv k) /\ integral (nv (px p) / nv k) /\ integral (nv (py_ p) / nv k)) -> exists r, p_div p (VNum k) = Ok r) /\
  (pc p = PosI -> ~ (integral (nv (px p) / nv k) /\ integral (nv (py_ p) / nv k)) ->
   exists e, p_div p (VNum k) = Err e /\ (e = TypeError \/ e = RuntimeError) /\ (on_host p = true -> npy k = true -> e = TypeError)).
Proof. intros p k P N. split; [intro r; now apply div_ok|]. split; [now apply div_total|]. intros. now apply div_int_err. Qed.
Print Assumptions C76_div.
(** Equality is equality of class and point, and equal positions have equal hash keys. *)
Theorem C76_equality : forall p q, (p_eq p (VPos q) = true <-> pc p = pc q /\ point p = point q) /\
  (p_eq p (VPos q) = p_eq q (VPos p)) /\ (p_eq p (VPos q) = true <-> p_key p = p_key q).
Proof.
  intros p q. split; [apply eq_ok|]. split.
  - destruct (p_eq p (VPos q)) eqn:E, (p_eq q (VPos p)) eqn:E'; auto.
    + apply eq_ok in E. assert (p_eq q (VPos p) = true) by (apply eq_ok; destruct E; auto). congruence.
    + apply eq_ok in E'. assert (p_eq p (VPos q) = true) by (apply eq_ok; destruct E'; auto). congruence.
  - rewrite eq_ok. unfold p_key, point. split; [intros [H G]; injection G; congruence | intro H; injection H; intros; split; congruence].
Qed.
Print Assumptions C76_equality.
(** Shearing applies the shear's matrix, hence is linear, and always gives a PositionD. *)
Theorem C76_shear : forall p q s, valid p -> valid q ->
  (exists r, p_shear p s = Ok r /\ pc r = PosD /\ point r = mapp (getMatrix s) (point p)) /\
  agree (bind (p_add p (VPos q)) (fun r => p_shear r s)) (bind (p_shear p s) (fun a => bind (p_shear q s) (fun b => p_add a (VPos b)))).
Proof.
  intros p q s P Q. split; [eexists; split; [apply shear_ok|]; split; reflexivity|].
  destruct (add_ok p q P Q) as [r [E [T _]]]. rewrite E. cbn [bind]. rewrite !shear_ok. cbn [bind].
  do 2 eexists. split; [reflexivity|]. split; [reflexivity|]. split; [reflexivity|]. unfold point at 1 4. cbn [px py_ nv jx nlift2].
  rewrite T. unfold mapp, vadd. cbn [fst snd]. f_equal; ring.
Qed.
Print Assumptions C76_shear.
(** Rounding gives the nearest integer position, and leaves integer positions alone. *)
Theorem C76_round : forall p, exists r, p_round p = Ok r /\ pc r = PosI /\ valid r /\
  Rabs (nv (px r) - nv (px p)) <= / 2 /\ Rabs (nv (py_ r) - nv (py_ p)) <= / 2 /\ (valid p -> pc p = PosI -> point r = point p).
Proof. exact round_ok. Qed.
Print Assumptions C76_round.
(** Every constructor call that succeeds gives a valid position of its class; two scalars, a pair, keywords
    in any order and another position mean the same. *)
Theorem C76_construction : forall c args kw p x y, (mkPos c args kw = Ok p -> pc p = c /\ valid p) /\
  pos2 c x y = mkPos c [VSeq [VNum x; VNum y]] [] /\
  pos2 c x y = mkPos c [] [("x"%string, VNum x); ("y"%string, VNum y)] /\ pos2 c x y = mkPos c [] [("y"%string, VNum y); ("x"%string, VNum x)] /\
  (forall c', pos2 c x y = mkPos c [VPos (Pos c' x y)] []) /\ mkPos c [] [] = Ok (Pos c (py 0) (py 0)).
Proof.
  intros c args kw p x y. split; [apply ctor_valid|]. destruct (ctor_forms c x y) as [A [B [D E]]]. repeat split; auto.
  change (pos2 c (py 0) (py 0) = Ok (Pos c (py 0) (py 0))). apply pos2_ok. intros _. split; exists 0%Z; reflexivity.
Qed.
Print Assumptions C76_construction.
(** Nothing else is accepted. *)
Theorem C76_only_these_forms : forall c args kw p, mkPos c args kw = Ok p ->
  (args = [] /\ kw = [] /\ nv (px p) = 0 /\ nv (py_ p) = 0) \/
  (exists q, kw = [] /\ args = [VPos q] /\ point q = point p) \/
  (exists x y, point p = (nv x, nv y) /\ ((kw = [] /\ (args = [VNum x; VNum y] \/ args = [VSeq [VNum x; VNum y]])) \/
     (args = [] /\ (kw = [("x"%string, VNum x); ("y"%string, VNum y)] \/ kw = [("y"%string, VNum y); ("x"%string, VNum x)])))).
Proof. exact only_forms. Qed.
Print Assumptions C76_only_these_forms.
(** Integer positions are made of integers only: TypeError for Python numbers, RuntimeError for JAX ones. *)
Theorem C76_integers_only : forall x y, (integral (nv x) /\ integral (nv y) -> pos2 PosI x y = Ok (Pos PosI x y)) /\
  (~ (integral (nv x) /\ integral (nv y)) -> exists e, pos2 PosI x y = Err e /\ (e = TypeError \/ e = RuntimeError) /\
     (npy x = true -> npy y = true -> e = TypeError)).
Proof.
  intros x y. split; [intro H; apply pos2_ok; auto|]. intro N. destruct (pos2 PosI x y) as [p|e] eqn:E.
  - destruct (pos2_class _ _ _ _ E) as [-> V]. destruct (N (V eq_refl)).
  - exists e. split; auto. destruct (pos2_err _ _ _ _ E) as [_ [_ [A B]]]. auto.
Qed.
Print Assumptions C76_integers_only.
Example C76_witness : valid (Pos PosI (py 3) (jx (-2))) /\ p_eq (Pos PosI (py 1) (py 1)) (VPos (Pos PosD (py 1) (py 1))) = false /\
  ~ integral (/ 2) /\ join PosI PosD = PosD.
Proof.
  split; [intros _; split; [exists 3%Z | exists (-2)%Z]; reflexivity|]. split; [reflexivity|]. split; [|reflexivity].
  intros [z H]. assert (IZR (2 * z) = IZR 1) by (rewrite mult_IZR; lra). apply eq_IZR in H0. lia.
Qed.

(** * C95 *)
(** (x, y), a pair, a position and keywords mean the same, with further values after them. *)
Theorem C95_forms_agree : forall x y more vals kw n1 n2 i others c, (length vals <= length others)%nat -> (i = true -> c = PosI) ->
  let two := parse_pos_args (VNum x :: VNum y :: vals) kw n1 n2 i others in
  two = parse_pos_args (VSeq (VNum x :: VNum y :: more) :: vals) kw n1 n2 i others /\
  two = parse_pos_args (VPos (Pos c x y) :: vals) kw n1 n2 i others /\
  (vals = [] -> n1 <> n2 -> two = parse_pos_args [] ((n1, VNum x) :: (n2, VNum y) :: kw) n1 n2 i others).
Proof. exact forms_agree. Qed.
Print Assumptions C95_forms_agree.
(** The order of the keywords does not matter. *)
Theorem C95_keyword_order : forall args kw kw' n1 n2 i others, NoDup (map fst kw) -> Permutation kw kw' ->
  parse_pos_args args kw n1 n2 i others = parse_pos_args args kw' n1 n2 i others.
Proof. exact parse_perm. Qed.
Print Assumptions C95_keyword_order.
(** The further values may be given by position or by keyword, from any point on, and come out in order. *)
Theorem C95_others : forall p v1 names1 names2 v2 n1 n2 (i : bool), NoDup (names1 ++ names2) -> length v1 = length names1 -> length v2 = length names2 ->
  (i = true -> pc p = PosI) ->
  parse_pos_args (VPos p :: v1) (combine names2 v2) n1 n2 i (names1 ++ names2) =
  bind (pos2 (if i then PosI else PosD) (px p) (py_ p)) (fun q => Ok (q, v1 ++ v2)).
Proof. exact others_split. Qed.
Print Assumptions C95_others.
Theorem C95_result : forall args kw n1 n2 i others p l, parse_pos_args args kw n1 n2 i others = Ok (p, l) ->
  pc p = (if i then PosI else PosD) /\ valid p /\ length l = length others.
Proof. exact parse_valid. Qed.
Print Assumptions C95_result.
(** Errors: a TypeError, except that a missing further keyword is a KeyError and a fractional JAX number
    given for an integer position a RuntimeError. *)
Theorem C95_errors : forall args kw n1 n2 i others e, parse_pos_args args kw n1 n2 i others = Err e ->
  e = TypeError \/ (e = KeyError /\ others <> []) \/ (e = RuntimeError /\ i = true).
Proof. exact parse_errors. Qed.
Print Assumptions C95_errors.
(** Full statement: malformed arguments are always reported as TypeError. Image.setValue(1, 2) is not. *)
Theorem C95_always_TypeError_refuted : parse_pos_args [VNum (py 1); VNum (py 2)] [] "x" "y" true ["value"%string] = Err KeyError.
Proof. reflexivity. Qed.
Print Assumptions C95_always_TypeError_refuted.
(** Leftover keywords and too many arguments are refused, a PositionD is refused where integers are wanted. *)
Theorem C95_refusals : forall x y v n1 n2 k others p, pc p = PosD ->
  parse_pos_args [VNum x; VNum y] [(k, v)] n1 n2 false [] = Err TypeError /\
  parse_pos_args [VPos p] [(k, v)] n1 n2 false [] = Err TypeError /\
  parse_pos_args [VNum x; VNum y; v] [] n1 n2 false [] = Err TypeError /\
  parse_pos_args [VPos p] [] n1 n2 true others = Err TypeError /\
  (n1 <> n2 -> parse_pos_args [] [(n1, v)] n1 n2 false others = Err TypeError) /\
  parse_pos_args [VNum x] [(n2, v)] n1 n2 false others = Err TypeError.
Proof.
  intros x y v n1 n2 k others [c a b] C. cbn in C. subst. repeat split; try reflexivity; try (unfold parse_pos_args, pos_args_xy; cbn; destruct (length others); reflexivity).
  intro N. unfold parse_pos_args, pos_args_xy, kw_pop. cbn. rewrite String.eqb_refl. reflexivity.
Qed.
Print Assumptions C95_refusals.
Example C95_witness : parse_pos_args [VPos (Pos PosI (py 1) (py 2)); VNum (py 5)] [] "x" "y" true ["value"%string] = Ok (Pos PosI (py 1) (py 2), [VNum (py 5)]) /\
  parse_pos_args [] [("value"%string, VNum (py 5)); ("y"%string, VNum (py 2)); ("x"%string, VNum (py 1))] "x" "y" true ["value"%string] = Ok (Pos PosI (py 1) (py 2), [VNum (py 5)]).
Proof.
  assert (W : pos2 PosI (py 1) (py 2) = Ok (Pos PosI (py 1) (py 2))) by (apply pos2_ok; intros _; split; [exists 1%Z | exists 2%Z]; reflexivity).
  split.
  - pose proof (others_split (Pos PosI (py 1) (py 2)) [VNum (py 5)] ["value"%string] [] [] "x" "y" true) as H. cbn [app combine px py_] in H.
    rewrite H; auto; [now rewrite W | repeat constructor; intros []].
  - change (bind (pos2 PosI (py 1) (py 2)) (fun p => Ok (p, [VNum (py 5)])) = Ok (Pos PosI (py 1) (py 2), [VNum (py 5)])). now rewrite W.
Qed.
