(** Interpolant.from_name *)
From Coq Require Import ZArith Bool Lia List String Ascii.
From Verif Require Import Base Interp_Model Interp_Spec.
Import ListNotations.
Open Scope nat_scope.

Lemma lower_same : forall a b, same_char a b -> lower_ascii a = lower_ascii b.
Proof.
  intros a b H. unfold same_char in H. cbv zeta in H. unfold lower_ascii. cbv zeta.
  rewrite <- (ascii_nat_embedding a), <- (ascii_nat_embedding b) in *. set (n := nat_of_ascii a) in *. set (m := nat_of_ascii b) in *.
  assert (N : n < 256) by apply nat_ascii_bounded. assert (M : m < 256) by apply nat_ascii_bounded. clearbody n m.
  rewrite !nat_ascii_embedding in * by lia. destruct H as [E|[[B E]|[B E]]].
  - now rewrite E.
  - subst m. destruct (Nat.leb_spec 65 n), (Nat.leb_spec n 90), (Nat.leb_spec 65 (n + 32)), (Nat.leb_spec (n + 32) 90); cbn [andb]; try lia; reflexivity.
  - subst n. destruct (Nat.leb_spec 65 m), (Nat.leb_spec m 90), (Nat.leb_spec 65 (m + 32)), (Nat.leb_spec (m + 32) 90); cbn [andb]; try lia; reflexivity.
Qed.
Lemma lower_same_s : forall s t, same_letters s t -> lower s = lower t.
Proof. intros s t H. induction H; [reflexivity|]. cbn [lower]. rewrite (lower_same a b), IHsame_letters by assumption. reflexivity. Qed.
Definition is_digit (a : ascii) : bool := let n := nat_of_ascii a in Nat.leb 48 n && Nat.leb n 57.
Lemma digit_same : forall a b, same_char a b -> (is_digit a = false /\ is_digit b = false) \/ a = b.
Proof.
  intros a b H. unfold same_char, is_digit in *. cbv zeta in *. destruct H as [E|[[B E]|[B E]]].
  - right. rewrite <- (ascii_nat_embedding a), <- (ascii_nat_embedding b). now rewrite E.
  - left. split; apply andb_false_iff; right; apply Nat.leb_gt; lia.
  - left. split; apply andb_false_iff; right; apply Nat.leb_gt; lia.
Qed.
Lemma digits_same : forall s t, same_letters s t -> forall acc, digits acc s = digits acc t.
Proof.
  intros s t H. induction H; intro acc; [reflexivity|]. cbn [digits]. destruct (digit_same a b H) as [[A B]| ->].
  - unfold is_digit in A, B. cbv zeta in A, B. rewrite A, B. reflexivity.
  - cbv zeta. destruct (_ && _); auto.
Qed.
Lemma int_same : forall s t, same_letters s t -> int_of s = int_of t.
Proof. intros s t H. pose proof (digits_same s t H 0%Z) as D. destruct H; [reflexivity|exact D]. Qed.
Lemma drop_same : forall n s t, same_letters s t -> same_letters (drop n s) (drop n t).
Proof. induction n; intros s t H; cbn [drop]; [exact H|]. destruct H; [constructor|auto]. Qed.
Lemma last_same : forall s t, same_letters s t -> (last_char s = None /\ last_char t = None) \/ exists a b, last_char s = Some a /\ last_char t = Some b /\ same_char a b.
Proof.
  intros s t H. induction H; [left; auto|]. right. destruct H0 as [|a' b' s' t' H1 H2]; [exists a, b; auto|]. destruct IHsame_letters as [[X _]|[p [q [X [Y Z]]]]].
  - exfalso. clear - X. revert a' X. induction s'; intros; cbn in X; [discriminate|]. exact (IHs' a X).
  - exists p, q. auto.
Qed.
Lemma drop_last_same : forall s t, same_letters s t -> same_letters (drop_last s) (drop_last t).
Proof. intros s t H. induction H; [constructor|]. destruct H0; [constructor|]. constructor; auto. Qed.
Lemma from_name_same : forall s t, same_letters s t -> from_name s = from_name t.
Proof.
  intros s t H. unfold from_name. rewrite (lower_same_s s t H). destruct (String.eqb _ _); [reflexivity|]. destruct (String.prefix _ _); [|reflexivity].
  destruct (last_same s t H) as [[-> ->]|[a [b [-> [-> S]]]]].
  - rewrite (int_same _ _ (drop_same 7 _ _ H)). reflexivity.
  - rewrite (lower_same a b S). destruct (Ascii.eqb _ _); [|destruct (Ascii.eqb _ _)]; [rewrite (int_same _ _ (drop_same 7 _ _ (drop_last_same _ _ H)))|rewrite (int_same _ _ (drop_same 7 _ _ (drop_last_same _ _ H)))|rewrite (int_same _ _ (drop_same 7 _ _ H))]; reflexivity.
Qed.

(** Numerals *)
Lemma digits_numeral : forall ds acc, Forall (fun d => d < 10) ds -> digits acc (numeral ds) = Some (fold_left (fun v d => (v * 10 + Z.of_nat d)%Z) ds acc).
Proof.
  induction ds as [|d ds IH]; intros acc F; [reflexivity|]. inversion F; subst. cbn [numeral digits fold_left]. cbv zeta. rewrite nat_ascii_embedding by lia.
  destruct (Nat.leb_spec 48 (48 + d)), (Nat.leb_spec (48 + d) 57); try lia. cbn [andb]. replace (48 + d - 48) with d by lia. auto.
Qed.
Lemma int_numeral : forall ds, ds <> [] -> Forall (fun d => d < 10) ds -> int_of (numeral ds) = Some (value ds).
Proof. intros ds N F. pose proof (digits_numeral ds 0%Z F) as D. destruct ds; [contradiction|exact D]. Qed.
Lemma last_app : forall s a, last_char (s ++ String a "") = Some a.
Proof. induction s as [|c s IH]; intro a; [reflexivity|]. cbn [append]. specialize (IH a). cbn [last_char]. destruct (s ++ String a "")%string; [cbn in IH; discriminate|exact IH]. Qed.
Lemma drop_last_app : forall s a, drop_last (s ++ String a "") = s.
Proof.
  induction s as [|c s IH]; intro a; [reflexivity|]. cbn [append]. specialize (IH a).
  assert (N : exists b w, (s ++ String a "")%string = String b w) by (destruct s; cbn; eauto). destruct N as [b [w N]]. rewrite N in *. cbn [drop_last] in *. now rewrite IH.
Qed.
Lemma last_digit : forall ds s, ds <> [] -> Forall (fun d => d < 10) ds -> exists d, d < 10 /\ last_char (s ++ numeral ds) = Some (ascii_of_nat (48 + d)).
Proof.
  intros ds s N F. destruct (exists_last N) as [l [d ->]]. apply Forall_app in F. destruct F as [_ F]. inversion F; subst. exists d. split; [assumption|].
  assert (A : forall l, (numeral (l ++ [d]) = numeral l ++ String (ascii_of_nat (48 + d)) "")%string) by (induction l0; cbn [app numeral append]; [reflexivity|now rewrite IHl0]).
  rewrite A. assert (B : forall x y z, (x ++ (y ++ z) = (x ++ y) ++ z)%string) by (induction x; intros; cbn; [reflexivity|now rewrite IHx]). rewrite B. apply last_app.
Qed.
Lemma app_assoc_s : forall x y z, (x ++ (y ++ z) = (x ++ y) ++ z)%string. Proof. induction x; intros; cbn; [reflexivity|now rewrite IHx]. Qed.
Definition lanczos_named (ds : list nat) (c : bool) : res interpolant :=
  if ((1 <=? value ds) && (value ds <=? 30))%Z then Ok (Lanczos (value ds) c) else Err KeyError.
Lemma prefix_self : forall p s, String.prefix p (p ++ s) = true.
Proof. induction p as [|a p IH]; intro s; [destruct s; reflexivity|]. cbn. destruct (ascii_dec a a); [apply IH|contradiction]. Qed.
Lemma lower_app : forall s t, lower (s ++ t) = (lower s ++ lower t)%string. Proof. induction s; intros; cbn; [reflexivity|now rewrite IHs]. Qed.
Lemma lanczos_branch : forall s, from_name ("lanczos" ++ s) =
  let name := ("lanczos" ++ s)%string in
  let '(conserve_dc, name) :=
      match last_char name with
      | Some c => if Ascii.eqb (lower_ascii c) "t" then (true, drop_last name)
                  else if Ascii.eqb (lower_ascii c) "f" then (false, drop_last name)
                  else (true, name)
      | None => (true, name)
      end in
    match int_of (drop 7 name) with
    | None => Err GalSimValueError
    | Some n => mkLanczos n conserve_dc
    end.
Proof.
  intro s. unfold from_name at 1. cbv zeta. rewrite lower_app. change (lower "lanczos") with "lanczos"%string. rewrite prefix_self. reflexivity.
Qed.
Lemma from_lanczos : forall ds, ds <> [] -> Forall (fun d => d < 10) ds ->
  from_name ("lanczos" ++ numeral ds) = lanczos_named ds true /\ from_name ("lanczos" ++ numeral ds ++ "t") = lanczos_named ds true /\
  from_name ("lanczos" ++ numeral ds ++ "f") = lanczos_named ds false.
Proof.
  intros ds N F. split; [|split]; rewrite lanczos_branch; cbv zeta.
  - destruct (last_digit ds "lanczos" N F) as [d [D ->]]. unfold lower_ascii. rewrite nat_ascii_embedding by lia.
    destruct (Nat.leb_spec 65 (48 + d)); [lia|]. cbn [andb].
    assert (Z : forall c, nat_of_ascii c > 57 -> Ascii.eqb (ascii_of_nat (48 + d)) c = false).
    { intros c C. apply Ascii.eqb_neq. intro e. rewrite <- e, nat_ascii_embedding in C by lia. lia. }
    rewrite !Z by (cbn; lia). change (drop 7 ("lanczos" ++ numeral ds)) with (numeral ds). rewrite int_numeral by assumption. reflexivity.
  - rewrite app_assoc_s, last_app, drop_last_app. change (Ascii.eqb (lower_ascii "t") "t") with true. cbv iota beta. change (drop 7 ("lanczos" ++ numeral ds)) with (numeral ds). rewrite int_numeral by assumption. reflexivity.
  - rewrite app_assoc_s, last_app, drop_last_app. change (Ascii.eqb (lower_ascii "f") "t") with false. change (Ascii.eqb (lower_ascii "f") "f") with true. cbv iota beta. change (drop 7 ("lanczos" ++ numeral ds)) with (numeral ds). rewrite int_numeral by assumption. reflexivity.
Qed.
Lemma from_errors : forall s e, from_name s = Err e -> e = GalSimValueError \/ e = KeyError.
Proof.
  intros s e. unfold from_name. cbv zeta. destruct (String.eqb _ _); [discriminate|]. destruct (String.prefix _ _).
  - destruct (match last_char s with Some c => _ | None => _ end) as [c n]. destruct (int_of (drop 7 n)); [|intro H; inversion H; auto]. unfold mkLanczos. destruct (_ && _)%bool; intro H; inversion H; auto.
  - repeat (destruct (String.eqb _ _); [discriminate|]). intro H; inversion H; auto.
Qed.
Lemma from_other : forall s, ~ In (lower s) ["quintic"; "linear"; "cubic"; "nearest"; "delta"; "sinc"]%string -> String.prefix "lanczos" (lower s) = false -> from_name s = Err GalSimValueError.
Proof.
  intros s N P. unfold from_name. cbv zeta. rewrite P.
  assert (H : forall t, In t ["quintic"; "linear"; "cubic"; "nearest"; "delta"; "sinc"]%string -> String.eqb (lower s) t = false).
  { intros t T. apply String.eqb_neq. intro e. apply N. now rewrite e. }
  rewrite !H by (cbn; tauto). reflexivity.
Qed.
