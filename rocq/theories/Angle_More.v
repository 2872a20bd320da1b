(** Parsing of shorter angle texts and unit names. *)
From Coq Require Import ZArith Reals Bool Ascii String List Lra Lia.
From Verif Require Import Base Bounds_Model Bounds_Proofs FFT_Model Angle_Model Angle_Spec Angle_Proofs.
Import ListNotations.
Open Scope R_scope.

(** Whether or not a text of numbers starts with a sign, what follows is read the same way. *)
Lemma sign_first : forall sg D rest v, sign_text sg -> D <> [] -> (forall c, In c D -> is_num c = true) -> to_float D = Ok v ->
  (forall c t, rest = c :: t -> is_num c = false) -> strip (sg ++ D ++ rest) = sg ++ D ++ rest -> rest <> [] ->
  parse_dms (sg ++ D ++ rest) = parse_rest (sign_value sg) (D :: runs rest).
Proof.
  intros sg D rest v SG ND HD FD HR St NR.
  assert (R0 : runs (D ++ rest) = D :: runs rest) by (apply (runs_block D rest true); auto).
  assert (L : (1 <= length (runs rest))%nat) by (destruct rest as [|c t]; [contradiction|]; destruct (runs_head c t) as [w [ws ->]]; cbn; lia).
  unfold parse_dms. rewrite St. destruct SG as [-> | SG].
  - cbn [app]. rewrite R0. destruct (runs rest) as [|a b]; [cbn in L; lia|]. cbn [length Nat.leb hd]. rewrite FD. reflexivity.
  - assert (Sg : exists c, sg = [c] /\ is_num c = false) by (destruct SG as [-> | ->]; eexists; split; reflexivity).
    destruct Sg as [c [Ec Cn]].
    assert (R1 : runs (sg ++ D ++ rest) = sg :: D :: runs rest).
    { rewrite (runs_block sg _ false); [rewrite R0; reflexivity|rewrite Ec; discriminate|rewrite Ec; intros x [<-|[]]; auto|].
      intros x t E. destruct D as [|c' D]; [contradiction|]. injection E as <- _. apply HD. left; auto. }
    rewrite R1. cbn [length Nat.leb hd tl].
    assert (Fs : to_float sg = Err ValueError) by (destruct SG as [-> | ->]; reflexivity). rewrite Fs.
    assert (Ss : strip sg = sg) by (destruct SG as [-> | ->]; reflexivity). rewrite Ss, FD. cbn [bind].
    destruct (runs rest) as [|a b]; [cbn in L; lia|]. reflexivity.
Qed.
Lemma strip_keeps : forall c a b, is_space c = false -> is_space b = false -> strip (c :: a ++ [b]) = c :: a ++ [b].
Proof.
  intros c a b Hc Hb. unfold strip. cbn [drop_while]. rewrite Hc. change (c :: a ++ [b]) with ((c :: a) ++ [b]).
  rewrite rev_app_distr. cbn [rev app drop_while]. rewrite Hb. cbn [rev]. rewrite rev_app_distr, rev_involutive. reflexivity.
Qed.
Lemma strip_ends : forall t : text, t <> [] -> is_space (hd "0"%char t) = false -> is_space (List.last t "0"%char) = false -> strip t = t.
Proof.
  intros t N H L. destruct t as [|c t]; [contradiction|]. cbn [hd] in H. destruct t as [|d t]; [unfold strip; cbn; rewrite H; cbn; rewrite H; reflexivity|].
  destruct (@exists_last _ (d :: t) ltac:(discriminate)) as [a [b E]]. rewrite E in *.
  change (c :: a ++ [b]) with ((c :: a) ++ [b]) in L. rewrite last_last in L. now apply strip_keeps.
Qed.
Lemma sg_hd : forall sg (D rest : text), sign_text sg -> D <> [] -> (forall c, In c D -> is_num c = true) -> is_space (hd "0"%char (sg ++ D ++ rest)) = false.
Proof.
  intros sg D rest SG ND HD. destruct D as [|c D]; [contradiction|].
  destruct SG as [-> | [-> | ->]]; cbn; auto. apply num_not_space, HD. left; auto.
Qed.
(** degrees and minutes *)
Lemma parse_pair : forall sg D s M d m, sign_text sg -> D <> [] -> (forall c, In c D -> is_num c = true) -> M <> [] -> (forall c, In c M -> is_num c = true) ->
  s <> [] -> plain s -> to_float D = Ok d -> to_float M = Ok m -> parse_dms (sg ++ D ++ s ++ M) = Ok (sign_value sg * (d + m / 60)).
Proof.
  intros sg D s M d m SG ND HD NM HM NS PS FD FM. pose proof (plain_not_num s PS) as A.
  rewrite (sign_first sg D (s ++ M) d); auto.
  - assert (RM : runs M = [M]) by (rewrite <- (app_nil_r M) at 1; rewrite (runs_block M [] true); auto; discriminate).
    rewrite (runs_block s M false NS A), RM; [|intros c t E; apply HM; rewrite E; left; auto].
    unfold parse_rest. cbn [nth length Nat.leb]. rewrite FD, FM. reflexivity.
  - intros c t E. destruct s as [|c' s]; [contradiction|]. injection E as <- _. apply A. left; auto.
  - destruct (exists_last NM) as [M' [b EM]].
    apply strip_ends; [destruct sg; destruct D; try discriminate; contradiction|now apply sg_hd|].
    rewrite EM. replace (sg ++ D ++ s ++ M' ++ [b]) with ((sg ++ D ++ s ++ M') ++ [b]) by (rewrite <- !app_assoc; reflexivity).
    rewrite last_last. apply num_not_space, HM. rewrite EM. apply in_or_app. right. left. reflexivity.
  - destruct s; [contradiction|discriminate].
Qed.
(** degrees with a unit mark *)
Lemma parse_single : forall sg D s d, sign_text sg -> D <> [] -> (forall c, In c D -> is_num c = true) ->
  s <> [] -> plain s -> is_space (List.last s "0"%char) = false -> to_float D = Ok d -> parse_dms (sg ++ D ++ s) = Ok (sign_value sg * d).
Proof.
  intros sg D s d SG ND HD NS PS SP FD. pose proof (plain_not_num s PS) as A.
  rewrite (sign_first sg D s d); auto.
  - rewrite <- (app_nil_r s). rewrite (runs_block s [] false NS A) by discriminate.
    unfold parse_rest. cbn [nth length Nat.leb]. rewrite FD. reflexivity.
  - intros c t E. destruct s as [|c' s]; [contradiction|]. injection E as <- _. apply A. left; auto.
  - destruct (exists_last NS) as [s' [b ES]].
    apply strip_ends; [destruct sg; destruct D; try discriminate; contradiction|now apply sg_hd|].
    rewrite ES in *. rewrite last_last in SP. replace (sg ++ D ++ s' ++ [b]) with ((sg ++ D ++ s') ++ [b]) by (rewrite <- !app_assoc; reflexivity).
    now rewrite last_last.
Qed.

(** * Unit names *)
Lemma letters_ok : forallb (fun p => Ascii.eqb (lower (fst p)) (snd p) && negb (is_space (fst p))) (combine capitals smalls) = true.
Proof. vm_compute. reflexivity. Qed.
Lemma smalls_ok : forallb (fun c => Ascii.eqb (lower c) c && negb (is_space c)) smalls = true.
Proof. vm_compute. reflexivity. Qed.
Lemma writes_ok : forall a b, writes a b -> small b -> lower a = b /\ is_space a = false.
Proof.
  intros a b [W|W] SB.
  - pose proof letters_ok as H. rewrite forallb_forall in H. apply H in W. cbn [fst snd] in W. apply andb_prop in W as [W1 W2].
    split; [now apply Ascii.eqb_eq | now apply negb_true_iff].
  - subst. pose proof smalls_ok as H. rewrite forallb_forall in H. apply H in SB. apply andb_prop in SB as [W1 W2].
    split; [now apply Ascii.eqb_eq | now apply negb_true_iff].
Qed.
Lemma startswith_app : forall p t, startswith p (p ++ t) = true.
Proof. induction p; intro t; cbn; auto. rewrite Ascii.eqb_refl. apply IHp. Qed.
Lemma strip_word : forall blank w t, forallb is_space blank = true -> w <> [] -> (forall c, In c w -> is_space c = false) ->
  exists t', strip (blank ++ w ++ t) = w ++ t'.
Proof.
  intros blank w t B N H. exists (rdrop is_space t). unfold strip.
  assert (L : drop_while is_space (blank ++ w ++ t) = w ++ t).
  { clear - B N H. induction blank as [|c b IH]; cbn in *.
    - destruct w as [|c w]; [contradiction|]. cbn. rewrite H by (left; auto). reflexivity.
    - apply andb_prop in B as [-> B]. auto. }
  rewrite L. change (rdrop is_space (w ++ t) = w ++ rdrop is_space t).
  destruct (exists_last N) as [w' [c ->]]. rewrite <- !app_assoc. rewrite rdrop_keep; auto. apply H. apply in_or_app. right. left. auto.
Qed.
Lemma names_small : forallb (fun p => forallb (fun c => existsb (Ascii.eqb c) smalls) (fst p)) unit_names = true.
Proof. vm_compute. reflexivity. Qed.
Lemma unit_name_ok : forall blank w name t u, In (name, u) unit_names -> forallb is_space blank = true -> Forall2 writes w name ->
  from_name (blank ++ w ++ t) = Ok (match u with URad => radians | UDeg => degrees | UHour => hours | UMin => arcmin | USec => arcsec end).
Proof.
  intros blank w name t u I B W.
  assert (SM : Forall small name).
  { pose proof names_small as H. rewrite forallb_forall in H. specialize (H _ I). cbn [fst] in H. rewrite forallb_forall in H.
    apply Forall_forall. intros c Ic. specialize (H c Ic). apply existsb_exists in H as [x [X1 X2]]. apply Ascii.eqb_eq in X2 as ->. exact X1. }
  assert (LW : map lower w = name /\ (forall c, In c w -> is_space c = false)).
  { clear - W SM. induction W as [|a b w n X W IH]; [split; [reflexivity|intros c []]|]. inversion SM; subst. destruct (IH H2) as [E H].
    destruct (writes_ok a b X H1) as [W1 W2]. split; [cbn [map]; rewrite E, W1; auto|]. intros c [<-|Ic]; auto. }
  destruct LW as [LW NW].
  assert (N : w <> []).
  { intro E. subst w. inversion W; subst. unfold unit_names in I. cbn [In] in I. repeat (destruct I as [I|I]; [discriminate I|]). destruct I. }
  destruct (strip_word blank w t B N NW) as [t' E']. unfold from_name. rewrite E', map_app, LW. clear E' LW SM NW N W.
  unfold unit_names in I. cbn [In] in I.
  repeat (destruct I as [I|I]; [injection I as <- <-; repeat (rewrite startswith_app || (cbn; reflexivity)); reflexivity|]). destruct I.
Qed.
Lemma startswith_split : forall p l, startswith p l = true -> exists t, l = p ++ t.
Proof.
  induction p as [|c p IH]; intros l H; [now exists l|]. destruct l as [|c' l]; [discriminate|]. cbn in H. apply andb_prop in H as [E H].
  apply Ascii.eqb_eq in E as ->. destruct (IH l H) as [t ->]. now exists t.
Qed.
Lemma from_name_only : forall s u, from_name s = Ok u -> exists name k t, In (name, k) unit_names /\ map lower (strip s) = name ++ t /\
  u = match k with URad => radians | UDeg => degrees | UHour => hours | UMin => arcmin | USec => arcsec end.
Proof.
  intros s u H. unfold from_name in H. remember (map lower (strip s)) as l eqn:L. clear L.
  destruct (startswith (txt "rad") l) eqn:E1; [injection H as <-; destruct (startswith_split _ _ E1) as [t EQ]; exists (txt "rad"), URad, t; rewrite EQ; cbn; auto 8|].
  destruct (startswith (txt "deg") l) eqn:E2; [injection H as <-; destruct (startswith_split _ _ E2) as [t EQ]; exists (txt "deg"), UDeg, t; rewrite EQ; cbn; auto 8|].
  destruct (startswith (txt "hour") l) eqn:E3; [injection H as <-; destruct (startswith_split _ _ E3) as [t EQ]; exists (txt "hour"), UHour, t; rewrite EQ; cbn; auto 8|].
  destruct (startswith (txt "hr") l) eqn:E4; [injection H as <-; destruct (startswith_split _ _ E4) as [t EQ]; exists (txt "hr"), UHour, t; rewrite EQ; cbn; auto 8|].
  destruct (startswith (txt "arcmin") l) eqn:E5; [injection H as <-; destruct (startswith_split _ _ E5) as [t EQ]; exists (txt "arcmin"), UMin, t; rewrite EQ; cbn; auto 8|].
  destruct (startswith (txt "arcsec") l) eqn:E6; [injection H as <-; destruct (startswith_split _ _ E6) as [t EQ]; exists (txt "arcsec"), USec, t; rewrite EQ; cbn; auto 8|].
  discriminate.
Qed.
