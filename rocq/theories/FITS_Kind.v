(** Headers without units; the projection is the one named. *)
From Coq Require Import ZArith Reals Bool Ascii String List Lra Lia.
From Verif Require Import Base Bounds_Model Bounds_Proofs Geo_Model Angle_Model Sky_Model Util_Model Util_Spec Util_Proofs.
From Verif Require Import FITS_Spec FITS_Model FITS_Poly FITS_Head FITS_Read FITS_Std FITS_Same FITS_More.
Import ListNotations.
Open Scope R_scope.

(** * Units not given, and the projection named *)
Lemma default_units : forall tnx h, absent h (KCunit X1) -> let h' := hset (hset h (KCunit X1) (VS "deg"%string)) (KCunit X2) (VS "deg"%string) in tnx h = tnx h' -> read_header tnx h = read_header tnx h'.
Proof.
  intros tnx h A h' T. rewrite !read_header_rest. assert (OUT : forall k, (forall i, k <> KCunit i) -> h' k = h k).
  { intros k N. unfold h'. rewrite !hset_other by (intro E; now apply (N _ (eq_sym E))). reflexivity. }
  assert (HN : forall k, (forall i, k <> KCunit i) -> hnum h' k = hnum h k) by (intros k N; unfold hnum; now rewrite OUT).
  assert (HH : forall k, (forall i, k <> KCunit i) -> has h' k = has h k) by (intros k N; unfold has; now rewrite OUT).
  replace (read_type h') with (read_type h) by (unfold read_type, htext; now rewrite !OUT by discriminate).
  replace (read_cd h') with (read_cd h) by (unfold read_cd; now rewrite !HN, !HH by discriminate).
  rewrite !HN by discriminate.
  replace (read_units h') with (@Ok (R * R) (degrees, degrees)) by reflexivity. replace (read_units h) with (@Ok (R * R) (degrees, degrees)) by (unfold read_units; now rewrite A).
  destruct (read_type h) as [[t f]|]; cbn [bind]; [|reflexivity]. rewrite (rest_ext tnx h h' t); [reflexivity| |exact T].
  intros k N. symmetry. apply OUT. intros i ->. apply N. exact I.
Qed.
(** Projections by the name in CTYPE. *)
Definition kinds : list (string * proj) :=
  [("TAN", Gnomonic); ("TPV", Gnomonic); ("TNX", Gnomonic); ("TAN-SIP", Gnomonic); ("STG", Stereographic); ("STG-SIP", Stereographic);
   ("ZEA", Lambert); ("ZEA-SIP", Lambert); ("ARC", Postel); ("ARC-SIP", Postel)]%string.
Lemma prefix_drop : forall p s, String.length p = 5%nat -> prefix p s = true -> s = (p ++ drop5 s)%string.
Proof.
  assert (K : forall p s, prefix p s = true -> s = (p ++ substring (String.length p) (String.length s - String.length p) s)%string).
  { induction p as [|a p IH]; intros s H.
    - cbn [String.length append]. rewrite Nat.sub_0_r. clear H. induction s as [|b s IHs]; [reflexivity|]. cbn [substring String.length]. f_equal. exact IHs.
    - destruct s as [|b s]; [discriminate|]. cbn [prefix] in H. destruct (ascii_dec a b) as [<-|]; [|discriminate]. cbn [String.length append substring Nat.sub]. f_equal. now apply IH. }
  intros p s L H. pose proof (K p s H) as Q. rewrite L in Q. exact Q.
Qed.
Lemma proj_kind : forall t p, type_proj t = Some p -> In (t, p) kinds.
Proof.
  intros t p. unfold type_proj. cbn [existsb]. unfold kinds.
  repeat match goal with |- context [String.eqb t ?k] => destruct (String.eqb_spec t k) as [->|?]; cbn [orb] end; intro H; try discriminate; injection H as <-; cbn [In]; tauto.
Qed.
Lemma rest_kind : forall tnx h t t' pv ab abp, rest tnx h t = Ok (t', pv, ab, abp) -> type_proj t' = type_proj t.
Proof.
  intros tnx h t t' pv ab abp H. unfold rest in H. cbv zeta in H. destruct (String.eqb t "TAN" && has h (KPv X1 1)) eqn:E.
  - apply andb_true_iff in E. destruct E as [E _]. apply String.eqb_eq in E. subst t. cbn [String.eqb Ascii.eqb Bool.eqb] in H. destruct (read_tpv h); cbn [bind] in H; [|discriminate]. injection H as <- _ _ _. reflexivity.
  - destruct (String.eqb_spec t "TPV"). { destruct (read_tpv h); cbn [bind] in H; [|discriminate]. now injection H as <- _ _ _. }
    destruct (String.eqb_spec t "TNX") as [->|]. { destruct (tnx h); cbn [bind] in H; [|discriminate]. injection H as <- _ _ _. reflexivity. }
    destruct (is_sip t); [destruct (read_sip h); cbn [bind] in H; [|discriminate]|]; now injection H as <- _ _ _.
Qed.
Lemma read_kind : forall tnx h w, read_header tnx h = Ok w ->
  exists t, (h (KCtype X1) = Some (VS ("RA---" ++ t)) /\ h (KCtype X2) = Some (VS ("DEC--" ++ t)) \/ h (KCtype X1) = Some (VS ("DEC--" ++ t)) /\ h (KCtype X2) = Some (VS ("RA---" ++ t)))%string /\ In (t, f_proj w) kinds.
Proof.
  intros tnx h w H. rewrite read_header_rest in H. destruct (read_type h) as [[t f]|] eqn:RT; cbn [bind] in H; [|discriminate]. exists t.
  assert (TX : forall c k, htext h k = Ok c -> c <> ""%string -> h k = Some (VS c)) by (intros c k; unfold htext; destruct (h k) as [[x|x|x]|]; congruence).
  assert (NE : forall p c, String.length p = 5%nat -> prefix p c = true -> c <> ""%string) by (intros p c L P ->; destruct p; discriminate).
  unfold read_type in RT. destruct (htext h (KCtype X1)) as [c1|] eqn:H1; cbn [bind] in RT; [|discriminate]. destruct (htext h (KCtype X2)) as [c2|] eqn:H2; cbn [bind] in RT; [|discriminate].
  assert (FL : (prefix "DEC--" c1 = true /\ prefix "RA---" c2 = true \/ prefix "RA---" c1 = true /\ prefix "DEC--" c2 = true)%string /\ drop5 c1 = t /\ drop5 c2 = t /\ exists p, type_proj t = Some p).
  { destruct (prefix "DEC--" c1) eqn:P1, (prefix "RA---" c2) eqn:P2, (prefix "RA---" c1) eqn:P3, (prefix "DEC--" c2) eqn:P4; cbn [andb bind] in RT; try discriminate;
    (destruct (String.eqb_spec (drop5 c1) (drop5 c2)) as [e|e]; cbn [negb] in RT; [|discriminate]); (destruct (type_proj (drop5 c1)) as [p|] eqn:TP; [|discriminate]);
    injection RT as <- <-; (split; [tauto|]); (split; [reflexivity|]); (split; [now symmetry|]); exists p; exact TP. }
  destruct FL as (FL & D1 & D2 & p & TP). split.
  - destruct FL as [[P1 P2]|[P1 P2]]; [right|left]; (rewrite (TX _ _ H1) by (eapply NE; [|eassumption]; reflexivity)); (rewrite (TX _ _ H2) by (eapply NE; [|eassumption]; reflexivity));
    apply prefix_drop in P1; try reflexivity; apply prefix_drop in P2; try reflexivity; rewrite P1 at 1; rewrite P2 at 1; rewrite D1, D2; split; reflexivity.
  - apply proj_kind. rewrite TP. f_equal.
    do 5 (match type of H with bind ?e _ = _ => destruct e; cbn [bind] in H; [|discriminate] end). destruct (read_units h) as [[ua ub]|]; cbn [bind fst snd] in H; [|discriminate]. destruct f;
    (match type of H with bind ?e _ = _ => destruct e; cbn [bind] in H; [|discriminate] end);
    destruct (rest tnx h t) as [[[[t' pv] ab] abp]|] eqn:RS; cbn [bind] in H; try discriminate; injection H as <-; unfold f_proj; cbn [f_type]; rewrite (rest_kind _ _ _ _ _ _ _ RS), TP; reflexivity.
Qed.
