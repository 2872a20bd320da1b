(** Headers that say the same thing are read as the same system; where they are not. *)
From Coq Require Import ZArith Reals Bool Ascii String List Lra Lia.
From Verif Require Import Base Bounds_Model Bounds_Proofs Geo_Model Geo_Proofs Angle_Model Sky_Model Sky_Spec Sky_More Util_Model Util_Spec Util_Proofs.
From Verif Require Import FITS_Spec FITS_Model FITS_Poly FITS_Head FITS_Read FITS_Std.
Import ListNotations.
Open Scope R_scope.

Lemma hnum_given : forall h k, given h k -> forall d, hnum h k = Ok (number h k d).
Proof. intros h k G d. unfold given, hnum, number in *. destruct (h k) as [[x|n|s]|]; try contradiction; reflexivity. Qed.
Lemma has_given : forall h k, given h k -> has h k = true.
Proof. intros h k G. unfold given, has in *. destruct (h k) as [[x|n|s]|]; try contradiction; reflexivity. Qed.
Lemma has_absent : forall h k, absent h k -> has h k = false.
Proof. intros h k A. unfold has. now rewrite A. Qed.
Lemma number_absent : forall h k d, absent h k -> number h k d = d.
Proof. intros h k d A. unfold number. now rewrite A. Qed.
Lemma given_absent : forall h k, given h k -> absent h k -> False.
Proof. intros h k G A. unfold given, absent in *. now rewrite A in G. Qed.
Lemma matrix_ok : forall h, four KCd (given h)
  \/ (four KCd (absent h) /\ given h (KCdelt X1) /\ given h (KCdelt X2) /\ (four KPc (given h) \/ four KPc (absent h)))
  \/ (four KCd (absent h) /\ absent h (KCdelt X1) /\ absent h (KCdelt X2) /\ four KPc (absent h)) ->
  exists m, read_cd h = Ok m /\ std_matrix h m.
Proof.
  intros h [(A & B & C & D)|[(N & S1 & S2 & P)|(N & S1 & S2 & P)]]; unfold read_cd.
  - rewrite (has_given _ _ A), (hnum_given _ _ A 0), (hnum_given _ _ B 0), (hnum_given _ _ C 0), (hnum_given _ _ D 0). cbn [bind]. eexists. split; [reflexivity|].
    split; [intros (A' & _); destruct (given_absent _ _ A A')|intros _; reflexivity].
  - rewrite (has_absent _ _ (proj1 N)), (has_given _ _ S1). destruct P as [(A & B & C & D)|(A & B & C & D)].
    + rewrite (has_given _ _ A), (hnum_given _ _ A 1), (hnum_given _ _ B 0), (hnum_given _ _ C 0), (hnum_given _ _ D 1), (hnum_given _ _ S1 1), (hnum_given _ _ S2 1). cbn [bind].
      eexists. split; [reflexivity|]. split; [intros _|contradiction]. unfold std_pc. apply mat_eq; cbn [m00 m01 m10 m11]; ring.
    + rewrite (has_absent _ _ A), (hnum_given _ _ S1 1), (hnum_given _ _ S2 1). cbn [bind].
      eexists. split; [reflexivity|]. split; [intros _|contradiction]. unfold std_pc. rewrite (number_absent _ _ _ A), (number_absent _ _ _ B), (number_absent _ _ _ C), (number_absent _ _ _ D). apply mat_eq; cbn [m00 m01 m10 m11]; ring.
  - rewrite (has_absent _ _ (proj1 N)), (has_absent _ _ S1). eexists. split; [reflexivity|]. split; [intros _|contradiction]. destruct P as (A & B & C & D). unfold std_pc. rewrite !number_absent by assumption.
    unfold mI. apply mat_eq; cbn [m00 m01 m10 m11]; ring.
Qed.
Definition empty : header := fun _ => None.
Lemma matrix_pc_lost : exists h, (forall k, h k = None \/ given h k) /\ four KCd (absent h) /\ given h (KCdelt X1) /\ given h (KCdelt X2) /\ given h (KPc X1 X2) /\
  exists m, read_cd h = Ok m /\ ~ std_matrix h m.
Proof.
  exists (hsets empty [(KCdelt X1, VR 1); (KCdelt X2, VR 1); (KPc X1 X2, VR 1)]).
  split. { intro k. destruct (in_dec key_eq_dec k [KCdelt X1; KCdelt X2; KPc X1 X2]) as [I|N].
    - right. cbn [In] in I. destruct I as [<-|[<-|[<-|[]]]]; exact Logic.I.
    - left. rewrite hsets_out; [reflexivity|]. intros v I. apply N. cbn [In] in I. destruct I as [I|[I|[I|[]]]]; injection I as <- _; cbn; auto. }
  assert (AB : four KCd (absent (hsets empty [(KCdelt X1, VR 1); (KCdelt X2, VR 1); (KPc X1 X2, VR 1)]))) by (repeat split).
  split; [exact AB|]. split; [exact Logic.I|]. split; [exact Logic.I|]. split; [exact Logic.I|]. eexists. split; [reflexivity|]. intros [S _]. specialize (S AB).
  apply (f_equal m01) in S. cbn [m01 std_pc] in S.
  change (number (hsets empty [(KCdelt X1, VR 1); (KCdelt X2, VR 1); (KPc X1 X2, VR 1)]) (KPc X1 X2) 0) with 1 in S.
  change (number (hsets empty [(KCdelt X1, VR 1); (KCdelt X2, VR 1); (KPc X1 X2, VR 1)]) (KCdelt X1) 1) with 1 in S. lra.
Qed.
Lemma matrix_pc_alone : exists h, (forall k, h k = None \/ given h k) /\ four KCd (absent h) /\ four KPc (given h) /\ exists m, read_cd h = Ok m /\ ~ std_matrix h m.
Proof.
  set (l := [(KPc X1 X1, VR 2); (KPc X1 X2, VR 0); (KPc X2 X1, VR 0); (KPc X2 X2, VR 2)]). exists (hsets empty l).
  split. { intro k. destruct (in_dec key_eq_dec k [KPc X1 X1; KPc X1 X2; KPc X2 X1; KPc X2 X2]) as [I|N].
    - right. cbn [In] in I. destruct I as [<-|[<-|[<-|[<-|[]]]]]; exact Logic.I.
    - left. rewrite hsets_out; [reflexivity|]. intros v I. apply N. unfold l in I. cbn [In] in I. destruct I as [I|[I|[I|[I|[]]]]]; injection I as <- _; cbn; auto. }
  assert (AB : four KCd (absent (hsets empty l))) by (repeat split).
  split; [exact AB|]. split; [repeat split|]. eexists. split; [reflexivity|]. intros [S _]. specialize (S AB).
  apply (f_equal m00) in S. cbn [m00 std_pc mI] in S. change (number (hsets empty l) (KPc X1 X1) 1) with 2 in S. change (number (hsets empty l) (KCdelt X1) 1) with 1 in S. lra.
Qed.

(** * Reading depends only on the keys read *)
Lemma mapM_ext : forall A B (f g : A -> res B) l, (forall a, In a l -> f a = g a) -> mapM f l = mapM g l.
Proof. intros A B f g. induction l as [|a l IH]; intro H; [reflexivity|]. cbn [mapM]. rewrite (H a) by now left. rewrite IH by (intros; apply H; now right). reflexivity. Qed.
Lemma read_tpv_ext : forall h h', (forall a k, h (KPv a k) = h' (KPv a k)) -> read_tpv h = read_tpv h'.
Proof.
  intros h h' E. assert (G : forall a k, hget0 h (KPv a k) = hget0 h' (KPv a k)) by (intros; unfold hget0; now rewrite E).
  unfold read_tpv. rewrite (mapM_ext _ _ (fun p => hget0 h (KPv (fst p) (snd p))) (fun p => hget0 h' (KPv (fst p) (snd p)))) by (intros; apply G).
  rewrite (mapM_ext _ _ (fun k => hget0 h (KPv X1 k)) (fun k => hget0 h' (KPv X1 k))) by (intros; apply G).
  rewrite (mapM_ext _ _ (fun k => hget0 h (KPv X2 k)) (fun k => hget0 h' (KPv X2 k))) by (intros; apply G). reflexivity.
Qed.
Lemma read_sip_ext : forall h h', (forall s, h (KOrder s) = h' (KOrder s)) -> (forall s i j, h (KSip s i j) = h' (KSip s i j)) -> read_sip h = read_sip h'.
Proof.
  intros h h' O E. assert (M : forall s o, read_matrix h s o = read_matrix h' s o).
  { intros. unfold read_matrix. apply mapM_ext. intros i _. apply mapM_ext. intros j _. unfold hget0. now rewrite E. }
  assert (P : forall a b, read_sip_pair h a b = read_sip_pair h' a b).
  { intros a b. unfold read_sip_pair, hint. rewrite !O. destruct (match h' (KOrder a) with Some v => to_nat v | None => _ end); cbn [bind]; [|reflexivity].
    destruct (match h' (KOrder b) with Some v => to_nat v | None => _ end); cbn [bind]; [|reflexivity]. now rewrite !M. }
  unfold read_sip, has. now rewrite !P, O.
Qed.
Lemma rest_ext : forall tnx h h' t, (forall k, ~ base_key k -> h k = h' k) -> tnx h = tnx h' -> rest tnx h t = rest tnx h' t.
Proof.
  intros tnx h h' t E T. unfold rest, has. rewrite (E (KPv X1 1)) by (intros []). rewrite T. rewrite (read_tpv_ext h h') by (intros; apply E; intros []).
  rewrite (read_sip_ext h h') by (intros; apply E; intros []). reflexivity.
Qed.
Lemma read_header_rest : forall tnx h, read_header tnx h =
  bind (read_type h) (fun tf =>
  let '(t, flip) := tf in
  bind (hnum h (KCrval X1)) (fun crval1 => bind (hnum h (KCrval X2)) (fun crval2 =>
  bind (hnum h (KCrpix X1)) (fun crpix1 => bind (hnum h (KCrpix X2)) (fun crpix2 =>
  bind (read_cd h) (fun cd => bind (read_units h) (fun units =>
  let '(crval1, crval2) := if flip : bool then (crval2, crval1) else (crval1, crval2) in
  let '(ra_units, dec_units) := if flip : bool then (snd units, fst units) else units in
  let cd := if flip : bool then swap_rows cd else cd in
  bind (new_coord (crval1 * ra_units) (crval2 * dec_units)) (fun center =>
  bind (rest tnx h t) (fun q =>
  let '(t, pv, ab, abp) := q in
  let cd := if Reqb ra_units degrees then cd else scale_row0 cd (ra_units / degrees) in
  let cd := if Reqb dec_units degrees then cd else scale_row1 cd (dec_units / degrees) in
  Ok (FW t (crpix1, crpix2) cd center pv ab abp)))))))))).
Proof. reflexivity. Qed.
(** * Units *)
Lemma same_units : forall tnx h n1 n2 k1 k2 l1 l2 q1 q2 r1 r2 m, from_name (txt n1) = Ok k1 -> from_name (txt n2) = Ok k2 -> from_name (txt l1) = Ok q1 -> from_name (txt l2) = Ok q2 ->
  k1 <> 0 -> k2 <> 0 -> q1 <> 0 -> q2 <> 0 -> tnx (in_units h n1 n2 k1 k2 r1 r2 m) = tnx (in_units h l1 l2 q1 q2 r1 r2 m) ->
  read_header tnx (in_units h n1 n2 k1 k2 r1 r2 m) = read_header tnx (in_units h l1 l2 q1 q2 r1 r2 m).
Proof.
  intros tnx h n1 n2 k1 k2 l1 l2 q1 q2 r1 r2 m N1 N2 L1 L2 K1 K2 Q1 Q2 T. rewrite !read_header_rest.
  set (a := in_units h n1 n2 k1 k2 r1 r2 m) in *. set (b := in_units h l1 l2 q1 q2 r1 r2 m) in *.
  assert (OUT : forall k, ~ In k [KCunit X1; KCunit X2; KCrval X1; KCrval X2; KCd X1 X1; KCd X1 X2; KCd X2 X1; KCd X2 X2] -> a k = h k /\ b k = h k).
  { intros k N. unfold a, b, in_units. split; apply hsets_out; intros v I; apply N; cbn [In] in I |- *;
      repeat match goal with H : _ \/ _ |- _ => destruct H as [H|H] end; try contradiction; injection I as <- _; auto 10. }
  assert (TY : read_type a = read_type b).
  { unfold read_type, htext. destruct (OUT (KCtype X1)) as [-> ->]; [cbn [In]; intuition discriminate|]. destruct (OUT (KCtype X2)) as [-> ->]; [cbn [In]; intuition discriminate|]. reflexivity. }
  assert (RE : forall t, rest tnx a t = rest tnx b t).
  { intro t. apply rest_ext; [|exact T]. intros k B. destruct (OUT k) as [-> ->]; [|reflexivity]. intro I. apply B. cbn [In] in I. repeat match goal with H : _ \/ _ |- _ => destruct H as [H|H] end; try contradiction; subst k; exact Logic.I. }
  rewrite TY. destruct (read_type b) as [[t flip]|e]; cbn [bind]; [|reflexivity].
  change (hnum a (KCrval X1)) with (@Ok R (r1 / k1)). change (hnum a (KCrval X2)) with (@Ok R (r2 / k2)). change (hnum b (KCrval X1)) with (@Ok R (r1 / q1)). change (hnum b (KCrval X2)) with (@Ok R (r2 / q2)). cbn [bind].
  unfold hnum. destruct (OUT (KCrpix X1)) as [-> ->]; [cbn [In]; intuition discriminate|]. destruct (OUT (KCrpix X2)) as [-> ->]; [cbn [In]; intuition discriminate|].
  destruct (match h (KCrpix X1) with Some v => to_R v | None => _ end) as [c1|e]; cbn [bind]; [|reflexivity]. destruct (match h (KCrpix X2) with Some v => to_R v | None => _ end) as [c2|e]; cbn [bind]; [|reflexivity].
  change (read_cd a) with (@Ok mat (Mat (m00 m / k1) (m01 m / k1) (m10 m / k2) (m11 m / k2))). change (read_cd b) with (@Ok mat (Mat (m00 m / q1) (m01 m / q1) (m10 m / q2) (m11 m / q2))). cbn [bind].
  assert (UA : read_units a = Ok (k1, k2)) by (unfold read_units; change (a (KCunit X1)) with (Some (VS n1)); change (a (KCunit X2)) with (Some (VS n2)); cbv iota; now rewrite N1, N2).
  assert (UB : read_units b = Ok (q1, q2)) by (unfold read_units; change (b (KCunit X1)) with (Some (VS l1)); change (b (KCunit X2)) with (Some (VS l2)); cbv iota; now rewrite L1, L2).
  rewrite UA, UB. cbn [bind fst snd]. pose proof degrees_neq as DN.
  assert (F : forall r k, k <> 0 -> r / k * k = r) by (intros; field; assumption).
  assert (SC0 : forall k u v p q, k <> 0 -> (if Reqb k degrees then Mat (u / k) (v / k) p q else scale_row0 (Mat (u / k) (v / k) p q) (k / degrees)) = Mat (u / degrees) (v / degrees) p q).
  { intros k u v p q NK. destruct (Reqb_spec k degrees) as [->|_]; [reflexivity|]. unfold scale_row0. cbn [m00 m01 m10 m11]. apply mat_eq; try reflexivity; field; auto. }
  assert (SC1 : forall k u v p q, k <> 0 -> (if Reqb k degrees then Mat p q (u / k) (v / k) else scale_row1 (Mat p q (u / k) (v / k)) (k / degrees)) = Mat p q (u / degrees) (v / degrees)).
  { intros k u v p q NK. destruct (Reqb_spec k degrees) as [->|_]; [reflexivity|]. unfold scale_row1. cbn [m00 m01 m10 m11]. apply mat_eq; try reflexivity; field; auto. }
  destruct flip; cbn [fst snd swap_rows m00 m01 m10 m11]; rewrite !F by assumption; rewrite RE.
  - unfold swap_rows; cbn [m00 m01 m10 m11]. destruct (new_coord r2 r1) as [c|e]; cbn [bind]; [|reflexivity]. destruct (rest tnx b t) as [[[[t' pv] ab] abp]|e]; cbn [bind]; [|reflexivity].
    cbv zeta. rewrite !SC0, !SC1 by assumption. reflexivity.
  - destruct (new_coord r1 r2) as [c|e]; cbn [bind]; [|reflexivity]. destruct (rest tnx b t) as [[[[t' pv] ab] abp]|e]; cbn [bind]; [|reflexivity].
    cbv zeta. rewrite !SC0, !SC1 by assumption. reflexivity.
Qed.
