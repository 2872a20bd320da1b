(** Whole headers: written and read back, and headers that say the same thing. *)
From Coq Require Import ZArith Reals Bool Ascii String List Lra Lia.
From Verif Require Import Base Bounds_Model Bounds_Proofs Geo_Model Geo_Proofs Angle_Model Sky_Model Sky_Spec Sky_More Util_Model Util_Spec Util_Proofs.
From Verif Require Import FITS_Spec FITS_Model FITS_Poly FITS_Head.
Import ListNotations.
Open Scope R_scope.

Lemma degrees_neq : degrees <> 0. Proof. unfold degrees. pose proof PI_RGT_0. lra. Qed.
Definition base_key (k : key) : Prop := match k with KPv _ _ | KOrder _ | KSip _ _ _ => False | _ => True end.
Definition base (w : fwcs) (h : header) : header :=
  hsets h [(KCtype X1, VS ("RA---" ++ f_type w)%string); (KCtype X2, VS ("DEC--" ++ f_type w)%string); (KCrpix X1, VR (fst (f_crpix w))); (KCrpix X2, VR (snd (f_crpix w)));
           (KCd X1 X1, VR (m00 (f_cd w))); (KCd X1 X2, VR (m01 (f_cd w))); (KCd X2 X1, VR (m10 (f_cd w))); (KCd X2 X2, VR (m11 (f_cd w)));
           (KCunit X1, VS "deg"%string); (KCunit X2, VS "deg"%string); (KCrval X1, VR (cra (f_center w) / degrees)); (KCrval X2, VR (cdec (f_center w) / degrees))].
Definition layers (w : fwcs) (h : header) : header :=
  let h := match f_pv w with Some pv => write_pv pv h | None => h end in
  let h := match f_ab w with Some ab => write_sip SA SB ab h | None => h end in
  match f_abp w with Some abp => write_sip SAP SBP abp h | None => h end.
Lemma write_layers : forall w h, write_header w h = layers w (base w h). Proof. reflexivity. Qed.
Lemma layers_base : forall w h k, base_key k -> layers w h k = h k.
Proof.
  intros w h k B. unfold layers. 
  assert (S : forall a b d h, write_sip a b d h k = h k) by (intros; apply write_sip_other; intros; subst k; contradiction).
  destruct (f_abp w); rewrite ?S; destruct (f_ab w); rewrite ?S; destruct (f_pv w); auto; apply write_pv_loop_other; intros a q ->; contradiction.
Qed.
Lemma base_other : forall w h k, ~ base_key k -> base w h k = h k.
Proof.
  intros w h k N. unfold base. apply hsets_out. intros v I. apply N. cbn [In] in I.
  repeat match goal with H : _ \/ _ |- _ => destruct H as [H|H] end; try contradiction; injection I as <- _; exact Logic.I.
Qed.
Definition rest (tnx : header -> res dist) (h : header) (t : string) : res (string * option dist * option dist * option dist) :=
  let t := if String.eqb t "TAN"%string && has h (KPv X1 1) then "TPV"%string else t in
  if String.eqb t "TPV"%string then bind (read_tpv h) (fun pv => Ok (t, Some pv, None, None))
  else if String.eqb t "TNX"%string then bind (tnx h) (fun pv => Ok ("TPV"%string, Some pv, None, None))
  else if is_sip t then bind (read_sip h) (fun p => Ok (t, None, Some (fst p), snd p))
  else Ok (t, None, None, None).
Lemma read_core : forall tnx w h, type_proj (f_type w) <> None -> latitude (cdec (f_center w)) ->
  read_header tnx (write_header w h) = bind (rest tnx (write_header w h) (f_type w)) (fun q => let '(t, pv, ab, abp) := q in Ok (FW t (f_crpix w) (f_cd w) (f_center w) pv ab abp)).
Proof.
  intros tnx w h T L. unfold read_header. set (H := write_header w h).
  assert (B : forall k, base_key k -> H k = base w h k) by (intros; unfold H; rewrite write_layers; now apply layers_base).
  assert (RT : read_type H = Ok (f_type w, false)).
  { unfold read_type, htext. rewrite !B by exact I.
    change (base w h (KCtype X1)) with (Some (VS ("RA---" ++ f_type w)%string)). change (base w h (KCtype X2)) with (Some (VS ("DEC--" ++ f_type w)%string)). cbn [bind].
    assert (D : forall a, drop5 (String "R"%char (String "A"%char (String "-"%char (String "-"%char (String "-"%char a))))) = a /\ drop5 (String "D"%char (String "E"%char (String "C"%char (String "-"%char (String "-"%char a))))) = a).
    { intro a. unfold drop5. cbn [String.length]. replace (S (S (S (S (S (String.length a))))) - 5)%nat with (String.length a) by lia. cbn [substring].
      assert (Q : forall s, substring 0 (String.length s) s = s) by (induction s as [|c s IH]; cbn; [reflexivity|now rewrite IH]). now rewrite Q. }
    cbn [String.append]. destruct (D (f_type w)) as [D1 D2]. rewrite D1, D2. rewrite String.eqb_refl.
    destruct (type_proj (f_type w)); [|contradiction]. assert (PN : forall x, prefix "" x = true) by (intros []; reflexivity). cbn. rewrite PN. reflexivity. }
  rewrite RT. cbn [bind]. unfold hnum. rewrite !B by exact I.
  change (base w h (KCrval X1)) with (Some (VR (cra (f_center w) / degrees))). change (base w h (KCrval X2)) with (Some (VR (cdec (f_center w) / degrees))).
  change (base w h (KCrpix X1)) with (Some (VR (fst (f_crpix w)))). change (base w h (KCrpix X2)) with (Some (VR (snd (f_crpix w)))). cbn [to_R bind].
  assert (RC : read_cd H = Ok (f_cd w)).
  { unfold read_cd, has, hnum. rewrite !B by exact I. change (base w h (KCd X1 X1)) with (Some (VR (m00 (f_cd w)))). change (base w h (KCd X1 X2)) with (Some (VR (m01 (f_cd w)))).
    change (base w h (KCd X2 X1)) with (Some (VR (m10 (f_cd w)))). change (base w h (KCd X2 X2)) with (Some (VR (m11 (f_cd w)))). cbn [to_R bind]. destruct (f_cd w); reflexivity. }
  assert (RU : read_units H = Ok (degrees, degrees)).
  { unfold read_units. rewrite !B by exact I. change (base w h (KCunit X1)) with (Some (VS "deg"%string)). change (base w h (KCunit X2)) with (Some (VS "deg"%string)). cbv iota.
    replace (from_name (txt "deg"%string)) with (@Ok R degrees) by reflexivity. reflexivity. }
  rewrite RC. cbn [bind]. rewrite RU. cbn [bind fst snd].
  pose proof degrees_neq as DN. replace (cra (f_center w) / degrees * degrees) with (cra (f_center w)) by (field; exact DN). replace (cdec (f_center w) / degrees * degrees) with (cdec (f_center w)) by (field; exact DN).
  rewrite new_coord_ok by exact L. cbn [bind]. unfold rest. fold H.
  match goal with |- bind ?x _ = bind ?x _ => destruct x as [[[[t pv] ab] abp]|e] end; [|reflexivity]. cbn [bind].
  destruct (Reqb_spec degrees degrees) as [_|n]; [|congruence]. destruct (f_crpix w), (f_center w). reflexivity.
Qed.
Lemma write_other : forall w h k, ~ base_key k -> f_pv w = None -> f_ab w = None -> f_abp w = None -> write_header w h k = h k.
Proof. intros w h k B P A Q. rewrite write_layers. unfold layers. rewrite P, A, Q. now apply base_other. Qed.
(** Without distortion *)
Lemma plain_round_trip : forall tnx w h, In (f_type w) ["TAN"; "STG"; "ZEA"; "ARC"]%string -> latitude (cdec (f_center w)) -> f_pv w = None -> f_ab w = None -> f_abp w = None ->
  h (KPv X1 1) = None -> read_header tnx (write_header w h) = Ok w.
Proof.
  intros tnx w h T L P A Q N. rewrite read_core; [|cbn [In] in T; destruct T as [<-|[<-|[<-|[<-|[]]]]]; discriminate|exact L].
  assert (HN : has (write_header w h) (KPv X1 1) = false) by (unfold has; rewrite write_other by (auto; intros []); now rewrite N).
  destruct w as [t crpix cd c pv ab abp]. cbn [f_type f_pv f_ab f_abp f_crpix f_cd f_center] in *. subst pv ab abp.
  unfold rest. rewrite HN, andb_false_r. cbn [In] in T. destruct T as [<-|[<-|[<-|[<-|[]]]]]; reflexivity.
Qed.
(** SIP *)
Definition sip_shape (d : dist) : Prop := exists n, (2 <= n)%nat /\ square n (fst d) /\ square n (snd d).
Lemma sip_round_trip : forall tnx w h ab, In (f_type w) ["TAN-SIP"; "STG-SIP"; "ZEA-SIP"; "ARC-SIP"]%string -> latitude (cdec (f_center w)) ->
  f_pv w = None -> f_ab w = Some ab -> sip_shape ab -> match f_abp w with Some abp => sip_shape abp | None => h (KOrder SAP) = None end ->
  (forall s i j, h (KSip s i j) = None) -> read_header tnx (write_header w h) = Ok w.
Proof.
  intros tnx w h ab T L P A (n & N2 & S1 & S2) Q F. rewrite read_core; [|cbn [In] in T; destruct T as [<-|[<-|[<-|[<-|[]]]]]; discriminate|exact L].
  assert (R : read_sip (write_header w h) = Ok (ab, f_abp w)).
  { rewrite write_layers. unfold layers. rewrite P, A.
    assert (F' : forall s i j, base w h (KSip s i j) = None) by (intros; rewrite base_other by (intros []); apply F).
    destruct (write_pair (base w h) SA SB n ab ltac:(discriminate) N2 S1 S2 (F' SA) (F' SB)) as (O1 & O2 & M1 & M2).
    set (h1 := write_sip SA SB ab (base w h)) in *. unfold read_sip. destruct (f_abp w) as [abp|].
    - destruct Q as (n' & N2' & S1' & S2').
      assert (F1 : forall s i j, s <> SA -> s <> SB -> h1 (KSip s i j) = None) by (intros; unfold h1; rewrite write_sip_other; [apply F'|discriminate|intros n0 i0 j0 E0; injection E0 as <- _ _; auto]).
      destruct (write_pair h1 SAP SBP n' abp ltac:(discriminate) N2' S1' S2' ltac:(intros; apply F1; discriminate) ltac:(intros; apply F1; discriminate)) as (P1 & P2 & K1 & K2).
      set (h2 := write_sip SAP SBP abp h1) in *.
      assert (E : forall k, (exists s i j, (s = SA \/ s = SB) /\ (k = KOrder s \/ k = KSip s i j)) -> h2 k = h1 k).
      { intros k (s & i & j & Hs & Hk). unfold h2. apply write_sip_other.
        - intros m E. destruct Hk as [-> | ->]; [|discriminate]. injection E as <-. destruct Hs as [-> | ->]; split; discriminate.
        - intros m i' j' E. destruct Hk as [-> | ->]; [discriminate|]. injection E as <- _ _. destruct Hs as [-> | ->]; split; discriminate. }
      rewrite (read_pair h2 SA SB n (fst ab) (snd ab)); auto.
      + cbn [bind]. unfold has. rewrite P1. rewrite (read_pair h2 SAP SBP n' (fst abp) (snd abp)) by auto. cbn [bind]. destruct ab, abp; reflexivity.
      + rewrite E by (exists SA, 0%nat, 0%nat; auto). exact O1.
      + rewrite E by (exists SB, 0%nat, 0%nat; auto). exact O2.
      + intros i j Hi Hj. unfold hget0. rewrite E by (exists SA, i, j; auto). now apply M1.
      + intros i j Hi Hj. unfold hget0. rewrite E by (exists SB, i, j; auto). now apply M2.
    - rewrite (read_pair h1 SA SB n (fst ab) (snd ab)) by auto. cbn [bind].
      assert (HN : has h1 (KOrder SAP) = false). { unfold has, h1. rewrite write_sip_other; [|intros m E; injection E as <-; split; discriminate|discriminate]. rewrite base_other by (intros []). now rewrite Q. }
      rewrite HN. destruct ab; reflexivity. }
  destruct w as [t crpix cd c pv ab' abp]. cbn [f_type f_pv f_ab f_abp f_crpix f_cd f_center] in *. subst pv ab'.
  unfold rest. cbn [In] in T. destruct T as [<-|[<-|[<-|[<-|[]]]]]; cbn [String.eqb Ascii.eqb Bool.eqb andb is_sip existsb orb]; rewrite R; reflexivity.
Qed.
(** TPV: a polynomial of total degree d whose last coefficient is found *)
Definition found (n d : nat) (a b : list (list R)) : Prop :=
  (forall i j, (d < i + j)%nat -> low n (coef a) i j = 0 /\ low n (coef b) i j = 0) /\
  (exists j, (j <= d)%nat /\ (d <= 2 * j + 1)%nat /\ (low n (coef a) (d - j)%nat j <> 0 \/ low n (coef b) j (d - j)%nat <> 0)) /\
  (exists i j, low n (coef a) i j <> 0) /\ (exists i j, low n (coef b) i j <> 0).
Lemma tpv_round_trip : forall h n d a b, (n <= 8)%nat -> square n a -> square n b -> (forall x k, h (KPv x k) = None) -> found n d a b ->
  exists pv', read_tpv (write_pv (a, b) h) = Ok pv' /\ forall p, apply_ab p pv' = apply_ab p (a, b).
Proof.
  intros h n d a b N8 SA SB F (HI & (j & J & J2 & TOP) & (i1 & j1 & A0) & (i2 & j2 & B0)).
  assert (DN : (d < n)%nat).
  { destruct (Nat.le_gt_cases n d) as [l|l]; [|exact l]. exfalso. unfold low in TOP. destruct TOP as [T|T]; destruct (Nat.ltb_spec (d - j + j) n), (Nat.ltb_spec (j + (d - j)) n); try lia; now apply T. }
  eexists. split.
  - apply (read_pv n a b h ltac:(lia) N8 SA F d j i1 j1 i2 j2); auto; lia.
  - intro p. apply (fill_same n a b h ltac:(lia) N8 SA SB F d); auto; lia.
Qed.
Lemma tpv_header_round_trip : forall tnx w h n d a b, f_type w = "TPV"%string -> latitude (cdec (f_center w)) -> f_pv w = Some (a, b) -> f_ab w = None -> f_abp w = None ->
  (n <= 8)%nat -> square n a -> square n b -> (forall x k, h (KPv x k) = None) -> found n d a b ->
  exists w', read_header tnx (write_header w h) = Ok w' /\ forall p, f_uv w' p = f_uv w p /\ f_radec w' p = f_radec w p.
Proof.
  intros tnx w h n d a b T L P A Q N8 SA SB F FD. rewrite read_core; [|rewrite T; discriminate|exact L].
  assert (F' : forall x k, base w h (KPv x k) = None) by (intros; rewrite base_other by (intros []); apply F).
  destruct (tpv_round_trip (base w h) n d a b N8 SA SB F' FD) as (pv' & R & E).
  assert (W : write_header w h = write_pv (a, b) (base w h)) by (rewrite write_layers; unfold layers; now rewrite P, A, Q).
  rewrite W, T. unfold rest. cbn [String.eqb Ascii.eqb Bool.eqb andb]. rewrite R. cbn [bind]. eexists. split; [reflexivity|]. intro p.
  match goal with |- ?x = ?y /\ _ => assert (U : x = y) end.
  { unfold f_uv. cbn [f_crpix f_ab f_cd f_pv]. rewrite P, A. unfold apply_opt. rewrite E. reflexivity. }
  split; [exact U|]. unfold f_radec. rewrite U. unfold f_proj. cbn [f_center f_type]. rewrite T. reflexivity.
Qed.
(** an all-zero table of coefficients is refused *)
Lemma tpv_zero : forall h, (forall k, hget0 h (KPv X1 k) = Ok 0) -> (forall k, exists r, hget0 h (KPv X2 k) = Ok r) -> forall d, read_tpv h <> Ok d.
Proof.
  intros h Z1 Z2 d. unfold read_tpv. destruct (mapM _ (list_prod _ _)) as [odds|e]; cbn [bind]; [|discriminate]. destruct (existsb _ _); [discriminate|].
  rewrite (mapM_ok _ _ _ (fun _ => 0)) by (intros; apply Z1). cbn [bind]. destruct (mapM _ pv_keys) as [pv2|e]; cbn [bind]; [|discriminate].
  unfold last_nonzero at 1. pose proof (last_nonzero_from_spec (map (fun _ : nat => 0) pv_keys) 0) as S. destruct (last_nonzero_from 0 (map (fun _ : nat => 0) pv_keys)) as [m|]; [|discriminate].
  destruct S as (_ & N & _). exfalso. apply N. assert (Z : forall l k, nth k (map (fun _ : nat => 0) l) 0 = 0) by (induction l as [|x l IH]; intros [|k]; cbn; auto). apply Z.
Qed.
