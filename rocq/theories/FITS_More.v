(** Exchanged axes, lost coefficients, TNX surfaces, linear headers. *)
From Coq Require Import ZArith Reals Bool Ascii String List Lra Lia.
From Verif Require Import Base Bounds_Model Bounds_Proofs Geo_Model Geo_Proofs Angle_Model Sky_Model Sky_Spec Sky_More Util_Model Util_Spec Util_Proofs WCS_Model.
From Verif Require Import FITS_Spec FITS_Model FITS_Poly FITS_Head FITS_Read FITS_Std FITS_Same.
Import ListNotations.
Open Scope R_scope.

(** * Exchanged axes *)
Lemma type_exchanged : forall h t flip, read_type h = Ok (t, flip) -> read_type (exchanged h) = Ok (t, negb flip).
Proof.
  intros h t flip. unfold read_type. change (htext (exchanged h) (KCtype X1)) with (htext h (KCtype X2)). change (htext (exchanged h) (KCtype X2)) with (htext h (KCtype X1)).
  destruct (htext h (KCtype X1)) as [c1|]; cbn [bind]; [|discriminate]. destruct (htext h (KCtype X2)) as [c2|]; cbn [bind]; [|discriminate].
  rewrite (andb_comm (prefix "DEC--" c2)), (andb_comm (prefix "RA---" c2)).
  destruct (prefix "DEC--" c1 && prefix "RA---" c2) eqn:E1; cbn [bind].
  - apply andb_true_iff in E1. destruct E1 as [A B].
    assert (N : prefix "RA---" c1 = false) by (clear - A; destruct c1 as [|[[] [] [] [] [] [] [] []] c1]; try reflexivity; discriminate A).
    rewrite N. cbn [andb bind]. destruct (String.eqb_spec (drop5 c1) (drop5 c2)) as [e|e]; cbn [negb]; [|discriminate]. rewrite <- e, String.eqb_refl. cbn [negb].
    destruct (type_proj (drop5 c1)); [|discriminate]. intro H. injection H as <- <-. reflexivity.
  - destruct (prefix "RA---" c1 && prefix "DEC--" c2) eqn:E2; cbn [bind]; [|discriminate].
    destruct (String.eqb_spec (drop5 c1) (drop5 c2)) as [e|e]; cbn [negb]; [|discriminate]. rewrite <- e, String.eqb_refl. cbn [negb].
    destruct (type_proj (drop5 c1)); [|discriminate]. intro H. injection H as <- <-. reflexivity.
Qed.
Lemma axes_exchanged : forall tnx h w, read_header tnx h = Ok w -> f_pv w = None -> four KCd (given h) -> (absent h (KCunit X1) -> absent h (KCunit X2)) -> (forall a k, absent h (KPv a k)) ->
  read_header tnx (exchanged h) = Ok w.
Proof.
  intros tnx h w R NP (G1 & G2 & G3 & G4) U PV. rewrite read_header_rest in R |- *.
  destruct (read_type h) as [[t flip]|e] eqn:T; cbn [bind] in R; [|discriminate]. rewrite (type_exchanged _ _ _ T). cbn [bind].
  assert (H1 : forall i, hnum (exchanged h) (KCrval i) = hnum h (KCrval (other i))) by reflexivity. rewrite !H1. cbn [other].
  destruct (hnum h (KCrval X1)) as [v1|e]; cbn [bind] in R; [|discriminate]. destruct (hnum h (KCrval X2)) as [v2|e]; cbn [bind] in R |- *; [|discriminate].
  assert (H2 : forall i, hnum (exchanged h) (KCrpix i) = hnum h (KCrpix i)) by reflexivity. rewrite !H2.
  destruct (hnum h (KCrpix X1)) as [c1|e]; cbn [bind] in R |- *; [|discriminate]. destruct (hnum h (KCrpix X2)) as [c2|e]; cbn [bind] in R |- *; [|discriminate].
  assert (GE : forall k, given h (swap_key k) -> given (exchanged h) k) by (intros k Q; exact Q).
  unfold read_cd in R |- *. rewrite (has_given _ _ G1) in R. rewrite (has_given (exchanged h) (KCd X1 X1)) by (apply GE; exact G3).
  rewrite (hnum_given _ _ G1 0), (hnum_given _ _ G2 0), (hnum_given _ _ G3 0), (hnum_given _ _ G4 0) in R. cbn [bind] in R.
  rewrite (hnum_given (exchanged h) (KCd X1 X1) G3 0), (hnum_given (exchanged h) (KCd X1 X2) G4 0), (hnum_given (exchanged h) (KCd X2 X1) G1 0), (hnum_given (exchanged h) (KCd X2 X2) G2 0). cbn [bind].
  assert (N : forall i j d, number (exchanged h) (KCd i j) d = number h (KCd (other i) j) d) by reflexivity. rewrite !N. cbn [other].
  assert (RU : forall a b, read_units h = Ok (a, b) -> read_units (exchanged h) = Ok (b, a)).
  { intros a b. unfold read_units, exchanged. cbn [swap_key other]. unfold absent in U. destruct (h (KCunit X1)) as [[x|x|u1]|].
    - discriminate.
    - discriminate.
    - destruct (h (KCunit X2)) as [[y|y|u2]|]; try discriminate. destruct (from_name (txt u1)) as [x|]; cbn [bind]; [|discriminate]. destruct (from_name (txt u2)) as [y|]; cbn [bind]; [|discriminate]. congruence.
    - rewrite (U eq_refl). congruence. }
  destruct (read_units h) as [[a b]|e] eqn:UE; cbn [bind] in R; [|discriminate]. rewrite (RU a b eq_refl). cbn [bind fst snd] in R |- *.
  assert (PVE : forall i k, has h (KPv i k) = false) by (intros; apply has_absent, PV).
  assert (RQ : forall t pv ab abp, rest tnx h t = Ok (t, pv, ab, abp) -> pv = None -> rest tnx (exchanged h) t = Ok (t, pv, ab, abp)).
  { intros t0 pv ab abp RR Z. unfold rest in RR |- *. rewrite PVE, andb_false_r in RR. assert (Q : has (exchanged h) (KPv X1 1) = false) by (apply (PVE X2)). rewrite Q, andb_false_r.
    destruct (String.eqb t0 "TPV"). { destruct (read_tpv h); cbn [bind] in RR; [|discriminate]. injection RR as <- _ _. discriminate. }
    destruct (String.eqb t0 "TNX"). { destruct (tnx h); cbn [bind] in RR; [|discriminate]. injection RR as _ <- _ _. discriminate. }
    destruct (is_sip t0); [|exact RR]. rewrite (read_sip_ext (exchanged h) h) by reflexivity. exact RR. }
  assert (RT : forall q, rest tnx h t = Ok q -> snd (fst (fst q)) = None -> rest tnx (exchanged h) t = Ok q).
  { intros [[[t' pv] ab] abp] RR Z. cbn [fst snd] in Z. assert (t' = t).
    { unfold rest in RR. rewrite PVE, andb_false_r in RR. destruct (String.eqb t "TPV"). { destruct (read_tpv h); cbn [bind] in RR; [|discriminate]. congruence. }
      destruct (String.eqb t "TNX"). { destruct (tnx h); cbn [bind] in RR; [|discriminate]. injection RR as _ <- _ _. discriminate. }
      destruct (is_sip t); [destruct (read_sip h); cbn [bind] in RR; [|discriminate]|]; congruence. }
    subst t'. now apply RQ. }
  destruct flip; cbn [negb] in R |- *; cbn [fst snd] in R |- *; unfold swap_rows in R |- *; cbn [m00 m01 m10 m11] in R |- *.
  all: match type of R with bind ?n _ = _ => destruct n as [c|e]; cbn [bind] in R |- *; [|discriminate] end; destruct (rest tnx h t) as [q|e] eqn:RR; cbn [bind] in R; [|discriminate].
  all: rewrite (RT q eq_refl) by (destruct q as [[[t' pv] ab] abp]; cbv zeta in R; injection R as <-; exact NP); cbn [bind]; exact R.
Qed.

(** * PV1_1 and PV2_1 only *)
Lemma last_nonzero_is : forall l m, nth m l 0 <> 0 -> (forall k, (m < k < length l)%nat -> nth k l 0 = 0) -> last_nonzero l = Ok m.
Proof.
  intros l m H Z. destruct (last_nonzero_spec l m H) as (m' & E & L & G & N). rewrite E. f_equal. destruct (Nat.eq_dec m m') as [->|D]; [reflexivity|]. exfalso. apply N, Z. lia.
Qed.
Lemma read_tpv_of : forall h g m1 m2, (forall x q, hget0 h (KPv x q) = Ok (g x q)) -> (forall x q, In q odd_indices -> g x q = 0) ->
  last_nonzero (map (g X1) pv_keys) = Ok m1 -> last_nonzero (map (g X2) pv_keys) = Ok m2 ->
  read_tpv h = Ok (fill1 (tpv_order (Nat.max m1 m2)) (map (g X1) pv_keys), fill2 (tpv_order (Nat.max m1 m2)) (map (g X2) pv_keys)).
Proof.
  intros h g m1 m2 H O L1 L2. unfold read_tpv. rewrite (mapM_ok _ _ _ (fun p => g (fst p) (snd p))) by (intros; apply H). cbn [bind].
  assert (E : existsb (fun x => negb (Reqb x 0)) (map (fun p : axis * nat => g (fst p) (snd p)) (list_prod [X1; X2] odd_indices)) = false).
  { apply Bool.not_true_iff_false. intro E. apply existsb_exists in E. destruct E as (r & I & E). apply in_map_iff in I. destruct I as ([x q] & <- & I). apply in_prod_iff in I. cbn [fst snd] in E.
    rewrite O in E by apply I. destruct (Reqb_spec 0 0); [discriminate|lra]. }
  rewrite E. rewrite (mapM_ok _ _ _ (g X1)) by (intros; apply H). cbn [bind]. rewrite (mapM_ok _ _ _ (g X2)) by (intros; apply H). cbn [bind]. rewrite L1, L2. reflexivity.
Qed.
Definition pv11 (h : header) (c1 c2 : R) : Prop := h (KPv X1 1) = Some (VR c1) /\ h (KPv X2 1) = Some (VR c2) /\ forall a k, k <> 1%nat -> h (KPv a k) = None.
Lemma nth_keys : forall g k, (k < 36)%nat -> nth k (map g pv_keys) 0 = g (nth k pv_keys 0%nat).
Proof. intros g k H. rewrite (nth_indep _ 0 (g 0%nat)) by (rewrite map_length; exact H). apply map_nth. Qed.
Lemma read_pv11 : forall h c1 c2, pv11 h c1 c2 -> c1 <> 0 -> c2 <> 0 -> exists d, read_tpv h = Ok d /\ forall x y, apply_ab (x, y) d = (c1 * x, c2 * y).
Proof.
  intros h c1 c2 (H1 & H2 & H0) N1 N2. set (g := fun (x : axis) (q : nat) => if Nat.eqb q 1 then match x with X1 => c1 | X2 => c2 end else 0).
  assert (G : forall x q, hget0 h (KPv x q) = Ok (g x q)).
  { intros x q. unfold hget0, g. destruct (Nat.eqb_spec q 1) as [->|n]; [destruct x; [rewrite H1|rewrite H2]; reflexivity|]. now rewrite H0. }
  assert (L : forall x, last_nonzero (map (g x) pv_keys) = Ok 1%nat).
  { intro x. apply last_nonzero_is; [destruct x; assumption|]. intros k [K1 K2]. rewrite map_length in K2. change (length pv_keys) with 36%nat in K2. rewrite nth_keys by exact K2. unfold g.
    assert (T : upto 36 (fun k => Nat.leb k 1 || negb (Nat.eqb (nth k pv_keys 0%nat) 1)) = true) by (vm_compute; reflexivity). pose proof (upto_spec _ _ T k K2) as Q. cbv beta in Q.
    destruct (Nat.leb_spec k 1); [lia|]. destruct (Nat.eqb (nth k pv_keys 0%nat) 1); [discriminate|reflexivity]. }
  rewrite (read_tpv_of h g 1 1 G) by (try apply L; intros x q I; cbn [In odd_indices] in I; destruct I as [<-|[<-|[<-|[<-|[]]]]]; reflexivity).
  eexists. split; [reflexivity|]. intros x y. change (tpv_order (Nat.max 1 1)) with 1%nat.
  change (fill1 1 (map (g X1) pv_keys)) with [[0; 0]; [c1; 0]]. change (fill2 1 (map (g X2) pv_keys)) with [[0; c2]; [0; 0]].
  rewrite (apply_ab_warp 2) by (split; [reflexivity|cbn [fst snd]; repeat constructor]).
  unfold warp, surface, sumf, low, coef. cbn. f_equal; ring.
Qed.
Definition tpv_head (c1 c2 : R) : header := hsets empty [(KCtype X1, VS "RA---TPV"%string); (KCtype X2, VS "DEC--TPV"%string); (KCrval X1, VR 0); (KCrval X2, VR 0); (KCrpix X1, VR 0); (KCrpix X2, VR 0);
  (KCd X1 X1, VR 1); (KCd X1 X2, VR 0); (KCd X2 X1, VR 0); (KCd X2 X2, VR 1); (KPv X1 1, VR c1); (KPv X2 1, VR c2)].
Lemma tpv_head_pv11 : forall c1 c2, pv11 (tpv_head c1 c2) c1 c2.
Proof.
  intros c1 c2. split; [reflexivity|]. split; [reflexivity|]. intros a k N. unfold tpv_head. rewrite hsets_out; [reflexivity|]. intros v I. cbn [In] in I.
  repeat match goal with H : _ \/ _ |- _ => destruct H as [H|H] end; try contradiction; try discriminate; injection I; intros; congruence.
Qed.
Lemma new_coord_0 : new_coord 0 0 = Ok (mkC 0 0).
Proof. apply new_coord_ok. unfold latitude. pose proof PI_RGT_0. lra. Qed.
Lemma read_tpv_head : forall tnx c1 c2, c1 <> 0 -> c2 <> 0 ->
  exists d, read_header tnx (tpv_head c1 c2) = Ok (FW "TPV" (0, 0) (Mat 1 0 0 1) (mkC 0 0) (Some d) None None) /\ forall x y, apply_ab (x, y) d = (c1 * x, c2 * y).
Proof.
  intros tnx c1 c2 N1 N2. destruct (read_pv11 _ c1 c2 (tpv_head_pv11 c1 c2) N1 N2) as (d & RD & A). exists d. split; [|exact A]. rewrite read_header_rest.
  change (read_type (tpv_head c1 c2)) with (@Ok (string * bool) ("TPV"%string, false)). cbn [bind].
  change (hnum (tpv_head c1 c2) (KCrval X1)) with (@Ok R 0). change (hnum (tpv_head c1 c2) (KCrval X2)) with (@Ok R 0). change (hnum (tpv_head c1 c2) (KCrpix X1)) with (@Ok R 0). change (hnum (tpv_head c1 c2) (KCrpix X2)) with (@Ok R 0).
  change (read_cd (tpv_head c1 c2)) with (@Ok mat (Mat 1 0 0 1)). change (read_units (tpv_head c1 c2)) with (@Ok (R * R) (degrees, degrees)). cbn [bind]. rewrite Rmult_0_l, new_coord_0. cbn [bind].
  unfold rest. cbn [String.eqb Ascii.eqb Bool.eqb andb]. rewrite RD. cbn [bind]. destruct (Reqb_spec degrees degrees); [|congruence]. reflexivity.
Qed.
Lemma read_tpv_head_exchanged : forall tnx c1 c2, c1 <> 0 -> c2 <> 0 ->
  exists d, read_header tnx (exchanged (tpv_head c1 c2)) = Ok (FW "TPV" (0, 0) (Mat 1 0 0 1) (mkC 0 0) (Some d) None None) /\ forall x y, apply_ab (x, y) d = (c2 * x, c1 * y).
Proof.
  intros tnx c1 c2 N1 N2. set (h := exchanged (tpv_head c1 c2)).
  assert (P : pv11 h c2 c1) by (destruct (tpv_head_pv11 c1 c2) as (A & B & C); split; [exact B|split; [exact A|intros a k N; apply C, N]]).
  destruct (read_pv11 h c2 c1 P N2 N1) as (d & RD & A). exists d. split; [|exact A]. rewrite read_header_rest.
  change (read_type h) with (@Ok (string * bool) ("TPV"%string, true)). cbn [bind].
  change (hnum h (KCrval X1)) with (@Ok R 0). change (hnum h (KCrval X2)) with (@Ok R 0). change (hnum h (KCrpix X1)) with (@Ok R 0). change (hnum h (KCrpix X2)) with (@Ok R 0).
  change (read_cd h) with (@Ok mat (Mat 0 1 1 0)). change (read_units h) with (@Ok (R * R) (degrees, degrees)). cbn [bind fst snd]. rewrite Rmult_0_l, new_coord_0. cbn [bind].
  unfold rest. cbn [String.eqb Ascii.eqb Bool.eqb andb]. rewrite RD. cbn [bind]. destruct (Reqb_spec degrees degrees); [|congruence]. reflexivity.
Qed.
(** x + x^2, y: the square is lost *)
Definition ax2 : list (list R) := [[0; 0; 0]; [1; 0; 0]; [1; 0; 0]].
Definition by1 : list (list R) := [[0; 1; 0]; [0; 0; 0]; [0; 0; 0]].
Lemma lost : exists d, read_tpv (write_pv (ax2, by1) empty) = Ok d /\ (forall x y, apply_ab (x, y) d = (x, y)) /\ forall x y, apply_ab (x, y) (ax2, by1) = (x + x ^ 2, y).
Proof.
  assert (SA : square 3 ax2) by (split; [reflexivity|repeat constructor]). assert (SB : square 3 by1) by (split; [reflexivity|repeat constructor]).
  pose proof (pv_at 3 ax2 by1 empty SA ltac:(reflexivity)) as G. set (h := write_pv (ax2, by1) empty) in *.
  set (g := fun (x : axis) (q : nat) => match look q (slots (pairs (3 - 1)) 0) with Some (i, j) => match x with X1 => coef ax2 i j | X2 => coef by1 j i end | None => 0 end).
  assert (K : forall x k, (3 < k < 36)%nat -> g x (nth k pv_keys 0%nat) = 0).
  { intros x k [K1 K2]. do 36 (destruct k as [|k]; [try (exfalso; lia); destruct x; reflexivity|]). exfalso. lia. }
  assert (L1 : last_nonzero (map (g X1) pv_keys) = Ok 3%nat).
  { apply last_nonzero_is. { change (nth 3 (map (g X1) pv_keys) 0) with 1. lra. } intros k [K1 K2]. rewrite map_length in K2. change (length pv_keys) with 36%nat in K2. rewrite nth_keys by exact K2. apply K. lia. }
  assert (L2 : last_nonzero (map (g X2) pv_keys) = Ok 1%nat).
  { apply last_nonzero_is. { change (nth 1 (map (g X2) pv_keys) 0) with 1. lra. } intros k [K1 K2]. rewrite map_length in K2. change (length pv_keys) with 36%nat in K2. rewrite nth_keys by exact K2.
    destruct (Nat.le_gt_cases k 3) as [l|l]; [|apply K; lia]. destruct (Nat.eq_dec k 2) as [->|n]; [reflexivity|]. assert (E : k = 3%nat) by lia. rewrite E. reflexivity. }
  rewrite (read_tpv_of h g 3 1) by (auto; intros x q I; cbn [In odd_indices] in I; destruct I as [<-|[<-|[<-|[<-|[]]]]]; destruct x; reflexivity).
  eexists. split; [reflexivity|]. change (tpv_order (Nat.max 3 1)) with 1%nat.
  change (fill1 1 (map (g X1) pv_keys)) with [[0; 0]; [1; 0]]. change (fill2 1 (map (g X2) pv_keys)) with [[0; 1]; [0; 0]].
  split; intros x y.
  - rewrite (apply_ab_warp 2) by (split; [reflexivity|cbn [fst snd]; repeat constructor]). unfold warp, surface, sumf, low, coef. cbn. f_equal; ring.
  - rewrite (apply_ab_warp 3) by assumption. unfold warp, surface, sumf, low, coef. cbn. f_equal; ring.
Qed.

(** * TNX *)
Definition dot4 (m : list (list R)) (i : nat) (x : R) : R := sum4 (fun k => ent m i k * x ^ k).
Lemma product_surface : forall xm pv ym x y, surface 4 (coef (tnx_product xm pv ym)) x y = sum4 (fun i => sum4 (fun j => ent pv i j * dot4 xm i x * dot4 ym j y)).
Proof.
  intros xm pv ym x y. unfold surface, tnx_product.
  rewrite <- (sumf_ext 4 (fun k => sumf 4 (fun l => sum4 (fun i => ent xm i k * sum4 (fun j => ent pv i j * ent ym j l)) * x ^ k * y ^ l))).
  2:{ intros k Hk. apply sumf_ext. intros l Hl. f_equal. f_equal. symmetry. apply (table_coef 4 (fun k l => sum4 (fun i => ent xm i k * sum4 (fun j => ent pv i j * ent ym j l)))); assumption. }
  unfold dot4, sumf, sum4. cbn [seq map fold_right]. generalize (ent xm) (ent pv) (ent ym). intros f g h. ring.
Qed.
Lemma cheb_row : forall a b x i, (i < 4)%nat -> dot4 (cheb_rows a b) i x = cheb i (a + b * x).
Proof.
  intros a b x i H. unfold dot4, sum4. destruct i as [|[|[|[|i]]]]; [..|lia]; unfold cheb, ent; cbn; ring.
Qed.
Lemma leg_row : forall a b x i, (i < 4)%nat -> dot4 (leg_rows a b) i x = leg i (a + b * x).
Proof.
  intros a b x i H. unfold dot4, sum4. destruct i as [|[|[|[|i]]]]; [..|lia]; unfold leg, ent; cbn; field.
Qed.
Lemma lower : forall rows pv, (forall i k, (i < k)%nat -> ent rows i k = 0) -> forall rows', (forall i k, (i < k)%nat -> ent rows' i k = 0) -> (forall i j, (4 <= i + j)%nat -> ent pv i j = 0) ->
  triangular 4 (tnx_product rows pv rows').
Proof.
  intros rows pv L rows' L' T. split; [apply (table_square 4 (fun k l => sum4 (fun i => ent rows i k * sum4 (fun j => ent pv i j * ent rows' j l))))|]. intros k l H.
  destruct (Nat.lt_ge_cases k 4) as [K|K]; [destruct (Nat.lt_ge_cases l 4) as [M|M]|].
  - unfold tnx_product. rewrite (table_coef 4 (fun k l => sum4 (fun i => ent rows i k * sum4 (fun j => ent pv i j * ent rows' j l)))) by assumption.
    assert (Z : forall i j, ent rows i k * (ent pv i j * ent rows' j l) = 0).
    { intros i j. destruct (Nat.lt_ge_cases i k) as [a|a]; [rewrite L by exact a; ring|]. destruct (Nat.lt_ge_cases j l) as [b|b]; [rewrite L' by exact b; ring|]. rewrite T by lia. ring. }
    assert (Q : forall i, ent rows i k * sum4 (fun j => ent pv i j * ent rows' j l) = 0).
    { intro i. unfold sum4. rewrite !Rmult_plus_distr_l, !Z. ring. }
    unfold sum4 at 1. rewrite !Q. ring.
  - unfold coef. apply nth_overflow. rewrite (square_row 4) by (try exact K; apply (table_square 4 (fun k l => sum4 (fun i => ent rows i k * sum4 (fun j => ent pv i j * ent rows' j l))))). exact M.
  - unfold coef. rewrite (nth_overflow (tnx_product _ _ _)) by exact K. destruct l; reflexivity.
Qed.
Lemma ent_explicit : forall (r : list (list R)) i k, (length r <= i)%nat \/ (length (nth i r []) <= k)%nat -> ent r i k = 0.
Proof. intros r i k [H|H]; unfold ent; [rewrite (nth_overflow r) by exact H; destruct k; reflexivity|now apply nth_overflow]. Qed.
Lemma cheb_lower : forall a b i k, (i < k)%nat -> ent (cheb_rows a b) i k = 0.
Proof.
  intros a b i k H. destruct i as [|[|[|[|i]]]]; destruct k as [|[|[|[|k]]]]; try lia; try (unfold ent; cbn; ring); apply ent_explicit; cbn; lia.
Qed.
Lemma leg_lower : forall a b i k, (i < k)%nat -> ent (leg_rows a b) i k = 0.
Proof.
  intros a b i k H. destruct i as [|[|[|[|i]]]]; destruct k as [|[|[|[|k]]]]; try lia; try (unfold ent; cbn; field); apply ent_explicit; cbn; lia.
Qed.
Lemma tnx_low : forall p i j, (4 <= i + j)%nat -> ent (tnx_matrix p) i j = 0.
Proof.
  intros p i j H. destruct i as [|[|[|[|i]]]]; destruct j as [|[|[|[|j]]]]; try lia; try reflexivity; apply ent_explicit; cbn; lia.
Qed.
Lemma half_cross : forall (X Y : nat -> R) p, sum4 (fun i => sum4 (fun j => ent (tnx_matrix p) i j * X i * Y j)) =
  sumf 4 (fun i => nth i p 0 * X i * Y 0%nat) + sumf 3 (fun i => nth (4 + i) p 0 * X i * Y 1%nat) + sumf 2 (fun i => nth (7 + i) p 0 * X i * Y 2%nat) + sumf 1 (fun i => nth (9 + i) p 0 * X i * Y 3%nat).
Proof.
  intros X Y p. unfold sum4, sumf, tnx_matrix, ent. cbn [seq map fold_right Nat.add nth].
  change (Z.to_nat 0) with 0%nat. change (Z.to_nat 1) with 1%nat. change (Z.to_nat 2) with 2%nat. change (Z.to_nat 3) with 3%nat. change (Z.to_nat 4) with 4%nat.
  change (Z.to_nat 5) with 5%nat. change (Z.to_nat 6) with 6%nat. change (Z.to_nat 7) with 7%nat. change (Z.to_nat 8) with 8%nat. change (Z.to_nat 9) with 9%nat. ring.
Qed.
Lemma sum4_ext : forall f g, (forall i, (i < 4)%nat -> f i = g i) -> sum4 f = sum4 g.
Proof. intros f g H. unfold sum4. rewrite !H by lia. reflexivity. Qed.
Lemma parse_tnx_ok : forall code P xmin xmax ymin ymax p, (code = 1%Z /\ P = cheb \/ code = 2%Z /\ P = leg) -> xmin <> xmax -> ymin <> ymax ->
  exists m, parse_tnx code xmin xmax ymin ymax p = Some m /\ triangular 4 m /\ forall x y, surface 4 (coef m) x y = tnx_surface P xmin xmax ymin ymax p x y.
Proof.
  intros code P xmin xmax ymin ymax p HC NX NY.
  assert (NRM : forall lo hi x, lo <> hi -> - (hi + lo) / (hi - lo) + 2 / (hi - lo) * x = normal lo hi x) by (intros; unfold normal; field; lra).
  destruct HC as [[-> ->]|[-> ->]]; unfold parse_tnx; cbn [Z.ltb Z.compare Pos.compare Pos.compare_cont Z.eqb Pos.eqb]; eexists; (split; [reflexivity|]); split.
  - apply lower; [apply cheb_lower|apply cheb_lower|apply tnx_low].
  - intros x y. rewrite product_surface. etransitivity; [|exact (half_cross (fun i => cheb i (normal xmin xmax x)) (fun j => cheb j (normal ymin ymax y)) p)]. apply sum4_ext. intros i Hi. apply sum4_ext. intros j Hj. rewrite !cheb_row, !NRM by auto. reflexivity.
  - apply lower; [apply leg_lower|apply leg_lower|apply tnx_low].
  - intros x y. rewrite product_surface. etransitivity; [|exact (half_cross (fun i => leg i (normal xmin xmax x)) (fun j => leg j (normal ymin ymax y)) p)]. apply sum4_ext. intros i Hi. apply sum4_ext. intros j Hj. rewrite !leg_row, !NRM by auto. reflexivity.
Qed.
Lemma sumf_split : forall n f g, sumf n (fun i => f i + g i) = sumf n f + sumf n g.
Proof. intros n f g. unfold sumf. induction (seq 0 n) as [|a l IH]; cbn [map fold_right]; [ring|]. rewrite IH. ring. Qed.
Lemma low_tri : forall n m, triangular n m -> forall x y, surface n (low n (coef m)) x y = surface n (coef m) x y.
Proof.
  intros n m [_ T] x y. apply sumf_ext. intros i Hi. apply sumf_ext. intros j Hj. unfold low. destruct (Nat.ltb_spec (i + j) n) as [l|l]; [reflexivity|]. now rewrite T.
Qed.
Lemma surface_add_at : forall m i0 j0 x y, (i0 < 4)%nat -> (j0 < 4)%nat -> square 4 m -> surface 4 (coef (add_at i0 j0 1 m)) x y = surface 4 (coef m) x y + x ^ i0 * y ^ j0.
Proof.
  intros m i0 j0 x y HI HJ S. unfold surface. transitivity (sumf 4 (fun i => sumf 4 (fun j => coef m i j * x ^ i * y ^ j) + sumf 4 (fun j => (if Nat.eqb i i0 && Nat.eqb j j0 then 1 else 0) * x ^ i * y ^ j))).
  - apply sumf_ext. intros i Hi. rewrite <- sumf_split. apply sumf_ext. intros j Hj. rewrite (add_at_coef 4) by assumption. destruct (_ && _); ring.
  - rewrite sumf_split. f_equal. clear - HI HJ. destruct i0 as [|[|[|[|i0]]]]; [..|lia]; (destruct j0 as [|[|[|[|j0]]]]; [..|lia]); unfold sumf; cbn [seq map fold_right Nat.eqb andb]; ring.
Qed.
Lemma add_at_triangular : forall n m i0 j0, (i0 + j0 < n)%nat -> triangular n m -> triangular n (add_at i0 j0 1 m).
Proof.
  intros n m i0 j0 H [S T]. split; [now apply add_at_square|]. intros i j K. unfold coef, add_at. rewrite nth_upd. destruct (Nat.eqb_spec i i0) as [->|N]; [|apply (T i j K)].
  cbn [andb]. destruct (_ <? _)%nat; [|apply (T i0 j K)]. rewrite nth_upd. destruct (Nat.eqb_spec j j0) as [->|N]; [lia|]. cbn [andb]. apply (T i0 j K).
Qed.
Lemma tnx_value : forall c1 P1 c2 P2 xa xb ya yb p xa' xb' ya' yb' p', (c1 = 1%Z /\ P1 = cheb \/ c1 = 2%Z /\ P1 = leg) -> (c2 = 1%Z /\ P2 = cheb \/ c2 = 2%Z /\ P2 = leg) ->
  xa <> xb -> ya <> yb -> xa' <> xb' -> ya' <> yb' ->
  exists d, tnx_dist (parse_tnx c1 xa xb ya yb p) (parse_tnx c2 xa' xb' ya' yb' p') = Ok d /\
    forall x y, apply_ab (x, y) d = (x + tnx_surface P1 xa xb ya yb p x y, y + tnx_surface P2 xa' xb' ya' yb' p' x y).
Proof.
  intros c1 P1 c2 P2 xa xb ya yb p xa' xb' ya' yb' p' H1 H2 A B C D.
  destruct (parse_tnx_ok c1 P1 xa xb ya yb p H1 A B) as (m1 & -> & T1 & V1). destruct (parse_tnx_ok c2 P2 xa' xb' ya' yb' p' H2 C D) as (m2 & -> & T2 & V2).
  eexists. split; [reflexivity|]. intros x y. rewrite (apply_ab_warp 4) by (apply add_at_square; first [apply T1|apply T2]). unfold warp. cbn [fst snd].
  rewrite !low_tri by (apply add_at_triangular; [lia|assumption]). rewrite !surface_add_at by (first [lia|apply T1|apply T2]). rewrite V1, V2. f_equal; ring.
Qed.
Lemma tnx_code3 : forall c xa xb ya yb p q, (3 <= c)%Z -> tnx_dist (parse_tnx c xa xb ya yb p) q = Err TypeError.
Proof. intros. unfold parse_tnx. destruct (Z.ltb_spec c 3); [lia|reflexivity]. Qed.

(** * A header with PV keys left over *)
Definition tan0 : fwcs := FW "TAN" (0, 0) (Mat 1 0 0 1) (mkC 0 0) None None None.
Definition stale : header := hsets empty [(KPv X1 1, VR 2); (KPv X2 1, VR 1)].
Lemma stale_keys : forall tnx, exists w, read_header tnx (write_header tan0 stale) = Ok w /\ f_uv w (1, 0) <> f_uv tan0 (1, 0).
Proof.
  intro tnx. assert (O : forall k, ~ base_key k -> write_header tan0 stale k = stale k) by (intros; now apply write_other).
  assert (P : pv11 (write_header tan0 stale) 2 1).
  { split; [rewrite O by (intros []); reflexivity|]. split; [rewrite O by (intros []); reflexivity|]. intros a k N. rewrite O by (intros []). unfold stale. rewrite hsets_out; [reflexivity|].
    intros v I. cbn [In] in I. destruct I as [I|[I|[]]]; injection I; intros; congruence. }
  destruct (read_pv11 _ 2 1 P ltac:(lra) ltac:(lra)) as (d & RD & A).
  rewrite read_core; [|discriminate|unfold latitude, tan0; cbn [f_center cdec]; pose proof PI_RGT_0; lra].
  assert (HP : has (write_header tan0 stale) (KPv X1 1) = true) by (unfold has; destruct P as (-> & _); reflexivity).
  unfold rest. change (f_type tan0) with "TAN"%string. rewrite HP. cbn [String.eqb Ascii.eqb Bool.eqb andb]. rewrite RD. cbn [bind]. eexists. split; [reflexivity|].
  unfold f_uv, apply_opt, tan0. cbn [f_crpix f_cd f_pv f_ab fst snd]. intro E. apply (f_equal fst) in E. revert E. cbv zeta.
  match goal with |- context [mapp ?m ?v] => replace (mapp m v) with (1, 0) by (unfold mapp, vsub; cbn [fst snd m00 m01 m10 m11]; f_equal; ring) end.
  rewrite A. cbn [fst snd]. pose proof degrees_neq as DN. intro E. unfold radians in E. apply DN. lra.
Qed.

(** * Linear headers *)
Lemma hgetd_ok : forall h k d, numeric h k -> hgetd h k d = Ok (lnumber h k d).
Proof. intros h k d N. unfold hgetd, lnumber, numeric in *. destruct (h k) as [[x|n|s]|]; try reflexivity. contradiction. Qed.
Lemma simplify_world : forall m o wo p, posToWorld (simplify (WAff m o wo)) p = vadd (mapp m (vsub p o)) wo.
Proof.
  intros m o wo p. unfold simplify. destruct (Reqb_spec (m00 m) (m11 m)) as [e1|]; cbn [andb]; [|reflexivity]. destruct (Reqb_spec (m01 m) (m10 m)) as [e2|]; cbn [andb]; [|reflexivity].
  destruct (Reqb_spec (m10 m) 0) as [e3|]; cbn [andb]; [|reflexivity].
  assert (E : forall v, mapp m v = (m00 m * fst v, m00 m * snd v)) by (intro v; unfold mapp; rewrite e2, e3, <- e1; f_equal; ring).
  destruct (Reqb_spec (fst o) (snd o)) as [f1|]; cbn [andb]; [|rewrite E; unfold posToWorld; cbn; unfold vadd, vsub; cbn; f_equal; ring].
  destruct (Reqb_spec (snd o) (fst wo)) as [f2|]; cbn [andb]; [|rewrite E; unfold posToWorld; cbn; unfold vadd, vsub; cbn; f_equal; ring].
  destruct (Reqb_spec (fst wo) (snd wo)) as [f3|]; cbn [andb]; [|rewrite E; unfold posToWorld; cbn; unfold vadd, vsub; cbn; f_equal; ring].
  destruct (Reqb_spec (snd wo) 0) as [f4|]; [|rewrite E; unfold posToWorld; cbn; unfold vadd, vsub; cbn; f_equal; ring].
  rewrite E. unfold posToWorld. cbn. unfold vadd, vsub. cbn. f_equal; rewrite ?f1, ?f2, ?f3, ?f4; ring.
Qed.
Lemma linear_ok : forall h, (h "CTYPE1" = Some (HS "LINEAR") \/ h "CTYPE1" = None /\ h "CDELT1" <> None)%string -> (forall k, In k linear_keys -> numeric h k) ->
  (h "CD1_1" = None \/ forall k, In k ["CD1_1"; "CD1_2"; "CD2_1"; "CD2_2"] -> h k <> None)%string -> (forall k, In k ["PC1_1"; "PC1_2"; "PC2_1"; "PC2_2"]%string -> h k = None) ->
  exists w, fits_linear h = Some (Ok w) /\ forall p, posToWorld w p = std_point h p.
Proof.
  intros h HT N CD PC. 
  assert (F : fits_linear h = Some (bind (read_class "AffineTransform" h) (fun w => Ok (simplify w)))).
  { unfold fits_linear. destruct HT as [->|[-> D]]; [reflexivity|]. destruct (h "CDELT1"%string); [reflexivity|congruence]. }
  rewrite F. unfold read_class. cbn [String.eqb Ascii.eqb Bool.eqb].
  rewrite (hgetd_ok h "CRPIX1"), (hgetd_ok h "CRPIX2"), (hgetd_ok h "CRVAL1"), (hgetd_ok h "CRVAL2") by (apply N; cbn; tauto).
  rewrite (hgetd_ok h "CD1_1"), (hgetd_ok h "CD1_2"), (hgetd_ok h "CD2_1"), (hgetd_ok h "CD2_2"), (hgetd_ok h "CDELT1"), (hgetd_ok h "CDELT2") by (apply N; cbn; tauto).
  cbn [bind]. destruct (h "CD1_1"%string) eqn:C1; cbn [bind].
  - eexists. split; [reflexivity|]. intro p. rewrite simplify_world. unfold std_point, std_linear. rewrite C1. destruct CD as [CD|CD]; [discriminate|].
    assert (L : forall k d, h k <> None -> numeric h k -> lnumber h k d = lnumber h k 0) by (intros k d A B; unfold lnumber, numeric in *; destruct (h k) as [[]|]; try reflexivity; try contradiction; congruence).
    rewrite (L "CD1_1"%string 1), (L "CD2_2"%string 1); [reflexivity|..]; try (apply CD; cbn; tauto); apply N; cbn; tauto.
  - eexists. split; [reflexivity|]. intro p. rewrite simplify_world. unfold std_point, std_linear. rewrite C1.
    assert (L : forall k d, h k = None -> lnumber h k d = d) by (intros k d A; unfold lnumber; now rewrite A). rewrite (L "PC1_1"%string), (L "PC1_2"%string), (L "PC2_1"%string), (L "PC2_2"%string) by (apply PC; cbn; tauto). f_equal. unfold mapp. cbn [m00 m01 m10 m11 fst snd vsub]. f_equal; ring.
Qed.
Definition lset := WCS_Model.hset.
Definition lempty : WCS_Model.header := fun _ => None.
Lemma linear_pc : exists h, h "CTYPE1"%string = Some (HS "LINEAR"%string) /\ h "CD1_1"%string = None /\ (forall k, In k linear_keys -> numeric h k) /\
  exists w, fits_linear h = Some (Ok w) /\ posToWorld w (0, 1) <> std_point h (0, 1).
Proof.
  exists (lset (lset lempty "CTYPE1" (HS "LINEAR")) "PC1_2" (HR 1)). split; [reflexivity|]. split; [reflexivity|].
  split. { intros k I. cbn [In linear_keys] in I. repeat (destruct I as [<-|I]; [exact Logic.I|]). destruct I. }
  eexists. split; [reflexivity|]. rewrite simplify_world. intro E. apply (f_equal fst) in E. revert E. unfold std_point, std_linear, lnumber. cbn. lra.
Qed.
Lemma linear_no_type : exists h, h "CTYPE1"%string = None /\ (forall k, In k linear_keys -> numeric h k) /\ (forall k, In k ["PC1_1"; "PC1_2"; "PC2_1"; "PC2_2"]%string -> h k = None) /\
  (forall k, In k ["CD1_1"; "CD1_2"; "CD2_1"; "CD2_2"]%string -> h k <> None) /\ exists w, fits_linear h = Some (Ok w) /\ posToWorld w (1, 0) <> std_point h (1, 0).
Proof.
  exists (lset (lset (lset (lset lempty "CD1_1" (HR 2)) "CD1_2" (HR 0)) "CD2_1" (HR 0)) "CD2_2" (HR 2)). split; [reflexivity|].
  split. { intros k I. cbn [In linear_keys] in I. repeat (destruct I as [<-|I]; [exact Logic.I|]). destruct I. }
  split. { intros k I. cbn [In] in I. repeat (destruct I as [<-|I]; [reflexivity|]). destruct I. }
  split. { intros k I. cbn [In] in I. repeat (destruct I as [<-|I]; [discriminate|]). destruct I. }
  eexists. split; [reflexivity|]. intro E. apply (f_equal fst) in E. revert E. unfold std_point, std_linear, lnumber. cbn. lra.
Qed.
