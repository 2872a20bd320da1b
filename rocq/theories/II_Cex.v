(** Radii of profiles; programs on which sizes, padding, centroids and Nearest go wrong. *)
From Coq Require Import ZArith Reals Lra Lia ZifyBool Bool List.
From Coquelicot Require Import Coquelicot.
From Verif Require Import Base Array_Model Bounds_Model Bounds_Proofs FFT_Model FFT_Spec FFT_Proofs Geo_Model Geo_Proofs WCS_Model
  WCS_Spec WCS_Proofs WCS_Prof MSum Interp_Model Interp_Spec Interp_Kernels II_Model II_Spec II_Proofs II_Pad II_Size II_Prof II_Half II_DFT II_Inv II_K II_Eq II_Maxk.
Import ListNotations.
Open Scope R_scope.
Ltac Zify.zify_post_hook ::= idtac.

(** * stepk *)
Lemma within_same : forall u v x y d, same_image u v -> flux_within u x y d = flux_within v x y d.
Proof. intros. unfold flux_within. now apply over_same. Qed.
Lemma size_same : forall u v t, same_image u v -> size_containing u t = size_containing v t.
Proof.
  intros u v t S. pose proof S as [(A & B & D & E) _]. unfold size_containing, argmin_where. cbv zeta. rewrite A, B, D, E.
  set (m1 := fun d => negb (Rltb (sgn t * flux_frac u _ _ d) (sgn t * t))). set (m2 := fun d => negb (Rltb (sgn t * flux_frac v _ _ d) (sgn t * t))).
  assert (G : forall n k, first_index m1 k n = first_index m2 k n).
  { assert (M : forall d, m1 d = m2 d) by (intro d; unfold m1, m2; rewrite !frac_is; now rewrite (within_same u v)).
    intro n. induction n as [|n IH]; intro k; cbn [first_index]; [reflexivity|]. rewrite M, IH. reflexivity. }
  now rewrite G.
Qed.
Lemma radius_is : forall fold p, usable p -> i_cs p = CYes ->
  stepk_radius fold p = Ok (size_containing (centered (i_img p)) ((1 - fold) * total_flux (i_img p))).
Proof.
  intros fd p U E. destruct (usable_image p U) as (im & Ei & S). unfold stepk_radius. rewrite Ei. cbn [bind]. rewrite E. cbv zeta. rewrite image_total.
  f_equal. rewrite (size_same im (ii_image p)) by exact S. unfold ii_image. destruct U as (_ & Rc & _). now rewrite Rc.
Qed.
Lemma reaches_encloses : forall im t d, reaches (centered im) t d <-> encloses (centered im) t d.
Proof.
  intros im t d. unfold reaches, encloses, mid_x, mid_y. destruct (centered_shape im) as (A & B & D & E). rewrite A, B, D, E.
  replace (- (ncol (ra im) / 2) + ncol (ra im) / 2)%Z with 0%Z by lia. replace (- (nrow (ra im) / 2) + nrow (ra im) / 2)%Z with 0%Z by lia.
  set (f := flux_within (centered im) 0 0 d). unfold sgn. destruct (Rltb_spec 0 t) as [l|l]; [|destruct (Rltb_spec t 0) as [k|k]]; split; intro; try split; intros; lra.
Qed.
Lemma radius_found : forall fold p d0, usable p -> i_cs p = CYes -> let im := centered (i_img p) in let t := (1 - fold) * total_flux (i_img p) in
  (0 <= d0 < Z.min (nrow (ra (i_img p))) (ncol (ra (i_img p))))%Z -> encloses im t d0 ->
  exists d, stepk_radius fold p = Ok (IZR d + 1 / 2) /\ (0 <= d <= d0)%Z /\ encloses im t d /\ forall e, (0 <= e < d)%Z -> ~ encloses im t e.
Proof.
  intros fd p d0 U E im t H0 He. rewrite radius_is by assumption. fold im. fold t. apply reaches_encloses in He.
  destruct (size_found im t d0) as (d & A & B & D & F); [unfold im; destruct (centered_shape (i_img p)) as (Sa & Sb & _); now rewrite Sa, Sb|exact He|].
  exists d. split; [now f_equal|]. split; [exact B|]. split; [now apply reaches_encloses|]. intros e He' C. apply (F e He'). now apply reaches_encloses.
Qed.
Lemma radius_square : forall fold p, usable p -> i_cs p = CYes -> 0 <= fold < 1 -> let im := centered (i_img p) in let t := (1 - fold) * total_flux (i_img p) in
  (Z.max (nrow (ra (i_img p))) (ncol (ra (i_img p))) / 2 <= Z.min (nrow (ra (i_img p))) (ncol (ra (i_img p))) - 1)%Z ->
  exists d, stepk_radius fold p = Ok (IZR d + 1 / 2) /\ (0 <= d)%Z /\ encloses im t d /\ forall e, (0 <= e < d)%Z -> ~ encloses im t e.
Proof.
  intros fd p U E F im t H. destruct (centered_shape (i_img p)) as (Sa & Sb & _). pose proof U as (N & _ & _).
  assert (Nc : nonempty im) by (unfold im, nonempty in *; rewrite Sa, Sb; exact N).
  destruct (radius_found fd p (Z.min (nrow (ra (i_img p))) (ncol (ra (i_img p))) - 1) U E) as (d & A & B & D & G).
  - unfold nonempty in N. lia.
  - apply reaches_encloses. rewrite <- Sa, <- Sb. change (total_flux (i_img p)) with (total_flux (centered (i_img p))). apply size_enough; [exact Nc| |exact F]. rewrite Sa, Sb. exact H.
  - exists d. split; [exact A|]. split; [lia|]. split; [exact D|exact G].
Qed.
(** Three equal pixels in a row *)
Definition flat13 : iip :=
  IIP (RImg (Arr 1 3 (fun _ _ => 1)) 1 1) (LPix 1) None false (0, 0) true true 4 Linear Quintic CYes CNo 0 0.
Lemma flat13_usable : usable flat13.
Proof. unfold usable, flat13, nonempty. cbn. split; [lia|]. split; [reflexivity|]. split; [lra|]. left. lia. Qed.
Lemma flat13_radius : stepk_radius (5 / 1000) flat13 = Ok (1 / 2) /\ encloses (centered (i_img flat13)) ((1 - 5 / 1000) * total_flux (i_img flat13)) 1 /\
  ~ encloses (centered (i_img flat13)) ((1 - 5 / 1000) * total_flux (i_img flat13)) 0.
Proof.
  assert (T : total_flux (i_img flat13) = 3) by (unfold total_flux, over_pixels, flat13, zsum; cbn [i_img ra nrow ncol elt]; simpl; lra).
  assert (F0 : flux_within (centered (i_img flat13)) 0 0 0 = 1) by (unfold flux_within, over_pixels, flat13, centered, zsum; cbn [i_img ra rx ry nrow ncol elt]; simpl; lra).
  assert (F1 : flux_within (centered (i_img flat13)) 0 0 1 = 3) by (unfold flux_within, over_pixels, flat13, centered, zsum; cbn [i_img ra rx ry nrow ncol elt]; simpl; lra).
  assert (Ne : ~ encloses (centered (i_img flat13)) ((1 - 5 / 1000) * total_flux (i_img flat13)) 0) by (unfold encloses; rewrite T, F0; intros [A _]; lra).
  split; [|split; [unfold encloses; rewrite T, F1; lra|exact Ne]]. rewrite radius_is by (exact flat13_usable || reflexivity).
  f_equal. apply size_missed. cbn [centered i_img flat13 ra nrow ncol]. intros d Hd C. apply reaches_encloses in C. replace d with 0%Z in C by lia. exact (Ne C).
Qed.
(** A flat square and a number for calculate_stepk *)
Definition flat55 : iip :=
  IIP (RImg (Arr 5 5 (fun _ _ => 1)) 1 1) (LPix 1) None false (0, 0) true true 4 Linear Quintic (CVal PI) CNo 0 0.
Lemma flat55_radius : exists im, restrict (centered (i_img flat55)) 1 = Ok im /\ flux_within im 0 0 1 = 9 /\ flux_within im 0 0 0 = 1 /\
  stepk_radius (5 / 1000) flat55 = Ok (1 / 2).
Proof.
  eexists. split; [reflexivity|]. split; [unfold flux_within, over_pixels, zsum; simpl; lra|]. split; [unfold flux_within, over_pixels, zsum; simpl; lra|].
  assert (U : usable flat55) by (unfold usable, flat55, nonempty; cbn; split; [lia|]; split; [reflexivity|]; split; [lra|]; left; lia).
  destruct (usable_image _ U) as (im & Ei & S). unfold stepk_radius. rewrite Ei. cbn [bind]. cbn [flat55 i_cs]. fold flat55.
  replace (PI / PI) with 1 by (field; pose proof PI_RGT_0; lra). change 1 with (IZR 1). rewrite ceilR_IZR.
  destruct S as [(A & B & D & E) P]. cbn [ii_image flat55 i_recenter i_img centered rx ry ra nrow ncol] in A, B, D, E, P. change (1 + (0 - (1 + 5 / 2)))%Z with (-2)%Z in *.
  unfold restrict. cbv zeta. rewrite A, B, D, E. change (Z.max (-2) (-(1)))%Z with (-1)%Z. change (Z.min (-2 + 5 - 1) 1)%Z with 1%Z. cbn [Z.ltb Z.compare orb].
  destruct (get_sub_ok im (-1) (-1) 3 3) as (o & Eo & O1 & O2 & O3 & O4 & Op); [lia|].
  change (1 - -1 + 1)%Z with 3%Z. rewrite Eo. cbn [bind]. f_equal. rewrite image_total.
  assert (T : total_flux (i_img flat55) = 25) by (unfold total_flux, over_pixels, flat55, zsum; cbn [i_img ra nrow ncol elt]; simpl; lra).
  rewrite T. apply size_missed. rewrite O3, O4. intros d Hd C. unfold reaches in C.
  replace (sgn ((1 - 5 / 1000) * 25)) with 1 in C by (unfold sgn; destruct (Rltb_spec 0 ((1 - 5 / 1000) * 25)); [reflexivity|lra]).
  assert (Le : flux_within o (mid_x o) (mid_y o) d <= 9).
  { unfold flux_within. rewrite over_pixel. rewrite O1, O2, O3, O4.
    assert (Pe : forall x y, (-1 <= x <= 1)%Z -> (-1 <= y <= 1)%Z -> 0 <= (if ((Z.abs (x - mid_x o) <=? d) && (Z.abs (y - mid_y o) <=? d))%Z then pixel o x y else 0) <= 1).
    { intros x y Hx Hy. ifs Q; [|lra]. rewrite Op by (unfold has_pixel; lia). rewrite P. rewrite pixel_in by (unfold has_pixel; cbn; lia). cbn. lra. }
    unfold zsum. change (Z.to_nat 3) with 3%nat. cbn [nsum]. cbn [Z.of_nat Pos.of_succ_nat Pos.succ]. 
    pose proof (Pe (-1 + 0)%Z (-1 + 0)%Z ltac:(lia) ltac:(lia)). pose proof (Pe (-1 + 1)%Z (-1 + 0)%Z ltac:(lia) ltac:(lia)). pose proof (Pe (-1 + 2)%Z (-1 + 0)%Z ltac:(lia) ltac:(lia)).
    pose proof (Pe (-1 + 0)%Z (-1 + 1)%Z ltac:(lia) ltac:(lia)). pose proof (Pe (-1 + 1)%Z (-1 + 1)%Z ltac:(lia) ltac:(lia)). pose proof (Pe (-1 + 2)%Z (-1 + 1)%Z ltac:(lia) ltac:(lia)).
    pose proof (Pe (-1 + 0)%Z (-1 + 2)%Z ltac:(lia) ltac:(lia)). pose proof (Pe (-1 + 1)%Z (-1 + 2)%Z ltac:(lia) ltac:(lia)). pose proof (Pe (-1 + 2)%Z (-1 + 2)%Z ltac:(lia) ltac:(lia)).
    lra. }
  lra.
Qed.

(** * Padding *)
Lemma padding_ok : forall p, usable p -> exists xim, ii_xim p = Ok xim /\ (forall x y, pixel xim x y = pixel (centered (i_img p)) x y) /\
  total_flux xim = total_flux (i_img p) /\ (2 * fft_No2 xim)%Z = pad_size p.
Proof.
  intros p U. pose proof (usable_pad p U) as Pd. destruct U as (N & Rc & P0 & P1).
  destruct (xim_ok p N Rc Pd) as (xim & Ex & Q & _ & _ & X3 & X4 & Xp). exists xim. split; [exact Ex|].
  assert (Im : ii_image p = centered (i_img p)) by (unfold ii_image; now rewrite Rc). rewrite Im in Xp. split; [exact Xp|]. split.
  - change (total_flux (i_img p)) with (total_flux (centered (i_img p))). apply total_any; [unfold nonempty in *; lia| |exact Xp]. rewrite <- Im. now apply image_nonempty.
  - apply fft_size; auto. now apply pad_even.
Qed.
Lemma pad_size_is : forall p n, nonempty (i_img p) -> n = (if Rltb 1 (i_pad p) then ceilR (i_pad p * IZR (Z.max (nrow (ra (i_img p))) (ncol (ra (i_img p))))) else Z.max (nrow (ra (i_img p))) (ncol (ra (i_img p)))) ->
  (n <= 99999)%Z -> smallest_good (IZR n) (pad_size p).
Proof.
  intros p n N E Hn. unfold pad_size. cbv zeta.
  assert (Sh : nrow (ra (ii_image p)) = nrow (ra (i_img p)) /\ ncol (ra (ii_image p)) = ncol (ra (i_img p))).
  { unfold ii_image. destruct (i_recenter p); [|auto]. destruct (centered_shape (i_img p)) as (A & B & _). auto. }
  destruct Sh as [A B]. rewrite A, B, <- E. apply good_fft_size_exact. split; [|exact Hn]. subst n. unfold nonempty in N.
  destruct (Rltb_spec 1 (i_pad p)) as [l|l]; [|lia]. set (m := Z.max (nrow (ra (i_img p))) (ncol (ra (i_img p)))) in *. assert (Hm : (1 <= m)%Z) by lia. clearbody m.
  apply IZR_le in Hm. pose proof (ceilR_bounds (i_pad p * IZR m)) as [C _]. apply le_IZR. apply Rle_trans with (2 := C). rewrite <- (Rmult_1_l 1). apply Rmult_le_compat; lra.
Qed.
(** A single pixel at the default origin, not recentred *)
Definition one_pixel : iip :=
  IIP (RImg (Arr 1 1 (fun _ _ => 1)) 1 1) (LPix 1) None false (0, 0) true false 4 Linear Quintic CNo CNo 0 0.
Definition two_pixels : iip :=
  IIP (RImg (Arr 2 2 (fun _ _ => 1)) 1 1) (LPix 1) None false (0, 0) true false 1 Linear Quintic CNo CNo 0 0.
Lemma good_4 : good_fft_size 4 = 4%Z.
Proof.
  apply (smallest_good_unique (IZR 4)); [now apply good_fft_size_exact|]. split; [exists 2%Z; split; [lia|left; reflexivity]|]. split; [lra|].
  intros m Hm Hl. now apply le_IZR in Hl.
Qed.
Lemma one_size : pad_size one_pixel = 4%Z.
Proof.
  unfold pad_size. cbv zeta. cbn [one_pixel i_pad ii_image i_recenter i_img ra nrow ncol]. destruct (Rltb_spec 1 4) as [l|l]; [|lra].
  change (Z.max 1 1) with 1%Z. replace (4 * 1) with (IZR 4) by lra. rewrite ceilR_IZR. exact good_4.
Qed.
Lemma one_doubled : exists xim, ii_xim one_pixel = Ok xim /\ total_flux xim = 2 /\ image_flux one_pixel = 1.
Proof.
  unfold ii_xim. cbv zeta. rewrite one_size. cbn [one_pixel ii_image i_recenter i_img ra nrow ncol].
  change ((4 - Z.max 1 1) / 2)%Z with 1%Z. eexists. split; [reflexivity|]. split.
  - unfold total_flux, over_pixels, zsum. simpl. lra.
  - rewrite image_total. unfold total_flux, over_pixels, zsum. simpl. lra.
Qed.
Lemma two_fails : forall kva LK pos, ii_xValue kva LK two_pixels pos = Err GalSimBoundsError.
Proof.
  intros kva LK pos. unfold ii_xValue, impl_xValue, pad_image, ii_xim. cbv zeta.
  replace (pad_size two_pixels) with 2%Z; [reflexivity|]. unfold pad_size. cbv zeta. cbn [two_pixels i_pad]. destruct (Rltb_spec 1 1) as [l|l]; [lra|]. symmetry. exact good_2.
Qed.

(** * Centroids *)
Lemma flat22_centroid : ii_centroid flat22 = Ok (- (1 / 2), - (1 / 2)) /\ ii_offset flat22 = (- (1 / 2), - (1 / 2)).
Proof.
  split.
  - rewrite centroid_is by exact flat22_usable. f_equal. unfold barycentre, total_flux, over_pixels, zsum, flat22, ii_image, centered, mapp. simpl. f_equal; lra.
  - rewrite offset_true by reflexivity. cbn [flat22 i_off i_img ra nrow ncol fst snd]. change ((2 + 1) mod 2)%Z with 1%Z. f_equal; lra.
Qed.

(** * Nearest *)
Definition near3 : iip :=
  IIP (RImg (Arr 1 3 (fun _ j => IZR (j + 1))) 1 1) (LPix 1) None false (0, 0) true true 4 Nearest Quintic CNo CNo 0 0.
Lemma near3_zero : forall kva LK, ii_xValue kva LK near3 (3 / 4, 0) = Ok 0 /\ ii_xValue kva LK near3 (1, 0) = Ok 3.
Proof.
  intros kva LK. assert (U : usable near3) by (unfold usable, near3, nonempty; cbn; split; [lia|]; split; [reflexivity|]; split; [lra|]; left; lia).
  assert (D : mdet (l_jac (i_wcs near3)) <> 0) by (unfold near3, l_jac, mdet; cbn; lra).
  assert (V : forall x, ii_xValue kva LK near3 (x, 0) = Ok (windowed (xval kva LK Nearest) 0 (centered (i_img near3)) x 0)).
  { intro x. replace (x, 0) with (mapp (l_jac (i_wcs near3)) (x, 0)) at 1 by (unfold near3, l_jac, mapp; cbn; f_equal; ring).
    rewrite ii_x by assumption. rewrite offset_true by reflexivity. cbn [fst snd]. f_equal.
    change (IZR ((ncol (ra (i_img near3)) + 1) mod 2)) with 0. change (IZR ((nrow (ra (i_img near3)) + 1) mod 2)) with 0.
    change (fst (i_off near3)) with 0. change (snd (i_off near3)) with 0. replace (x + (0 - 1 / 2 * 0)) with x by lra. replace (0 + (0 - 1 / 2 * 0)) with 0 by lra.
    replace (outer_flux_ratio near3) with 1.
    - rewrite Rmult_1_r. reflexivity.
    - unfold outer_flux_ratio, impl_flux_ratio. cbn [near3 i_flux i_sb]. fold near3.
      assert (T : image_flux near3 = 6) by (rewrite image_total; unfold total_flux, over_pixels, near3, zsum; cbn [i_img ra nrow ncol elt rx ry]; simpl; lra).
      rewrite T. unfold near3, l_area. cbn. lra. }
  rewrite !V. split; f_equal.
  - unfold windowed. change (2 * 0 + 1)%Z with 1%Z. rewrite !rsum_1. cbv zeta. replace (floorR (3 / 4)) with 0%Z by (symmetry; apply floorR_unique; lra).
    change (0 - 0 + 0)%Z with 0%Z. cbn [xval]. unfold nearest_xval.
    replace (Rabs (3 / 4 - 0)) with (3 / 4) by (rewrite Rabs_right; lra). destruct (Rltb_spec (1 / 2) (3 / 4)) as [l|l]; [|lra]. ring.
  - rewrite (windowed_center _ 0 _ 1 0); [|lia|now apply cardinal_kernels]. cbn. lra.
Qed.
