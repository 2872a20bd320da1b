(** Interpolated profiles: values, flux, centroid, scales, equality. *)
From Coq Require Import ZArith Reals Lra Lia ZifyBool Bool List.
From Coquelicot Require Import Coquelicot.
From Verif Require Import Base Array_Model Bounds_Model Bounds_Proofs FFT_Model FFT_Spec FFT_Proofs Geo_Model Geo_Proofs WCS_Model
  WCS_Spec WCS_Proofs WCS_Prof MSum Interp_Model Interp_Spec Interp_Kernels II_Model II_Spec II_Proofs II_Pad II_Size.
Open Scope R_scope.

(** Images of a size that padding does not cut (see the finding on good_fft_size), with the default _recenter_image *)
Definition usable (p : iip) : Prop :=
  nonempty (i_img p) /\ i_recenter p = true /\ 0 < i_pad p /\
  ((Z.max (nrow (ra (i_img p))) (ncol (ra (i_img p))) <= 99999)%Z \/ 101 / 100 <= i_pad p).
Lemma usable_pad : forall p, usable p -> (Z.max (nrow (ra (i_img p))) (ncol (ra (i_img p))) <= pad_size p)%Z.
Proof. intros p (N & _ & P & H). now apply pad_enough. Qed.
Lemma usable_image : forall p, usable p -> exists im, pad_image p = Ok im /\ same_image im (ii_image p).
Proof. intros p U. pose proof (usable_pad p U). destruct U as (N & Rc & _). now apply pad_image_ok. Qed.

Lemma windowed_pixels : forall K ir u v x y, (forall i j, pixel u i j = pixel v i j) -> windowed K ir u x y = windowed K ir v x y.
Proof. intros K ir u v x y H. apply windowed_ext. intros. now rewrite H. Qed.
Lemma impl_x : forall kva LK p pos, usable p ->
  impl_xValue kva LK p pos =
  Ok (windowed (xval kva LK (i_x p)) (ixrange kva (i_x p) / 2) (ii_image p) (fst pos + fst (ii_offset p)) (snd pos + snd (ii_offset p))).
Proof.
  intros kva LK p pos U. destruct (usable_image p U) as (im & E & [_ P]). unfold impl_xValue. rewrite E. cbn [bind]. cbv zeta.
  rewrite draw_window. f_equal. now apply windowed_pixels.
Qed.
Lemma ii_x : forall kva LK p q, usable p -> mdet (l_jac (i_wcs p)) <> 0 ->
  ii_xValue kva LK p (mapp (l_jac (i_wcs p)) q) =
  Ok (windowed (xval kva LK (i_x p)) (ixrange kva (i_x p) / 2) (ii_image p) (fst q + fst (ii_offset p)) (snd q + snd (ii_offset p)) *
      outer_flux_ratio p).
Proof. intros kva LK p q U D. unfold ii_xValue. rewrite minv_l by assumption. rewrite impl_x by assumption. reflexivity. Qed.
Lemma ratio_is : forall p, outer_flux_ratio p = wanted_flux (i_flux p) (i_sb p) (l_area (i_wcs p)) (i_img p) / total_flux (i_img p) / l_area (i_wcs p).
Proof. intro p. unfold outer_flux_ratio, impl_flux_ratio, wanted_flux. cbv zeta. rewrite image_total. reflexivity. Qed.
Lemma flux_is : forall p, regular_l (i_wcs p) -> total_flux (i_img p) <> 0 ->
  ii_flux p = wanted_flux (i_flux p) (i_sb p) (l_area (i_wcs p)) (i_img p).
Proof.
  intros p W T. unfold ii_flux. destruct (area_det _ W) as [_ A]. rewrite A, ratio_is, image_total. pose proof (area_pos _ W). field. split; [exact T|lra].
Qed.

(** * Where the pixels are *)
Lemma centered_pixel : forall im r c, (0 <= r < nrow (ra im))%Z -> (0 <= c < ncol (ra im))%Z ->
  pixel (centered im) (c - ncol (ra im) / 2) (r - nrow (ra im) / 2) = elt (ra im) r c.
Proof.
  intros im r c Hr Hc. destruct (centered_shape im) as (A & B & D & E). rewrite pixel_in by (unfold has_pixel; lia).
  rewrite D, E. unfold centered. cbn [ra]. f_equal; lia.
Qed.
Ltac Zify.zify_post_hook ::= Z.div_mod_to_equations.
Lemma half_mod : forall n, IZR (n / 2) - 1 / 2 * IZR ((n + 1) mod 2) = (IZR n - 1) / 2.
Proof.
  intro n. assert (H : (2 * (n / 2) - (n + 1) mod 2 = n - 1)%Z) by lia.
  apply (f_equal IZR) in H. rewrite !minus_IZR, mult_IZR in H. lra.
Qed.
Ltac Zify.zify_post_hook ::= idtac.
Lemma at_pixel : forall kva LK p r c, 0 < kva -> usable p -> mdet (l_jac (i_wcs p)) <> 0 -> is_cardinal (i_x p) ->
  (0 <= r < nrow (ra (i_img p)))%Z -> (0 <= c < ncol (ra (i_img p)))%Z ->
  ii_xValue kva LK p (mapp (l_jac (i_wcs p)) (IZR (c - ncol (ra (i_img p)) / 2) - fst (ii_offset p), IZR (r - nrow (ra (i_img p)) / 2) - snd (ii_offset p))) =
  Ok (elt (ra (i_img p)) r c * outer_flux_ratio p).
Proof.
  intros kva LK p r c K0 U D Ca Hr Hc. rewrite ii_x by assumption. cbn [fst snd].
  rewrite <- centered_pixel by assumption. rewrite <- (windowed_center (xval kva LK (i_x p)) (ixrange kva (i_x p) / 2)).
  2: now apply irange_pos. 2: now apply cardinal_kernels.
  unfold ii_image. destruct U as (_ & Rc & _). rewrite Rc. do 3 f_equal; ring.
Qed.
Lemma offset_true : forall p, i_true p = true ->
  ii_offset p = (fst (i_off p) - (1 / 2 * IZR ((ncol (ra (i_img p)) + 1) mod 2)), snd (i_off p) - (1 / 2 * IZR ((nrow (ra (i_img p)) + 1) mod 2))).
Proof.
  intros p H. unfold ii_offset. rewrite H. unfold ii_image. destruct (i_recenter p); [|reflexivity].
  destruct (centered_shape (i_img p)) as (A & B & _). now rewrite A, B.
Qed.
Lemma at_pixel_true : forall kva LK p r c, 0 < kva -> usable p -> regular_l (i_wcs p) -> is_cardinal (i_x p) -> i_true p = true ->
  (0 <= r < nrow (ra (i_img p)))%Z -> (0 <= c < ncol (ra (i_img p)))%Z ->
  ii_xValue kva LK p (mapp (linear (i_wcs p)) (IZR c - (IZR (ncol (ra (i_img p))) - 1) / 2 - fst (i_off p),
                                                IZR r - (IZR (nrow (ra (i_img p))) - 1) / 2 - snd (i_off p))) =
  Ok (elt (ra (i_img p)) r c * (wanted_flux (i_flux p) (i_sb p) (l_area (i_wcs p)) (i_img p) / total_flux (i_img p)) / l_area (i_wcs p)).
Proof.
  intros kva LK p r c K0 U W Ca T Hr Hc. pose proof (at_pixel kva LK p r c K0 U (proj1 (area_det _ W)) Ca Hr Hc) as H.
  rewrite ratio_is in H. rewrite offset_true in H by assumption. cbn [fst snd] in H. rewrite linear_jac in H by assumption.
  rewrite !minus_IZR in H. rewrite <- !half_mod.
  match goal with |- ii_xValue _ _ _ (mapp _ (?a, ?b)) = Ok ?v => match type of H with ii_xValue _ _ _ (mapp _ (?a', ?b')) = Ok ?v' =>
    replace a with a' by ring; replace b with b' by ring; replace v with v' by (unfold Rdiv; ring) end end. exact H.
Qed.

(** * Centroid *)
Lemma centroid_is : forall p, usable p -> ii_centroid p = Ok (mapp (l_jac (i_wcs p)) (barycentre (ii_image p))).
Proof.
  intros p U. destruct (usable_image p U) as (im & E & S). unfold ii_centroid, impl_centroid. rewrite E. cbn [bind]. cbv zeta.
  do 2 f_equal. unfold barycentre. rewrite asum_total. unfold total_flux. rewrite <- !(over_same R Rplus 0 im _ _ S).
  assert (A : forall f g, (forall i j, f i j = g i j) -> asum (Arr (nrow (ra im)) (ncol (ra im)) f) = asum (Arr (nrow (ra im)) (ncol (ra im)) g)).
  { intros f g H. unfold asum. cbn [nrow ncol elt]. apply zsum_ext. intros. apply zsum_ext. intros. apply H. }
  f_equal; f_equal; unfold over_pixels.
  - rewrite (A _ (fun i j => IZR (rx im + j) * elt (ra im) i j)) by (intros; now rewrite Z.add_comm). reflexivity.
  - rewrite (A _ (fun i j => IZR (ry im + i) * elt (ra im) i j)) by (intros; now rewrite Z.add_comm). reflexivity.
Qed.

(** * Scales *)
Lemma regular_of : forall l, positive_l l -> regular_l l.
Proof. intros [s|s g|m] H; cbn in *; [lra|split; [|tauto]; lra|exact H]. Qed.
Lemma scales_pos : forall l, positive_l l -> 0 < l_min l /\ 0 < l_max l /\ l_min l <= l_max l.
Proof.
  intros l P. destruct (scales_agree l P) as [A B]. destruct (scales_are_singular (l_jac l)) as (_ & _ & D & E).
  destruct (area_det l (regular_of l P)) as [F _]. rewrite A, B. apply Rabs_no_R0 in F. pose proof (Rabs_pos (mdet (l_jac l))).
  rewrite <- E in *. destruct D. split; [|split]; try assumption; nra.
Qed.
Lemma stretch : forall l v, positive_l l -> l_min l * norm v <= norm (mapp (l_jac l) v) <= l_max l * norm v.
Proof.
  intros l v P. destruct (scales_agree l P) as [A B]. destruct (mm_h (l_jac l)) as [E F]. rewrite A, B, E, F. apply mapp_norm_bounds.
Qed.

Lemma scale_norm : forall a v, 0 <= a -> norm (a * fst v, a * snd v) = a * norm v.
Proof.
  intros a v A. apply Rsqr_inj; [apply norm_pos|apply Rmult_le_pos; [exact A|apply norm_pos]|]. unfold Rsqr. rewrite norm_sqr.
  replace (a * norm v * (a * norm v)) with (a * a * (norm v * norm v)) by ring. rewrite norm_sqr. unfold dotp. cbn [fst snd]. ring.
Qed.
Lemma norm_nz : forall v, v <> (0, 0) -> 0 < norm v.
Proof.
  intros v H. destruct (norm_pos v) as [l|e]; [exact l|]. exfalso. apply H. pose proof (norm_sqr v) as N. rewrite <- e in N. unfold dotp in N.
  destruct v as [a b]. cbn [fst snd] in N. f_equal; nra.
Qed.
Lemma singular_norm : forall m s v, 0 <= s -> mapp (mdot (mT m) m) v = (s * s * fst v, s * s * snd v) -> norm (mapp m v) = s * norm v.
Proof.
  intros m s v A E. apply Rsqr_inj; [apply norm_pos|apply Rmult_le_pos; [exact A|apply norm_pos]|]. unfold Rsqr. rewrite norm_sqr.
  rewrite <- dotp_mT. rewrite <- mapp_mdot, E. replace (s * norm v * (s * norm v)) with (s * s * (norm v * norm v)) by ring. rewrite norm_sqr.
  unfold dotp. cbn [fst snd]. ring.
Qed.
Lemma isotropic_ok : forall l r x, positive_l l -> l_min l = l_max l -> norm x <= r -> norm (mapp (l_jac l) x) <= r * l_min l.
Proof. intros l r x P E H. pose proof (stretch l x P). pose proof (scales_pos l P). rewrite <- E in *. nra. Qed.
Lemma stretched : forall l d, positive_l l -> l_min l < l_max l -> 0 < d ->
  (exists x, norm x = d /\ norm (mapp (l_jac l) x) = d * l_max l) /\
  (exists k, norm (mapp (mT (l_jac l)) k) = d /\ norm k = d / l_min l).
Proof.
  intros l d P Lt D. destruct (scales_agree l P) as [A B]. destruct (scales_are_singular (l_jac l)) as (S1 & S2 & _ & _). rewrite <- A in S2. rewrite <- B in S1.
  pose proof (scales_pos l P) as (P1 & P2 & _). split.
  - destruct S1 as (_ & v & N & E). pose proof (norm_nz v N) as Nv. exists (d / norm v * fst v, d / norm v * snd v).
    assert (Q : 0 <= d / norm v) by (apply Rmult_le_pos; [lra|left; apply Rinv_0_lt_compat; exact Nv]).
    split; [rewrite scale_norm by exact Q; field; lra|]. rewrite (singular_norm _ (l_max l)); [|lra|].
    + rewrite scale_norm by exact Q. field. lra.
    + replace (mapp (mdot (mT (l_jac l)) (l_jac l)) (d / norm v * fst v, d / norm v * snd v))
        with (d / norm v * fst (mapp (mdot (mT (l_jac l)) (l_jac l)) v), d / norm v * snd (mapp (mdot (mT (l_jac l)) (l_jac l)) v)).
      * rewrite E. cbn [fst snd]. f_equal; ring.
      * unfold mapp. cbn [fst snd]. f_equal; ring.
  - destruct S2 as (_ & v & N & E). pose proof (norm_nz v N) as Nv. pose proof (singular_norm _ _ v (Rlt_le _ _ P1) E) as Nk.
    set (a := d / (l_min l * l_min l * norm v)).
    assert (Q : 0 < l_min l * l_min l * norm v) by (apply Rmult_lt_0_compat; [apply Rmult_lt_0_compat; exact P1|exact Nv]).
    assert (Q' : 0 <= a) by (unfold a; apply Rmult_le_pos; [lra|left; apply Rinv_0_lt_compat; exact Q]).
    exists (a * fst (mapp (l_jac l) v), a * snd (mapp (l_jac l) v)). split.
    + replace (mapp (mT (l_jac l)) (a * fst (mapp (l_jac l) v), a * snd (mapp (l_jac l) v)))
        with (a * l_min l * l_min l * fst v, a * l_min l * l_min l * snd v).
      * rewrite scale_norm. unfold a. field. split; lra. apply Rmult_le_pos; [apply Rmult_le_pos|]; lra.
      * rewrite mapp_mdot in E. transitivity (a * fst (mapp (mT (l_jac l)) (mapp (l_jac l) v)), a * snd (mapp (mT (l_jac l)) (mapp (l_jac l) v))).
        -- rewrite E. cbn [fst snd]. f_equal; ring.
        -- unfold mapp. cbn [fst snd]. f_equal; ring.
    + rewrite scale_norm by exact Q'. rewrite Nk. unfold a. field. split; lra.
Qed.
Section S.
  Variables kva fold mkth : R.
  Variable LK : Z -> nat -> R.
  Variable ur : interpolant -> R.
  Lemma stepk_isotropic : forall p s x, positive_l (i_wcs p) -> l_min (i_wcs p) = l_max (i_wcs p) -> i_fs p <= 0 -> impl_stepk kva fold p = Ok s -> 0 < s ->
    exists o, ii_stepk kva fold p = Ok o /\ (norm x <= PI / s -> norm (mapp (l_jac (i_wcs p)) x) <= PI / o).
  Proof.
    intros p s x P E F S0 Sp. unfold ii_stepk. destruct (Rltb_spec 0 (i_fs p)) as [l|l]; [lra|]. rewrite S0. cbn [bind]. eexists. split; [reflexivity|].
    intro H. pose proof (isotropic_ok _ _ x P E H) as G. pose proof (scales_pos _ P). replace (PI / (s / l_min (i_wcs p))) with (PI / s * l_min (i_wcs p)) by (field; split; lra).
    exact G.
  Qed.
  Lemma stepk_stretched : forall p s, positive_l (i_wcs p) -> l_min (i_wcs p) < l_max (i_wcs p) -> i_fs p <= 0 -> impl_stepk kva fold p = Ok s -> 0 < s ->
    exists o x, ii_stepk kva fold p = Ok o /\ norm x = PI / s /\ PI / o < norm (mapp (l_jac (i_wcs p)) x).
  Proof.
    intros p s P E F S0 Sp. unfold ii_stepk. destruct (Rltb_spec 0 (i_fs p)) as [l|l]; [lra|]. rewrite S0. cbn [bind]. eexists.
    assert (D : 0 < PI / s) by (apply Rmult_lt_0_compat; [apply PI_RGT_0|now apply Rinv_0_lt_compat]).
    destruct (stretched _ (PI / s) P E D) as [(x & A & B) _]. exists x. split; [reflexivity|]. split; [exact A|]. rewrite B. pose proof (scales_pos _ P).
    replace (PI / (s / l_min (i_wcs p))) with (PI / s * l_min (i_wcs p)) by (field; split; lra). apply Rmult_lt_compat_l; lra.
  Qed.
  Lemma maxk_isotropic : forall p m k, positive_l (i_wcs p) -> l_min (i_wcs p) = l_max (i_wcs p) -> i_fm p <= 0 -> impl_maxk mkth ur p = Ok m ->
    exists o, ii_maxk mkth ur p = Ok o /\ (norm (mapp (mT (l_jac (i_wcs p))) k) <= m -> norm k <= o).
  Proof.
    intros p m k P E F S0. unfold ii_maxk. destruct (Rltb_spec 0 (i_fm p)) as [l|l]; [lra|]. rewrite S0. cbn [bind]. eexists. split; [reflexivity|].
    intro H. pose proof (scales_pos _ P) as (P1 & P2 & _). pose proof (cauchy (mapp (mT (l_jac (i_wcs p))) k) (mapp (minv (l_jac (i_wcs p))) k)) as G.
    destruct (area_det _ (regular_of _ P)) as [Dt _].
    rewrite dotp_mT, minv_r in G by exact Dt. rewrite <- norm_sqr in G.
    pose proof (stretch _ (mapp (minv (l_jac (i_wcs p))) k) P) as [T _]. rewrite minv_r in T by exact Dt. rewrite E in *.
    set (a := norm (mapp (mT (l_jac (i_wcs p))) k)) in *. set (b := norm (mapp (minv (l_jac (i_wcs p))) k)) in *. pose proof (norm_pos k).
    assert (0 <= a) by apply norm_pos. assert (0 <= b) by apply norm_pos.
    apply Rmult_le_reg_r with (l_max (i_wcs p)); [lra|]. replace (m / l_max (i_wcs p) * l_max (i_wcs p)) with m by (field; lra).
    apply Rle_trans with a; [|exact H]. destruct (Req_dec (norm k) 0) as [Z|Z]; [rewrite Z; lra|].
    apply Rmult_le_reg_r with (norm k); [lra|]. apply Rle_trans with (l_max (i_wcs p) * (a * b)).
    - replace (norm k * l_max (i_wcs p) * norm k) with (l_max (i_wcs p) * (norm k * norm k)) by ring. apply Rmult_le_compat_l; [lra|].
      exact G.
    - replace (l_max (i_wcs p) * (a * b)) with (a * (l_max (i_wcs p) * b)) by ring. apply Rmult_le_compat_l; lra.
  Qed.
  Lemma maxk_stretched : forall p m, positive_l (i_wcs p) -> l_min (i_wcs p) < l_max (i_wcs p) -> i_fm p <= 0 -> impl_maxk mkth ur p = Ok m -> 0 < m ->
    exists o k, ii_maxk mkth ur p = Ok o /\ norm (mapp (mT (l_jac (i_wcs p))) k) = m /\ o < norm k.
  Proof.
    intros p m P E F S0 Sp. unfold ii_maxk. destruct (Rltb_spec 0 (i_fm p)) as [l|l]; [lra|]. rewrite S0. cbn [bind]. eexists.
    destruct (stretched _ m P E Sp) as [_ (x & A & B)]. exists x. split; [reflexivity|]. split; [exact A|]. rewrite B. pose proof (scales_pos _ P).
    apply Rmult_lt_compat_l; [lra|]. apply Rinv_lt_contravar; [apply Rmult_lt_0_compat|]; lra.
  Qed.
End S.
