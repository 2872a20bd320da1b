(** Interpolated profiles in k space, and the search for maxk. *)
From Coq Require Import ZArith Reals Lra Lia ZifyBool Bool List.
From Coquelicot Require Import Coquelicot.
From Verif Require Import Base Array_Model Bounds_Model Bounds_Proofs FFT_Model FFT_Spec FFT_Proofs Geo_Model Geo_Proofs WCS_Model
  WCS_Spec WCS_Proofs WCS_Prof MSum Interp_Model Interp_Spec Interp_Kernels II_Model II_Spec II_Proofs II_Pad II_Size II_Prof II_Half II_DFT II_Inv.
Open Scope R_scope.

Lemma usable_kim : forall p, usable p -> exists kim, ii_kim p = Ok kim /\ (1 <= pad_size p / 2)%Z /\ pad_size p = (2 * (pad_size p / 2))%Z /\
  kscale kim = 2 * PI / IZR (pad_size p) /\ kx0 kim = 0%Z /\ ky0 kim = (- (pad_size p / 2))%Z /\
  holds_half (ka kim) (pad_size p / 2) (spectrum (ii_image p) 1 (pad_size p / 2)) /\
  hermitian_plane (2 * (pad_size p / 2)) (spectrum (ii_image p) 1 (pad_size p / 2)).
Proof.
  intros p U. pose proof (usable_pad p U) as Pd. destruct U as (N & Rc & P0 & P1). pose proof (pad_even p N P0) as Ev.
  destruct (xim_ok p N Rc Pd) as (xim & Ex & Q & _ & _ & X3 & X4 & Xp). pose proof (fft_size p xim N Rc Pd Ev Ex) as Sz.
  assert (Nx : nonempty xim) by (unfold nonempty in *; lia).
  destruct (fft_half xim 1 Nx R1_neq_R0) as (k & E & S & A & B & Hh). pose proof (spectrum_plane xim 1 Nx R1_neq_R0) as Pl. pose proof (No2_pos xim Nx) as H1.
  exists k. unfold ii_kim. rewrite Ex. cbn [bind]. split; [exact E|]. rewrite <- Sz.
  replace (2 * fft_No2 xim / 2)%Z with (fft_No2 xim) by (rewrite Z.mul_comm, Z.div_mul; lia).
  split; [exact H1|]. split; [reflexivity|]. split; [rewrite S, mult_IZR; field; apply not_0_IZR; lia|]. split; [exact A|]. split; [exact B|].
  assert (Sp : forall i j, spectrum xim 1 (fft_No2 xim) i j = spectrum (ii_image p) 1 (fft_No2 xim) i j).
  { intros. unfold spectrum. f_equal. apply sum_any; [exact Nx|now apply image_nonempty|exact Xp]. }
  destruct Hh as (H2 & H3 & H4). destruct Pl as (L1 & L2 & L3). split.
  - split; [exact H2|]. split; [exact H3|]. intros r c Hr Hc. rewrite H4 by assumption. apply Sp.
  - split; [|split]; intros x y; rewrite <- !Sp; auto.
Qed.
Lemma phase : forall im off kx ky, Cmult (fourier_sum im 1 kx ky) (cos (kx * fst off + ky * snd off), sin (kx * fst off + ky * snd off)) =
  points_transform im (fun x y => (IZR x - fst off, IZR y - snd off)) kx ky.
Proof.
  intros im off kx ky. rewrite Cmult_comm. unfold fourier_sum, points_transform, over_pixels.
  change (zsum Cplus (RtoC 0)) with csum. rewrite <- csum_mul. apply zsum_ext. intros r Hr. change (zsum Cplus (RtoC 0)) with csum. rewrite <- csum_mul.
  apply zsum_ext. intros c Hc. cbv zeta. cbn [fst snd]. set (x := IZR (rx im + c)). set (y := IZR (ry im + r)).
  change (cos (kx * fst off + ky * snd off), sin (kx * fst off + ky * snd off)) with (expi (kx * fst off + ky * snd off)).
  rewrite <- !expi_neg. rewrite Cmult_assoc, (Cmult_comm (expi _)), <- Cmult_assoc, <- expi_add. do 2 f_equal. ring.
Qed.
Section S.
  Variables kva fold mkth : R.
  Variable LK : Z -> nat -> R.
  Variable kv : interpolant -> R -> R.
  Variable ur : interpolant -> R.
  Lemma k_any : forall p kx ky, usable p -> let h := (pad_size p / 2)%Z in let dk := 2 * PI / IZR (pad_size p) in
    impl_kValue kva LK kv ur p (kx, ky) = Ok (
      if negb (Rltb (2 * PI * ur (i_x p)) (Rabs kx)) && negb (Rltb (2 * PI * ur (i_x p)) (Rabs ky)) then
        Cmult (Cmult (interpolate_plane (xval kva LK (i_k p)) (spectrum (ii_image p) 1 h)
          (floorR (kx / dk) - ixrange kva (i_k p) / 2) (2 * (ixrange kva (i_k p) / 2) + 1) (floorR (ky / dk) - ixrange kva (i_k p) / 2) (2 * (ixrange kva (i_k p) / 2) + 1) (kx / dk) (ky / dk))
          (RtoC (kv (i_x p) kx * kv (i_x p) ky)))
          (cos (kx * fst (ii_offset p) + ky * snd (ii_offset p)), sin (kx * fst (ii_offset p) + ky * snd (ii_offset p)))
      else RtoC 0).
  Proof.
    intros p kx ky U h dk. destruct (usable_kim p U) as (kim & E & H1 & H2 & S & A & B & Hh & Pl). unfold impl_kValue. rewrite E. cbn [bind]. f_equal.
    unfold kValue_arr. cbv zeta. cbn [fst snd]. rewrite B, S. fold dk. fold h. rewrite (draw_k_window _ _ _ _ h _ _ H1 Pl Hh).
    pose proof PI_RGT_0 as Pi. assert (D : 0 < dk). { unfold dk. rewrite H2. apply Rdiv_lt_0_compat; [lra|]. apply IZR_lt. unfold h in *. lia. }
    assert (M : forall x, Rltb (ur (i_x p) / (1 / (2 * PI)) / dk) (Rabs (x / dk)) = Rltb (2 * PI * ur (i_x p)) (Rabs x)).
    { intro x. replace (Rabs (x / dk)) with (Rabs x * / dk) by (unfold Rdiv; rewrite Rabs_mult, (Rabs_right (/ dk)); [reflexivity|left; now apply Rinv_0_lt_compat]).
      replace (ur (i_x p) / (1 / (2 * PI)) / dk) with (2 * PI * ur (i_x p) * / dk) by (field; repeat split; lra).
      pose proof (Rinv_0_lt_compat dk D) as Q. destruct (Rltb_spec (2 * PI * ur (i_x p)) (Rabs x)) as [l|l].
      - destruct (Rltb_spec (2 * PI * ur (i_x p) * / dk) (Rabs x * / dk)) as [k|k]; [reflexivity|]. exfalso. apply k. now apply Rmult_lt_compat_r.
      - destruct (Rltb_spec (2 * PI * ur (i_x p) * / dk) (Rabs x * / dk)) as [k|k]; [|reflexivity]. exfalso. apply l. now apply Rmult_lt_reg_r in k. }
    rewrite !M. reflexivity.
  Qed.
  Lemma k_grid : forall p (m n : Z), 0 < kva -> usable p -> is_cardinal (i_k p) -> let dk := 2 * PI / IZR (pad_size p) in
    Rabs (IZR m * dk) <= 2 * PI * ur (i_x p) -> Rabs (IZR n * dk) <= 2 * PI * ur (i_x p) ->
    impl_kValue kva LK kv ur p (IZR m * dk, IZR n * dk) =
    Ok (Cmult (RtoC (kv (i_x p) (IZR m * dk) * kv (i_x p) (IZR n * dk)))
         (points_transform (ii_image p) (fun x y => (IZR x - fst (ii_offset p), IZR y - snd (ii_offset p))) (IZR m * dk) (IZR n * dk))).
  Proof.
    intros p m n K0 U Ca dk Hm Hn. rewrite k_any by exact U. cbv zeta. fold dk.
    destruct (usable_kim p U) as (_ & _ & H1 & H2 & _). pose proof PI_RGT_0 as Pi.
    assert (Z0 : 0 < IZR (pad_size p)) by (apply IZR_lt; lia).
    assert (D : 0 < dk) by (unfold dk; apply Rdiv_lt_0_compat; lra).
    destruct (Rltb_spec (2 * PI * ur (i_x p)) (Rabs (IZR m * dk))) as [l|l]; [lra|]. destruct (Rltb_spec (2 * PI * ur (i_x p)) (Rabs (IZR n * dk))) as [l'|l']; [lra|].
    cbn [negb andb]. f_equal. replace (IZR m * dk / dk) with (IZR m) by (field; lra). replace (IZR n * dk / dk) with (IZR n) by (field; lra).
    rewrite !floorR_IZR. rewrite plane_center; [|now apply irange_pos|now apply cardinal_kernels].
    rewrite <- phase. unfold spectrum. rewrite Rmult_1_l, Cmult_1_l.
    replace (PI / (IZR (pad_size p / 2) * 1)) with dk; [cring|]. unfold dk. rewrite H2 at 1. rewrite mult_IZR. field. apply not_0_IZR. lia.
  Qed.
  Lemma k_beyond : forall p kx ky, usable p -> 2 * PI * ur (i_x p) < Rabs kx \/ 2 * PI * ur (i_x p) < Rabs ky -> impl_kValue kva LK kv ur p (kx, ky) = Ok (RtoC 0).
  Proof.
    intros p kx ky U H. rewrite k_any by exact U. cbv zeta. f_equal.
    destruct (Rltb_spec (2 * PI * ur (i_x p)) (Rabs kx)) as [l|l]; [reflexivity|]. destruct (Rltb_spec (2 * PI * ur (i_x p)) (Rabs ky)) as [l'|l']; [reflexivity|]. lra.
  Qed.
  Lemma ii_k_grid : forall p k (m n : Z), 0 < kva -> usable p -> regular_l (i_wcs p) -> is_cardinal (i_k p) -> let dk := 2 * PI / IZR (pad_size p) in
    mapp (mT (l_jac (i_wcs p))) k = (IZR m * dk, IZR n * dk) -> Rabs (IZR m * dk) <= 2 * PI * ur (i_x p) -> Rabs (IZR n * dk) <= 2 * PI * ur (i_x p) ->
    ii_kValue kva LK kv ur p k =
    Ok (Cmult (RtoC (wanted_flux (i_flux p) (i_sb p) (l_area (i_wcs p)) (i_img p) / total_flux (i_img p) * (kv (i_x p) (IZR m * dk) * kv (i_x p) (IZR n * dk))))
         (points_transform (ii_image p) (fun x y => mapp (l_jac (i_wcs p)) (IZR x - fst (ii_offset p), IZR y - snd (ii_offset p))) (fst k) (snd k))).
  Proof.
    intros p k m n K0 U W Ca dk E Hm Hn. unfold ii_kValue. rewrite E. unfold dk in *. rewrite k_grid by assumption. cbn [bind]. fold dk. f_equal.
    destruct (area_det _ W) as [_ A]. rewrite A, ratio_is. pose proof (area_pos _ W).
    replace (points_transform (ii_image p) (fun x y => (IZR x - fst (ii_offset p), IZR y - snd (ii_offset p))) (IZR m * dk) (IZR n * dk)) with
      (points_transform (ii_image p) (fun x y => mapp (l_jac (i_wcs p)) (IZR x - fst (ii_offset p), IZR y - snd (ii_offset p))) (fst k) (snd k)).
    - rewrite <- Cmult_assoc, (Cmult_comm (points_transform _ _ _ _)), Cmult_assoc, <- RtoC_mult. do 2 f_equal.
      set (g := wanted_flux (i_flux p) (i_sb p) (l_area (i_wcs p)) (i_img p) / total_flux (i_img p)). field. lra.
    - unfold points_transform, over_pixels. apply zsum_ext. intros r Hr. apply zsum_ext. intros c Hc. cbv zeta. f_equal.
      set (q := (IZR (rx (ii_image p) + c) - fst (ii_offset p), IZR (ry (ii_image p) + r) - snd (ii_offset p))).
      change (fst k * fst (mapp (l_jac (i_wcs p)) q) + snd k * snd (mapp (l_jac (i_wcs p)) q)) with (dotp k (mapp (l_jac (i_wcs p)) q)).
      rewrite <- dotp_mT, E. unfold dotp. cbn [fst snd]. reflexivity.
  Qed.
  Lemma ii_k_zero : forall p, 0 < kva -> usable p -> regular_l (i_wcs p) -> is_cardinal (i_k p) -> kv (i_x p) 0 = 1 -> 0 <= ur (i_x p) -> total_flux (i_img p) <> 0 ->
    ii_kValue kva LK kv ur p (0, 0) = Ok (RtoC (wanted_flux (i_flux p) (i_sb p) (l_area (i_wcs p)) (i_img p))).
  Proof.
    intros p K0 U W Ca E U0 T. pose proof PI_RGT_0 as Pi. rewrite (ii_k_grid p (0, 0) 0 0); auto.
    - rewrite Rmult_0_l, E. f_equal. replace (points_transform (ii_image p) _ (fst (0, 0)) (snd (0, 0))) with (RtoC (total_flux (i_img p))).
      + rewrite <- RtoC_mult. f_equal. field. exact T.
      + rewrite <- image_total. unfold image_flux. rewrite asum_total. unfold total_flux, points_transform, over_pixels.
        assert (Rs : forall n f, RtoC (zsum Rplus 0 n f) = zsum Cplus (RtoC 0) n (fun i => RtoC (f i))).
        { intros n f. unfold zsum. induction (Z.to_nat n) as [|j IH]; cbn [nsum]; [reflexivity|]. rewrite RtoC_plus, IH. reflexivity. }
        rewrite Rs. apply zsum_ext. intros r Hr. rewrite Rs. apply zsum_ext. intros c Hc. cbv zeta. cbn [fst snd]. rewrite !Rmult_0_l, Rplus_0_l, cos_0, sin_0, Ropp_0.
        change (1, 0) with (RtoC 1). cring.
    - unfold mapp. cbn [fst snd]. f_equal; ring.
    - rewrite Rmult_0_l, Rabs_R0. apply Rmult_le_pos; lra.
    - rewrite Rmult_0_l, Rabs_R0. apply Rmult_le_pos; lra.
  Qed.
End S.
