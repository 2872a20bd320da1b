(** Padding, offsets and the values of the whole profile. *)
From Coq Require Import ZArith Reals Lra Lia ZifyBool Bool List.
From Coquelicot Require Import Coquelicot.
From Verif Require Import Base Array_Model Bounds_Model Bounds_Proofs FFT_Model FFT_Spec FFT_Proofs Geo_Model WCS_Model MSum
  Interp_Model Interp_Spec Interp_Kernels Interp_Lanczos II_Model II_Spec II_Proofs.
Open Scope R_scope.

Ltac ifs E := match goal with |- context [if ?b then _ else _] => destruct b eqn:E end.
Definition same_image (u v : rimg) : Prop := same_shape u v /\ forall x y, pixel u x y = pixel v x y.
Lemma same_has : forall u v x y, same_shape u v -> has_pixel u x y -> has_pixel v x y.
Proof. intros u v x y (A & B & D & E) H. unfold has_pixel in *. rewrite <- A, <- B, <- D, <- E. exact H. Qed.
Lemma set_sub_ok : forall im u, nonempty u ->
  (rx im <= rx u /\ rx u + ncol (ra u) <= rx im + ncol (ra im) /\ ry im <= ry u /\ ry u + nrow (ra u) <= ry im + nrow (ra im))%Z ->
  exists o, set_sub im u = Ok o /\ same_shape o im /\
    forall x y, pixel o x y = if has_dec u x y then pixel u x y else pixel im x y.
Proof.
  intros im u N H. unfold set_sub, inside.
  destruct ((rx im <=? rx u) && (rx u + ncol (ra u) <=? rx im + ncol (ra im)) && (ry im <=? ry u) && (ry u + nrow (ra u) <=? ry im + nrow (ra im)))%Z eqn:E; [|lia].
  eexists; split; [reflexivity|]. split; [repeat split; reflexivity|].
  intros x y. destruct (has_dec u x y) as [h|h].
  - rewrite (pixel_in u) by assumption. unfold has_pixel in h. rewrite pixel_in by (unfold has_pixel; cbn [rx ry ra slice_set nrow ncol]; lia).
    cbn [rx ry ra slice_set elt]. ifs E2; [f_equal; lia|lia].
  - unfold pixel. cbn [rx ry ra slice_set nrow ncol elt]. destruct ((rx im <=? x) && _ && _ && _)%Z eqn:E1; [|reflexivity].
    unfold has_pixel in h. destruct ((ry u - ry im <=? _) && _ && _ && _)%Z eqn:E2; [lia|reflexivity].
Qed.
Lemma get_sub_ok : forall im x y h w, (rx im <= x /\ x + w <= rx im + ncol (ra im) /\ ry im <= y /\ y + h <= ry im + nrow (ra im))%Z ->
  exists o, get_sub im x y h w = Ok o /\ rx o = x /\ ry o = y /\ nrow (ra o) = h /\ ncol (ra o) = w /\
    forall i j, has_pixel o i j -> pixel o i j = pixel im i j.
Proof.
  intros im x y h w H. unfold get_sub, inside.
  destruct ((rx im <=? x) && (x + w <=? rx im + ncol (ra im)) && (ry im <=? y) && (y + h <=? ry im + nrow (ra im)))%Z eqn:E; [|lia].
  eexists; split; [reflexivity|]. cbn [rx ry ra slice nrow ncol]. repeat split; try lia.
  intros i j P. rewrite pixel_in by assumption. unfold has_pixel in P. cbn [rx ry ra slice nrow ncol elt] in *.
  rewrite pixel_in by (unfold has_pixel; lia). f_equal; lia.
Qed.
(** Padding keeps the pixels where they are. *)
Lemma padded_ok : forall im q, nonempty im -> (0 <= q)%Z ->
  let o := centered (RImg (zeropad (ra im) q) 1 1) in
  rx o = (- (ncol (ra im) / 2) - q)%Z /\ ry o = (- (nrow (ra im) / 2) - q)%Z /\
  nrow (ra o) = (nrow (ra im) + 2 * q)%Z /\ ncol (ra o) = (ncol (ra im) + 2 * q)%Z /\
  forall x y, pixel o x y = pixel (centered im) x y.
Proof.
  intros im q N Q. unfold centered. cbv zeta. cbn [ra rx ry zeropad nrow ncol elt].
  assert (Ew : ((ncol (ra im) + 2 * q) / 2 = ncol (ra im) / 2 + q)%Z) by (rewrite (Z.mul_comm 2), Z.div_add; lia).
  assert (Eh : ((nrow (ra im) + 2 * q) / 2 = nrow (ra im) / 2 + q)%Z) by (rewrite (Z.mul_comm 2), Z.div_add; lia).
  rewrite Ew, Eh. repeat split; try lia.
  intros x y. unfold pixel. cbn [ra rx ry zeropad nrow ncol elt].
  destruct ((rx im + (0 - (rx im + ncol (ra im) / 2)) <=? x) && _ && _ && _)%Z eqn:E1;
  destruct ((1 + (0 - (1 + (ncol (ra im) / 2 + q))) <=? x) && _ && _ && _)%Z eqn:E2; try lia; try reflexivity.
  - destruct ((q <=? _) && _ && _ && _)%Z eqn:E3; [f_equal; lia|lia].
  - destruct ((q <=? _) && _ && _ && _)%Z eqn:E3; [lia|reflexivity].
Qed.
Lemma centered_shape : forall im, nrow (ra (centered im)) = nrow (ra im) /\ ncol (ra (centered im)) = ncol (ra im) /\
  rx (centered im) = (- (ncol (ra im) / 2))%Z /\ ry (centered im) = (- (nrow (ra im) / 2))%Z.
Proof. intro im. unfold centered. cbn. repeat split; lia. Qed.
Lemma same_image_refl : forall u, same_image u u. Proof. intro u. repeat split. Qed.
Lemma xim_ok : forall p, nonempty (i_img p) -> i_recenter p = true ->
  (Z.max (nrow (ra (i_img p))) (ncol (ra (i_img p))) <= pad_size p)%Z ->
  let q := ((pad_size p - Z.max (nrow (ra (i_img p))) (ncol (ra (i_img p)))) / 2)%Z in
  exists xim, ii_xim p = Ok xim /\ (0 <= q)%Z /\
    rx xim = (rx (ii_image p) - q)%Z /\ ry xim = (ry (ii_image p) - q)%Z /\
    nrow (ra xim) = (nrow (ra (i_img p)) + 2 * q)%Z /\ ncol (ra xim) = (ncol (ra (i_img p)) + 2 * q)%Z /\
    forall x y, pixel xim x y = pixel (ii_image p) x y.
Proof.
  intros p N Rc Hp q. assert (Q : (0 <= q)%Z) by (apply Z.div_pos; lia).
  unfold ii_xim, ii_image. rewrite Rc. cbv zeta.
  destruct (centered_shape (i_img p)) as (S1 & S2 & S3 & S4).
  assert (Nc : nonempty (centered (i_img p))) by (unfold nonempty in *; rewrite S1, S2; exact N).
  rewrite S1, S2. fold q.
  destruct (padded_ok (centered (i_img p)) q Nc Q) as (P1 & P2 & P3 & P4 & P5). cbv zeta in *.
  set (o := centered (RImg (zeropad (ra (centered (i_img p))) q) 1 1)) in *.
  rewrite S1, S2 in *.
  destruct (set_sub_ok o (centered (i_img p)) Nc) as (r & Hr & (R1 & R2 & R3 & R4) & R5).
  { rewrite P1, P2, P3, P4, S1, S2, S3, S4. lia. }
  exists r. rewrite Hr. split; [reflexivity|]. split; [exact Q|]. rewrite R1, R2, R3, R4, P1, P2, P3, P4, S3, S4.
  repeat split; try lia. intros x y. rewrite R5. destruct (has_dec (centered (i_img p)) x y) as [h|h]; [reflexivity|].
  rewrite P5. rewrite (pixel_out (centered (i_img p))) by assumption.
  unfold centered at 1. destruct (centered_shape (centered (i_img p))) as (T1 & T2 & T3 & T4).
  apply pixel_out. intro H. apply h. unfold has_pixel in *. fold (centered (centered (i_img p))) in H. rewrite T1, T2, T3, T4, S1, S2 in H.
  rewrite S1, S2, S3, S4. exact H.
Qed.
Lemma pad_image_ok : forall p, nonempty (i_img p) -> i_recenter p = true ->
  (Z.max (nrow (ra (i_img p))) (ncol (ra (i_img p))) <= pad_size p)%Z ->
  exists im, pad_image p = Ok im /\ same_image im (ii_image p).
Proof.
  intros p N Rc Hp. destruct (xim_ok p N Rc Hp) as (xim & Hx & Q & X1 & X2 & X3 & X4 & X5). cbv zeta in *.
  unfold pad_image. rewrite Hx. cbn [bind].
  destruct (get_sub_ok xim (rx (ii_image p)) (ry (ii_image p)) (nrow (ra (ii_image p))) (ncol (ra (ii_image p)))) as (o & Ho & O1 & O2 & O3 & O4 & O5).
  { unfold ii_image in *. rewrite Rc in *. destruct (centered_shape (i_img p)) as (S1 & S2 & S3 & S4).
    rewrite X1, X2, X3, X4, S1, S2. lia. }
  exists o. rewrite Ho. split; [reflexivity|]. split; [repeat split; assumption|].
  intros x y. destruct (has_dec o x y) as [h|h].
  - rewrite O5 by assumption. apply X5.
  - rewrite (pixel_out o) by assumption. symmetry. apply pixel_out. intro H. apply h. apply (same_has (ii_image p) o); [repeat split; symmetry; assumption|assumption].
Qed.
(** The size of the transform *)
Lemma fft_size : forall p xim, nonempty (i_img p) -> i_recenter p = true ->
  (Z.max (nrow (ra (i_img p))) (ncol (ra (i_img p))) <= pad_size p)%Z -> Z.even (pad_size p) = true ->
  ii_xim p = Ok xim -> (2 * fft_No2 xim)%Z = pad_size p.
Proof.
  intros p xim N Rc Hp Ev Hx. destruct (xim_ok p N Rc Hp) as (xim' & Hx' & Q & X1 & X2 & X3 & X4 & X5). cbv zeta in *.
  rewrite Hx in Hx'. injection Hx' as <-. unfold fft_No2. rewrite X1, X2, X3, X4.
  unfold ii_image. rewrite Rc. destruct (centered_shape (i_img p)) as (S1 & S2 & S3 & S4). rewrite S3, S4.
  apply Z.even_spec in Ev. destruct Ev as [m Em]. rewrite Em in *. clear Em X5 X1 X2 X3 X4 Hx.
  unfold nonempty in N. set (h := nrow (ra (i_img p))) in *. set (w := ncol (ra (i_img p))) in *. clearbody h w.
  Ltac Zify.zify_post_hook ::= Z.div_mod_to_equations. lia.
Qed.
Lemma pad_even : forall p, nonempty (i_img p) -> 0 < i_pad p -> Z.even (pad_size p) = true.
Proof.
  intros p N P. unfold pad_size. cbv zeta. apply good_size_even.
  set (n := Z.max (nrow (ra (ii_image p))) (ncol (ra (ii_image p)))).
  assert (Hn : (1 <= n)%Z).
  { unfold n, nonempty, ii_image in *. destruct (i_recenter p); [destruct (centered_shape (i_img p)) as (S1 & S2 & _ & _); rewrite S1, S2|]; lia. }
  apply IZR_le in Hn.
  destruct (Rltb_spec 1 (i_pad p)) as [l|l].
  - apply (good_fft_size_spec (IZR (ceilR (i_pad p * IZR n)))). pose proof (ceilR_bounds (i_pad p * IZR n)). assert (1 * 1 <= i_pad p * IZR n) by (apply Rmult_le_compat; lra). lra.
  - apply (good_fft_size_spec (IZR n) Hn).
Qed.
(** The padded image is never smaller than the image, unless it has more than 99999 pixels on a side and is not
    padded by more than the slop of good_fft_size. *)
Lemma pad_enough : forall p, nonempty (i_img p) -> 0 < i_pad p ->
  (Z.max (nrow (ra (i_img p))) (ncol (ra (i_img p))) <= 99999)%Z \/ 101 / 100 <= i_pad p ->
  (Z.max (nrow (ra (i_img p))) (ncol (ra (i_img p))) <= pad_size p)%Z.
Proof.
  intros p N P H. unfold pad_size. cbv zeta.
  replace (Z.max (nrow (ra (ii_image p))) (ncol (ra (ii_image p)))) with (Z.max (nrow (ra (i_img p))) (ncol (ra (i_img p)))).
  2:{ unfold ii_image. destruct (i_recenter p); [destruct (centered_shape (i_img p)) as (S1 & S2 & _ & _); rewrite S1, S2|]; reflexivity. }
  unfold nonempty in N. set (n := Z.max (nrow (ra (i_img p))) (ncol (ra (i_img p)))) in *.
  assert (Hn : (1 <= n)%Z) by lia. assert (Hr : 1 <= IZR n) by (now apply IZR_le).
  destruct (Rltb_spec 1 (i_pad p)) as [l|l].
  - set (c := ceilR (i_pad p * IZR n)). pose proof (ceilR_bounds (i_pad p * IZR n)) as B. fold c in B.
    assert (M : 1 * IZR n <= i_pad p * IZR n) by (apply Rmult_le_compat; lra).
    destruct (good_fft_size_spec (IZR c) ltac:(lra)) as (_ & G & _). unfold slop in G.
    destruct H as [H|H].
    + destruct (Z_le_gt_dec c 99999) as [s|s].
      * assert (1 <= c)%Z by (apply le_IZR; lra). destruct (good_fft_size_exact c ltac:(lia)) as (_ & G' & _).
        apply le_IZR in G'. assert (n <= c)%Z by (apply le_IZR; lra). lia.
      * assert (100000 <= IZR c) by (apply IZR_le; lia). assert (IZR n <= 99999) by (now apply IZR_le). apply le_IZR. lra.
    + apply le_IZR. assert (101 / 100 * IZR n <= i_pad p * IZR n) by (apply Rmult_le_compat; lra). lra.
  - destruct H as [H|H]; [|lra]. destruct (good_fft_size_exact n ltac:(lia)) as (_ & G' & _). now apply le_IZR.
Qed.
