(** C124 (drawImage as an operation on an image), C125 (which wcs is used), C126 (drawKImage). *)
From Coq Require Import ZArith Reals Lra Lia Bool List String.
From Verif Require Import Base Array_Model Bounds_Model Bounds_Spec Bounds_Proofs Image_Model Image_Spec Image_Example
  FFT_Model FFT_Spec FFT_Props Draw_Model Draw_Spec WCS_Model WCS_Props Call_Model Call_Spec Call_Proofs Call_K.
Import ListNotations.
Open Scope Z_scope.

(** ** C125 *)

(** The wcs used is the one the rules ask for, and none other. *)
Theorem C125_choice : forall V D W (O : wops W) nq scale wcs (im : option (image V D W)), lawful_pixels O ->
  (forall w, uses O nq scale wcs (wcs_of im) w <-> exists b, determine_wcs O nq scale wcs im = Ok (w, b)) /\
  (forall w w', uses O nq scale wcs (wcs_of im) w -> uses O nq scale wcs (wcs_of im) w' -> w = w').
Proof.
  intros V D W O nq scale wcs im L. split.
  - intro w. split; [apply uses_determine; exact L|]. intros [b H]. exact (proj1 (determine_uses O _ _ _ _ _ _ L H)).
  - intros w w' H H'. destruct (uses_determine O _ _ _ _ _ L H) as [b E]. destruct (uses_determine O _ _ _ _ _ L H') as [b' E'].
    rewrite E in E'. injection E' as <- _. reflexivity.
Qed.
Print Assumptions C125_choice.

(** A call is refused exactly when both scale and wcs are given, or wcs is not a wcs. *)
Theorem C125_refused : forall V D W (O : wops W) nq scale wcs (im : option (image V D W)) e,
  determine_wcs O nq scale wcs im = Err e <->
  (e = GalSimIncompatibleValuesError /\ scale <> None /\ wcs <> NoWcs) \/ (e = TypeError /\ scale = None /\ wcs = NotWcs).
Proof. exact @determine_err. Qed.
Print Assumptions C125_refused.

(** Nothing is ever drawn with a pixel scale that is not positive. *)
Theorem C125_positive : forall V D W (O : wops W) nq scale wcs (im : option (image V D W)) w b s, lawful_pixels O -> (0 < nq)%R ->
  determine_wcs O nq scale wcs im = Ok (w, b) -> pixel_scale O w = Some s -> (0 < s)%R.
Proof.
  intros V D W O nq scale wcs im w b s L Hn H. exact (uses_usable O _ _ _ _ _ L Hn (proj1 (determine_uses O _ _ _ _ _ _ L H)) s).
Qed.
Print Assumptions C125_positive.

(** Drawing again on an image that was drawn on uses the wcs it was drawn with. *)
Theorem C125_again : forall V D W (T : vops V D W) dflt O nq nq' N prof draw (c : call (V:=V) (D:=D) (W:=W)) st im fl,
  lawful_pixels O -> sane (k_args c) -> 2 <= N -> k_setup_only c = false -> (0 < nq)%R ->
  drawImage T dflt O nq N prof draw c = (st, Ok (im, fl)) ->
  exists w, iwcs im = Some w /\ determine_wcs O nq' None NoWcs (Some im) = Ok (w, false).
Proof.
  intros V D W T dflt O nq nq' N prof draw c st im fl L Hs HN Hk Hn H.
  destruct (draw_returns T dflt O _ _ _ _ _ _ _ _ L Hs HN Hk H) as (w & cv & i1 & ad & p & U & _ & _ & Ew & _).
  exists w. split; [exact Ew|]. pose proof (uses_usable O _ _ _ _ _ L Hn U) as Us.
  assert (U' : uses O nq' None NoWcs (wcs_of (Some im)) w) by (cbn [wcs_of]; rewrite Ew; constructor; exact Us).
  destruct (uses_determine O _ _ _ _ _ L U') as [b E]. rewrite E. destruct (determine_uses O _ _ _ _ _ _ L E) as [_ ->]. reflexivity.
Qed.
Print Assumptions C125_again.

Lemma euclid_lawful : lawful_pixels euclid.
Proof.
  repeat split. intros [[s|s g|m]|s o1 o2|s g o1 o2|m o1 o2] s'; cbn; try discriminate. intro H. injection H as <-. reflexivity.
Qed.
Example C125_witness : lawful_pixels euclid /\
  determine_wcs euclid (1 / 3) (Some (-1)%R) NoWcs (@None (image Z bool wcs)) = Ok (WLoc (LPix (1 / 3)), true) /\
  determine_wcs euclid (1 / 3) None (SomeWcs wflip) (@None (image Z bool wcs)) = Ok (wflip, true) /\
  determine_wcs euclid (1 / 3) (Some 1%R) (SomeWcs wflip) (@None (image Z bool wcs)) = Err GalSimIncompatibleValuesError.
Proof.
  split; [exact euclid_lawful|]. split; [|split; reflexivity].
  cbn. replace (nonpos (-1)) with true by (symmetry; apply nonpos_true; lra). reflexivity.
Qed.

(** ** C124 *)

(** A call that returns: the image returned is the one given, if any; it has the pixels' place it had (or that of the blank
    image asked for) and the wcs used; the drawing was done on that image centred on (0,0) with unit pixels; added_flux is
    the flux of the profile that the counts added stand for. *)
Theorem C124_returns : forall V D W (T : vops V D W) dflt O nq N prof draw (c : call (V:=V) (D:=D) (W:=W)) st im fl,
  lawful_pixels O -> sane (k_args c) -> 2 <= N -> k_setup_only c = false ->
  drawImage T dflt O nq N prof draw c = (st, Ok (im, fl)) ->
  exists w cv im1 added p,
    uses O nq (k_scale c) (k_wcs c) (wcs_of (a_image (k_args c))) w /\ canvas T (a_image (k_args c)) cv /\
    eqI (ibnd im) (ibnd cv) = true /\ iwcs im = Some w /\ idt im = idt cv /\
    at_origin O im1 cv /\ draw im1 = (iarr im, Ok added) /\
    (uniform O w = false -> local_wcs_pos (a_image (k_args c)) (get_new_bounds (a_image (k_args c)) (a_nx (k_args c)) (a_ny (k_args c)) (a_bounds (k_args c)) (a_center (k_args c)))
                              (a_offset (k_args c)) (a_center (k_args c)) (a_utc (k_args c)) = Ok p) /\
    ((0 < pixel_area O w p)%R -> flux_of (k_method c) (k_sensor c) (k_gain c) (k_area c) (k_exptime c) (pixel_area O w p) added fl) /\
    same_object (a_image (k_args c)) st im.
Proof. exact @draw_returns. Qed.
Print Assumptions C124_returns.

(** A call refused for its arguments leaves the image alone. *)
Theorem C124_refused : forall V D W (T : vops V D W) dflt O nq N prof draw (c : call (V:=V) (D:=D) (W:=W)) e,
  check_args c = Some e \/ (check_args c = None /\ determine_wcs O nq (k_scale c) (k_wcs c) (a_image (k_args c)) = Err e) ->
  drawImage T dflt O nq N prof draw c = (a_image (k_args c), Err e).
Proof. exact @draw_refused. Qed.
Print Assumptions C124_refused.

(** What is refused, and how. *)
Theorem C124_arguments : forall V D W (c : call (V:=V) (D:=D) (W:=W)), check_args c = None <->
  ((0 < k_gain c)%R /\ (0 < k_area c)%R /\ (0 < k_exptime c)%R /\
   In (k_method c) ["auto"; "fft"; "real_space"; "phot"; "no_pixel"; "sb"]%string /\
   (k_method c = "phot"%string -> k_save c = true -> k_maxN c = false) /\
   (k_method c <> "phot"%string -> k_nphotons c = false /\ k_extra c = false /\ k_poisson c = false) /\
   (k_method c <> "phot"%string -> k_sensor c = false -> k_rng c = false /\ k_maxN c = false /\ k_save c = false)).
Proof.
  intros V D W c. unfold check_args, is_phot.
  destruct (nonpos (k_gain c)) eqn:G; [apply nonpos_true in G; split; [discriminate|lra]|].
  destruct (nonpos (k_area c)) eqn:A; [apply nonpos_true in A; split; [discriminate|lra]|].
  destruct (nonpos (k_exptime c)) eqn:E; [apply nonpos_true in E; split; [discriminate|lra]|].
  apply nonpos_false in G. apply nonpos_false in A. apply nonpos_false in E.
  assert (M : existsb (String.eqb (k_method c)) ["auto"; "fft"; "real_space"; "phot"; "no_pixel"; "sb"]%string = true <->
              In (k_method c) ["auto"; "fft"; "real_space"; "phot"; "no_pixel"; "sb"]%string).
  { rewrite existsb_exists. split.
    - intros (x & I & X). apply String.eqb_eq in X. subst x. exact I.
    - intro I. exists (k_method c). split; [exact I|apply String.eqb_refl]. }
  set (ms := ["auto"; "fft"; "real_space"; "phot"; "no_pixel"; "sb"]%string) in *.
  destruct (existsb (String.eqb (k_method c)) ms) eqn:X.
  2:{ assert (NI : ~ In (k_method c) ms) by (intro I; apply M in I; discriminate).
      destruct (String.eqb (k_method c) "phot" && k_save c && k_maxN c); (split; [discriminate|tauto]). }
  pose proof (proj1 M eq_refl) as I. clear M X.
  destruct (String.eqb_spec (k_method c) "phot") as [P|P]; cbn [andb negb].
  - destruct (k_save c), (k_maxN c); cbn [andb]; split; try discriminate; intro H; repeat split; auto; try (intros; contradiction).
    destruct H as (_ & _ & _ & _ & H & _). specialize (H P eq_refl). discriminate.
  - destruct (k_nphotons c), (k_extra c), (k_poisson c); cbn [orb]; try (split; [discriminate|intros (_ & _ & _ & _ & _ & H & _); specialize (H P); intuition discriminate]).
    destruct (k_sensor c); cbn [negb andb].
    + split; [|reflexivity]. intros _. repeat split; auto; try (intros; contradiction); try discriminate.
    + destruct (k_rng c), (k_maxN c), (k_save c); cbn [orb];
      try (split; [discriminate|intros (_ & _ & _ & _ & _ & _ & H); specialize (H P eq_refl); intuition discriminate]).
      split; [|reflexivity]. intros _. repeat split; auto; try (intros; contradiction).
Qed.
Print Assumptions C124_arguments.

(** What a call that raises may have done to the image: nothing, or taken its wcs away, or left it centred on (0,0) with
    unit pixels. *)
Theorem C124_failure_states : forall V D W (T : vops V D W) dflt O nq N prof draw (c : call (V:=V) (D:=D) (W:=W)) i st e,
  a_image (k_args c) = Some i -> bdef (ibnd i) = true -> wfI (ibnd i) ->
  drawImage T dflt O nq N prof draw c = (st, Err e) ->
  st = Some i \/
  (st = Some (with_wcs i None) /\ (k_scale c <> None \/ k_wcs c <> NoWcs)) \/
  (exists i1, at_origin O i1 i /\ (st = Some i1 \/ exists a, draw i1 = (a, Err e) /\ st = Some (with_arr i1 a))).
Proof. exact @draw_fails. Qed.
Print Assumptions C124_failure_states.

(** An image of 8200 pixels a side with 0.2 arcsec pixels, drawn by FFT with the default limits of GSParams *)
Definition big : image Z bool wcs :=
  let i := mk false 1 8200 1 8200 (fun _ _ => 0%Z) in Img (iarr i) (ibnd i) (idt i) (iconst i) (Some (WLoc (LPix (1 / 5)))).
Definition fft_draw (maxfft : Z) (i : image Z bool wcs) : arr Z * res R :=
  (iarr i, bind (makeKImage 128 maxfft 10 (1 / 10) 1 (ibnd i)) (fun _ => Ok 1%R)).
Definition plain (i : image Z bool wcs) (scale : option R) (bounds : option (bnd Z)) : call (V:=Z) (D:=bool) (W:=wcs) :=
  Call (DArgs (Some i) None None bounds false None None (0, 0)%R true) scale NoWcs "auto" 1 1 1 false false false false false false false false false.

Lemma big_ok : bdef (ibnd big) = true /\ wfI (ibnd big).
Proof. split; [reflexivity|]. destruct (wf_mk false 1 8200 1 8200 (fun _ _ => 0%Z)) as (A & B & _); [lia|lia|]. intros _. cbn. lia. Qed.

Lemma nonpos_1 : nonpos 1 = false. Proof. apply nonpos_false. lra. Qed.
Lemma plain_ok i s b : check_args (plain i s b) = None.
Proof. unfold check_args, plain, is_phot; cbn -[nonpos]. rewrite nonpos_1. reflexivity. Qed.

Definition moved : image Z bool wcs :=
  Img (iarr big) (BoundsI (ArgsKwDelta (py (-4100)) (py 8200) (py (-4100)) (py 8200))) false (Some false) (Some (WLoc (LPix 1))).
Lemma too_big : makeKImage 128 8192 10 (1 / 10) 1 (ibnd moved) = Err GalSimFFTSizeError.
Proof.
  apply C18_too_large_raises; try lra; try reflexivity; try lia.
  - intros _. cbn. lia.
  - left. cbn. lia.
Qed.
Lemma det_big nq : determine_wcs euclid nq None NoWcs (Some big) = Ok (WLoc (LPix (1 / 5)), false).
Proof. cbn -[nonpos]. replace (nonpos (1 / 5)) with false by (symmetry; apply nonpos_false; lra). reflexivity. Qed.
Lemma big_drawn nq N draw a e : draw moved = (a, Err e) ->
  drawImage Twcs false euclid nq N None draw (plain big None None) = (Some (with_arr moved a), Err e).
Proof.
  intro H. unfold drawImage. rewrite plain_ok. cbn [k_args plain k_scale k_wcs a_image]. rewrite det_big.
  cbn -[IZR Rdiv mk] in *. change (bdef (ibnd (mk false 1 8200 1 8200 (fun _ _ : Z => 0)))) with true. cbv iota beta.
  change (centerI (ibnd big)) with (Ok (4101, 4101)). cbv iota beta zeta.
     assert (X : exists x, setCenter Twcs (with_wcs big (Some (WLoc (LPix (1 / 5))))) (py 0) (py 0) = (x, None) /\ with_wcs x (Some (WLoc (LPix 1))) = moved)
    by (eexists; split; reflexivity).
  destruct X as (x & -> & Hx). rewrite Hx. rewrite H. reflexivity.
Qed.

Lemma big_fails nq N : drawImage Twcs false euclid nq N None (fft_draw 8192) (plain big None None) = (Some moved, Err GalSimFFTSizeError).
Proof. rewrite (big_drawn nq N _ (iarr moved) GalSimFFTSizeError); [reflexivity|]. unfold fft_draw. rewrite too_big. reflexivity. Qed.
Lemma big_stripped nq N : drawImage Twcs false euclid nq N None (fft_draw 8192) (plain big (Some 1%R) (Some (ibnd big))) = (Some (with_wcs big None), Err GalSimIncompatibleValuesError).
Proof.
  unfold drawImage. rewrite plain_ok. cbn [k_args plain k_scale k_wcs a_image]. cbn -[nonpos big]. reflexivity.
Qed.
(** Drawing on it again, now with maximum_fft_size large enough *)
Lemma moved_drawn nq N : exists f, drawImage Twcs false euclid nq N None (fun i => (iarr i, Ok 1%R)) (plain moved None None) = (Some moved, Ok (moved, f)).
Proof.
  unfold drawImage. rewrite plain_ok. cbn [k_args plain k_scale k_wcs a_image]. cbn -[nonpos IZR Rdiv mk]. rewrite nonpos_1. 
  eexists. reflexivity.
Qed.

(** Finding F74: a draw that fails (here GalSimFFTSizeError) leaves the user's image at another place with another wcs. *)
Theorem C124_failure_refuted :
  ~ (forall (nq : R) (N : Z) (c : call (V:=Z) (D:=bool) (W:=wcs)) i st e, (0 < nq)%R -> 2 <= N ->
       a_image (k_args c) = Some i -> k_scale c = None -> k_wcs c = NoWcs ->
       drawImage Twcs false euclid nq N None (fft_draw 8192) c = (st, Err e) -> wcs_of st = iwcs i) /\
  ~ (forall (nq : R) (N : Z) (c : call (V:=Z) (D:=bool) (W:=wcs)) i st e, (0 < nq)%R -> 2 <= N ->
       a_image (k_args c) = Some i -> k_scale c = None -> k_wcs c = NoWcs ->
       drawImage Twcs false euclid nq N None (fft_draw 8192) c = (st, Err e) -> exists j, st = Some j /\ eqI (ibnd j) (ibnd i) = true) /\
  ~ (forall (nq : R) (N : Z) (c : call (V:=Z) (D:=bool) (W:=wcs)) i st, (0 < nq)%R -> 2 <= N ->
       a_image (k_args c) = Some i ->
       drawImage Twcs false euclid nq N None (fft_draw 8192) c = (st, Err GalSimIncompatibleValuesError) -> wcs_of st = iwcs i).
Proof.
  split; [|split]; intro H.
  - specialize (H 1%R 2 (plain big None None) big _ _ ltac:(lra) ltac:(lia) eq_refl eq_refl eq_refl (big_fails 1 2)).
    cbn in H. injection H as H. lra.
  - destruct (H 1%R 2 (plain big None None) big _ _ ltac:(lra) ltac:(lia) eq_refl eq_refl eq_refl (big_fails 1 2)) as (j & J & E).
    injection J as <-. vm_compute in E. discriminate.
  - specialize (H 1%R 2 (plain big (Some 1%R) (Some (ibnd big))) big _ ltac:(lra) ltac:(lia) eq_refl (big_stripped 1 2)). discriminate.
Qed.
Print Assumptions C124_failure_refuted.

(** So catching the exception and drawing again on the same image does not use the wcs of the image. *)
Theorem C124_retry_refuted :
  ~ (forall nq N draw draw' (i : image Z bool wcs) i' e st im f, (0 < nq)%R -> 2 <= N ->
       drawImage Twcs false euclid nq N None draw (plain i None None) = (Some i', Err e) ->
       drawImage Twcs false euclid nq N None draw' (plain i' None None) = (st, Ok (im, f)) -> iwcs im = iwcs i).
Proof.
  intro H. destruct (moved_drawn 1 2) as (f & B).
  specialize (H 1%R 2 (fft_draw 8192) (fun i => (iarr i, Ok 1%R)) big moved GalSimFFTSizeError (Some moved) moved f ltac:(lra) ltac:(lia) (big_fails 1 2)).
  specialize (H B). cbn in H. injection H as H. lra.
Qed.
Print Assumptions C124_retry_refuted.

(** An image declared immutable is drawn on all the same. *)
Definition fixed : image Z bool wcs :=
  let i := mk false 1 2 1 2 (fun _ _ => 0%Z) in Img (iarr i) (ibnd i) (idt i) (Some true) (Some (WLoc (LPix 1))).
Theorem C124_const_refuted :
  ~ (forall nq N draw (i i' : image Z bool wcs) r, (0 < nq)%R -> 2 <= N -> iconst i = Some true ->
       drawImage Twcs false euclid nq N None draw (plain i None None) = (Some i', r) -> iarr i' = iarr i).
Proof.
  intro H.
  assert (E : exists i' r, drawImage Twcs false euclid 1 2 None (fun i => (Arr 2 2 (fun _ _ => 1), Ok 1%R)) (plain fixed None None) = (Some i', r) /\
                elt (iarr i') 0 0 = 1).
  { unfold drawImage. rewrite plain_ok. cbn [k_args plain k_scale k_wcs a_image]. cbn -[nonpos IZR Rdiv]. rewrite nonpos_1.
    do 2 eexists. split; reflexivity. }
  destruct E as (i' & r & E & E0). specialize (H 1%R 2 _ fixed _ _ ltac:(lra) ltac:(lia) eq_refl E). rewrite H in E0. discriminate.
Qed.
Print Assumptions C124_const_refuted.

Example C124_witness : sane (k_args (plain big None None)) /\ a_image (k_args (plain big None None)) = Some big /\
  exists f, drawImage Twcs false euclid 1 2 None (fun i => (iarr i, Ok 1%R)) (plain moved None None) = (Some moved, Ok (moved, f)).
Proof.
  split; [|split; [reflexivity|]].
  - split; [discriminate|]. split; [discriminate|]. split; [discriminate|]. intros j J. injection J as <-. exact (proj2 big_ok).
  - exact (moved_drawn 1 2).
Qed.

(** ** C126 *)

(** A call that returns: the image returned is the one given, if any; its wcs is PixelScale(dk), with dk the scale asked for
    or stepk; it is centred on (0,0) unless recenter is false; its pixels are those the profile makes for these bounds and
    dk, added to what was there if asked for. *)
Theorem C126_returns : forall V D W (T : vops V D W) dflt O iscomplex cdflt maxk stepk kdraw (q : kcall (V:=V) (D:=D) (W:=W)) st im,
  (0 < stepk)%R -> (0 < maxk)%R -> sane (kargs cdflt q) ->
  drawKImage T dflt O iscomplex cdflt maxk stepk kdraw q = (st, Ok im) ->
  exists cv s, canvas T (q_image q) cv /\ scale_found O q s /\
    (q_image q = None -> setup_image T dflt (getGoodImageSize 1 (stepk * k_dx maxk stepk s) + 1) None (q_nx q) (q_ny q) (q_bounds q) (q_add q) (Some cdflt) None false = Ok cv) /\
    (match q_image q with Some i => iscomplex (idt i) = true | None => True end) /\
    iwcs im = Some (mk_pixel O (k_spacing stepk s)) /\ idt im = idt cv /\
    nv (bdx (ibnd im)) = nv (bdx (ibnd cv)) /\ nv (bdy (ibnd im)) = nv (bdy (ibnd cv)) /\
    (if q_recenter q then centred (ibnd im) else ibnd im = ibnd cv) /\
    (if q_setup_only q then iarr im = iarr cv
     else if q_add q then iarr im = Arr (nrow (iarr cv)) (ncol (iarr cv))
            (fun i j => bop T Add (idt cv) (idt cv) (elt (iarr cv) i j) (elt (kdraw (ibnd im) (k_spacing stepk s)) i j))
     else iarr im = kdraw (ibnd im) (k_spacing stepk s)) /\
    same_object (q_image q) st im.
Proof. exact @kdraw_returns. Qed.
Print Assumptions C126_returns.

(** An automatic image is square, symmetric about k = 0, and reaches maxk but no further than the next pixel. *)
Theorem C126_automatic : forall V D W (T : vops V D W) dflt O iscomplex cdflt maxk stepk kdraw (q : kcall (V:=V) (D:=D) (W:=W)) st im,
  (0 < stepk)%R -> (0 < maxk)%R ->
  q_image q = None -> q_nx q = None -> q_ny q = None -> q_bounds q = None -> q_recenter q = true ->
  drawKImage T dflt O iscomplex cdflt maxk stepk kdraw q = (st, Ok im) ->
  exists h dk, iwcs im = Some (mk_pixel O dk) /\ dk = k_spacing stepk (q_scale q) /\
    (forall x y, includesI (ibnd im) x y = true <-> - h <= x <= h /\ - h <= y <= h) /\
    (maxk * (1 - / 1000000000000) <= IZR h * dk < maxk + dk)%R.
Proof. exact @kauto. Qed.
Print Assumptions C126_automatic.

(** A call that raises leaves a given image alone if its wcs is a pixel scale or there is none. *)
Theorem C126_failure : forall V D W (T : vops V D W) dflt O iscomplex cdflt maxk stepk kdraw (q : kcall (V:=V) (D:=D) (W:=W)) i st e,
  q_image q = Some i -> bdef (ibnd i) = true -> (forall w dx dy, is_pixel O (wshift T w dx dy) = is_pixel O w) ->
  drawKImage T dflt O iscomplex cdflt maxk stepk kdraw q = (st, Err e) ->
  st = Some i \/ (e = GalSimError /\ exists w, iwcs i = Some w /\ is_pixel O w = false).
Proof. exact @kdraw_fails. Qed.
Print Assumptions C126_failure.

(** Finding F75: an image with a ShearWCS has a scale, so that is accepted, and the image is recentred before
    setting the scale raises. *)
Definition sheared : image Z bool wcs :=
  let i := mk false 1 2 1 2 (fun _ _ => 0%Z) in
  Img (iarr i) (ibnd i) (idt i) (Some false) (Some (WLoc (LShear (1 / 5) (1 / 10, 0)%R))).
Theorem C126_failure_refuted :
  ~ (forall maxk stepk kdraw (q : kcall (V:=Z) (D:=bool) (W:=wcs)) i st e, (0 < stepk)%R -> (0 < maxk)%R ->
       q_image q = Some i -> bdef (ibnd i) = true ->
       drawKImage Twcs false euclid (fun _ => true) false maxk stepk kdraw q = (st, Err e) ->
       exists j, st = Some j /\ eqI (ibnd j) (ibnd i) = true).
Proof.
  intro H.
  assert (E : exists st, drawKImage Twcs false euclid (fun _ => true) false 1 1 (fun _ _ => iarr sheared)
                (KCall (Some sheared) None None None None false true false) = (Some st, Err GalSimError) /\ eqI (ibnd st) (ibnd sheared) = false).
  { eexists. split; reflexivity. }
  destruct E as (st & E & F). destruct (H 1%R 1%R _ (KCall (Some sheared) None None None None false true false) sheared _ _ ltac:(lra) ltac:(lra) eq_refl eq_refl E) as (j & J & G).
  injection J as <-. congruence.
Qed.
Print Assumptions C126_failure_refuted.

Example C126_witness : (forall w dx dy, is_pixel euclid (wshift Twcs w dx dy) = is_pixel euclid w) /\
  exists im, drawKImage Twcs false euclid (fun _ => true) false 1 1 (fun _ _ => iarr fixed) (KCall (Some fixed) None None None None false true false) = (Some im, Ok im) /\
    iwcs im = Some (WLoc (LPix 1)).
Proof.
  split.
  - intros [[s|s g|m]|s o1 o2|s g o1 o2|m o1 o2] dx dy; reflexivity.
  - unfold drawKImage. cbn -[nonpos IZR]. unfold k_spacing. rewrite nonpos_1. eexists. split; reflexivity.
Qed.
