(** Equality of interpolated images; programs that show what goes wrong. *)
From Coq Require Import ZArith Reals Lra Lia ZifyBool Bool List.
From Coquelicot Require Import Coquelicot.
From Verif Require Import Base Array_Model Bounds_Model Bounds_Proofs FFT_Model FFT_Spec FFT_Proofs Geo_Model Geo_Proofs WCS_Model
  WCS_Spec WCS_Proofs WCS_Prof MSum Interp_Model Interp_Spec Interp_Kernels II_Model II_Spec II_Proofs II_Pad II_Size II_Prof.
Import ListNotations.
Open Scope R_scope.

Lemma bind_ok : forall A B (r : res A) (f : A -> res B) v, bind r f = Ok v -> exists a, r = Ok a /\ f a = Ok v.
Proof. intros A B [a|e] f v H; [now exists a|discriminate]. Qed.
Lemma reqb_eq : forall a b, Reqb a b = true <-> a = b.
Proof. intros a b. destruct (Reqb_spec a b); split; intro; try assumption; try reflexivity; try discriminate; contradiction. Qed.
Lemma image_eq : forall u v, image_eqb u v = true -> same_image u v.
Proof.
  intros u v H. unfold image_eqb in H. apply andb_prop in H. destruct H as [H F].
  assert (Sh : same_shape u v) by (unfold same_shape; lia). split; [exact Sh|]. intros x y.
  destruct (has_dec u x y) as [h|h].
  - pose proof (same_has u v x y Sh h) as h'. rewrite !pixel_in by assumption. destruct Sh as (A & B & _ & _). rewrite <- A, <- B.
    rewrite forallb_forall in F. unfold has_pixel in h.
    specialize (F (Z.to_nat (y - ry u)) ltac:(apply in_seq; lia)). rewrite forallb_forall in F.
    specialize (F (Z.to_nat (x - rx u)) ltac:(apply in_seq; lia)). apply reqb_eq in F. rewrite !Z2Nat.id in F by lia. exact F.
  - rewrite !pixel_out; [reflexivity| |exact h]. intro h'. apply h. apply (same_has v u); [|exact h']. destruct Sh as (A & B & D & E). unfold same_shape. auto.
Qed.
Lemma image_eq_refl : forall u, image_eqb u u = true.
Proof.
  intro u. unfold image_eqb. rewrite !Z.eqb_refl. cbn [andb]. apply forallb_forall. intros i _. apply forallb_forall. intros j _. now apply reqb_eq.
Qed.
Lemma interp_eq : forall a b, interp_eqb a b = true <-> a = b.
Proof.
  intros a b. split.
  - destruct a, b; cbn; intro H; try discriminate; try reflexivity. apply andb_prop in H. destruct H as [H1 H2]. apply Z.eqb_eq in H1. apply Bool.eqb_prop in H2. now subst.
  - intros ->. destruct b; cbn; auto. now rewrite Z.eqb_refl, Bool.eqb_reflx.
Qed.
Section S.
  Variables kva fold mkth : R.
  Variable LK : Z -> nat -> R.
  Variable ur : interpolant -> R.
  Lemma eq_values : forall p q pos, usable p -> usable q -> i_wcs p = i_wcs q -> regular_l (i_wcs p) -> total_flux (i_img p) <> 0 ->
    ii_eq kva fold mkth ur p q = Ok true -> ii_xValue kva LK p pos = ii_xValue kva LK q pos /\ ii_flux p = ii_flux q.
  Proof.
    intros p q pos Up Uq W Rg T E. unfold ii_eq in E.
    apply bind_ok in E. destruct E as (u & Eu & E). apply bind_ok in E. destruct E as (v & Ev & E).
    apply bind_ok in E. destruct E as (s & _ & E). apply bind_ok in E. destruct E as (t & _ & E).
    apply bind_ok in E. destruct E as (m & _ & E). apply bind_ok in E. destruct E as (n & _ & E).
    injection E as E. apply andb_prop in E. destruct E as [E _]. apply andb_prop in E. destruct E as [E _].
    apply andb_prop in E. destruct E as [E O2]. apply andb_prop in E. destruct E as [E O1]. apply andb_prop in E. destruct E as [E F].
    apply andb_prop in E. destruct E as [E _]. apply andb_prop in E. destruct E as [I X].
    apply reqb_eq in O1, O2, F. apply interp_eq in X. apply image_eq in I.
    pose proof (usable_pad p Up) as Pp. pose proof (usable_pad q Uq) as Pq.
    assert (Px : forall x y, pixel (ii_image p) x y = pixel (ii_image q) x y).
    { destruct Up as (Np & Rp & _), Uq as (Nq & Rq & _).
      destruct (xim_ok p Np Rp Pp) as (u' & Eu' & _ & _ & _ & _ & _ & Hu). rewrite Eu in Eu'. injection Eu' as <-.
      destruct (xim_ok q Nq Rq Pq) as (v' & Ev' & _ & _ & _ & _ & _ & Hv). rewrite Ev in Ev'. injection Ev' as <-.
      intros x y. rewrite <- Hu, <- Hv. apply I. }
    assert (Tt : image_flux p = image_flux q).
    { unfold image_flux. rewrite !asum_total. apply total_any; [apply image_nonempty; apply Up|apply image_nonempty; apply Uq|exact Px]. }
    assert (Rt : outer_flux_ratio p = outer_flux_ratio q).
    { unfold ii_flux in F. rewrite <- W, Tt in F. destruct (area_det _ Rg) as [D _]. apply Rabs_no_R0 in D.
      rewrite image_total in Tt. rewrite Tt in T. apply Rmult_eq_reg_r in F; [|exact T]. apply Rmult_eq_reg_l in F; [|exact D]. exact F. }
    split; [|exact F]. unfold ii_xValue. rewrite !impl_x by assumption. cbn [bind]. rewrite <- W, X, O1, O2, Rt.
    do 2 f_equal. now apply windowed_pixels.
  Qed.
  (** Changing the wcs to another one of the same scales gives an equal object. *)
  Definition with_wcs (p : iip) (w : lwcs) : iip :=
    IIP (i_img p) w (i_flux p) (i_sb p) (i_off p) (i_true p) (i_recenter p) (i_pad p) (i_x p) (i_k p) (i_cs p) (i_cm p) (i_fs p) (i_fm p).
  Lemma eq_other_wcs : forall p w u s m, ii_xim p = Ok u -> ii_stepk kva fold p = Ok s -> ii_maxk mkth ur p = Ok m ->
    l_min w = l_min (i_wcs p) -> l_max w = l_max (i_wcs p) -> l_area w = l_area (i_wcs p) -> Rabs (mdet (l_jac w)) = Rabs (mdet (l_jac (i_wcs p))) ->
    ii_eq kva fold mkth ur p (with_wcs p w) = Ok true.
  Proof.
    intros p w u s m Eu Es Em Wm WM Wa Wd. unfold ii_eq.
    assert (Eu' : ii_xim (with_wcs p w) = Ok u) by exact Eu.
    assert (Es' : ii_stepk kva fold (with_wcs p w) = Ok s).
    { rewrite <- Es. unfold ii_stepk. cbn [i_fs i_wcs with_wcs]. rewrite Wm. reflexivity. }
    assert (Em' : ii_maxk mkth ur (with_wcs p w) = Ok m).
    { rewrite <- Em. unfold ii_maxk. cbn [i_fm i_wcs with_wcs]. rewrite WM. reflexivity. }
    assert (Ef : ii_flux (with_wcs p w) = ii_flux p).
    { unfold ii_flux, outer_flux_ratio, impl_flux_ratio. cbn [i_wcs with_wcs i_flux i_sb]. rewrite Wd, Wa. reflexivity. }
    rewrite Eu, Eu', Es, Es', Em, Em', Ef. cbn [bind]. rewrite image_eq_refl.
    change (i_x (with_wcs p w)) with (i_x p). change (i_k (with_wcs p w)) with (i_k p). change (ii_offset (with_wcs p w)) with (ii_offset p).
    rewrite !(proj2 (interp_eq _ _)) by reflexivity. rewrite !(proj2 (reqb_eq _ _)) by reflexivity. reflexivity.
  Qed.
End S.

(** A row of three pixels 1, 2, 3 *)
Definition row3 : iip :=
  IIP (RImg (Arr 1 3 (fun _ j => IZR (j + 1))) 1 1) (LJac (Mat 1 0 0 1)) None false (0, 0) true true 4 Linear Quintic CNo CNo 0 0.
Definition quarter_turn : lwcs := LJac (Mat 0 (-1) 1 0).
Lemma row3_usable : forall w, usable (with_wcs row3 w).
Proof. intro w. unfold usable, with_wcs, row3, nonempty. cbn. split; [lia|]. split; [reflexivity|]. split; [lra|]. left. lia. Qed.
Lemma row3_flux : image_flux row3 = 6.
Proof. rewrite image_total. unfold total_flux, over_pixels, row3, zsum. cbn [i_img ra nrow ncol elt rx ry]. simpl. lra. Qed.
Lemma turn_scales : l_min quarter_turn = l_min (i_wcs row3) /\ l_max quarter_turn = l_max (i_wcs row3).
Proof.
  unfold quarter_turn, row3, l_min, l_max. cbn [i_wcs m00 m01 m10 m11].
  replace ((0 + 0) ^ 2 + (-1 - 1) ^ 2) with ((1 + 1) ^ 2 + (0 - 0) ^ 2) by ring. replace ((0 - 0) ^ 2 + (-1 + 1) ^ 2) with ((1 - 1) ^ 2 + (0 + 0) ^ 2) by ring. auto.
Qed.
Lemma eq_wcs_refuted : forall kva fold mkth LK ur, 0 < kva ->
  ii_eq kva fold mkth ur row3 (with_wcs row3 quarter_turn) = Ok true /\
  ii_xValue kva LK row3 (1, 0) = Ok 3 /\ ii_xValue kva LK (with_wcs row3 quarter_turn) (1, 0) = Ok 0.
Proof.
  intros kva fd mkth LK ur K0. pose proof (row3_usable (i_wcs row3)) as U. change (with_wcs row3 (i_wcs row3)) with row3 in U.
  split; [|split].
  - pose proof (usable_pad _ U) as Pd. destruct U as (N & Rc & U'). destruct (xim_ok row3 N Rc Pd) as (u & Eu & _).
    destruct (usable_image row3 (conj N (conj Rc U'))) as (im & Ei & _). destruct turn_scales as [A B].
    apply eq_other_wcs with u (simple_stepk kva row3 (IZR (Z.max (nrow (ra im)) (ncol (ra im))) / 2 - 1 / 2) / l_min (i_wcs row3))
      (2 * PI * ur Linear / l_max (i_wcs row3)); auto.
    + unfold ii_stepk. cbn [i_fs row3]. destruct (Rltb_spec 0 0); [lra|]. unfold impl_stepk, stepk_radius. rewrite Ei. reflexivity.
    + unfold ii_maxk. cbn [i_fm row3]. destruct (Rltb_spec 0 0); [lra|]. reflexivity.
    + unfold l_area, quarter_turn, row3, mdet. cbn. f_equal. ring.
    + unfold quarter_turn, row3, mdet. cbn. f_equal. ring.
  - pose proof (at_pixel kva LK row3 0 2 K0 U) as H. cbn [row3 i_wcs i_img ra nrow ncol l_jac i_x] in H. fold row3 in H.
    specialize (H ltac:(unfold mdet; cbn [m00 m01 m10 m11]; lra) I ltac:(lia) ltac:(lia)).
    rewrite offset_true in H by reflexivity. cbn [row3 i_off fst snd i_img ra nrow ncol elt mapp] in H. fold row3 in H.
    replace (outer_flux_ratio row3) with 1 in H.
    2: { unfold outer_flux_ratio, impl_flux_ratio. rewrite row3_flux. unfold l_area, row3, mdet. cbn [i_flux i_sb i_wcs m00 m01 m10 m11]. replace (1 * 1 - 0 * 0) with 1 by ring. rewrite Rabs_R1. lra. }
    replace (IZR (2 + 1) * 1) with 3 in H by (change (2 + 1)%Z with 3%Z; lra). rewrite <- H. f_equal.
    unfold mapp. cbn [m00 m01 m10 m11 fst snd]. change (3 / 2)%Z with 1%Z. change (1 / 2)%Z with 0%Z. change ((3 + 1) mod 2)%Z with 0%Z. change ((1 + 1) mod 2)%Z with 0%Z.
    f_equal; cbn; lra.
  - pose proof (row3_usable quarter_turn) as V. set (q := with_wcs row3 quarter_turn) in *.
    assert (D : mdet (l_jac (i_wcs q)) <> 0) by (unfold q, quarter_turn, with_wcs, l_jac, mdet; cbn; lra).
    replace (1, 0) with (mapp (l_jac (i_wcs q)) (0, -1)).
    2: { unfold q, quarter_turn, with_wcs, l_jac, mapp. cbn. f_equal; lra. }
    rewrite ii_x by assumption. rewrite offset_true by reflexivity. cbn [fst snd]. f_equal.
    change (IZR ((ncol (ra (i_img q)) + 1) mod 2)) with 0. change (IZR ((nrow (ra (i_img q)) + 1) mod 2)) with 0.
    change (fst (i_off q)) with 0. change (snd (i_off q)) with 0.
    replace (0 + (0 - 1 / 2 * 0)) with (IZR 0) by lra. replace (-1 + (0 - 1 / 2 * 0)) with (IZR (-1)) by (change (IZR (-1)) with (-1); lra).
    rewrite windowed_center; [|apply irange_pos; [exact K0|exact I]|apply cardinal_kernels; exact I].
    rewrite pixel_out; [ring|]. unfold has_pixel, q, with_wcs, row3, ii_image, centered. cbn. lia.
Qed.
