(** Photon arrays filled by interpolants and images; means over the choices of pixels. *)
From Coq Require Import ZArith Reals Bool List Lra Lia Arith Permutation.
From Coquelicot Require Import Coquelicot.
From Verif Require Import Base Array_Model Bounds_Model Bounds_Proofs FFT_Model Geo_Model Size_Model Interp_Model II_Model WCS_Model MSum II_Spec II_Inv II_Pad II_Size II_Prof Photon_Model Photon_Spec
  Photon_Lists Photon_Proofs Photon_Conv Shoot_Model Shoot_Spec.
Import ListNotations.
Open Scope R_scope.

(** * Filling *)
Definition alike (q p : parr) : Prop := wfp q /\ pN q = pN p /\ pnk q = pnk p /\ pcorr q = pcorr p.
Lemma alike_refl : forall p, wfp p -> alike p p. Proof. intros. repeat split; try reflexivity; apply H. Qed.
Lemma alike_trans : forall a b c, alike a b -> alike b c -> alike a c.
Proof. intros a b c (W & A & B & C) (_ & D & E & F). split; [exact W|]. repeat split; congruence. Qed.
Lemma alike_kept : forall q p, alike q p -> all_kept p -> all_kept q.
Proof. intros q p (_ & N & K & _) A i I. unfold all_kept, kept in *. rewrite N in *. rewrite K. apply A, I. Qed.
Lemma alike_num : forall q p, alike q p -> num_keep q = num_keep p.
Proof. intros q p (_ & _ & K & _). unfold num_keep. now rewrite K. Qed.
Lemma set_x_ok : forall p v l, wfp p -> bcast (pN p) v = Ok l -> set_x p v = Ok (set_pxy p l (py_ p)) /\ alike (set_pxy p l (py_ p)) p.
Proof.
  intros p v l W B. unfold set_x. rewrite B. split; [reflexivity|]. apply bcast_length in B. split; [|repeat split]. apply set_pxy_wf; [exact W|exact B|apply W].
Qed.
Lemma set_y_ok : forall p v l, wfp p -> bcast (pN p) v = Ok l -> set_y p v = Ok (set_pxy p (px p) l) /\ alike (set_pxy p (px p) l) p.
Proof.
  intros p v l W B. unfold set_y. rewrite B. split; [reflexivity|]. apply bcast_length in B. split; [|repeat split]. apply set_pxy_wf; [exact W|apply W|exact B].
Qed.
Lemma set_flux_ok : forall p v l, wfp p -> all_kept p -> (1 <= pN p)%nat -> bcast (pN p) v = Ok l ->
  exists q, set_flux p v = Ok q /\ alike q p /\ px q = px p /\ py_ q = py_ p /\ forall i, (i < pN p)%nat -> vis q i = nth i l 0.
Proof.
  intros p v l W K N B. assert (E : exists q, set_flux p v = Ok q) by (unfold set_flux; rewrite B; eexists; reflexivity). destruct E as (q & E). exists q. split; [exact E|].
  destruct (set_flux_wf _ _ _ W E) as (Wq & A & D & F & G). assert (C : pcorr q = pcorr p) by (destruct (set_flux_inv _ _ _ E) as (l' & _ & ->); reflexivity).
  split; [repeat split; try assumption; apply Wq|]. split; [exact F|]. split; [exact G|].
  pose proof (all_kept_num p W K) as NK. intros i I. rewrite (set_flux_read p v q l W ltac:(lia) B E i I). destruct (K i I) as [_ KI]. rewrite (nth_mask_d p i false true W I), KI. reflexivity.
Qed.
Lemma fill : forall p vx vy lx ly (vf : parr -> vals R) lf, wfp p -> all_kept p -> (1 <= pN p)%nat -> bcast (pN p) vx = Ok lx -> bcast (pN p) vy = Ok ly -> bcast (pN p) (vf (set_pxy p lx ly)) = Ok lf ->
  exists q, bind (set_x p vx) (fun p => bind (set_y p vy) (fun p => set_flux p (vf p))) = Ok q /\ alike q p /\ px q = lx /\ py_ q = ly /\ forall i, (i < pN p)%nat -> vis q i = nth i lf 0.
Proof.
  intros p vx vy lx ly vf lf W K N X Y F. destruct (set_x_ok p vx lx W X) as [E1 A1]. destruct (set_y_ok (set_pxy p lx (py_ p)) vy ly (proj1 A1) Y) as [E2 A2].
  change (set_pxy (set_pxy p lx (py_ p)) (px (set_pxy p lx (py_ p))) ly) with (set_pxy p lx ly) in *. pose proof (alike_trans _ _ _ A2 A1) as A.
  destruct (set_flux_ok (set_pxy p lx ly) (vf (set_pxy p lx ly)) lf (proj1 A) (alike_kept _ _ A K) N F) as (q & E3 & A3 & QX & QY & V). exists q. rewrite E1. cbn [bind]. rewrite E2. cbn [bind]. split; [exact E3|]. split; [eapply alike_trans; [exact A3|exact A]|]. split; [exact QX|]. split; [exact QY|exact V].
Qed.
Lemma nth_repeat_lt : forall A (v d : A) n i, (i < n)%nat -> nth i (repeat v n) d = v.
Proof. intros A v d n. induction n as [|n IH]; intros i I; [lia|]. destruct i; [reflexivity|]. apply IH. lia. Qed.

(** * Interpolants *)
Section IP.
  Variable kva : R.
  Variable LK : Z -> nat -> R.
  Variable pf nf : interpolant -> R.
  Variable search : nat -> (nat -> R) -> R -> nat.
  Let shoot := ip_shoot kva LK pf nf search.
  Lemma ip_alike : forall i n us p q, wfp p -> shoot i n us p = Ok q -> alike q p.
  Proof using Type.
    assert (G : forall p q vx vy (vf : parr -> vals R), wfp p -> bind (set_x p vx) (fun p => bind (set_y p vy) (fun p => set_flux p (vf p))) = Ok q -> alike q p).
    { intros p q vx vy vf W H. destruct (set_x p vx) as [a|] eqn:E1; [|discriminate]. cbn [bind] in H. destruct (set_x_inv _ _ _ E1) as (l1 & B1 & ->). destruct (set_x_ok p vx l1 W B1) as [_ A1].
      destruct (set_y _ vy) as [b|] eqn:E2 in H; [|discriminate]. cbn [bind] in H. destruct (set_y_inv _ _ _ E2) as (l2 & B2 & ->). destruct (set_y_ok _ vy l2 (proj1 A1) B2) as [_ A2].
      destruct (set_flux_wf _ _ _ (proj1 A2) H) as (Wq & A & D & _). eapply alike_trans; [|exact A1]. eapply alike_trans; [|exact A2]. split; [exact Wq|]. split; [exact D|]. split; [exact A|]. destruct (set_flux_inv _ _ _ H) as (l' & _ & ->). reflexivity. }
    intros i n us p q W H. unfold shoot, ip_shoot in H. cbv zeta in H. destruct i; try discriminate; exact (G p q _ _ (fun p => _) W H).
  Qed.
  Lemma combine_map_nth : forall (f : R * R -> R) a b N k, length a = N -> length b = N -> (k < N)%nat -> nth k (map f (combine a b)) 0 = f (nth k a 0, nth k b 0).
  Proof using Type.
    intros f a b N k A B L. rewrite (nth_indep _ 0 (f (0, 0))) by (rewrite map_length, combine_length; lia). rewrite map_nth. f_equal. rewrite combine_nth by lia. reflexivity.
  Qed.
  Lemma map_nth0 : forall (f : R -> R) l k, (k < length l)%nat -> nth k (map f l) 0 = f (nth k l 0).
  Proof using Type. intros f l k L. rewrite (nth_indep _ 0 (f 0)) by (rewrite map_length; lia). apply map_nth. Qed.
  Lemma generic_photons : forall i n us p, In i [Cubic; Quintic] \/ (exists m dc, i = Lanczos m dc) -> wfp p -> all_kept p -> (1 <= pN p)%nat -> length (us 0%nat) = pN p -> length (us 1%nat) = pN p ->
    exists q, shoot i n us p = Ok q /\ alike q p /\ forall k, (k < pN p)%nat ->
      nth k (px q) 0 = shoot_pos kva LK search i n (nth k (us 0%nat) 0) /\ nth k (py_ q) 0 = shoot_pos kva LK search i n (nth k (us 1%nat) 0) /\
      vis q k = (pf i + nf i) * sgn (xval kva LK i (nth k (px q) 0)) * ((pf i + nf i) * sgn (xval kva LK i (nth k (py_ q) 0))) / INR (pN p).
  Proof using Type.
    intros i n us p T W K N L0 L1. unfold shoot.
    set (lx := map (shoot_pos kva LK search i n) (us 0%nat)). set (ly := map (shoot_pos kva LK search i n) (us 1%nat)).
    assert (LX : length lx = pN p) by (unfold lx; now rewrite map_length). assert (LY : length ly = pN p) by (unfold ly; now rewrite map_length).
    set (lf := map (fun t => (if (0 <? pN p)%nat then (pf i + nf i) ^ 2 / INR (pN p) else 0) * sgn (xval kva LK i (fst t)) * sgn (xval kva LK i (snd t))) (combine lx ly)).
    assert (LF : length lf = pN p) by (unfold lf; rewrite map_length, combine_length; lia).
    destruct (fill p (Array lx) (Array ly) lx ly (fun p' => Array (map (fun t => (if (0 <? pN p')%nat then (pf i + nf i) ^ 2 / INR (pN p) else 0) * sgn (xval kva LK i (fst t)) * sgn (xval kva LK i (snd t))) (combine (px p') (py_ p')))) lf W K N) as (q & E & A & QX & QY & V).
    - apply bcast_array, LX.
    - apply bcast_array, LY.
    - apply bcast_array. exact LF.
    - exists q. split; [|split; [exact A|]].
      + rewrite <- E. destruct T as [[<-|[<-|[]]]|(m & dc & ->)]; reflexivity.
      + intros k KN. rewrite QX, QY, V by assumption. unfold lx at 1, ly at 1. rewrite !map_nth0 by lia. split; [reflexivity|]. split; [reflexivity|]. unfold lf. rewrite (combine_map_nth _ lx ly (pN p)) by assumption. cbn [fst snd].
        destruct (Nat.ltb_spec 0 (pN p)) as [_|H]; [|lia]. assert (INR (pN p) <> 0) by (apply not_0_INR; lia). field. assumption.
  Qed.
  Lemma delta_photons : forall n us p, wfp p -> all_kept p -> (1 <= pN p)%nat -> exists q, shoot Delta n us p = Ok q /\ alike q p /\ forall k, (k < pN p)%nat -> nth k (px q) 0 = 0 /\ nth k (py_ q) 0 = 0 /\ vis q k = 1 / INR (pN p).
  Proof using Type.
    intros n us p W K N. destruct (fill p (Scalar 0) (Scalar 0) (repeat 0 (pN p)) (repeat 0 (pN p)) (fun _ => Scalar (1 / INR (pN p))) (repeat (1 / INR (pN p)) (pN p)) W K N eq_refl eq_refl eq_refl) as (q & E & A & QX & QY & V).
    exists q. split; [exact E|]. split; [exact A|]. intros k KN. rewrite QX, QY, V, !nth_repeat_lt by assumption. auto.
  Qed.
  Lemma nearest_photons : forall n us p, wfp p -> all_kept p -> (1 <= pN p)%nat -> length (us 0%nat) = pN p -> length (us 1%nat) = pN p ->
    exists q, shoot Nearest n us p = Ok q /\ alike q p /\ forall k, (k < pN p)%nat -> nth k (px q) 0 = nth k (us 0%nat) 0 - 1 / 2 /\ nth k (py_ q) 0 = nth k (us 1%nat) 0 - 1 / 2 /\ vis q k = 1 / INR (pN p).
  Proof using Type.
    intros n us p W K N L0 L1.
    destruct (fill p (Array (map (fun u => u - 1 / 2) (us 0%nat))) (Array (map (fun u => u - 1 / 2) (us 1%nat))) (map (fun u => u - 1 / 2) (us 0%nat)) (map (fun u => u - 1 / 2) (us 1%nat)) (fun _ => Scalar (1 / INR (pN p))) (repeat (1 / INR (pN p)) (pN p)) W K N) as (q & E & A & QX & QY & V).
    - apply bcast_array. now rewrite map_length.
    - apply bcast_array. now rewrite map_length.
    - reflexivity.
    - exists q. split; [exact E|]. split; [exact A|]. intros k KN. rewrite QX, QY, V, nth_repeat_lt by assumption. rewrite !(map_nth0 (fun u => u - 1 / 2)) by lia. auto.
  Qed.
  Lemma linear_photons : forall n us p, wfp p -> all_kept p -> (1 <= pN p)%nat -> (forall j, (j < 4)%nat -> length (us j) = pN p) ->
    exists q, shoot Linear n us p = Ok q /\ alike q p /\ forall k, (k < pN p)%nat -> nth k (px q) 0 = nth k (us 0%nat) 0 + nth k (us 1%nat) 0 - 1 /\ nth k (py_ q) 0 = nth k (us 2%nat) 0 + nth k (us 3%nat) 0 - 1 /\ vis q k = 1 / INR (pN p).
  Proof using Type.
    intros n us p W K N L. pose proof (L 0%nat ltac:(lia)) as L0. pose proof (L 1%nat ltac:(lia)) as L1. pose proof (L 2%nat ltac:(lia)) as L2. pose proof (L 3%nat ltac:(lia)) as L3. set (two := fun a b : list R => map (fun t => fst t + snd t - 1) (combine a b)).
    assert (LT : forall a b, length a = pN p -> length b = pN p -> length (two a b) = pN p) by (intros a b A B; unfold two; rewrite map_length, combine_length; lia).
    destruct (fill p (Array (two (us 0%nat) (us 1%nat))) (Array (two (us 2%nat) (us 3%nat))) (two (us 0%nat) (us 1%nat)) (two (us 2%nat) (us 3%nat)) (fun _ => Scalar (1 / INR (pN p))) (repeat (1 / INR (pN p)) (pN p)) W K N) as (q & E & A & QX & QY & V).
    - apply bcast_array. now apply LT.
    - apply bcast_array. now apply LT.
    - reflexivity.
    - exists q. split; [exact E|]. split; [exact A|]. intros k KN. rewrite QX, QY, V, nth_repeat_lt by assumption. unfold two. rewrite !(combine_map_nth _ _ _ (pN p)) by assumption. auto.
  Qed.
End IP.
