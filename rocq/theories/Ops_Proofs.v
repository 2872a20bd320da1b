(** Proofs about the arithmetic of profiles. *)
From Coq Require Import Reals Bool List Arith Lra Lia.
From Coquelicot Require Import Complex.
From Verif Require Import Base Bounds_Model Bounds_Proofs Geo_Model GSP_Model Prof_Model Prof_Spec Prof_Proofs Prof_Combine Prof_Conv Ops_Model Ops_Spec.
Import ListNotations.
Open Scope R_scope.

Lemma mI_mdot : forall J, mdot mI J = J.
Proof. intros [a b c d]. unfold mdot, mI. cbn [m00 m01 m10 m11]. f_equal; ring. Qed.
Lemma mI_mapp : forall v, mapp mI v = v.
Proof. intros [x y]. unfold mapp, mI. cbn [m00 m01 m10 m11 fst snd]. f_equal; ring. Qed.
Lemma vadd_0 : forall v, vadd (0, 0) v = v.
Proof. intros [x y]. unfold vadd. cbn [fst snd]. f_equal; ring. Qed.
Lemma vsub_0 : forall v, vsub v (0, 0) = v.
Proof. intros [x y]. unfold vsub. cbn [fst snd]. f_equal; ring. Qed.
Lemma mdet_mI : mdet mI = 1.
Proof. unfold mdet, mI. cbn [m00 m01 m10 m11]. ring. Qed.
Lemma minv_mI : minv mI = mI.
Proof. unfold minv. rewrite mdet_mI. unfold mI. cbn [m00 m01 m10 m11]. f_equal; field. Qed.
Lemma mT_mI : mT mI = mI.
Proof. reflexivity. Qed.

Lemma Cm1 : RtoC (-1) = Copp (RtoC 1).
Proof. rewrite <- RtoC_opp. f_equal. Qed.
Lemma scaled_flux : forall p c, flux (scaled p c) = flux p * c.
Proof. intros p c. unfold scaled. rewrite tr_flux, mdet_mI, Rabs_R1. ring. Qed.
Lemma scaled_k : forall p c k, kValue (scaled p c) k = Cmult (kValue p k) (RtoC c).
Proof.
  intros p c k. unfold scaled. rewrite tr_k, mT_mI, mI_mapp. f_equal.
  unfold kfactor. rewrite mdet_mI, Rabs_R1. cbn [fst snd].
  replace (- (fst k * 0) + - (snd k * 0)) with 0 by ring. rewrite expi_0, Rmult_1_l. ring.
Qed.
Lemma scaled_x : forall p c x, xValue (scaled p c) x = bind (xValue p x) (fun v => Ok (v * c)).
Proof.
  intros p c x. unfold scaled. rewrite mkTransform_default.
  destruct p as [own fam fl g|o J off fr g pg|l g pg|l g pg|o g pg]; cbn [xValue];
    try (rewrite minv_mI, mI_mapp, vsub_0; reflexivity).
  - rewrite mI_mdot, mI_mapp, vadd_0. destruct (xValue o (mapp (minv J) (vsub x off))); cbn [bind]; [|reflexivity]. f_equal. ring.
  - reflexivity.
  - reflexivity.
Qed.
Lemma plain_scaled : forall p c, plain p -> plain (scaled p c).
Proof.
  intros p c [[h U] A]. split.
  - exists h. exact (uniform_mkTransform h p mI (0, 0) c None U).
  - unfold scaled. rewrite mkTransform_default. destruct p as [own fam fl g|o J off fr g pg|l g pg|l g pg|o g pg];
      try (split; [exact Logic.I|exact A]).
    split; [exact Logic.I|]. exact (proj2 A).
Qed.
Lemma accuracy_free_setg : forall g p, accuracy_free p -> accuracy_free (setg g p).
Proof.
  intros g p. induction p as [own fam fl g0|o J off fr g0 pg IH|l g0 pg IH|l g0 pg IH|o g0 pg IH] using prof_ind2; intros A; cbn [setg].
  - destruct A as [A _]. split; [|exact Logic.I]. intro g'. destruct (A g') as (A1 & A2 & A3 & A4). destruct (A g) as (B1 & B2 & B3 & B4).
    split; [congruence|]. split; [congruence|]. split; intros; congruence.
  - destruct A as [_ A]. split; [exact Logic.I|exact (IH A)].
  - destruct A as [_ A]. apply every_list in A. split; [exact Logic.I|]. apply every_list.
    rewrite Forall_forall in IH, A |- *. intros o Ho. apply in_map_iff in Ho. destruct Ho as (q & <- & Hq). apply IH; auto. apply A; auto.
  - destruct A as [_ A]. apply every_list in A. split; [exact Logic.I|]. apply every_list.
    rewrite Forall_forall in IH, A |- *. intros o Ho. apply in_map_iff in Ho. destruct Ho as (q & <- & Hq). apply IH; auto. apply A; auto.
  - destruct A as [[] _].
Qed.
Lemma plain_sum : forall l s, Forall plain l -> mkSum l None true = Ok s -> plain s.
Proof.
  intros l s P E. split.
  - exists (gsparams s). apply (uniform_mkSum l None s); [|exact E]. rewrite Forall_forall in P |- *. intros o Ho. exact (proj1 (P o Ho)).
  - apply plain_flat in P as PF. rewrite mkSum_eq in E. destruct l as [|a t]; [discriminate|].
    destruct (gspR_combine (map gsparams (flat (a :: t)))) as [g|]; [|discriminate]. cbn [bind] in E. injection E as <-.
    split; [exact Logic.I|]. apply every_list. rewrite Forall_forall in PF |- *. intros o Ho. apply in_map_iff in Ho.
    destruct Ho as (q & <- & Hq). destruct (PF q Hq) as [[h U] A]. rewrite (withGSP_setg h g q U). exact (accuracy_free_setg g q A).
Qed.
Lemma full_flat : forall p q, full p -> flat [p; q] <> [].
Proof.
  intros p q F. destruct p as [| |l g pg| |]; cbn; try discriminate. cbn in F. destruct l; [congruence|discriminate].
Qed.
Lemma mkSum_ok : forall p q, full p -> exists s, mkSum [p; q] None true = Ok s /\ full s.
Proof.
  intros p q F. rewrite mkSum_eq.
  destruct (combineR_ok (map gsparams (flat [p; q]))) as (g & Eg & _).
  { intro K. apply map_eq_nil in K. exact (full_flat p q F K). }
  rewrite Eg. cbn [bind]. eexists. split; [reflexivity|]. cbn [full]. intro K. apply map_eq_nil in K. exact (full_flat p q F K).
Qed.
Lemma full_scaled : forall p c, full (scaled p c).
Proof. intros p c. unfold scaled. rewrite mkTransform_default. destruct p; exact Logic.I. Qed.

Lemma agree_sum2 : forall a b a' b' : res R, agree a a' -> agree b b' -> agree (sumres [a; b]) (lift2 Rplus a' b').
Proof.
  intros [x|e] [y|e'] [x'|e1] [y'|e2] H1 H2; cbn in *; try tauto; subst; ring.
Qed.
Lemma agree_bind : forall (a a' : res R) (f : R -> R), agree a a' -> agree (bind a (fun v => Ok (f v))) (bind a' (fun v => Ok (f v))).
Proof. intros [x|e] [y|e'] f H; cbn in *; try tauto. now subst. Qed.

Lemma eval_ok : forall e, sound e ->
  exists p, eval e = Ok p /\ plain p /\ full p /\ flux p = flux_of e /\ (forall k, kValue p k = amp_of e k) /\ (forall x, agree (xValue p x) (sb_of e x)).
Proof.
  induction e as [p|a IHa b IHb|a IHa b IHb|a IHa c|a IHa c|a IHa]; intros S; cbn [eval sound] in *.
  - destruct S as [S F]. exists p. split; [reflexivity|]. split; [exact S|]. split; [exact F|]. split; [reflexivity|]. split; [reflexivity|]. intro x. apply agree_refl.
  - destruct S as [Sa Sb]. destruct (IHa Sa) as (p & -> & Pp & Fp & Hf & Hk & Hx). destruct (IHb Sb) as (q & -> & Pq & Fq & Gf & Gk & Gx).
    cbn [bind op_add]. destruct (mkSum_ok p q Fp) as (s & Es & Fs). rewrite Es. cbn [bind as_prof].
    assert (PL : Forall plain [p; q]) by (constructor; [exact Pp|constructor; [exact Pq|constructor]]).
    destruct (mkSum_values [p; q] None s PL Es) as (V1 & V2 & V3).
    exists s. split; [reflexivity|]. split; [exact (plain_sum _ s PL Es)|]. split; [exact Fs|]. split; [|split].
    + rewrite V1. cbn [flux_of map]. unfold sumR. cbn [fold_right]. rewrite Hf, Gf. ring.
    + intro k. rewrite V2. cbn [amp_of map]. unfold sumC. cbn [fold_right]. rewrite Hk, Gk. ring.
    + intro x. eapply agree_trans; [apply V3|]. cbn [map sb_of]. apply agree_sum2; [apply Hx|apply Gx].
  - destruct S as [Sa Sb]. destruct (IHa Sa) as (p & -> & Pp & Fp & Hf & Hk & Hx). destruct (IHb Sb) as (q & -> & Pq & Fq & Gf & Gk & Gx).
    cbn [bind op_sub]. destruct (mkSum_ok p (scaled q (-1)) Fp) as (s & Es & Fs). rewrite Es. cbn [bind as_prof].
    assert (PL : Forall plain [p; scaled q (-1)]) by (constructor; [exact Pp|constructor; [exact (plain_scaled q _ Pq)|constructor]]).
    destruct (mkSum_values _ None s PL Es) as (V1 & V2 & V3).
    exists s. split; [reflexivity|]. split; [exact (plain_sum _ s PL Es)|]. split; [exact Fs|]. split; [|split].
    + rewrite V1. cbn [flux_of map]. unfold sumR. cbn [fold_right]. rewrite scaled_flux, Hf, Gf. ring.
    + intro k. rewrite V2. cbn [amp_of map]. unfold sumC. cbn [fold_right]. rewrite scaled_k, Hk, Gk.
      rewrite Cm1. unfold Cminus. ring.
    + intro x. eapply agree_trans; [apply V3|]. cbn [map sb_of]. specialize (Hx x). specialize (Gx x). rewrite scaled_x.
      destruct (xValue p x) as [u|], (sb_of a x) as [u'|], (xValue q x) as [v|], (sb_of b x) as [v'|]; cbn in *; try tauto. subst. ring.
  - destruct (IHa S) as (p & -> & Pp & Fp & Hf & Hk & Hx). cbn [bind op_mul as_prof].
    exists (scaled p c). split; [reflexivity|]. split; [exact (plain_scaled p c Pp)|]. split; [apply full_scaled|]. split; [|split].
    + rewrite scaled_flux, Hf. reflexivity.
    + intro k. rewrite scaled_k, Hk. reflexivity.
    + intro x. rewrite scaled_x. cbn [sb_of]. exact (agree_bind _ _ (fun v => v * c) (Hx x)).
  - destruct S as [S N]. destruct (IHa S) as (p & -> & Pp & Fp & Hf & Hk & Hx). cbn [bind op_div].
    destruct (Reqb_spec c 0); [contradiction|]. cbn [op_mul as_prof].
    exists (scaled p (1 / c)). split; [reflexivity|]. split; [exact (plain_scaled p _ Pp)|]. split; [apply full_scaled|]. split; [|split].
    + rewrite scaled_flux, Hf. cbn [flux_of]. field. exact N.
    + intro k. rewrite scaled_k, Hk. cbn [amp_of]. unfold Cdiv. f_equal. rewrite <- RtoC_inv by exact N. f_equal. field. exact N.
    + intro x. rewrite scaled_x. cbn [sb_of]. specialize (Hx x). destruct (xValue p x) as [u|], (sb_of a x) as [v|]; cbn in *; try tauto. subst. field. exact N.
  - destruct (IHa S) as (p & -> & Pp & Fp & Hf & Hk & Hx). cbn [bind op_neg op_mul as_prof].
    exists (scaled p (-1)). split; [reflexivity|]. split; [exact (plain_scaled p _ Pp)|]. split; [apply full_scaled|]. split; [|split].
    + rewrite scaled_flux, Hf. cbn [flux_of]. ring.
    + intro k. rewrite scaled_k, Hk. cbn [amp_of]. rewrite Cm1. ring.
    + intro x. rewrite scaled_x. cbn [sb_of]. specialize (Hx x). destruct (xValue p x) as [u|], (sb_of a x) as [v|]; cbn in *; try tauto. subst. ring.
Qed.

(** * Arguments that can be changed *)
Lemma hstep_grows : forall st i, exists t, snd (hstep st i) = snd st ++ t.
Proof.
  intros [h os] i. unfold hstep. cbn [fst snd]. destruct (nth_error os (fst i)) as [p|]; [|exists []; cbn; now rewrite app_nil_r].
  destruct (hscale h p (snd i)) as [h' q]. exists [q]. reflexivity.
Qed.
Lemma hstep_heap : forall st i, harmless (snd st) i -> fst (hstep st i) = fst st.
Proof.
  intros [h os] [n s] [[v E]|[fl E]]; cbn [fst snd] in E |- *; unfold hstep; cbn [fst snd].
  - subst s. destruct (nth_error os n) as [[fl|fl s']|]; reflexivity.
  - rewrite E. reflexivity.
Qed.
Lemma hrun_safe : forall l st, harmless_run st l ->
  fst (hrun st l) = fst st /\ forall p, In p (snd st) -> In p (snd (hrun st l)) /\ hflux (fst (hrun st l)) p = hflux (fst st) p.
Proof.
  unfold hrun. induction l as [|i l IH]; intros st H; cbn [fold_left].
  - split; [reflexivity|]. intros p Hp. split; [exact Hp|reflexivity].
  - destruct H as [H1 H2]. destruct (IH _ H2) as [E1 E2]. rewrite (hstep_heap st i H1) in E1. split; [exact E1|].
    intros p Hp. destruct (hstep_grows st i) as [t Et].
    destruct (E2 p) as [K1 K2]; [rewrite Et; apply in_or_app; left; exact Hp|]. split; [exact K1|]. rewrite E1. reflexivity.
Qed.
Lemma hscale_flux : forall h p v, hflux (fst (hscale h p (Val v))) (snd (hscale h p (Val v))) = v * hflux h p.
Proof. intros h [fl|fl s] v; cbn; [reflexivity|ring]. Qed.
