(** The Jacobian of deproject along any differentiable path in the plane. *)
From Coq Require Import Reals Lra.
From Coquelicot Require Import Coquelicot.
From Verif Require Import Base Bounds_Model Bounds_Proofs Geo_Model Geo_Proofs Sky_Model Sky_Spec Sky_Proofs Sky_Jac.
Open Scope R_scope.

Definition rho (u v : R) : R := sqrt (u * u + v * v).
Lemma rho_sq : forall u v, rho u v * rho u v + 0 * 0 = u * u + v * v.
Proof. intros. unfold rho. rewrite sqrt_sqrt by (apply sq2_pos). ring. Qed.
Lemma csf_rho : forall p u v, csf p v u = csf p 0 (rho u v).
Proof. intros. unfold csf. now rewrite rho_sq. Qed.
Lemma csg_rho : forall p u v, csg p v u = csg p 0 (rho u v).
Proof. intros. unfold csg. now rewrite rho_sq. Qed.
Lemma rho_pos : forall u v, u <> 0 \/ v <> 0 -> 0 < rho u v.
Proof. intros u v H. unfold rho. apply sqrt_lt_R0. destruct H; nra. Qed.
Lemma jac_rho : forall p u v, plane_ok p (u * u + v * v) -> u <> 0 \/ v <> 0 -> let j := jac_cs p u v in let k := jac_cs p (rho u v) 0 in
  j_dcdu j = u / rho u v * j_dcdu k /\ j_dcdv j = v / rho u v * j_dcdu k /\ j_dsdu j = u / rho u v * j_dsdu k /\ j_dsdv j = v / rho u v * j_dsdu k.
Proof.
  intros p u v H N j k. pose proof (rho_pos u v N) as P. pose proof (rho_sq u v) as Q. unfold j, k. clear j k.
  set (r := rho u v) in *. destruct p; unfold jac_cs; rewrite Q; cbv zeta; cbn [j_dcdu j_dcdv j_dsdu j_dsdv plane_ok] in *.
  - assert (0 < sqrt (1 + (u * u + v * v))) by (apply sqrt_lt_R0; pose proof (sq2_pos u v); lra). repeat split; field; lra.
  - pose proof (sq2_pos u v). repeat split; field; lra.
  - assert (0 < sqrt (4 - (u * u + v * v))) by (apply sqrt_lt_R0; lra). repeat split; field; lra.
  - assert (E : sqrt (u * u + v * v) = r) by reflexivity. rewrite E. destruct (Reqb_spec r 0) as [e|e]; [lra|].
    assert (u * u + v * v <> 0) by nra. repeat split; field; lra.
Qed.
Lemma jac_zero : forall p, let j := jac_cs p 0 0 in j_dcdu j = 0 /\ j_dcdv j = 0 /\ j_dsdu j = 0 /\ j_dsdv j = 0.
Proof.
  intros p. unfold jac_cs. destruct p; cbv zeta; cbn [j_dcdu j_dcdv j_dsdu j_dsdv].
  - repeat split; ring.
  - repeat split; ring.
  - replace (4 - (0 * 0 + 0 * 0)) with (2 * 2) by ring. rewrite sqrt_square by lra. repeat split; lra.
  - replace (0 * 0 + 0 * 0) with 0 by ring. rewrite sqrt_0. destruct (Reqb_spec 0 0); [|lra]. repeat split; ring.
Qed.
(** Composition when the inner function is only Lipschitz, at a stationary point of the outer one *)
Lemma stationary : forall (f g : R -> R) (t K : R), 0 < K -> g t = 0 -> is_derive f 0 0 -> locally t (fun s => Rabs (g s) <= K * Rabs (s - t)) -> is_derive (fun s => f (g s)) t 0.
Proof.
  intros f g t K K0 G D [d L]. apply is_derive_Reals. apply is_derive_Reals in D. intros e He.
  destruct (D (e / K) ltac:(apply Rdiv_lt_0_compat; lra)) as [d' D'].
  assert (M : 0 < Rmin d (d' / K)) by (apply Rmin_pos; [apply d|apply Rdiv_lt_0_compat; [apply d'|lra]]). exists (mkposreal _ M). cbn [pos]. intros h H0 Hh.
  assert (B : Rabs (g (t + h)) <= K * Rabs h).
  { specialize (L (t + h)). unfold ball in L. cbn in L. unfold AbsRing_ball, abs, minus, plus, opp in L. cbn in L. replace (t + h - t) with h in L by ring. replace (t + h + - t) with h in L by ring.
    apply L. eapply Rlt_le_trans; [exact Hh|apply Rmin_l]. }
  assert (Bd : Rabs h < d' / K) by (eapply Rlt_le_trans; [exact Hh|apply Rmin_r]).
  rewrite G, Rminus_0_r. destruct (Req_dec (g (t + h)) 0) as [z|z].
  { rewrite z. replace ((f 0 - f 0) / h) with 0 by (unfold Rdiv; ring). rewrite Rabs_R0. lra. }
  specialize (D' (g (t + h)) z). rewrite Rplus_0_l, Rminus_0_r in D'.
  assert (P : 0 < Rabs h) by now apply Rabs_pos_lt. assert (Pg : 0 < Rabs (g (t + h))) by now apply Rabs_pos_lt.
  assert (X : Rabs (g (t + h)) < d'). { apply (Rmult_lt_compat_l K) in Bd; [|lra]. replace (K * (d' / K)) with (pos d') in Bd by (field; lra). lra. }
  specialize (D' X). unfold Rdiv in *. rewrite Rabs_mult, Rabs_inv in D' |- *.
  apply (Rmult_lt_compat_r (Rabs (g (t + h)))) in D'; [|exact Pg]. rewrite Rmult_assoc, Rinv_l, Rmult_1_r in D' by lra.
  apply (Rmult_lt_reg_r (Rabs h)); [exact P|]. rewrite Rmult_assoc, Rinv_l, Rmult_1_r by lra.
  eapply Rlt_le_trans; [exact D'|]. rewrite Rmult_assoc. apply Rmult_le_compat_l; [lra|]. apply (Rmult_le_reg_l K); [lra|]. rewrite <- Rmult_assoc, Rinv_r, Rmult_1_l by lra. exact B.
Qed.
Lemma lipschitz_at : forall (u : R -> R) (t du : R), is_derive u t du -> u t = 0 -> locally t (fun s => Rabs (u s) <= (Rabs du + 1) * Rabs (s - t)).
Proof.
  intros u t du D Z. apply is_derive_Reals in D. destruct (D 1 Rlt_0_1) as [d L]. exists d. intros s0 Hs. set (s := (s0 : R)). change s0 with s in Hs |- *. clearbody s. clear s0. unfold ball in Hs. cbn in Hs. unfold AbsRing_ball, abs, minus, plus, opp in Hs. cbn in Hs.
  destruct (Req_dec s t) as [e|n]; [rewrite e|]. { rewrite Z, Rminus_eq_0, Rabs_R0, Rmult_0_r. lra. }
  specialize (L (s - t) ltac:(lra) Hs). replace (t + (s - t)) with s in L by ring. rewrite Z, Rminus_0_r in L.
  assert (P : 0 < Rabs (s - t)) by (apply Rabs_pos_lt; lra).
  assert (B : Rabs (u s / (s - t)) <= Rabs du + 1). { replace (u s / (s - t)) with (du + (u s / (s - t) - du)) by ring. eapply Rle_trans; [apply Rabs_triang|]. lra. }
  unfold Rdiv in B. rewrite Rabs_mult, Rabs_inv in B. apply (Rmult_le_compat_r (Rabs (s - t))) in B; [|lra]. rewrite Rmult_assoc, Rinv_l, Rmult_1_r in B by lra. exact B.
Qed.
Lemma sqrt2_le : forall a b, rho a b <= Rabs a + Rabs b.
Proof.
  intros a b. unfold rho. pose proof (Rabs_pos a). pose proof (Rabs_pos b). rewrite <- (sqrt_square (Rabs a + Rabs b)) by lra. apply sqrt_le_1_alt.
  assert (A : a * a = Rabs a * Rabs a) by (rewrite <- Rabs_mult, Rabs_right; [reflexivity|apply Rle_ge; nra]).
  assert (B : b * b = Rabs b * Rabs b) by (rewrite <- Rabs_mult, Rabs_right; [reflexivity|apply Rle_ge; nra]). rewrite A, B. nra.
Qed.
Lemma rho_derive : forall (u v : R -> R) (t du dv : R), is_derive u t du -> is_derive v t dv -> u t <> 0 \/ v t <> 0 ->
  is_derive (fun s => rho (u s) (v s)) t ((u t * du + v t * dv) / rho (u t) (v t)).
Proof.
  intros u v t du dv U V N. pose proof (rho_pos _ _ N) as P. unfold rho in *. assert (Q : 0 < u t * u t + v t * v t) by (destruct N; nra).
  assert (D : is_derive (fun s => u s * u s + v s * v s) t (2 * (u t * du + v t * dv))).
  { replace (2 * (u t * du + v t * dv)) with (plus (plus (mult du (u t)) (mult (u t) du)) (plus (mult dv (v t)) (mult (v t) dv))) by (unfold plus, mult; cbn; ring).
    apply (is_derive_plus (fun s => u s * u s) (fun s => v s * v s)); [apply (is_derive_mult u u)|apply (is_derive_mult v v)]; auto; intros; apply Rmult_comm. }
  pose proof (is_derive_comp sqrt (fun s => u s * u s + v s * v s) t (/ (2 * sqrt (u t * u t + v t * v t))) (2 * (u t * du + v t * dv))) as C.
  replace ((u t * du + v t * dv) / sqrt (u t * u t + v t * v t)) with (mult (2 * (u t * du + v t * dv)) (/ (2 * sqrt (u t * u t + v t * v t)))) by (unfold mult; cbn; field; lra).
  apply C; [|exact D]. apply is_derive_Reals. now apply derivable_pt_lim_sqrt.
Qed.
Lemma cs_path : forall p (u v : R -> R) (t du dv : R), plane_ok p (u t * u t + v t * v t) -> is_derive u t du -> is_derive v t dv -> let j := jac_cs p (u t) (v t) in
  is_derive (fun s => csf p (v s) (u s)) t (j_dcdu j * du + j_dcdv j * dv) /\ is_derive (fun s => csg p (v s) (u s)) t (j_dsdu j * du + j_dsdv j * dv).
Proof.
  intros p u v t du dv H U V j.
  assert (EF : forall s, csf p 0 (rho (u s) (v s)) = csf p (v s) (u s)) by (intro; symmetry; apply csf_rho).
  assert (EG : forall s, csg p 0 (rho (u s) (v s)) = csg p (v s) (u s)) by (intro; symmetry; apply csg_rho).
  destruct (Req_dec (u t) 0) as [zu|nu]; [destruct (Req_dec (v t) 0) as [zv|nv]|].
  - unfold j. rewrite zu, zv in *. destruct (jac_zero p) as (J1 & J2 & J3 & J4). rewrite J1, J2, J3, J4, !Rmult_0_l, Rplus_0_r.
    destruct (cs_derive p 0 0 H) as [F G]. rewrite J1 in F. rewrite J3 in G.
    assert (Z : rho (u t) (v t) = 0) by (rewrite zu, zv; unfold rho; replace (0 * 0 + 0 * 0) with 0 by ring; apply sqrt_0).
    assert (L : locally t (fun s => Rabs (rho (u s) (v s)) <= (Rabs du + 1 + (Rabs dv + 1)) * Rabs (s - t))).
    { generalize (filter_and _ _ (lipschitz_at u t du U zu) (lipschitz_at v t dv V zv)). apply filter_imp. intros s [A B].
      rewrite Rabs_right by (apply Rle_ge, sqrt_pos). eapply Rle_trans; [apply sqrt2_le|]. lra. }
    pose proof (Rabs_pos du). pose proof (Rabs_pos dv).
    split; [eapply is_derive_ext; [exact EF|]|eapply is_derive_ext; [exact EG|]]; eapply (stationary _ (fun s => rho (u s) (v s))); try exact L; auto; lra.
  - assert (N : u t <> 0 \/ v t <> 0) by tauto. destruct (jac_rho p (u t) (v t) H N) as (J1 & J2 & J3 & J4). fold j in J1, J2, J3, J4.
    assert (H' : plane_ok p (rho (u t) (v t) * rho (u t) (v t) + 0 * 0)) by (rewrite rho_sq; exact H). destruct (cs_derive p (rho (u t) (v t)) 0 H') as [F G].
    pose proof (rho_derive u v t du dv U V N) as D. pose proof (rho_pos _ _ N) as P.
    split; [eapply is_derive_ext; [exact EF|]; rewrite J1, J2|eapply is_derive_ext; [exact EG|]; rewrite J3, J4].
    + match goal with |- is_derive _ _ ?x => replace x with (mult ((u t * du + v t * dv) / rho (u t) (v t)) (j_dcdu (jac_cs p (rho (u t) (v t)) 0))) by (unfold mult; cbn; field; lra) end.
      apply (is_derive_comp (csf p 0) (fun s => rho (u s) (v s))); assumption.
    + match goal with |- is_derive _ _ ?x => replace x with (mult ((u t * du + v t * dv) / rho (u t) (v t)) (j_dsdu (jac_cs p (rho (u t) (v t)) 0))) by (unfold mult; cbn; field; lra) end.
      apply (is_derive_comp (csg p 0) (fun s => rho (u s) (v s))); assumption.
  - assert (N : u t <> 0 \/ v t <> 0) by tauto. destruct (jac_rho p (u t) (v t) H N) as (J1 & J2 & J3 & J4). fold j in J1, J2, J3, J4.
    assert (H' : plane_ok p (rho (u t) (v t) * rho (u t) (v t) + 0 * 0)) by (rewrite rho_sq; exact H). destruct (cs_derive p (rho (u t) (v t)) 0 H') as [F G].
    pose proof (rho_derive u v t du dv U V N) as D. pose proof (rho_pos _ _ N) as P.
    split; [eapply is_derive_ext; [exact EF|]; rewrite J1, J2|eapply is_derive_ext; [exact EG|]; rewrite J3, J4].
    + match goal with |- is_derive _ _ ?x => replace x with (mult ((u t * du + v t * dv) / rho (u t) (v t)) (j_dcdu (jac_cs p (rho (u t) (v t)) 0))) by (unfold mult; cbn; field; lra) end.
      apply (is_derive_comp (csf p 0) (fun s => rho (u s) (v s))); assumption.
    + match goal with |- is_derive _ _ ?x => replace x with (mult ((u t * du + v t * dv) / rho (u t) (v t)) (j_dsdu (jac_cs p (rho (u t) (v t)) 0))) by (unfold mult; cbn; field; lra) end.
      apply (is_derive_comp (csg p 0) (fun s => rho (u s) (v s))); assumption.
Qed.
