(** Proofs about photon arrays. *)
From Coq Require Import ZArith Reals Bool List Arith Lia Lra Permutation.
From Verif Require Import Base Array_Model Bounds_Model Bounds_Proofs FFT_Model FFT_Proofs Photon_Model Photon_Spec Photon_Lists.
Import ListNotations.
Open Scope nat_scope.

Ltac wf_split H := destruct H as (Wx & Wy & Wf & Wk & W1 & W2 & W3 & W4 & W5 & W6).

Lemma num_keep_nfalse p : num_keep p = nfalse (pnk p).
Proof. reflexivity. Qed.
Lemma num_keep_le p : wfp p -> num_keep p <= pN p.
Proof. intros H. wf_split H. rewrite num_keep_nfalse. rewrite <- Wk. apply nfalse_le. Qed.
Lemma all_kept_mask p : wfp p -> all_kept p -> pnk p = repeat false (pN p).
Proof. intros H K. wf_split H. apply repeat_all_false; [exact Wk|]. intros i Hi. apply K. exact Hi. Qed.
Lemma all_kept_num p : wfp p -> all_kept p -> num_keep p = pN p.
Proof. intros H K. rewrite num_keep_nfalse, all_kept_mask by assumption. apply nfalse_repeat. Qed.
Lemma num_all_kept p : wfp p -> num_keep p = pN p -> all_kept p.
Proof.
  intros H K i Hi. wf_split H. split; [exact Hi|]. rewrite num_keep_nfalse in K. rewrite <- Wk in K.
  rewrite (nfalse_all _ K), Wk. apply nth_repeat'. exact Hi.
Qed.

Lemma masked_length p : wfp p -> length (masked_flux p) = pN p.
Proof. intros H. wf_split H. unfold masked_flux. rewrite where_length; rewrite repeat_length; lia. Qed.
Lemma nth_masked p i : wfp p -> i < pN p -> nth i (masked_flux p) 0%R = if nth i (pnk p) false then 0%R else nth i (pfl p) 0%R.
Proof.
  intros H Hi. wf_split H. unfold masked_flux. rewrite nth_where; rewrite ?repeat_length; try lia. rewrite nth_repeat' by lia. reflexivity.
Qed.

Definition ratio (p : parr) : R := (INR (pN p) / INR (num_keep p))%R.
Lemma INR_pos n : 1 <= n -> (0 < INR n)%R.
Proof. intros. apply lt_0_INR. lia. Qed.
Lemma ratio_pos p : wfp p -> 1 <= num_keep p -> (0 < ratio p)%R.
Proof.
  intros H K. unfold ratio. pose proof (num_keep_le p H). apply Rdiv_lt_0_compat; apply INR_pos; lia.
Qed.
Lemma flux_ratio_some p : 1 <= num_keep p -> flux_ratio p = Some (ratio p).
Proof. intros H. unfold flux_ratio. destruct (Nat.eqb_spec (num_keep p) 0); [lia|reflexivity]. Qed.
Lemma ratio_all p : pN p = num_keep p -> 1 <= num_keep p -> ratio p = 1%R.
Proof. intros E K. unfold ratio. rewrite E. apply Rinv_r. apply not_0_INR. lia. Qed.

(** The flux attribute, when at least one photon is kept. *)
Lemma flux_some p : wfp p -> 1 <= num_keep p -> exists l, flux p = Some l /\ length l = pN p /\
  forall i, i < pN p -> nth i l 0%R = if nth i (pnk p) false then 0%R else (nth i (pfl p) 0 * ratio p)%R.
Proof.
  intros H K. unfold flux. rewrite flux_ratio_some by exact K. destruct (Nat.eqb_spec (pN p) (num_keep p)) as [E|E].
  - eexists. split; [reflexivity|]. split; [apply masked_length; exact H|]. intros i Hi. rewrite nth_masked by assumption.
    rewrite (ratio_all p E K). destruct (nth i (pnk p) false); [reflexivity|lra].
  - eexists. split; [reflexivity|]. split; [rewrite map_length; apply masked_length; exact H|]. intros i Hi.
    rewrite (nth_map _ _ _ _ i 0%R) by (rewrite masked_length; assumption). rewrite nth_masked by assumption.
    destruct (nth i (pnk p) false); lra.
Qed.
Lemma vis_val p i : wfp p -> 1 <= num_keep p -> i < pN p ->
  vis p i = if nth i (pnk p) false then 0%R else (nth i (pfl p) 0 * ratio p)%R.
Proof. intros H K Hi. unfold vis. destruct (flux_some p H K) as (l & -> & _ & E). apply E. exact Hi. Qed.
Lemma total_vis p : wfp p -> 1 <= num_keep p -> getTotalFlux p = Some (rsuml (map (vis p) (seq 0 (pN p)))).
Proof.
  intros H K. unfold getTotalFlux. destruct (flux_some p H K) as (l & E & L & V). rewrite E. cbn. f_equal. apply rsuml_ext.
  - rewrite map_length, seq_length. exact L.
  - intros i Hi. rewrite (nth_map _ _ _ _ i 0) by (rewrite seq_length; lia). rewrite seq_nth by lia. unfold vis. rewrite E. reflexivity.
Qed.
Lemma nth_mask_d p i d d' : wfp p -> i < pN p -> nth i (pnk p) d = nth i (pnk p) d'.
Proof. intros H Hi. wf_split H. apply nth_indep. lia. Qed.
Lemma kept_iff p i : wfp p -> i < pN p -> (kept p i <-> nth i (pnk p) false = false).
Proof. intros H Hi. unfold kept. rewrite (nth_mask_d p i true false H Hi). tauto. Qed.
Lemma not_kept_iff p i : wfp p -> i < pN p -> (~ kept p i <-> nth i (pnk p) false = true).
Proof. intros H Hi. rewrite kept_iff by assumption. destruct (nth i (pnk p) false); split; congruence. Qed.

Lemma num_keep_pos p : wfp p -> (1 <= num_keep p <-> exists i, kept p i).
Proof.
  intros H. rewrite num_keep_nfalse. assert (G : forall m, 1 <= nfalse m <-> exists i, i < length m /\ nth i m true = false).
  { unfold nfalse. induction m as [|b m IH]; cbn.
    - split; [lia|]. intros (i & Hi & _). lia.
    - destruct b; cbn.
      + rewrite IH. split.
        * intros (i & Hi & E). exists (S i). split; [lia|exact E].
        * intros ([|i] & Hi & E); [discriminate|]. exists i. split; [lia|exact E].
      + split; [intros _; exists 0; split; [lia|reflexivity]|intros _; lia]. }
  rewrite G. wf_split H. rewrite Wk. reflexivity.
Qed.

(** * Constructor *)
Lemma pa_new_ok fs N p : pa_new fs N = Ok p -> wfp p /\ pcorr p = false /\ num_keep p = N /\
  (pN p = match fs with Some (S k) => S k | _ => N end) /\ N <= pN p /\
  (forall i, i < pN p -> kept p i <-> i < N).
Proof.
  unfold pa_new. destruct (match fs with Some s => Nat.ltb s N | None => false end) eqn:E; [discriminate|]. intros HH.
  assert (EL : N <= match fs with Some (S k) => S k | _ => N end).
  { destruct fs as [[|k]|]; [|apply Nat.ltb_ge in E|]; lia. }
  set (n := match fs with Some (S k) => S k | _ => N end) in *.
  match type of HH with Ok ?q = _ => assert (EQ : p = q) by congruence end. rewrite EQ. clear EQ HH.
  split; [|split; [|split; [|split; [|split]]]].
  - unfold wfp, nans. cbn. rewrite !repeat_length, arange_ge_length. repeat split.
  - reflexivity.
  - rewrite num_keep_nfalse. cbn [pnk]. rewrite nfalse_arange. lia.
  - reflexivity.
  - exact EL.
  - cbn [pN]. intros i Hi. unfold kept. cbn [pN pnk]. rewrite nth_arange_ge by exact Hi. split.
    + intros [_ L]. apply Nat.leb_gt in L. exact L.
    + intros L. split; [exact Hi|]. apply Nat.leb_gt. exact L.
Qed.
Lemma pa_new_exists fs N : same_size fs N -> exists p, pa_new fs N = Ok p /\ wfp p /\ pN p = N /\ all_kept p /\ pcorr p = false.
Proof.
  intros HS. destruct (pa_new fs N) as [p|e] eqn:E.
  - exists p. destruct (pa_new_ok _ _ _ E) as (W & C & K & P & _ & A). assert (pN p = N).
    { rewrite P. destruct HS as [-> | ->]; [reflexivity|]. destruct N; reflexivity. }
    split; [reflexivity|]. split; [exact W|]. split; [assumption|]. split; [|exact C]. intros i Hi. apply A; [exact Hi|lia].
  - exfalso. unfold pa_new in E. destruct HS as [-> | ->]; [discriminate|]. rewrite Nat.ltb_irrefl in E. discriminate.
Qed.

(** * Setters *)
Lemma bcast_length A n (v : vals A) l : bcast n v = Ok l -> length l = n.
Proof.
  assert (C : forall (l l' : list A), Ok l = Ok l' -> l = l') by (intros; congruence).
  unfold bcast. destruct v as [v|[|v [|w t]]]; intros E.
  - apply C in E. subst l. apply repeat_length.
  - destruct (Nat.eqb_spec (length (@nil A)) n); [|discriminate]. apply C in E. subst l. assumption.
  - apply C in E. subst l. apply repeat_length.
  - destruct (Nat.eqb_spec (length (v :: w :: t)) n); [|discriminate]. apply C in E. subst l. assumption.
Qed.
Lemma bcast_array A n (l : list A) : length l = n -> bcast n (Array l) = Ok l.
Proof.
  intros H. unfold bcast. destruct l as [|v [|w t]].
  - cbn in *. subst n. reflexivity.
  - cbn in H. subst n. reflexivity.
  - rewrite <- H, Nat.eqb_refl. reflexivity.
Qed.

Lemma set_flux_inv p v q : set_flux p v = Ok q -> exists l, bcast (pN p) v = Ok l /\
  q = set_pfl p (match flux_ratio p with Some r => map (fun f => f / r)%R l | None => map (fun _ => 0%R) l end).
Proof.
  unfold set_flux. destruct (bcast (pN p) v) as [l|e]; [|discriminate]. cbn [bind]. intros E. exists l. split; [reflexivity|congruence].
Qed.
Lemma set_flux_wf p v q : wfp p -> set_flux p v = Ok q -> wfp q /\ pnk q = pnk p /\ pN q = pN p /\ px q = px p /\ py_ q = py_ p.
Proof.
  intros H E. destruct (set_flux_inv _ _ _ E) as (l & B & ->). apply bcast_length in B. wf_split H.
  split; [|repeat split]. unfold wfp. cbn. destruct (flux_ratio p); rewrite map_length; repeat split; assumption.
Qed.
Lemma set_flux_read p v q l : wfp p -> 1 <= num_keep p -> bcast (pN p) v = Ok l -> set_flux p v = Ok q ->
  forall i, i < pN p -> vis q i = if nth i (pnk p) false then 0%R else nth i l 0%R.
Proof.
  intros H K B E i Hi. destruct (set_flux_wf _ _ _ H E) as (Wq & Ek & En & _). assert (Kq : num_keep q = num_keep p) by (unfold num_keep; rewrite Ek; reflexivity).
  rewrite vis_val; [|exact Wq|lia|lia]. rewrite Ek. destruct (nth i (pnk p) false); [reflexivity|].
  destruct (set_flux_inv _ _ _ E) as (l' & B' & ->). assert (l' = l) by congruence. subst l'. rewrite flux_ratio_some by exact K. cbn [pfl set_pfl].
  apply bcast_length in B. rewrite (nth_map _ _ _ l i 0%R) by lia. match goal with |- context [ratio (set_pfl p ?l0)] => change (ratio (set_pfl p l0)) with (ratio p) end.
  pose proof (ratio_pos p H K). field. lra.
Qed.

Lemma set_x_inv p v q : set_x p v = Ok q -> exists l, bcast (pN p) v = Ok l /\ q = set_pxy p l (py_ p).
Proof. unfold set_x. destruct (bcast (pN p) v) as [l|e]; [|discriminate]. cbn [bind]. intros E. exists l. split; [reflexivity|congruence]. Qed.
Lemma set_y_inv p v q : set_y p v = Ok q -> exists l, bcast (pN p) v = Ok l /\ q = set_pxy p (px p) l.
Proof. unfold set_y. destruct (bcast (pN p) v) as [l|e]; [|discriminate]. cbn [bind]. intros E. exists l. split; [reflexivity|congruence]. Qed.
Lemma set_pxy_wf p lx ly : wfp p -> length lx = pN p -> length ly = pN p -> wfp (set_pxy p lx ly).
Proof. intros H A B. wf_split H. unfold wfp. cbn. repeat split; assumption. Qed.
Lemma set_pfl_wf p l : wfp p -> length l = pN p -> wfp (set_pfl p l).
Proof. intros H A. wf_split H. unfold wfp. cbn. repeat split; assumption. Qed.
Lemma set_pnk_wf p l : wfp p -> length l = pN p -> wfp (set_pnk p l).
Proof. intros H A. wf_split H. unfold wfp. cbn. repeat split; assumption. Qed.
Lemma flux_set_pxy p lx ly : flux (set_pxy p lx ly) = flux p.
Proof. reflexivity. Qed.

(** * Scaling *)
Lemma scaleFlux_wf p s : wfp p -> wfp (scaleFlux p s).
Proof. intros H. apply set_pfl_wf; [exact H|]. rewrite map_length. wf_split H. exact Wf. Qed.
Lemma scaleFlux_vis p s i : wfp p -> 1 <= num_keep p -> i < pN p -> vis (scaleFlux p s) i = (vis p i * s)%R.
Proof.
  intros H K Hi. rewrite vis_val; [|apply scaleFlux_wf; exact H|exact K|exact Hi]. rewrite (vis_val p) by assumption.
  change (ratio (scaleFlux p s)) with (ratio p). change (pnk (scaleFlux p s)) with (pnk p). destruct (nth i (pnk p) false); [lra|]. wf_split H.
  change (pfl (scaleFlux p s)) with (map (fun f => f * s)%R (pfl p)). rewrite (nth_map _ _ _ (pfl p) i 0%R) by lia. lra.
Qed.
Lemma scaleFlux_total p s t : wfp p -> 1 <= num_keep p -> getTotalFlux p = Some t -> getTotalFlux (scaleFlux p s) = Some (t * s)%R.
Proof.
  intros H K E. rewrite total_vis in E by assumption. rewrite total_vis; [|apply scaleFlux_wf; exact H|exact K].
  assert (E' : t = rsuml (map (vis p) (seq 0 (pN p)))) by congruence. rewrite E'. f_equal. rewrite <- rsuml_map_mul. rewrite map_map.
  f_equal. cbn [pN scaleFlux set_pfl]. apply map_ext_in. intros i Hi. apply in_seq in Hi. apply scaleFlux_vis; [assumption..|lia].
Qed.
Lemma setTotalFlux_total p t q : wfp p -> 1 <= num_keep p -> setTotalFlux p t = Some q ->
  getTotalFlux q = Some t /\ wfp q /\ pnk q = pnk p /\ pN q = pN p /\ px q = px p /\ py_ q = py_ p /\
  exists c, forall i, i < pN p -> vis q i = (vis p i * c)%R.
Proof.
  intros H K. unfold setTotalFlux. destruct (getTotalFlux p) as [f|] eqn:E; [|discriminate].
  destruct (Reqb_spec f 0) as [|N]; [discriminate|]. intros HH. assert (EQ : q = scaleFlux p (t / f)) by congruence. subst q.
  split; [|split; [apply scaleFlux_wf; exact H|repeat (split; [reflexivity|])]].
  - rewrite (scaleFlux_total p _ f H K E). f_equal. field. exact N.
  - exists (t / f)%R. intros i Hi. apply scaleFlux_vis; assumption.
Qed.

(** * Changing the number of kept photons *)
Lemma sort_by_wf s p : wfp p -> isperm s (pN p) -> wfp (sort_by s p).
Proof. intros H P. apply isperm_length in P. unfold wfp. cbn. rewrite !gather_length, P. repeat split. Qed.
Lemma scatter_gather' A (d : A) l v s n : isperm s n -> length l = n -> length v = n -> scatter v s (gather d l s) = l.
Proof. intros P L V. apply scatter_gather; [rewrite L; exact P|lia]. Qed.

Lemma set_num_keep_unfold p n : wfp p ->
  set_num_keep p n = set_pnk p (scatter (arange_ge (pN p) n) (argsortb (pnk p)) (arange_ge (pN p) n)).
Proof.
  intros H. wf_split H. pose proof (argsortb_perm (pnk p)) as P. rewrite Wk in P. unfold set_num_keep, set_at_inds, set_pnk, sort_by. cbn.
  pose proof (isperm_length _ _ P) as LP.
  f_equal; apply (scatter_gather' _ _ _ _ _ (pN p)); try assumption; rewrite gather_length; exact LP.
Qed.
(** the rank of photon j in the sorted order decides *)
Lemma set_num_keep_rank p n k : wfp p -> k < pN p ->
  nth (nth k (argsortb (pnk p)) 0) (pnk (set_num_keep p n)) true = (n <=? k) /\
  nth (nth k (argsortb (pnk p)) 0) (pnk p) true = (num_keep p <=? k).
Proof.
  intros H Hk. rewrite set_num_keep_unfold by exact H. cbn [pnk set_pnk]. wf_split H. pose proof (argsortb_perm (pnk p)) as P. rewrite Wk in P.
  pose proof (isperm_length _ _ P) as LP. pose proof (isperm_lt _ _ k P Hk) as LT. split.
  - rewrite nth_scatter.
    + apply nth_arange_ge. exact Hk.
    + apply (isperm_nodup _ _ P).
    + rewrite arange_ge_length. exact LP.
    + lia.
    + rewrite arange_ge_length. exact LT.
  - rewrite (nth_indep _ true false) by lia. rewrite argsortb_rank by lia. rewrite num_keep_nfalse. rewrite Nat.leb_antisym. reflexivity.
Qed.
Lemma set_num_keep_ok p n : wfp p -> let q := set_num_keep p n in
  wfp q /\ pN q = pN p /\ px q = px p /\ py_ q = py_ p /\ pfl q = pfl p /\ pcorr q = pcorr p /\ num_keep q = Nat.min n (pN p) /\
  (n <= num_keep p -> forall i, kept q i -> kept p i) /\ (num_keep p <= n -> forall i, kept p i -> kept q i).
Proof.
  intros H q. assert (U : q = _) by (apply (set_num_keep_unfold p n H)). pose proof (argsortb_perm (pnk p)) as P.
  assert (Wk : length (pnk p) = pN p) by (wf_split H; assumption). rewrite Wk in P. pose proof (isperm_length _ _ P) as LP.
  split; [rewrite U; apply set_pnk_wf; [exact H|rewrite scatter_length, arange_ge_length; reflexivity]|].
  rewrite U at 1 2 3 4 5. do 5 (split; [reflexivity|]). split; [|split].
  - rewrite num_keep_nfalse. rewrite U. cbn [pnk set_pnk]. set (m := scatter _ _ _).
    assert (Lm : length m = pN p) by (unfold m; rewrite scatter_length, arange_ge_length; reflexivity).
    rewrite <- (nfalse_arange (pN p) n). apply nfalse_perm. apply Permutation_sym.
    replace (arange_ge (pN p) n) with (gather true m (argsortb (pnk p))).
    + apply gather_perm. rewrite Lm. exact P.
    + apply (nth_ext' _ true).
      * rewrite gather_length, arange_ge_length. exact LP.
      * intros i Hi. rewrite gather_length, LP in Hi. rewrite nth_gather by lia. destruct (set_num_keep_rank p n i H Hi) as [E _].
        fold q in E. rewrite U in E. cbn [pnk set_pnk] in E. fold m in E. rewrite E. symmetry. apply nth_arange_ge. exact Hi.
  - intros L i [Hi E]. assert (pN q = pN p) by (rewrite U; reflexivity). split; [lia|].
    destruct (isperm_onto _ _ i P ltac:(lia)) as (k & Hk & <-). destruct (set_num_keep_rank p n k H Hk) as [E1 E2]. fold q in E1.
    rewrite E1 in E. apply Nat.leb_gt in E. rewrite E2. apply Nat.leb_gt. lia.
  - intros L i [Hi E]. assert (pN q = pN p) by (rewrite U; reflexivity). split; [lia|].
    destruct (isperm_onto _ _ i P ltac:(lia)) as (k & Hk & <-). destruct (set_num_keep_rank p n k H Hk) as [E1 E2]. fold q in E1.
    rewrite E2 in E. apply Nat.leb_gt in E. rewrite E1. apply Nat.leb_gt. lia.
Qed.
Lemma set_num_keep_vis p n i : wfp p -> 1 <= num_keep p -> 1 <= n -> n <= pN p -> kept (set_num_keep p n) i ->
  vis (set_num_keep p n) i = (nth i (pfl p) 0 * INR (pN p) / INR n)%R /\
  (kept p i -> vis (set_num_keep p n) i = (vis p i * INR (num_keep p) / INR n)%R).
Proof.
  intros H K N1 N2 Hi. destruct (set_num_keep_ok p n H) as (Wq & En & _ & _ & Ef & _ & Ek & _ & _). cbv zeta in *.
  destruct Hi as [Hi Em]. pose proof Em as Em'. rewrite (nth_indep _ true false) in Em by (wf_split Wq; lia).
  assert (G : vis (set_num_keep p n) i = (nth i (pfl p) 0 * INR (pN p) / INR n)%R).
  { rewrite vis_val; [|exact Wq|rewrite Ek; lia|exact Hi]. rewrite Em, Ef. unfold ratio. rewrite En, Ek, Nat.min_l by lia. lra. }
  split; [exact G|]. intros Kp. rewrite G. rewrite (vis_val p) by (try assumption; lia). apply kept_iff in Kp; [|exact H|lia]. rewrite Kp. unfold ratio.
  pose proof (INR_pos _ K). pose proof (INR_pos _ N1). field. split; lra.
Qed.

(** * Sequences of operations *)
Lemma papply_inv o p q : wfp p -> 1 <= num_keep p -> papply o p = Some q -> wfp q /\ 1 <= num_keep q /\ pN q = pN p.
Proof.
  intros H K. destruct o as [v|s|t|s|v|v|n]; cbn [papply].
  - destruct (set_flux p v) as [q'|] eqn:E; [|discriminate]. intros HH. assert (q' = q) by congruence. subst q'.
    destruct (set_flux_wf _ _ _ H E) as (W & Ek & En & _). split; [exact W|]. split; [|exact En]. unfold num_keep. rewrite Ek. exact K.
  - intros HH. assert (EQ : q = scaleFlux p s) by congruence. subst q. split; [apply scaleFlux_wf; exact H|]. split; [exact K|reflexivity].
  - intros HH. destruct (setTotalFlux_total _ _ _ H K HH) as (_ & W & Ek & En & _). split; [exact W|]. split; [|exact En]. unfold num_keep. rewrite Ek. exact K.
  - intros HH. assert (EQ : q = scaleXY p s) by congruence. subst q. split; [|split; [exact K|reflexivity]].
    wf_split H. apply set_pxy_wf; [unfold wfp; repeat split; assumption|rewrite map_length; assumption..].
  - destruct (set_x p v) as [q'|] eqn:E; [|discriminate]. intros HH. assert (q' = q) by congruence. subst q'.
    destruct (set_x_inv _ _ _ E) as (l & B & ->). apply bcast_length in B. split; [|split; [exact K|reflexivity]].
    wf_split H. apply set_pxy_wf; [unfold wfp; repeat split; assumption|assumption..].
  - destruct (set_y p v) as [q'|] eqn:E; [|discriminate]. intros HH. assert (q' = q) by congruence. subst q'.
    destruct (set_y_inv _ _ _ E) as (l & B & ->). apply bcast_length in B. split; [|split; [exact K|reflexivity]].
    wf_split H. apply set_pxy_wf; [unfold wfp; repeat split; assumption|assumption..].
  - destruct (Nat.leb_spec 1 n) as [L|L]; [|discriminate]. intros HH. assert (EQ : q = set_num_keep p n) by congruence. subst q.
    destruct (set_num_keep_ok p n H) as (W & En & _ & _ & _ & _ & Ek & _). split; [exact W|]. split; [|exact En]. rewrite Ek. pose proof (num_keep_le p H). lia.
Qed.
Lemma prun_inv l p q : wfp p -> 1 <= num_keep p -> prun l p = Some q -> wfp q /\ 1 <= num_keep q /\ pN q = pN p.
Proof.
  revert p. induction l as [|o l IH]; intros p H K E; cbn in E.
  - assert (p = q) by congruence. subst q. auto.
  - destruct (papply o p) as [p'|] eqn:Ep; [|discriminate]. destruct (papply_inv _ _ _ H K Ep) as (H' & K' & N'). destruct (IH p' H' K' E) as (? & ? & ?).
    split; [assumption|]. split; [assumption|]. congruence.
Qed.
