(** C22-C29 and C78-C80: photon arrays, shooting and the drawing loop. *)
From Coq Require Import ZArith Reals Lra Lia Bool List Arith Permutation.
From Verif Require Import Base Array_Model Bounds_Model Bounds_Proofs FFT_Model FFT_Proofs Draw_Model Photon_Model Photon_Spec Photon_Lists Photon_Proofs
  Photon_Conv Photon_AddTo Photon_More.
Import ListNotations.
Open Scope nat_scope.

(** A tree with every kind of node: 2 * (1 + 2 x 3), photons alternating between the two terms. *)
Definition pts (n : nat) : list R := repeat 0%R n.
Definition ex_tree : sprof :=
  STrans (SSum [SLeaf 1 pts pts; SConv (SLeaf 2 pts pts) [SLeaf 3 pts pts] (seq 0)]
               (fun n => map (fun i => Nat.modulo i 2) (seq 0 n))) (1%R, 0%R, 0%R, 1%R) (0%R, 0%R) 2.
Lemma pts_ok : forall n, length (pts n) = n /\ length (pts n) = n.
Proof. intros n. unfold pts. rewrite repeat_length. auto. Qed.
Lemma ex_tree_good : good_tree ex_tree /\ sflux ex_tree = 14%R.
Proof.
  split.
  - cbn. pose proof pts_ok. repeat split; try lra; try apply pts_ok; try discriminate; auto.
    + rewrite map_length, seq_length. reflexivity.
    + intros i Hi. rewrite (nth_map _ _ _ _ i 0) by (rewrite seq_length; exact Hi). rewrite seq_nth by exact Hi. change (Nat.modulo (0 + i) 2 < 2). apply Nat.mod_upper_bound. lia.
  - cbn. lra.
Qed.
Definition exb : bnd Z := BoundsI (Args4 (py 1) (py 3) (py 1) (py 2))%Z.
Definition exa : arr R := aconst 2 3 0%R.

(** ** C22 *)
(** The loop ends, after ceil(N / chunk) rounds of 1..chunk photons each, N in all, and the photons
    shot carry flux F * g / gain in all whatever the chunk size; every pixel gains exactly the flux
    of the photons falling in it and added_flux is the flux falling on the image. *)
Theorem C22_draw_loop_shoots_every_photon :
  forall fuel fs (obj : nat -> sprof) maxN Ntot F g gain scale (b : bnd Z) (a : arr R) add,
  (0 < gain)%R -> bdef b = true -> 1 <= Ntot <= fuel -> (forall k, good_tree (obj k) /\ sflux (obj k) = F) ->
  (fs = None /\ (forall m, maxN = Some m -> 1 <= m) \/ exists s, fs = Some s /\ 1 <= s /\ (forall m, maxN = Some m -> s <= m)) ->
  let c := chunk fs maxN Ntot in
  exists st, drawPhot fuel fs obj maxN Ntot g gain scale b a add = Done st /\ l_left st = 0 /\
    nsum (l_rounds st) = Ntot /\ length (l_rounds st) = (Ntot + c - 1) / c /\
    Forall (fun t => 1 <= fst t <= c /\ wfp (snd t) /\ num_keep (snd t) = fst t) (l_rounds st) /\
    tsum (l_rounds st) = (F * g / gain)%R /\
    nrow (l_arr st) = nrow a /\ ncol (l_arr st) = ncol a /\
    (forall i j, (0 <= i < nrow a)%Z -> (0 <= j < ncol a)%Z ->
       elt (l_arr st) i j = ((if add then elt a i j else 0) +
         fsum (fun x y => in_pix (nv (bxmin b) + j) x && in_pix (nv (bymin b) + i) y) (l_rounds st))%R) /\
    l_added st = fsum (fun x y => in_span (nv (bxmin b)) (ncol a) x && in_span (nv (bymin b)) (nrow a) y) (l_rounds st).
Proof.
  intros fuel fs obj maxN Ntot F g gain scale b a add Hg HD HN HO Hs c.
  assert (HS : same_size fs c /\ 1 <= c /\ fs <> Some 0).
  { unfold c, chunk, same_size. destruct Hs as [[-> H]|(s & -> & H1 & H)].
    - destruct maxN as [m|]; [specialize (H m eq_refl)|]; repeat split; auto; try lia; discriminate.
    - destruct maxN as [m|]; [specialize (H m eq_refl); rewrite Nat.min_r by lia|]; repeat split; auto; intros E; assert (s = 0) by congruence; lia. }
  destruct HS as (HS & Hc & Hz).
  destruct (drawPhot_gen fuel fs obj maxN Ntot F g gain scale b a add c Hg HD HN eq_refl Hc Hz) as (st & Q).
  { intros k n Hn Hn'. destruct (HO k) as [G <-]. apply loop_shoot_ok; assumption. }
  exists st. destruct add; exact Q.
Qed.
Print Assumptions C22_draw_loop_shoots_every_photon.

Example C22_ex : exists st, drawPhot 7 None (fun _ => ex_tree) (Some 3) 7 1 2 1 exb exa false = Done st /\
  length (l_rounds st) = 3 /\ nsum (l_rounds st) = 7 /\ tsum (l_rounds st) = 7%R.
Proof.
  destruct (C22_draw_loop_shoots_every_photon 7 None (fun _ => ex_tree) (Some 3) 7 14 1 2 1 exb exa false) as (st & E & _ & H1 & H2 & _ & H3 & _);
    [lra|reflexivity|lia|intros; apply ex_tree_good|left; split; [reflexivity|intros m Hm; assert (m = 3) by congruence; lia]|].
  exists st. split; [exact E|]. split; [exact H2|]. split; [exact H1|]. rewrite H3. field.
Qed.

(** With a fixed array size S and maxN < S the flux drawn for a simple profile is F * maxN / S instead. *)
Theorem C22_fixed_size_small_maxN_refuted : exists fs obj maxN Ntot F st,
  (forall k, good_tree (obj k) /\ sflux (obj k) = F) /\ (0 < F)%R /\
  drawPhot Ntot fs obj maxN Ntot 1 1 1 exb exa false = Done st /\ nsum (l_rounds st) = Ntot /\ tsum (l_rounds st) = (F / 2)%R.
Proof.
  exists (Some 4), (fun _ => SLeaf 8 pts pts), (Some 2), 4, 8%R.
  destruct (drawPhot_gen 4 (Some 4) (fun _ => SLeaf 8 pts pts) (Some 2) 4 4 1 1 1 exb exa false 2) as (st & E & _ & H1 & _ & _ & H2 & _);
    [lra|reflexivity|lia|reflexivity|lia|discriminate| |].
  - intros k n Hn Hn'. destruct (loop_shoot_leaf 8 pts pts (Some 4) 2 4 n 4 (1 / 1) 1 pts_ok) as (p & A & B & C & D); [right; split; [reflexivity|lia]|lia|lia|].
    exists p. repeat split; try assumption; try apply B. rewrite D. f_equal. cbn. field.
  - exists st. split; [intros _; split; [split; [lra|exact pts_ok]|reflexivity]|]. split; [lra|]. split; [exact E|]. split; [exact H1|]. rewrite H2. field.
Qed.
Print Assumptions C22_fixed_size_small_maxN_refuted.

(** ** C23 *)
(** Without a fixed size, or with one equal to N, every tree of positive profiles shoots N kept
    photons of equal flux adding up to its flux. *)
Theorem C23_shot_photons_carry_the_flux : forall fs o N, good_tree o -> same_size fs N -> 1 <= N ->
  exists q, shoot fs o N = Ok q /\ wfp q /\ num_keep q = N /\ getTotalFlux q = Some (sflux o) /\
            forall i, i < N -> kept q i /\ vis q i = (sflux o / INR N)%R.
Proof.
  intros fs o N G HS HN. destruct (shoot_ok o fs N G HS HN) as (q & E & Sq). pose proof Sq as (W & Nq & K & _ & V). pose proof (all_kept_num q W K).
  exists q. split; [exact E|]. split; [exact W|]. split; [lia|]. split; [apply (shot_total fs N); assumption|].
  intros i Hi. split; [apply K; lia|]. rewrite vis_val by (try assumption; lia). assert (Ki := K i ltac:(lia)). apply kept_iff in Ki; [|exact W|lia].
  rewrite Ki, V by exact Hi. rewrite ratio_all by lia. lra.
Qed.
Print Assumptions C23_shot_photons_carry_the_flux.
Example C23_ex : exists q, shoot None ex_tree 5 = Ok q /\ getTotalFlux q = Some 14%R.
Proof.
  destruct (C23_shot_photons_carry_the_flux None ex_tree 5) as (q & E & _ & _ & T & _); [apply ex_tree_good|left; reflexivity|lia|].
  exists q. split; [exact E|]. rewrite T. f_equal. apply ex_tree_good.
Qed.

(** With a fixed size M, N <= M photons of a simple profile carry F * N / M only. *)
Theorem C23_fixed_size_flux_partial : forall F gx gy N M, (forall n, length (gx n) = n /\ length (gy n) = n) -> 1 <= N <= M ->
  exists q, shoot (Some M) (SLeaf F gx gy) N = Ok q /\ num_keep q = N /\ getTotalFlux q = Some (F * INR N / INR M)%R.
Proof.
  intros F gx gy N M HG HN. destruct (leaf_fixed F gx gy (Some M) N M HG ltac:(lia)) as (q & E & W & Nq & Kq & V); [right; split; [reflexivity|lia]|].
  exists q. split; [exact E|]. split; [exact Kq|]. rewrite (uniform_total q (F * INR N / (INR M * INR M))); [|exact W|lia|intros; apply V; lia].
  f_equal. rewrite Nq. field. apply not_0_INR. lia.
Qed.
Print Assumptions C23_fixed_size_flux_partial.
Theorem C23_fixed_size_refuted : ~ (forall fs o N q, good_tree o -> shoot fs o N = Ok q -> 1 <= N -> getTotalFlux q = Some (sflux o)).
Proof.
  intros H. destruct (C23_fixed_size_flux_partial 1 pts pts 1 2 pts_ok ltac:(lia)) as (q & E & _ & T).
  specialize (H (Some 2) (SLeaf 1 pts pts) 1 q ltac:(split; [lra|exact pts_ok]) E ltac:(lia)). rewrite T in H.
  assert (1 * INR 1 / INR 2 = 1)%R by (cbn [sflux] in H; congruence). cbn in H0. lra.
Qed.
Print Assumptions C23_fixed_size_refuted.

(** A Sum shot with N photons under a larger fixed size keeps every slot of the array. *)
Theorem C23_sum_ignores_count_refuted : exists q, shoot (Some 3) (SSum [SLeaf 1 pts pts] (fun n => repeat 0 n)) 1 = Ok q /\ num_keep q = 3.
Proof. eexists. split; reflexivity. Qed.
Print Assumptions C23_sum_ignores_count_refuted.

(** ** C24 *)
Theorem C24_masked_bookkeeping : forall l p q, wfp p -> (exists i, kept p i) -> prun l p = Some q ->
  wfp q /\ pN q = pN p /\ (exists i, kept q i) /\
  (forall i, i < pN q -> ~ kept q i -> vis q i = 0%R) /\
  getTotalFlux q = Some (rsuml (map (vis q) (seq 0 (pN q)))).
Proof.
  intros l p q W K E. apply num_keep_pos in K; [|exact W]. destruct (prun_inv l p q W K E) as (Wq & Kq & Nq).
  split; [exact Wq|]. split; [exact Nq|]. split; [apply num_keep_pos; assumption|]. split.
  - intros i Hi Hk. apply not_kept_iff in Hk; [|exact Wq|exact Hi]. rewrite vis_val by assumption. rewrite Hk. reflexivity.
  - apply total_vis; assumption.
Qed.
Print Assumptions C24_masked_bookkeeping.

Theorem C24_assigned_flux_is_read_back : forall p l q, wfp p -> (exists i, kept p i) -> length l = pN p ->
  set_flux p (Array l) = Ok q ->
  pnk q = pnk p /\ px q = px p /\ py_ q = py_ p /\ forall i, kept p i -> vis q i = nth i l 0%R.
Proof.
  intros p l q W K L E. apply num_keep_pos in K; [|exact W]. destruct (set_flux_wf _ _ _ W E) as (_ & A & _ & B & C). split; [exact A|]. split; [exact B|]. split; [exact C|].
  intros i Hi. rewrite (set_flux_read p (Array l) q l W K (bcast_array _ _ _ L) E) by apply Hi. assert (Ki := Hi). apply kept_iff in Ki; [|exact W|apply Hi]. rewrite Ki. reflexivity.
Qed.
Print Assumptions C24_assigned_flux_is_read_back.

Theorem C24_scaling_is_exact : forall p s t, wfp p -> (exists i, kept p i) ->
  (forall i, i < pN p -> vis (scaleFlux p s) i = (vis p i * s)%R) /\
  (forall q, setTotalFlux p t = Some q -> getTotalFlux q = Some t /\ pnk q = pnk p /\ exists c, forall i, i < pN p -> vis q i = (vis p i * c)%R) /\
  (forall i, i < pN p -> nth i (px (scaleXY p s)) 0%R = (nth i (px p) 0 * s)%R /\ nth i (py_ (scaleXY p s)) 0%R = (nth i (py_ p) 0 * s)%R /\ vis (scaleXY p s) i = vis p i).
Proof.
  intros p s t W K. apply num_keep_pos in K; [|exact W]. split; [intros i Hi; apply scaleFlux_vis; assumption|]. split.
  - intros q E. destruct (setTotalFlux_total p t q W K E) as (A & _ & B & _ & _ & _ & C). auto.
  - intros i Hi. wf_split W. cbn [px py_ scaleXY set_pxy]. rewrite !(nth_map _ _ _ _ i 0%R) by lia. split; [reflexivity|]. split; reflexivity.
Qed.
Print Assumptions C24_scaling_is_exact.

(** Changing the number of kept photons keeps positions, keeps the right number, drops only kept
    photons (or re-admits dropped ones), and rescales the flux so that the total of an array of
    equal photons is unchanged. *)
Theorem C24_number_kept : forall p n, wfp p -> (exists i, kept p i) -> 1 <= n <= pN p ->
  let q := set_num_keep p n in
  num_keep q = n /\ px q = px p /\ py_ q = py_ p /\
  (n <= num_keep p -> forall i, kept q i -> kept p i) /\ (num_keep p <= n -> forall i, kept p i -> kept q i) /\
  (forall i, kept q i -> kept p i -> vis q i = (vis p i * INR (num_keep p) / INR n)%R) /\
  (forall c, (forall i, i < pN p -> nth i (pfl p) 0%R = c) -> getTotalFlux q = getTotalFlux p).
Proof.
  intros p n W K Hn q. apply num_keep_pos in K; [|exact W]. destruct (set_num_keep_ok p n W) as (A & B & C & D & E & _ & F & G & H). cbv zeta in *. fold q in A, B, C, D, E, F, G, H.
  split; [lia|]. split; [exact C|]. split; [exact D|]. split; [exact G|]. split; [exact H|]. split.
  - intros i Hq Hp. apply set_num_keep_vis; try assumption; lia.
  - intros c Hc. unfold q. rewrite (keep_total p c n W Hn Hc). symmetry. apply uniform_total; assumption.
Qed.
Print Assumptions C24_number_kept.

Definition exp0 : parr := PA 3 [0; 1; 2]%R [0; 0; 1]%R [5; 7; 9]%R [false; true; false] (nans 3) (nans 3) (nans 3) (nans 3) (nans 3) (nans 3) false.
Lemma exp0_wf : wfp exp0 /\ exists i, kept exp0 i.
Proof. split; [repeat split|]. exists 0. cbn. split; cbn; [lia|reflexivity]. Qed.
Example C24_ex : exists q, prun [OFlux (Array [2; 4; 6]%R); OScaleFlux 3; OKeep 1; OScaleXY 2] exp0 = Some q /\ vis q 0 = 12%R /\ vis q 1 = 0%R.
Proof.
  eexists. split; [reflexivity|]. unfold vis, flux. cbn. split; field.
Qed.

(** Once no photon is kept every flux reads as NaN, and re-admitting photons does not recover an assigned flux. *)
Theorem C24_nothing_kept_refuted : exists p q, wfp p /\ flux p = None /\ getTotalFlux p = None /\
  set_flux p (Array [2; 4; 6]%R) = Ok q /\ flux q = None /\ flux (set_num_keep q 3) = Some [0; 0; 0]%R.
Proof. exists (set_num_keep exp0 0). eexists. repeat split. Qed.
Print Assumptions C24_nothing_kept_refuted.

(** ** C25 *)
Theorem C25_binning_conserves_flux : forall p (b : bnd Z) (a : arr R), wfp p -> (exists i, kept p i) -> bdef b = true ->
  exists a' f, addTo p b a false = Ok (Some (a', f)) /\ nrow a' = nrow a /\ ncol a' = ncol a /\
    (forall i j, (0 <= i < nrow a)%Z -> (0 <= j < ncol a)%Z ->
       elt a' i j = (elt a i j + sel_sum (fun x y => in_pix (nv (bxmin b) + j) x && in_pix (nv (bymin b) + i) y) (rows p))%R) /\
    f = sel_sum (fun x y => in_span (nv (bxmin b)) (ncol a) x && in_span (nv (bymin b)) (nrow a) y) (rows p).
Proof. intros p b a W K D. apply addTo_ok; [exact W|apply num_keep_pos; assumption|exact D]. Qed.
Print Assumptions C25_binning_conserves_flux.

Theorem C25_order_does_not_matter : forall p q (b : bnd Z) (a ap aq : arr R) fp fq, wfp p -> wfp q -> (exists i, kept p i) -> (exists i, kept q i) -> bdef b = true ->
  Permutation (rows p) (rows q) -> addTo p b a false = Ok (Some (ap, fp)) -> addTo q b a false = Ok (Some (aq, fq)) -> aeq ap aq /\ fp = fq.
Proof.
  intros p q b a ap aq fp fq Wp Wq Kp Kq D P Ep Eq.
  destruct (C25_binning_conserves_flux p b a Wp Kp D) as (ap' & fp' & Ep' & P1 & P2 & P3 & P4).
  destruct (C25_binning_conserves_flux q b a Wq Kq D) as (aq' & fq' & Eq' & Q1 & Q2 & Q3 & Q4).
  assert (ap' = ap) by congruence. assert (Fp : fp = fp') by congruence. assert (aq' = aq) by congruence. assert (Fq : fq = fq') by congruence. subst ap' aq'.
  split; [|rewrite Fp, Fq, P4, Q4; apply sel_sum_perm; exact P]. split; [congruence|]. split; [congruence|]. intros i j Hi Hj. rewrite P1 in Hi. rewrite P2 in Hj.
  rewrite P3, Q3 by assumption. f_equal. apply sel_sum_perm. exact P.
Qed.
Print Assumptions C25_order_does_not_matter.
Theorem C25_undefined_bounds_raise : forall p (b : bnd Z) a k, bdef b = false -> addTo p b a k = Err GalSimUndefinedBoundsError.
Proof. intros p b a k D. unfold addTo. rewrite D. reflexivity. Qed.
Print Assumptions C25_undefined_bounds_raise.

Example C25_ex : rows exp0 = [(0, 0, 5 * (INR 3 / INR 2)); (2, 1, 9 * (INR 3 / INR 2))]%R /\ exists a' f, addTo exp0 exb exa false = Ok (Some (a', f)).
Proof.
  split; [reflexivity|]. destruct (C25_binning_conserves_flux exp0 exb exa) as (a' & f & E & _); [apply exp0_wf|apply exp0_wf|reflexivity|]. exists a', f. exact E.
Qed.

(** On an integer image every pixel is rounded after the photons are added, so flux is lost although
    added_flux reports it. *)
Theorem C25_integer_image_partial : forall p (b : bnd Z) (a : arr R), wfp p -> (exists i, kept p i) -> bdef b = true ->
  exists a1 f a', addTo p b a false = Ok (Some (a1, f)) /\ addTo p b a true = Ok (Some (a', f)) /\ nrow a' = nrow a /\ ncol a' = ncol a /\
    forall i j, (0 <= i < nrow a)%Z -> (0 <= j < ncol a)%Z ->
       elt a' i j = IZR (roundR (elt a i j + sel_sum (fun x y => in_pix (nv (bxmin b) + j) x && in_pix (nv (bymin b) + i) y) (rows p))).
Proof. intros p b a W K D. apply addTo_int; [exact W|apply num_keep_pos; assumption|exact D]. Qed.
Print Assumptions C25_integer_image_partial.

Definition exq : parr := PA 1 [1%R] [1%R] [(/ 4)%R] [false] (nans 1) (nans 1) (nans 1) (nans 1) (nans 1) (nans 1) false.
Theorem C25_integer_image_refuted : exists p a a' f, wfp p /\ addTo p exb a true = Ok (Some (a', f)) /\ f = (/ 4)%R /\ aeq a' a.
Proof.
  exists exq, exa. assert (W : wfp exq) by (repeat split). assert (K : exists i, kept exq i) by (exists 0; split; cbn; [lia|reflexivity]).
  assert (R1 : rows exq = [(1, 1, / 4)]%R) by reflexivity.
  destruct (C25_integer_image_partial exq exb exa W K eq_refl) as (a1 & f & a' & E1 & E2 & N1 & N2 & V).
  destruct (C25_binning_conserves_flux exq exb exa W K eq_refl) as (a1' & f' & E1' & _ & _ & _ & Vf).
  assert (Ff : f = f') by congruence. exists a', f. split; [exact W|]. split; [exact E2|]. split.
  - rewrite Ff, Vf, R1. rewrite sel_sum_cons. cbn [sel_sum fold_right]. change (nv (bxmin exb)) with 1%Z. change (nv (bymin exb)) with 1%Z. unfold in_span. cbn [ncol nrow exa aconst].
    destruct (Rltb_spec 1 (1 - / 2)); [lra|]. cbn [Z.add Pos.add Pos.succ Pos.add_carry]. destruct (Rltb_spec 1 (4 - / 2)); [|lra]. destruct (Rltb_spec 1 (3 - / 2)); [|lra]. cbn. lra.
  - split; [exact N1|]. split; [exact N2|]. rewrite N1, N2. intros i j Hi Hj. rewrite (V i j Hi Hj). cbn [elt exa aconst]. rewrite R1, sel_sum_cons. cbn [sel_sum fold_right].
    assert (B : roundR (0 + ((if in_pix (nv (bxmin exb) + j) 1 && in_pix (nv (bymin exb) + i) 1 then / 4 else 0) + 0)) = 0%Z).
    { unfold roundR. destruct (_ && _).
      - rewrite (floorR_unique _ 0) by lra. destruct (Rltb_spec (0 + (/ 4 + 0) - 0) (/ 2)); [reflexivity|lra].
      - rewrite (floorR_unique _ 0) by lra. destruct (Rltb_spec (0 + (0 + 0) - 0) (/ 2)); [reflexivity|lra]. }
    rewrite B. reflexivity.
Qed.
Print Assumptions C25_integer_image_refuted.

(** ** C26 *)
Theorem C26_convolution_pairs_photons : forall p q rs, wfp p -> wfp q -> pN q = pN p -> Permutation rs (seq 0 (pN p)) ->
  exists p', convolve p q rs = Ok (p', q) /\ wfp p' /\ pN p' = pN p /\ pnk p' = pnk p /\
  exists sg, Permutation sg (seq 0 (pN p)) /\
    (forall i, i < pN p ->
       nth i (px p') 0%R = (nth i (px p) 0 + nth (nth i sg 0%nat) (px q) 0)%R /\
       nth i (py_ p') 0%R = (nth i (py_ p) 0 + nth (nth i sg 0%nat) (py_ q) 0)%R /\
       (num_keep q = num_keep p -> (kept q (nth i sg 0%nat) <-> kept p i))) /\
    (forall i, 1 <= num_keep p -> num_keep q = num_keep p -> kept p i ->
       vis p' i = (vis p i * vis q (nth i sg 0%nat) * INR (num_keep p))%R) /\
    (pcorr p && pcorr q = false -> pnk p = pnk q -> forall i, i < pN p -> nth i sg 0 = i).
Proof.
  intros p q rs Wp Wq EN Prs. destruct (convolve_ok p q rs Wp Wq EN Prs) as (p' & E & W' & N' & M' & _ & sg & Psg & V & Id).
  exists p'. split; [exact E|]. split; [exact W'|]. split; [exact N'|]. split; [exact M'|]. exists sg. split; [exact Psg|]. split.
  - intros i Hi. destruct (V i Hi) as (A & B & _ & D). auto.
  - split; [|exact Id]. intros i K1 K2 Hk. assert (Hi : i < pN p) by apply Hk. destruct (V i Hi) as (_ & _ & C & D).
    assert (Kp' : num_keep p' = num_keep p) by (unfold num_keep; rewrite M'; reflexivity).
    assert (Hj : nth i sg 0 < pN q) by (rewrite EN; apply (isperm_lt _ _ _ Psg Hi)).
    assert (Kq : kept q (nth i sg 0)) by (apply D; assumption).
    rewrite (vis_val p') by (try assumption; lia). rewrite (vis_val p) by (try assumption; lia). rewrite (vis_val q) by (try assumption; lia).
    rewrite M'. apply kept_iff in Hk; [|exact Wp|exact Hi]. apply kept_iff in Kq; [|exact Wq|exact Hj]. rewrite Hk, Kq, C.
    unfold ratio. rewrite Kp', N', K2, EN. field. apply not_0_INR. lia.
Qed.
Print Assumptions C26_convolution_pairs_photons.

(** When the second array's photons have equal fluxes the total flux is the product of the totals. *)
Theorem C26_total_flux_is_product : forall p q rs c f1 f2 p', wfp p -> wfp q -> all_kept p -> all_kept q -> pN q = pN p -> 1 <= pN p -> Permutation rs (seq 0 (pN p)) ->
  (forall i, i < pN q -> vis q i = c) -> getTotalFlux p = Some f1 -> getTotalFlux q = Some f2 -> convolve p q rs = Ok (p', q) ->
  getTotalFlux p' = Some (f1 * f2)%R.
Proof.
  intros p q rs c f1 f2 p' Wp Wq Kp Kq EN HN Prs U T1 T2 E.
  pose proof (all_kept_num p Wp Kp) as Np. pose proof (all_kept_num q Wq Kq) as Nq.
  destruct (C26_convolution_pairs_photons p q rs Wp Wq EN Prs) as (p1 & E1 & W' & N' & M' & sg & Psg & _ & V & _).
  assert (p1 = p') by congruence. subst p1.
  assert (Kp' : num_keep p' = num_keep p) by (unfold num_keep; rewrite M'; reflexivity).
  rewrite total_vis in * by (try assumption; lia). assert (F1 : f1 = rsuml (map (vis p) (seq 0 (pN p)))) by congruence. assert (F2 : f2 = rsuml (map (vis q) (seq 0 (pN q)))) by congruence.
  rewrite (rsuml_const _ c) in F2. 2: { rewrite map_length, seq_length. intros i Hi. rewrite (nth_map _ _ _ _ i 0) by (rewrite seq_length; exact Hi). rewrite seq_nth by exact Hi. apply U. exact Hi. }
  rewrite map_length, seq_length in F2. f_equal. rewrite F1, F2, <- rsuml_map_mul, map_map, N'. f_equal. apply map_ext_in. intros i Hi. apply in_seq in Hi.
  rewrite V by (try lia; apply Kp; lia). rewrite U by (rewrite EN; apply (isperm_lt _ _ _ Psg); lia). rewrite Np, EN. lra.
Qed.
Print Assumptions C26_total_flux_is_product.

Theorem C26_commutes : forall p q rs rs' p' q', wfp p -> wfp q -> pN q = pN p -> pnk p = pnk q -> pcorr p && pcorr q = false ->
  Permutation rs (seq 0 (pN p)) -> Permutation rs' (seq 0 (pN p)) ->
  convolve p q rs = Ok (p', q) -> convolve q p rs' = Ok (q', p) ->
  px p' = px q' /\ py_ p' = py_ q' /\ pnk p' = pnk q' /\ (1 <= num_keep p -> forall i, kept p i -> vis p' i = vis q' i).
Proof.
  intros p q rs rs' p' q' Wp Wq EN EM EC P1 P2 E1 E2.
  destruct (C26_convolution_pairs_photons p q rs Wp Wq EN P1) as (p1 & E1' & W1 & N1 & M1 & sg1 & _ & V1 & F1 & I1).
  assert (P2' : Permutation rs' (seq 0 (pN q))) by (rewrite EN; exact P2).
  destruct (C26_convolution_pairs_photons q p rs' Wq Wp ltac:(lia) P2') as (q1 & E2' & W2 & N2 & M2 & sg2 & _ & V2 & F2 & I2).
  assert (p1 = p') by congruence. assert (q1 = q') by congruence. subst p1 q1.
  specialize (I1 EC EM). rewrite andb_comm in EC. specialize (I2 EC (eq_sym EM)). rewrite EN in *.
  assert (Lp : length (px p') = pN p /\ length (py_ p') = pN p) by (destruct W1 as (? & ? & _); lia). assert (Lq : length (px q') = pN p /\ length (py_ q') = pN p) by (destruct W2 as (? & ? & _); lia).
  assert (EK : num_keep q = num_keep p) by (unfold num_keep; rewrite EM; reflexivity).
  split; [|split; [|split]].
  - apply (nth_ext' _ 0%R); [lia|]. intros i Hi. destruct (V1 i ltac:(lia)) as (A & _). destruct (V2 i ltac:(lia)) as (B & _). rewrite A, B, I1, I2 by lia. lra.
  - apply (nth_ext' _ 0%R); [lia|]. intros i Hi. destruct (V1 i ltac:(lia)) as (_ & A & _). destruct (V2 i ltac:(lia)) as (_ & B & _). rewrite A, B, I1, I2 by lia. lra.
  - congruence.
  - intros K i Hi. assert (Hl : i < pN p) by apply Hi. rewrite F1 by (try assumption; lia). rewrite F2; [|lia|lia|].
    + rewrite I1, I2, EK by exact Hl. lra.
    + unfold kept in *. rewrite EN, <- EM. exact Hi.
Qed.
Print Assumptions C26_commutes.
Theorem C26_sizes_must_agree : forall p q rs, pN q <> pN p -> convolve p q rs = Err GalSimIncompatibleValuesError.
Proof. exact convolve_size. Qed.
Print Assumptions C26_sizes_must_agree.
Example C26_ex : exists p', convolve exp0 (scaleXY exp0 2) [2; 0; 1] = Ok (p', scaleXY exp0 2) /\ px p' = [0 + 0 * 2; 1 + 1 * 2; 2 + 2 * 2]%R.
Proof. eexists. split; reflexivity. Qed.

(** ** C27 *)
(** The photons made from an image, binned on the same bounds, give back every pixel value; none has
    |flux| above max_flux. *)
Theorem C27_photons_reproduce_image : forall (a : arr R) (b : bnd Z) mf ux uy, (0 < mf)%R -> (1 <= nrow a)%Z -> (1 <= ncol a)%Z ->
  (forall k, (0 <= ux k < 1)%R /\ (0 <= uy k < 1)%R) -> exists p,
  makeFromImage a b None mf ux uy = Ok p /\ wfp p /\ all_kept p /\
  (forall i, i < pN p -> (Rabs (vis p i) <= mf)%R) /\
  (forall i j, (0 <= i < nrow a)%Z -> (0 <= j < ncol a)%Z ->
     sel_sum (fun x y => in_pix (nv (bxmin b) + j) x && in_pix (nv (bymin b) + i) y) (rows p) = elt a i j).
Proof. exact makeFromImage_ok. Qed.
Print Assumptions C27_photons_reproduce_image.
Theorem C27_binned_back : forall (a : arr R) (b : bnd Z) mf ux uy, (0 < mf)%R -> (1 <= nrow a)%Z -> (1 <= ncol a)%Z -> bdef b = true ->
  (forall k, (0 <= ux k < 1)%R /\ (0 <= uy k < 1)%R) -> exists p a' f,
  makeFromImage a b None mf ux uy = Ok p /\ addTo p b (aconst (nrow a) (ncol a) 0%R) false = Ok (Some (a', f)) /\ aeq a' a.
Proof.
  intros a b mf ux uy Hm Hr Hc HD HU. destruct (makeFromImage_shape a b mf ux uy Hm Hr Hc) as (p & E & W & K & P & _).
  destruct (makeFromImage_ok a b mf ux uy Hm Hr Hc HU) as (p1 & E1 & _ & _ & _ & V). assert (p1 = p) by congruence. subst p1.
  destruct (C25_binning_conserves_flux p b (aconst (nrow a) (ncol a) 0%R) W) as (a' & f & Ea & N1 & N2 & Va & _); [exists 0; apply K; lia|exact HD|].
  exists p, a', f. split; [exact E|]. split; [exact Ea|]. cbn [nrow ncol aconst elt] in *. split; [exact N1|]. split; [exact N2|]. rewrite N1, N2. intros i j Hi Hj.
  rewrite Va by assumption. rewrite V by assumption. lra.
Qed.
Print Assumptions C27_binned_back.
Theorem C27_bad_max_flux_raises : forall a b s mf ux uy, (mf <= 0)%R -> makeFromImage a b s mf ux uy = Err GalSimRangeError.
Proof. intros a b s mf ux uy H. unfold makeFromImage. destruct (Rltb_spec 0 mf); [lra|reflexivity]. Qed.
Print Assumptions C27_bad_max_flux_raises.
Example C27_ex : n_per 1 (-5/2) = 3 /\ exists p, makeFromImage (aconst 1 1 (-5/2)%R) exb None 1 (fun _ => 0%R) (fun _ => (/ 2)%R) = Ok p /\ pN p = 3.
Proof.
  assert (N : n_per 1 (-5/2) = 3).
  { unfold n_per. rewrite (ceilR_unique _ 3); [reflexivity|]. rewrite Rabs_left by lra. lra. }
  split; [exact N|]. destruct (makeFromImage_shape (aconst 1 1 (-5/2)%R) exb 1 (fun _ => 0%R) (fun _ => (/ 2)%R)) as (p & E & _ & _ & _ & _ & _ & _ & L); [lra|cbn; lia|cbn; lia|].
  exists p. split; [exact E|]. rewrite L. change (msrc 1 (aconst 1 1 (-5/2)%R)) with (repeat (0%Z, 0%Z, (-5/2)%R) (n_per 1 (-5/2)) ++ []). rewrite N. reflexivity.
Qed.

(** ** C28 *)
Theorem C28_given_count_is_used : forall pd flux eta sb z poisson extra, (0 < z)%Z ->
  fst (calculate_n_photons pd flux eta sb (IZR z) poisson extra) = z.
Proof. exact n_photons_given. Qed.
Print Assumptions C28_given_count_is_used.
Theorem C28_computed_count_nonneg_partial : forall pd flux eta sb poisson extra, poisson = true \/ (0 <= flux)%R -> eta <> 0%R ->
  (0 <= fst (calculate_n_photons pd flux eta sb 0 poisson extra))%Z.
Proof. exact n_photons_nonneg. Qed.
Print Assumptions C28_computed_count_nonneg_partial.
(** A negative flux without Poisson noise gives a negative number of photons. *)
Theorem C28_negative_flux_refuted : forall pd sb, fst (calculate_n_photons pd (-5) 1 sb 0 false 0) = (-5)%Z.
Proof.
  intros pd sb. unfold calculate_n_photons. destruct (Reqb_spec 0 0); [|lra]. destruct (Reqb_spec (-5) 0); [lra|]. unfold n_photons_nonzero.
  destruct (Rltb_spec 0 0); [lra|]. cbn [fst]. apply ceilR_unique. lra.
Qed.
Print Assumptions C28_negative_flux_refuted.
Example C28_ex : fst (calculate_n_photons (fun m => m) 5 1 1 0 false 0) = 5%Z.
Proof.
  unfold calculate_n_photons. destruct (Reqb_spec 0 0); [|lra]. destruct (Reqb_spec 5 0); [lra|]. unfold n_photons_nonzero.
  destruct (Rltb_spec 0 0); [lra|]. cbn [fst]. apply ceilR_unique. lra.
Qed.

(** ** C29 *)
Theorem C29_pytree_round_trip : forall p, pa_unflatten (pa_flatten p) = p.
Proof. exact pa_roundtrip. Qed.
Print Assumptions C29_pytree_round_trip.

(** File round trip: everything survives when every photon is kept. (Paired columns are allocated
    together, as the setters ensure; the is_corr flag is not stored in the file.) *)
Theorem C29_file_round_trip_partial : forall fs p f, wfp p -> all_kept p -> 1 <= pN p -> pcorr p = false ->
  anyfin (pdxdz p) = anyfin (pdydz p) -> anyfin (ppu p) = anyfin (ppv p) -> same_size fs (pN p) -> write p = Some f -> read fs f = Ok p.
Proof.
  intros fs p f W K HN C A1 A2 HS E. pose proof (all_kept_num p W K) as Nk.
  destruct (read_write fs p f W ltac:(lia) A1 A2 HS E) as (q & Er & Eq). rewrite Er, Eq, (all_kept_photons p W K HN). destruct p. cbn in *. rewrite C. reflexivity.
Qed.
Print Assumptions C29_file_round_trip_partial.
(** With dropped photons the flux read back is inflated by N / (number kept). *)
Theorem C29_file_inflates_masked_flux_refuted : forall fs p f, wfp p -> (exists i, kept p i) -> 
  anyfin (pdxdz p) = anyfin (pdydz p) -> anyfin (ppu p) = anyfin (ppv p) -> same_size fs (pN p) -> write p = Some f ->
  exists q, read fs f = Ok q /\ px q = px p /\ py_ q = py_ p /\ pnk q = pnk p /\
    forall i, i < pN p -> vis q i = (vis p i * (INR (pN p) / INR (num_keep p)))%R.
Proof.
  intros fs p f W K A1 A2 HS E. apply num_keep_pos in K; [|exact W]. destruct (read_write fs p f W K A1 A2 HS E) as (q & Er & Eq).
  exists q. split; [exact Er|]. rewrite Eq. split; [reflexivity|]. split; [reflexivity|]. split; [reflexivity|]. intros i Hi.
  pose proof (masked_length p W) as Lm. rewrite vis_val; [| |exact K|exact Hi].
  - cbn [pnk pfl]. rewrite (vis_val p) by assumption. destruct (nth i (pnk p) false) eqn:B; [lra|]. rewrite (nth_map _ _ _ _ i 0%R) by lia. rewrite nth_masked by assumption. rewrite B.
    unfold ratio. cbn [pN]. reflexivity.
  - wf_split W. unfold wfp. cbn. rewrite map_length, Lm. repeat split; assumption.
Qed.
Print Assumptions C29_file_inflates_masked_flux_refuted.
Example C29_ex : exists f q, write exp0 = Some f /\ read None f = Ok q /\ vis exp0 0 = (15/2)%R /\ vis q 0 = (45/4)%R.
Proof.
  eexists. destruct (C29_file_inflates_masked_flux_refuted None exp0 _ (proj1 exp0_wf) (proj2 exp0_wf) eq_refl eq_refl (or_introl eq_refl) eq_refl) as (q & E & _ & _ & _ & V).
  exists q. split; [reflexivity|]. split; [exact E|]. assert (V0 : vis exp0 0 = (15/2)%R) by (unfold vis, flux; cbn; field).
  split; [exact V0|]. rewrite (V 0) by (cbn; lia). rewrite V0. unfold num_keep. cbn. field.
Qed.

(** ** C78 *)
Lemma n_photons_auto pd F eta sb extra : F <> 0%R -> (0 <= extra)%R ->
  snd (calculate_n_photons pd F eta sb 0 false extra) = if Rltb 0 extra then (1 + extra / Rabs sb)%R else 1%R.
Proof.
  intros HF HE. unfold calculate_n_photons. destruct (Reqb_spec 0 0); [|lra]. destruct (Reqb_spec F 0); [contradiction|]. unfold n_photons_nonzero.
  destruct (Rltb 0 extra); cbn [snd]; lra.
Qed.
(** Drawing with an automatically computed number of photons: without extra noise the flux shot is the
    profile's; allowing extra noise multiplies it by 1 + extra/|max_sb|. *)
Theorem C78_extra_noise_scales_flux_refuted : forall pd o eta sb extra (b : bnd Z) (a : arr R), good_tree o -> (0 <= extra)%R -> bdef b = true ->
  let '(n, g) := calculate_n_photons pd (sflux o) eta sb 0 false extra in (1 <= n)%Z ->
  exists st, drawPhot (Z.to_nat n) None (fun _ => o) None (Z.to_nat n) g 1 1 b a false = Done st /\ nsum (l_rounds st) = Z.to_nat n /\
    tsum (l_rounds st) = if Rltb 0 extra then (sflux o * (1 + extra / Rabs sb))%R else sflux o.
Proof.
  intros pd o eta sb extra b a G HE HD. pose proof (good_tree_pos o G) as P. pose proof (n_photons_auto pd (sflux o) eta sb extra ltac:(lra) HE) as Hg.
  destruct (calculate_n_photons pd (sflux o) eta sb 0 false extra) as [n g]. cbn [snd] in Hg. intros Hn.
  destruct (C22_draw_loop_shoots_every_photon (Z.to_nat n) None (fun _ => o) None (Z.to_nat n) (sflux o) g 1 1 b a false) as (st & E & _ & H1 & _ & _ & H2 & _);
    [lra|exact HD|lia|auto|left; split; [reflexivity|discriminate]|].
  exists st. split; [exact E|]. split; [exact H1|]. rewrite H2, Hg. destruct (Rltb 0 extra); unfold Rdiv; rewrite ?Rinv_1; lra.
Qed.
Print Assumptions C78_extra_noise_scales_flux_refuted.
Example C78_ex : (sflux ex_tree * (1 + 1 / Rabs 2) <> sflux ex_tree)%R.
Proof. destruct ex_tree_good as [_ ->]. rewrite Rabs_right by lra. lra. Qed.

(** ** C79 *)
Theorem C79_copied_photons : forall p rhs s1 s2, wfp p -> wfp rhs -> (exists i, kept p i) -> (exists i, kept rhs i) -> NoDup s1 -> length s1 = length s2 ->
  (forall i, In i s1 -> i < pN p) -> (forall i, In i s2 -> i < pN rhs) ->
  (exists k, k < length s1 /\ kept rhs (nth k s2 0)) \/ (exists i, kept p i /\ ~ In i s1) ->
  exists q, copyFrom p rhs s1 s2 true true false = Some q /\ wfp q /\ pN q = pN p /\
    (forall k, k < length s1 -> let i := nth k s1 0 in let j := nth k s2 0 in
       nth i (px q) 0%R = nth j (px rhs) 0%R /\ nth i (py_ q) 0%R = nth j (py_ rhs) 0%R /\ (kept q i <-> kept rhs j) /\ vis q i = vis rhs j) /\
    (forall i, i < pN p -> ~ In i s1 -> nth i (px q) 0%R = nth i (px p) 0%R /\ nth i (py_ q) 0%R = nth i (py_ p) 0%R /\ (kept q i <-> kept p i) /\ vis q i = vis p i).
Proof.
  intros p rhs s1 s2 Wp Wr Kp Kr ND Len R1 R2 HK. apply num_keep_pos in Kp; [|exact Wp]. apply num_keep_pos in Kr; [|exact Wr].
  destruct (copyFrom_ok p rhs s1 s2 Wp Wr Kp Kr ND Len R1 R2) as (q & E & W & N & K & A & B).
  - set (m := scatter _ _ _). assert (Lm : length m = pN p) by (unfold m; rewrite scatter_length; apply Wp).
    change (1 <= num_keep (set_pnk p m)). apply num_keep_pos; [apply set_pnk_wf; assumption|]. destruct HK as [(k & Hk & HK)|(i & HK & NI)].
    + exists (nth k s1 0). assert (Hi : nth k s1 0 < pN p) by (apply R1, nth_In; exact Hk). split; [exact Hi|]. cbn [pnk set_pnk]. unfold m.
      assert (Lk : length (pnk p) = pN p) by apply Wp. rewrite (nth_scatter _ _ _ _ k) by (rewrite ?gather_length; try assumption; lia). rewrite nth_gather by lia.
      apply kept_iff; [exact Wr|apply HK|exact HK].
    + exists i. split; [apply HK|]. cbn [pnk set_pnk]. unfold m. rewrite nth_scatter_other by (rewrite ?gather_length; assumption). apply HK.
  - exists q. auto.
Qed.
Print Assumptions C79_copied_photons.
(** Copying positions only (do_flux=False) copies the mask too, so the fluxes of photons not copied change. *)
Theorem C79_without_flux_refuted : exists p rhs q, wfp p /\ wfp rhs /\ copyFrom p rhs [0] [0] true false false = Some q /\
  kept p 1 /\ kept q 1 /\ vis p 1 = 1%R /\ vis q 1 = 2%R.
Proof.
  exists (PA 2 [0; 1]%R [0; 0]%R [1; 1]%R [false; false] (nans 2) (nans 2) (nans 2) (nans 2) (nans 2) (nans 2) false).
  exists (PA 2 [5; 6]%R [0; 0]%R [1; 1]%R [true; false] (nans 2) (nans 2) (nans 2) (nans 2) (nans 2) (nans 2) false).
  eexists. split; [repeat split|]. split; [repeat split|]. split; [reflexivity|]. split; [split; cbn; [lia|reflexivity]|]. split; [split; cbn; [lia|reflexivity]|].
  unfold vis, flux. cbn. split; field.
Qed.
Print Assumptions C79_without_flux_refuted.
Example C79_ex : exists q, copyFrom exp0 (scaleXY exp0 3) [2; 0] [0; 2] true true false = Some q /\ px q = [2 * 3; 1; 0 * 3]%R.
Proof. eexists. split; reflexivity. Qed.

(** ** C80 *)
(** Shooting a Sum: photon j is photon j of a shot of the component chosen for it, with flux
    sign(component flux) * (sum of |fluxes|) / N. *)
Theorem C80_sum_photons_come_from_components : forall objs cat fs N, Forall good_component objs ->
  length (cat N) = N -> (forall j, j < N -> nth j (cat N) 0 < length objs) -> same_size fs N -> 1 <= N ->
  exists q, shoot fs (SSum objs cat) N = Ok q /\ num_keep q = N /\
    forall j, j < N -> exists o c, nth_error objs (nth j (cat N) 0) = Some o /\ shoot fs o N = Ok c /\
      nth j (px q) 0%R = nth j (px c) 0%R /\ nth j (py_ q) 0%R = nth j (py_ c) 0%R /\
      vis q j = (sflux o / Rabs (sflux o) * (sum_abs objs / INR N))%R.
Proof.
  intros objs cat fs N G L R0 HS HN. destruct (sum_shoot objs cat fs N G L R0 HS HN) as (q & E & (W & Nq & K & _) & V). pose proof (all_kept_num q W K) as Kn.
  exists q. split; [exact E|]. split; [lia|]. intros j Hj. destruct (V j Hj) as (o & c & A & B & X & Y & F). exists o, c. repeat split; try assumption.
  rewrite vis_val by (try assumption; lia). assert (Kj := K j ltac:(lia)). apply kept_iff in Kj; [|exact W|lia]. rewrite Kj, F, ratio_all by lia. lra.
Qed.
Print Assumptions C80_sum_photons_come_from_components.
Example C80_ex : exists q, shoot None (SSum [SLeaf 3 (fun n => repeat 7%R n) pts; SLeaf (-1) pts pts] (fun n => map (fun i => Nat.modulo i 2) (seq 0 n))) 2 = Ok q /\
  vis q 0 = 2%R /\ vis q 1 = (-2)%R /\ nth 0 (px q) 0%R = 7%R.
Proof.
  destruct (C80_sum_photons_come_from_components [SLeaf 3 (fun n => repeat 7%R n) pts; SLeaf (-1) pts pts] (fun n => map (fun i => Nat.modulo i 2) (seq 0 n)) None 2) as (q & E & K & V).
  - constructor; [left; split; [lra|intros n; rewrite repeat_length; split; [reflexivity|apply pts_ok]]|]. constructor; [|constructor]. right. eexists _, _, _. split; [reflexivity|]. split; [lra|exact pts_ok].
  - reflexivity.
  - intros j Hj. destruct j as [|[|]]; cbn; lia.
  - left; reflexivity.
  - lia.
  - exists q. split; [exact E|]. destruct (V 0 ltac:(lia)) as (o0 & c0 & A0 & B0 & X0 & _ & F0). destruct (V 1 ltac:(lia)) as (o1 & c1 & A1 & _ & _ & _ & F1).
    cbn in A0, A1. assert (o0 = SLeaf 3 (fun n => repeat 7%R n) pts) by congruence. assert (o1 = SLeaf (-1) pts pts) by congruence. subst o0 o1.
    rewrite F0, F1, X0. unfold sum_abs. cbn [sflux fold_right]. rewrite (Rabs_right 3) by lra. rewrite (Rabs_left (-1)) by lra. cbn. split; [field|]. split; [field|].
    cbn in B0. assert (px c0 = [7; 7]%R) by (assert (Q : forall x y : parr, Ok x = Ok y -> x = y) by (intros; congruence); apply Q in B0; rewrite <- B0; reflexivity).
    rewrite H. reflexivity.
Qed.
