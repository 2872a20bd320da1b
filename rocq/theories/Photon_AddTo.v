(** Proofs about adding photons to an image and about the drawing loop. *)
From Coq Require Import ZArith Reals Bool List Arith Lia ZifyBool Lra Permutation.
From Verif Require Import Base Array_Model Bounds_Model Bounds_Proofs FFT_Model FFT_Proofs Draw_Model Draw_Proofs Photon_Model Photon_Spec Photon_Lists Photon_Proofs Photon_Conv.
Import ListNotations.
Open Scope nat_scope.

Lemma pix_ind_spec x xmin j : pix_ind x xmin = j <-> in_pix (xmin + j) x = true.
Proof.
  unfold pix_ind, in_pix. rewrite plus_IZR. destruct (Rltb_spec x (IZR xmin + IZR j - / 2)) as [L|L]; destruct (Rltb_spec x (IZR xmin + IZR j + / 2)) as [U|U]; cbn.
  1,2,4: split; [|discriminate]; intros E; pose proof (floorR_bounds (x - IZR xmin + / 2)) as B; rewrite E in B; lra.
  split; [reflexivity|]. intros _. apply floorR_unique. lra.
Qed.
Lemma pix_ind_span x xmin n : ((0 <=? pix_ind x xmin) && (pix_ind x xmin <? n))%Z = in_span xmin n x.
Proof.
  unfold pix_ind, in_span. rewrite plus_IZR. pose proof (floorR_bounds (x - IZR xmin + / 2)) as B. set (z := floorR (x - IZR xmin + / 2)) in *. clearbody z.
  destruct (Rltb_spec x (IZR xmin - / 2)) as [L|L]; cbn [negb andb].
  - destruct (Z.leb_spec 0 z) as [P|P]; [|reflexivity]. apply IZR_le in P. lra.
  - destruct (Z.leb_spec 0 z) as [P|P].
    + cbn [andb]. destruct (Rltb_spec x (IZR xmin + IZR n - / 2)) as [U|U].
      * apply Z.ltb_lt. apply lt_IZR. lra.
      * apply Z.ltb_ge. assert (IZR n < IZR z + 1)%R by lra. rewrite <- plus_IZR in H. apply lt_IZR in H. lia.
    + exfalso. assert (z + 1 <= 0)%Z by lia. apply IZR_le in H. rewrite plus_IZR in H. lra.
Qed.

Definition ok_shape (a : arr R) (xmin ymin : Z) (t : R * R * R) : bool := let '(x, y, _) := t in in_shape a (pix_ind y ymin) (pix_ind x xmin).
Lemma in_shape_span a xmin ymin x y : in_shape a (pix_ind y ymin) (pix_ind x xmin) = in_span xmin (ncol a) x && in_span ymin (nrow a) y.
Proof. unfold in_shape. rewrite <- !pix_ind_span. rewrite !andb_assoc. reflexivity. Qed.

Lemma good_sum a xmin ymin ph :
  rsuml (map (fun t => let '(x, y, f) := t in if in_shape a (pix_ind y ymin) (pix_ind x xmin) then f else 0%R) ph)
  = sel_sum (fun x y => in_span xmin (ncol a) x && in_span ymin (nrow a) y) ph.
Proof. induction ph as [|[[x y] f] ph IH]; [reflexivity|]. cbn. rewrite <- in_shape_span. f_equal. exact IH. Qed.

Lemma add_photons_ok ph xmin ymin a :
  let r := add_photons ph xmin ymin a false in
  nrow (fst r) = nrow a /\ ncol (fst r) = ncol a /\
  (forall i j, (0 <= i < nrow a)%Z -> (0 <= j < ncol a)%Z ->
     elt (fst r) i j = (elt a i j + sel_sum (fun x y => in_pix (xmin + j) x && in_pix (ymin + i) y) ph)%R) /\
  snd r = sel_sum (fun x y => in_span xmin (ncol a) x && in_span ymin (nrow a) y) ph.
Proof.
  cbv zeta. unfold add_photons. cbn [fst snd]. rewrite good_sum.
  set (g := fun (a : arr R) (t : R * R * R) => let '(x, y, f) := t in if in_shape a (pix_ind y ymin) (pix_ind x xmin) then f else 0%R).
  assert (H : forall ph (b : arr R), nrow b = nrow a -> ncol b = ncol a ->
     let out := fold_left (fun a t => let '((x, y, _), f) := t in at_upd a (pix_ind y ymin) (pix_ind x xmin) (fun v => v + f)%R) (combine ph (map (g a) ph)) b in
     nrow out = nrow a /\ ncol out = ncol a /\
     forall i j, (0 <= i < nrow a)%Z -> (0 <= j < ncol a)%Z ->
       elt out i j = (elt b i j + sel_sum (fun x y => in_pix (xmin + j) x && in_pix (ymin + i) y) ph)%R).
  { clear ph. induction ph as [|[[x y] f] ph IH]; intros b Hr Hc; cbv zeta.
    - cbn. split; [exact Hr|]. split; [exact Hc|]. intros. lra.
    - cbn [map combine fold_left].
      match goal with |- context [fold_left _ _ ?z] => set (b' := z) end.
      destruct (IH b') as (R1 & R2 & R3); [exact Hr|exact Hc|]. split; [exact R1|]. split; [exact R2|]. intros i j Hi Hj. rewrite (R3 i j Hi Hj).
      cbn [sel_sum fold_right]. fold (sel_sum (fun x y => in_pix (xmin + j) x && in_pix (ymin + i) y) ph).
      rewrite <- Rplus_assoc. f_equal. subst b'. unfold at_upd. cbn [elt]. unfold g. unfold in_shape.
      pose proof (pix_ind_spec x xmin j) as Sx. pose proof (pix_ind_spec y ymin i) as Sy.
      set (px := pix_ind x xmin) in *. set (py := pix_ind y ymin) in *. clearbody px py.
      destruct (in_pix (xmin + j) x) eqn:Ex; destruct (in_pix (ymin + i) y) eqn:Ey; cbn [andb].
      + assert (px = j) by (apply Sx; reflexivity). assert (py = i) by (apply Sy; reflexivity). subst px py.
        unfold nidx. replace (i =? (if (i <? 0)%Z then (i + nrow b)%Z else i))%Z with true by (destruct (Z.ltb_spec i 0); symmetry; apply Z.eqb_eq; lia).
        replace (j =? (if (j <? 0)%Z then (j + ncol b)%Z else j))%Z with true by (destruct (Z.ltb_spec j 0); symmetry; apply Z.eqb_eq; lia).
        cbn [andb]. replace ((0 <=? j) && (j <? ncol a) && (0 <=? i) && (i <? nrow a))%Z with true by lia. reflexivity.
      + assert (N : py <> i) by (intros E; apply Sy in E; discriminate). rewrite Rplus_0_r.
        destruct (_ && _)%Z eqn:M; [|reflexivity]. replace ((0 <=? px) && (px <? ncol a) && (0 <=? py) && (py <? nrow a))%Z with false; [lra|].
        unfold nidx in M. destruct (Z.ltb_spec py 0); lia.
      + assert (N : px <> j) by (intros E; apply Sx in E; discriminate). rewrite Rplus_0_r.
        destruct (_ && _)%Z eqn:M; [|reflexivity]. replace ((0 <=? px) && (px <? ncol a) && (0 <=? py) && (py <? nrow a))%Z with false; [lra|].
        unfold nidx in M. destruct (Z.ltb_spec px 0); lia.
      + assert (N : px <> j) by (intros E; apply Sx in E; discriminate). rewrite Rplus_0_r.
        destruct (_ && _)%Z eqn:M; [|reflexivity]. replace ((0 <=? px) && (px <? ncol a) && (0 <=? py) && (py <? nrow a))%Z with false; [lra|].
        unfold nidx in M. destruct (Z.ltb_spec px 0); lia. }
  destruct (H ph a eq_refl eq_refl) as (R1 & R2 & R3). split; [exact R1|]. split; [exact R2|]. split; [exact R3|]. reflexivity.
Qed.

Lemma sel_sum_cons f x y w l : sel_sum f ((x, y, w) :: l) = ((if f x y then w else 0) + sel_sum f l)%R.
Proof. reflexivity. Qed.
Lemma sel_sum_app f l l' : sel_sum f (l ++ l') = (sel_sum f l + sel_sum f l')%R.
Proof. induction l as [|[[x y] w] l IH]; cbn; [rewrite Rplus_0_l; reflexivity|]. fold (sel_sum f (l ++ l')) (sel_sum f l). rewrite IH. lra. Qed.
Lemma sel_sum_perm f l l' : Permutation l l' -> sel_sum f l = sel_sum f l'.
Proof.
  induction 1 as [|[[x y] w] l l' P IH|[[x y] w] [[x' y'] w'] l|]; [reflexivity| | |congruence]; cbn.
  - fold (sel_sum f l) (sel_sum f l'). rewrite IH. reflexivity.
  - lra.
Qed.

(** the photons written to the image are the kept ones *)
Lemma nth_combine3 (a b : list R) (c : list R) i : length a = length b -> length b = length c ->
  nth i (combine (combine a b) c) (0%R, 0%R, 0%R) = (nth i a 0%R, nth i b 0%R, nth i c 0%R).
Proof. intros H H'. rewrite combine_nth by (rewrite combine_length; lia). rewrite combine_nth by exact H. reflexivity. Qed.

Lemma photons_rows p f : wfp p -> 1 <= num_keep p ->
  sel_sum f (combine (combine (px p) (py_ p)) (map (fun v => v * ratio p)%R (masked_flux p))) = sel_sum f (rows p).
Proof.
  intros W K. pose proof (masked_length p W) as Lm. pose proof W as W'. wf_split W'.
  transitivity (sel_sum f (map (fun i => (nth i (px p) 0%R, nth i (py_ p) 0%R, vis p i)) (seq 0 (pN p)))).
  - f_equal. apply (nth_ext' _ (0, 0, 0)%R).
    + rewrite !combine_length, !map_length, seq_length. lia.
    + rewrite !combine_length, map_length. intros i Hi. rewrite nth_combine3 by (rewrite ?map_length; lia).
      rewrite (nth_map _ _ _ (seq 0 (pN p)) i 0) by (rewrite seq_length; lia). rewrite seq_nth by lia. cbn [plus]. f_equal.
      rewrite (nth_map _ _ _ _ i 0%R) by lia. rewrite nth_masked by (try assumption; lia). rewrite vis_val by (try assumption; lia).
      destruct (nth i (pnk p) false); lra.
  - unfold rows. assert (H : forall l, (forall i, In i l -> i < pN p) ->
      sel_sum f (map (fun i => (nth i (px p) 0%R, nth i (py_ p) 0%R, vis p i)) l) =
      sel_sum f (map (fun i => (nth i (px p) 0%R, nth i (py_ p) 0%R, vis p i)) (filter (fun i => negb (nth i (pnk p) true)) l))).
    { induction l as [|i l IH]; intros Hl; [reflexivity|]. cbn [filter map]. assert (Hi : i < pN p) by (apply Hl; left; reflexivity).
      assert (IH' := IH (fun j Hj => Hl j (or_intror Hj))). rewrite (nth_mask_d p i true false W Hi). pose proof (vis_val p i W K Hi) as V.
      destruct (nth i (pnk p) false); cbn [negb].
      - rewrite <- IH', sel_sum_cons, V. destruct (f _ _); lra.
      - cbn [map]. rewrite !sel_sum_cons. f_equal. exact IH'. }
    apply H. intros i Hi. apply in_seq in Hi. lia.
Qed.

Lemma addTo_ok p b a : wfp p -> 1 <= num_keep p -> bdef b = true ->
  exists a' f, addTo p b a false = Ok (Some (a', f)) /\ nrow a' = nrow a /\ ncol a' = ncol a /\
    (forall i j, (0 <= i < nrow a)%Z -> (0 <= j < ncol a)%Z ->
       elt a' i j = (elt a i j + sel_sum (fun x y => in_pix (nv (bxmin b) + j) x && in_pix (nv (bymin b) + i) y) (rows p))%R) /\
    f = sel_sum (fun x y => in_span (nv (bxmin b)) (ncol a) x && in_span (nv (bymin b)) (nrow a) y) (rows p).
Proof.
  intros W K D. unfold addTo. rewrite D. cbn [negb]. rewrite flux_ratio_some by exact K.
  match goal with |- context [add_photons ?ph ?x ?y a false] => pose proof (add_photons_ok ph x y a) as H end. cbv zeta in H.
  destruct (add_photons _ _ _ a false) as [a' f]. cbn [fst snd] in H. destruct H as (R1 & R2 & R3 & R4).
  exists a', f. split; [reflexivity|]. split; [exact R1|]. split; [exact R2|]. split.
  - intros i j Hi Hj. rewrite (R3 i j Hi Hj). f_equal. apply photons_rows; assumption.
  - rewrite R4. apply photons_rows; assumption.
Qed.

Lemma addTo_int p b a : wfp p -> 1 <= num_keep p -> bdef b = true ->
  exists a1 f a', addTo p b a false = Ok (Some (a1, f)) /\ addTo p b a true = Ok (Some (a', f)) /\
    nrow a' = nrow a /\ ncol a' = ncol a /\ forall i j, (0 <= i < nrow a)%Z -> (0 <= j < ncol a)%Z ->
       elt a' i j = IZR (roundR (elt a i j + sel_sum (fun x y => in_pix (nv (bxmin b) + j) x && in_pix (nv (bymin b) + i) y) (rows p))).
Proof.
  intros W K D. destruct (addTo_ok p b a W K D) as (a1 & f & E & N1 & N2 & V & _). unfold addTo in *. rewrite D in *. cbn [negb] in *.
  rewrite flux_ratio_some in * by exact K. unfold add_photons in *. cbv zeta in *. set (out := fold_left _ _ a) in *. clearbody out.
  assert (out = a1) by congruence. subst out. eexists a1, f, _. split; [exact E|]. split; [f_equal; f_equal; f_equal; congruence|].
  split; [exact N1|]. split; [exact N2|]. intros i j Hi Hj. cbn [elt amap]. rewrite V by assumption. reflexivity.
Qed.

(** * The loop *)
Lemma scaleXY_facts p s : wfp p -> wfp (scaleXY p s) /\ num_keep (scaleXY p s) = num_keep p /\ flux (scaleXY p s) = flux p /\ pN (scaleXY p s) = pN p.
Proof. intros W. pose proof W as W0. wf_split W0. split; [|auto]. apply set_pxy_wf; [exact W|rewrite map_length; lia..]. Qed.

(** photons of equal stored flux: the total visible flux does not depend on how many are kept *)
Lemma uniform_total r c : wfp r -> 1 <= num_keep r -> (forall i, i < pN r -> nth i (pfl r) 0%R = c) -> getTotalFlux r = Some (c * INR (pN r))%R.
Proof.
  intros W K V. rewrite total_vis by assumption. f_equal.
  assert (Cnt : forall d m l, rsuml (map (fun i : nat => if nth i m false then 0 else d)%R l) = (INR (length (filter (fun i => negb (nth i m false)) l)) * d)%R).
  { intros d m l. induction l as [|i s IH]; [cbn; lra|]. cbn [map filter]. destruct (nth i m false); cbn [negb].
    - cbn [rsuml fold_right]. fold (rsuml (map (fun i : nat => if nth i m false then 0 else d)%R s)). rewrite IH. lra.
    - cbn [rsuml fold_right]. fold (rsuml (map (fun i : nat => if nth i m false then 0 else d)%R s)). rewrite IH. cbn [length]. rewrite S_INR. lra. }
  transitivity (rsuml (map (fun i : nat => if nth i (pnk r) false then 0 else c * ratio r)%R (seq 0 (pN r)))).
  - f_equal. apply map_ext_in. intros i Hi. apply in_seq in Hi. rewrite vis_val by (try assumption; lia). rewrite V by lia. reflexivity.
  - rewrite Cnt. assert (L : length (pnk r) = pN r) by (apply W). rewrite <- L at 1.
    rewrite (filter_seq_count negb (pnk r)). change (length (filter negb (pnk r))) with (num_keep r). unfold ratio. field. apply not_0_INR. lia.
Qed.
Lemma keep_total q c n : wfp q -> 1 <= n <= pN q -> (forall i, i < pN q -> nth i (pfl q) 0%R = c) ->
  getTotalFlux (set_num_keep q n) = Some (c * INR (pN q))%R.
Proof.
  intros W Hn V. destruct (set_num_keep_ok q n W) as (Wn & Nn & _ & _ & Fn & _ & Kn & _). cbv zeta in *.
  rewrite (uniform_total _ c Wn); [rewrite Nn; reflexivity|lia|]. rewrite Nn, Fn. exact V.
Qed.

(** a leaf under a fixed array size *)
Lemma leaf_fixed F gx gy fs m M : (forall n, length (gx n) = n /\ length (gy n) = n) -> 1 <= m ->
  (fs = None /\ M = m \/ fs = Some M /\ m <= M) ->
  exists q, shoot fs (SLeaf F gx gy) m = Ok q /\ wfp q /\ pN q = M /\ num_keep q = m /\
            forall i, i < M -> nth i (pfl q) 0%R = (F * INR m / (INR M * INR M))%R.
Proof.
  intros HG Hm HM. unfold shoot, shoot_with. destruct (pa_new fs m) as [p|e] eqn:E.
  2: { exfalso. unfold pa_new in E. destruct HM as [[-> _]|[-> HM]]; [discriminate|]. destruct (Nat.ltb_spec M m); [lia|discriminate]. }
  destruct (pa_new_ok _ _ _ E) as (W & _ & K & P & L & _). cbn [bind].
  assert (PM : pN p = M). { rewrite P. destruct HM as [[-> ->]|[-> HM]]; [reflexivity|]. destruct M; [lia|reflexivity]. }
  rewrite PM in *. assert (HMm : m <= M) by lia. destruct (Nat.eqb_spec M 0); [lia|]. cbn [shoot_]. rewrite PM. destruct (HG M) as [Lx Ly].
  unfold set_x. rewrite PM, bcast_array by exact Lx. cbn [bind]. unfold set_y. cbn [pN set_pxy]. rewrite PM, bcast_array by exact Ly. cbn [bind].
  eexists. split; [unfold set_flux; cbn [bcast bind]; reflexivity|].
  assert (W2 : wfp (set_pxy (set_pxy p (gx M) (py_ p)) (px (set_pxy p (gx M) (py_ p))) (gy M))).
  { apply set_pxy_wf; [apply set_pxy_wf; [exact W|lia|wf_split W; assumption]|cbn; lia|cbn; lia]. }
  set (p2 := set_pxy _ _ (gy M)) in *. assert (N2 : pN p2 = M) by exact PM. assert (K2 : num_keep p2 = m) by exact K.
  rewrite (flux_ratio_some p2) by lia.
  split; [apply set_pfl_wf; [exact W2|rewrite map_length, repeat_length; reflexivity]|]. split; [exact N2|]. split; [exact K2|].
  intros i Hi. cbn [pfl set_pfl]. rewrite N2. rewrite (nth_map _ _ _ _ i 0%R) by (rewrite repeat_length; exact Hi). rewrite nth_repeat' by exact Hi.
  unfold ratio. rewrite N2, K2. field. split; apply not_0_INR; lia.
Qed.

Lemma loop_shoot_uniform fs o maxN n Ntot g scale q c : shoot fs o maxN = Ok q -> wfp q -> 1 <= n <= pN q -> n <= Ntot ->
  (forall i, i < pN q -> nth i (pfl q) 0%R = c) ->
  exists p, loop_shoot fs o maxN n Ntot g scale = Ok p /\ wfp p /\ num_keep p = n /\
            getTotalFlux p = Some (c * INR (pN q) * g * INR n / INR Ntot)%R.
Proof.
  intros E W Hn Hn' V. unfold loop_shoot. rewrite E. cbn [bind].
  pose proof (keep_total q c n W Hn V) as T. set (F := (c * INR (pN q))%R) in *.
  destruct (set_num_keep_ok q n W) as (Wn & Nn & _ & _ & _ & _ & Kn & _). cbv zeta in *. set (r := set_num_keep q n) in *.
  assert (Kr : num_keep r = n) by lia. clearbody r F.
  assert (HN0 : INR Ntot <> 0%R) by (apply not_0_INR; lia).
  assert (exists r', (if Reqb g 1 && Nat.eqb n Ntot then r else scaleFlux r (g * INR n / INR Ntot)) = r' /\ wfp r' /\ num_keep r' = n /\
            getTotalFlux r' = Some (F * g * INR n / INR Ntot)%R) as (r' & -> & W' & K' & T').
  { destruct (Reqb_spec g 1) as [-> |Ng]; [destruct (Nat.eqb_spec n Ntot) as [-> |Nn']|]; cbn [andb].
    - exists r. repeat split; try apply Wn; try assumption. rewrite T. f_equal. field. exact HN0.
    - eexists. split; [reflexivity|]. split; [apply scaleFlux_wf; exact Wn|]. split; [exact Kr|].
      rewrite (scaleFlux_total r _ _ Wn ltac:(lia) T). f_equal. field. exact HN0.
    - eexists. split; [reflexivity|]. split; [apply scaleFlux_wf; exact Wn|]. split; [exact Kr|].
      rewrite (scaleFlux_total r _ _ Wn ltac:(lia) T). f_equal. field. exact HN0. }
  eexists. split; [reflexivity|]. destruct (Reqb scale 1); [auto|].
  destruct (scaleXY_facts r' (/ scale) W') as (A & B & C & _). split; [exact A|]. split; [lia|]. unfold getTotalFlux. rewrite C. exact T'.
Qed.

Lemma loop_shoot_ok fs o maxN n Ntot g scale : good_tree o -> same_size fs maxN -> 1 <= n <= maxN -> n <= Ntot ->
  exists p, loop_shoot fs o maxN n Ntot g scale = Ok p /\ wfp p /\ num_keep p = n /\
            getTotalFlux p = Some (sflux o * g * INR n / INR Ntot)%R.
Proof.
  intros G HS Hn Hn'. destruct (shoot_ok o fs maxN G HS ltac:(lia)) as (q & E & (W & Nq & _ & _ & V)).
  destruct (loop_shoot_uniform fs o maxN n Ntot g scale q (sflux o / INR maxN) E W ltac:(lia) Hn') as (p & A & B & C & D); [intros; apply V; lia|].
  exists p. repeat split; try assumption; try apply B. rewrite D, Nq. f_equal. field. split; apply not_0_INR; lia.
Qed.

Lemma loop_shoot_leaf F gx gy fs maxN M n Ntot g scale : (forall n, length (gx n) = n /\ length (gy n) = n) ->
  (fs = None /\ M = maxN \/ fs = Some M /\ maxN <= M) -> 1 <= n <= maxN -> n <= Ntot ->
  exists p, loop_shoot fs (SLeaf F gx gy) maxN n Ntot g scale = Ok p /\ wfp p /\ num_keep p = n /\
            getTotalFlux p = Some (F * INR maxN / INR M * g * INR n / INR Ntot)%R.
Proof.
  intros HG HM Hn Hn'. destruct (leaf_fixed F gx gy fs maxN M HG ltac:(lia) HM) as (q & E & W & Nq & Kq & V).
  assert (maxN <= M) by (destruct HM as [[_ ->]|[_ ?]]; lia).
  destruct (loop_shoot_uniform fs _ maxN n Ntot g scale q (F * INR maxN / (INR M * INR M)) E W ltac:(lia) Hn') as (p & A & B & C & D); [intros; apply V; lia|].
  exists p. repeat split; try assumption; try apply B. rewrite D, Nq. f_equal. field. split; apply not_0_INR; lia.
Qed.

Lemma fsum_app f a b : fsum f (a ++ b) = (fsum f a + fsum f b)%R.
Proof. induction a as [|t a IH]; cbn; [rewrite Rplus_0_l; reflexivity|]. fold (fsum f (a ++ b)) (fsum f a). rewrite IH. lra. Qed.

Lemma draw_loop_ok fs obj maxN Ntot F g scale b : 1 <= maxN -> bdef b = true ->
  (forall k n, 1 <= n <= maxN -> n <= Ntot -> exists p, loop_shoot fs (obj k) maxN n Ntot g scale = Ok p /\ wfp p /\ num_keep p = n /\
            getTotalFlux p = Some (F * g * INR n / INR Ntot)%R) ->
  forall fuel st, l_left st <= fuel -> l_left st <= Ntot -> exists st' rs,
    draw_loop fuel fs obj maxN Ntot g scale b st = Done st' /\ l_left st' = 0 /\ l_rounds st' = rs ++ l_rounds st /\
    nsum rs = l_left st /\ length rs = (l_left st + maxN - 1) / maxN /\
    Forall (fun t => 1 <= fst t <= maxN /\ wfp (snd t) /\ num_keep (snd t) = fst t /\
                     getTotalFlux (snd t) = Some (F * g * INR (fst t) / INR Ntot)%R) rs /\
    nrow (l_arr st') = nrow (l_arr st) /\ ncol (l_arr st') = ncol (l_arr st) /\
    (forall i j, (0 <= i < nrow (l_arr st))%Z -> (0 <= j < ncol (l_arr st))%Z ->
       elt (l_arr st') i j = (elt (l_arr st) i j + fsum (fun x y => in_pix (nv (bxmin b) + j) x && in_pix (nv (bymin b) + i) y) rs)%R) /\
    l_added st' = (l_added st + fsum (fun x y => in_span (nv (bxmin b)) (ncol (l_arr st)) x && in_span (nv (bymin b)) (nrow (l_arr st)) y) rs)%R.
Proof.
  intros HM HD HO. induction fuel as [|fuel IH]; intros st Hf HN.
  - exists st, []. destruct (l_left st) eqn:El; [|lia]. cbn. rewrite El. split; [reflexivity|]. repeat split; try lra; auto.
    + symmetry. apply Nat.div_small. lia.
    + intros. lra.
  - cbn [draw_loop]. destruct (l_left st) as [|L] eqn:El.
    + exists st, []. cbn. split; [reflexivity|]. repeat split; try lra; auto.
      * symmetry. apply Nat.div_small. lia.
      * intros. lra.
    + set (n := Nat.min maxN (S L)). assert (Hn : 1 <= n <= maxN /\ n <= S L /\ (n = maxN \/ n = S L)) by (unfold n; lia). clearbody n.
      destruct (HO (length (l_rounds st)) n ltac:(lia) ltac:(lia)) as (p & E & W & K & T). rewrite E.
      destruct (addTo_ok p b (l_arr st) W ltac:(lia) HD) as (a' & f & Ea & R1 & R2 & V & Vf). rewrite Ea.
      set (st1 := LS a' (l_added st + f) (S L - n) ((n, p) :: l_rounds st)).
      destruct (IH st1) as (st' & rs & E' & L' & Rr & Ns & Len & Fa & N1 & N2 & V' & Va); [cbn [l_left st1]; lia|cbn [l_left st1]; lia|].
      exists st', (rs ++ [(n, p)]). split; [exact E'|]. split; [exact L'|]. split; [rewrite Rr, <- app_assoc; reflexivity|].
      cbn [l_left l_arr l_added st1] in *.
      split; [|split; [|split; [|split; [|split; [|split]]]]].
      * unfold nsum in *. rewrite fold_right_app. cbn.
        assert (H : forall (rs : list (nat * parr)) x, fold_right (fun t s => fst t + s) x rs = fold_right (fun t s => fst t + s) 0 rs + x).
        { clear. induction rs as [|t rs IH]; intros x; cbn; [reflexivity|]. rewrite IH. lia. }
        rewrite H, Ns. lia.
      * rewrite app_length, Len. cbn [length]. destruct (Nat.le_gt_cases (S L) maxN) as [Q|Q].
        -- replace (S L - n) with 0 by lia. rewrite Nat.div_small by lia. replace (S L + maxN - 1) with (L + 1 * maxN) by lia.
           rewrite Nat.div_add by lia. rewrite Nat.div_small by lia. reflexivity.
        -- replace (S L - n) with (S L - maxN) by lia. replace (S L + maxN - 1) with ((S L - maxN + maxN - 1) + 1 * maxN) by lia.
           rewrite Nat.div_add by lia. reflexivity.
      * apply Forall_app. split; [exact Fa|]. constructor; [|constructor]. cbn [fst snd]. repeat split; try assumption; try lia; apply W.
      * congruence.
      * congruence.
      * intros i j Hi Hj. rewrite V' by (rewrite ?R1, ?R2; assumption). rewrite V by assumption. rewrite fsum_app. cbn. lra.
      * rewrite Va, Vf, fsum_app, R1, R2. cbn. lra.
Qed.

Lemma tsum_rounds F g Ntot rs : (Forall (fun t => getTotalFlux (snd t) = Some (F * g * INR (fst t) / INR Ntot)%R) rs) ->
  tsum rs = (F * g * INR (nsum rs) / INR Ntot)%R.
Proof.
  induction 1 as [|t rs H Hs IH]; [cbn; unfold Rdiv; ring|]. cbn. fold (tsum rs) (nsum rs). rewrite H, IH, plus_INR. unfold Rdiv. ring.
Qed.

Lemma Reqb_div g0 gain : (0 < gain)%R -> (if Reqb gain 1 then g0 else g0 / gain)%R = (g0 / gain)%R.
Proof. intros. destruct (Reqb_spec gain 1) as [-> |]; [field|reflexivity]. Qed.

Lemma drawPhot_gen fuel fs obj maxN Ntot F g0 gain scale b a add c : (0 < gain)%R -> bdef b = true -> 1 <= Ntot <= fuel ->
  c = chunk fs maxN Ntot -> 1 <= c -> fs <> Some 0 ->
  (forall k n, 1 <= n <= c -> n <= Ntot -> exists p, loop_shoot fs (obj k) c n Ntot (g0 / gain) scale = Ok p /\ wfp p /\ num_keep p = n /\
            getTotalFlux p = Some (F * (g0 / gain) * INR n / INR Ntot)%R) ->
  let a0 : arr R := if (add : bool) then a else amap (fun _ => 0%R) a in
  exists st, drawPhot fuel fs obj maxN Ntot g0 gain scale b a add = Done st /\ l_left st = 0 /\
    nsum (l_rounds st) = Ntot /\ length (l_rounds st) = (Ntot + c - 1) / c /\
    Forall (fun t => 1 <= fst t <= c /\ wfp (snd t) /\ num_keep (snd t) = fst t) (l_rounds st) /\
    tsum (l_rounds st) = (F * g0 / gain)%R /\
    nrow (l_arr st) = nrow a /\ ncol (l_arr st) = ncol a /\
    (forall i j, (0 <= i < nrow a)%Z -> (0 <= j < ncol a)%Z ->
       elt (l_arr st) i j = (elt a0 i j + fsum (fun x y => in_pix (nv (bxmin b) + j) x && in_pix (nv (bymin b) + i) y) (l_rounds st))%R) /\
    l_added st = fsum (fun x y => in_span (nv (bxmin b)) (ncol a) x && in_span (nv (bymin b)) (nrow a) y) (l_rounds st).
Proof.
  intros Hg HD HN Ec Hc Hfs HO a0. unfold drawPhot. destruct (Rltb_spec 0 gain) as [_|]; [|lra]. cbn [negb]. rewrite Reqb_div by exact Hg. fold a0.
  assert (A1 : nrow a0 = nrow a) by (unfold a0; destruct add; reflexivity). assert (A2 : ncol a0 = ncol a) by (unfold a0; destruct add; reflexivity).
  assert (HNR : INR Ntot <> 0%R) by (apply not_0_INR; lia).
  match goal with |- context [match ?x with Some m => draw_loop fuel fs obj m _ _ _ _ _ | None => _ end] => set (m := x) end.
  assert (M : m = Some c \/ m = None /\ c = Ntot).
  { subst m c. unfold chunk. destruct maxN as [m|], fs as [[|s]|]; try congruence; auto. }
  clearbody m. destruct M as [-> |[-> Ec']].
  - destruct (draw_loop_ok fs obj c Ntot F (g0 / gain) scale b Hc HD HO fuel (LS a0 0 Ntot [])) as (st & rs & E & L & Rr & Ns & Len & Fa & N1 & N2 & V & Va); [cbn; lia|cbn; lia|].
    cbn [l_left l_arr l_rounds l_added] in *. rewrite app_nil_r in Rr. subst rs. exists st. rewrite A1, A2 in *.
    split; [exact E|]. split; [exact L|]. split; [exact Ns|]. split; [exact Len|]. split; [|split; [|split; [|split; [|split]]]].
    + eapply Forall_impl; [|exact Fa]. cbv beta. intros t (Q1 & Q2 & Q3 & _). auto.
    + rewrite (tsum_rounds F (g0 / gain) Ntot). { rewrite Ns. field. split; [lra|exact HNR]. } eapply Forall_impl; [|exact Fa]. cbv beta. intros t (_ & _ & _ & Q). exact Q.
    + exact N1.
    + exact N2.
    + exact V.
    + rewrite Va. lra.
  - rewrite Ec' in HO. destruct (HO 0 Ntot ltac:(lia) ltac:(lia)) as (p & E & W & K & T). rewrite E.
    destruct (addTo_ok p b a0 W ltac:(lia) HD) as (a' & f & Ea & R1 & R2 & V & Vf). rewrite Ea. eexists. split; [reflexivity|]. cbn [l_left l_rounds l_arr l_added].
    rewrite A1, A2 in *. split; [reflexivity|]. split; [cbn; lia|]. split.
    { rewrite Ec'. cbn [length]. replace (Ntot + Ntot - 1) with ((Ntot - 1) + 1 * Ntot) by lia. rewrite Nat.div_add by lia. rewrite Nat.div_small by lia. reflexivity. }
    split; [constructor; [cbn; split; [lia|split; [exact W|exact K]]|constructor]|]. split.
    { cbn. rewrite T. field. split; [lra|exact HNR]. }
    split; [exact R1|]. split; [exact R2|]. split.
    + intros i j Hi Hj. rewrite V by assumption. cbn. lra.
    + rewrite Vf. cbn. lra.
Qed.
