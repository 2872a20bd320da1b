(** Proofs about makeFromImage, file round trips, copying, Sum shooting and photon counts. *)
From Coq Require Import ZArith Reals Bool List Arith Lia ZifyBool Lra Permutation.
From Verif Require Import Base Array_Model Bounds_Model Bounds_Proofs FFT_Model FFT_Proofs Draw_Model Draw_Proofs Photon_Model Photon_Spec Photon_Lists Photon_Proofs Photon_Conv Photon_AddTo.
Import ListNotations.
Open Scope nat_scope.

(** * makeFromImage *)
Lemma n_per_pos m v : 1 <= n_per m v.
Proof. unfold n_per. lia. Qed.
Lemma n_per_bound m v : (0 < m)%R -> (Rabs (v / INR (n_per m v)) <= m)%R.
Proof.
  intros Hm. pose proof (n_per_pos m v) as P. assert (PI : (0 < INR (n_per m v))%R) by (apply lt_0_INR; lia).
  assert (B : (Rabs v <= m * INR (n_per m v))%R).
  { unfold n_per in *. rewrite INR_IZR_INZ. rewrite Z2Nat.id by lia. pose proof (ceilR_bounds (Rabs v / m)) as [C _].
    assert (IZR (ceilR (Rabs v / m)) <= IZR (Z.max (ceilR (Rabs v / m)) 1))%R by (apply IZR_le; lia).
    apply Rle_trans with (m * (Rabs v / m))%R; [right; field; lra|]. apply Rmult_le_compat_l; lra. }
  unfold Rdiv at 1. rewrite Rabs_mult, Rabs_inv, (Rabs_right (INR _)) by lra. apply Rmult_le_reg_r with (INR (n_per m v)); [exact PI|].
  rewrite Rmult_assoc, Rinv_l, Rmult_1_r by lra. exact B.
Qed.

  Definition psum (i j : Z) (g : Z * Z * R -> R) (src : list (Z * Z * R)) : R :=
    fold_right (fun t s => ((if ((i =? fst (fst t)) && (j =? snd (fst t)))%Z then g t else 0) + s)%R) 0%R src.

  Lemma psum_app i j g s s' : psum i j g (s ++ s') = (psum i j g s + psum i j g s')%R.
  Proof. induction s as [|t s IH]; cbn; [rewrite Rplus_0_l; reflexivity|]. fold (psum i j g (s ++ s')) (psum i j g s). rewrite IH. lra. Qed.
  Lemma psum_repeat i j g t n : psum i j g (repeat t n) = (if ((i =? fst (fst t)) && (j =? snd (fst t)))%Z then INR n * g t else 0)%R.
  Proof.
    induction n as [|n IH]; [cbn; destruct (_ && _)%Z; lra|]. cbn [repeat psum fold_right]. fold (psum i j g (repeat t n)). rewrite IH, S_INR.
    destruct (_ && _)%Z; lra.
  Qed.
  Lemma psum_row (a : arr R) i j i' n : (0 <= j < Z.of_nat n)%Z ->
    psum i j snd (map (fun j => (i', j, elt a i' j)) (map Z.of_nat (seq 0 n))) = if (i =? i')%Z then elt a i' j else 0%R.
  Proof.
    intros Hj. assert (G : forall k m, psum i j snd (map (fun j => (i', j, elt a i' j)) (map Z.of_nat (seq k m))) =
      if (i =? i')%Z && (Z.of_nat k <=? j)%Z && (j <? Z.of_nat (k + m))%Z then elt a i' j else 0%R).
    { intros k m. revert k. induction m as [|m IH]; intros k.
      - cbn. replace ((i =? i')%Z && (Z.of_nat k <=? j)%Z && (j <? Z.of_nat (k + 0))%Z) with false by lia. reflexivity.
      - cbn [seq map psum fold_right fst snd]. fold (psum i j snd (map (fun j => (i', j, elt a i' j)) (map Z.of_nat (seq (S k) m)))). rewrite IH.
        destruct (i =? i')%Z; cbn [andb]; [|lra]. destruct (Z.eqb_spec j (Z.of_nat k)) as [-> |N].
        + replace ((Z.of_nat (S k) <=? Z.of_nat k)%Z && (Z.of_nat k <? Z.of_nat (S k + m))%Z) with false by lia.
          replace ((Z.of_nat k <=? Z.of_nat k)%Z && (Z.of_nat k <? Z.of_nat (k + S m))%Z) with true by lia. lra.
        + replace ((Z.of_nat (S k) <=? j)%Z && (j <? Z.of_nat (S k + m))%Z) with ((Z.of_nat k <=? j)%Z && (j <? Z.of_nat (k + S m))%Z) by lia.
          destruct ((Z.of_nat k <=? j)%Z && (j <? Z.of_nat (k + S m))%Z); lra. }
    rewrite G. replace ((i =? i')%Z && (Z.of_nat 0 <=? j)%Z && (j <? Z.of_nat (0 + n))%Z) with (i =? i')%Z by lia. reflexivity.
  Qed.
  Lemma psum_pixels (a : arr R) i j : (0 <= i < nrow a)%Z -> (0 <= j < ncol a)%Z -> psum i j snd (pixels a) = elt a i j.
  Proof.
    intros Hi Hj. unfold pixels. assert (G : forall k m, psum i j snd (flat_map (fun i => map (fun j => (i, j, elt a i j)) (map Z.of_nat (seq 0 (Z.to_nat (ncol a))))) (map Z.of_nat (seq k m))) =
      if (Z.of_nat k <=? i)%Z && (i <? Z.of_nat (k + m))%Z then elt a i j else 0%R).
    { intros k m. revert k. induction m as [|m IH]; intros k.
      - cbn. replace ((Z.of_nat k <=? i)%Z && (i <? Z.of_nat (k + 0))%Z) with false by lia. reflexivity.
      - cbn [seq map flat_map]. rewrite psum_app, psum_row by lia. rewrite IH. destruct (Z.eqb_spec i (Z.of_nat k)) as [-> |N].
        + replace ((Z.of_nat (S k) <=? Z.of_nat k)%Z && (Z.of_nat k <? Z.of_nat (S k + m))%Z) with false by lia.
          replace ((Z.of_nat k <=? Z.of_nat k)%Z && (Z.of_nat k <? Z.of_nat (k + S m))%Z) with true by lia. lra.
        + replace ((Z.of_nat (S k) <=? i)%Z && (i <? Z.of_nat (S k + m))%Z) with ((Z.of_nat k <=? i)%Z && (i <? Z.of_nat (k + S m))%Z) by lia.
          destruct ((Z.of_nat k <=? i)%Z && (i <? Z.of_nat (k + S m))%Z); lra. }
    rewrite G. replace ((Z.of_nat 0 <=? i)%Z && (i <? Z.of_nat (0 + Z.to_nat (nrow a)))%Z) with true by lia. reflexivity.
  Qed.

Section Make.
  Variable b : bnd Z.
  Variable mf : R.
  Variables ux uy : nat -> R.
  Definition mx (kt : nat * (Z * Z * R)) : R := (ux (fst kt) + (IZR (nv (bxmin b) + snd (fst (snd kt))) - / 2))%R.
  Definition my (kt : nat * (Z * Z * R)) : R := (uy (fst kt) + (IZR (nv (bymin b) + fst (fst (snd kt))) - / 2))%R.
  Definition mfx (t : Z * Z * R) : R := (snd t / INR (n_per mf (snd t)))%R.
  Definition msrc (a : arr R) := flat_map (fun t => repeat t (n_per mf (snd t))) (pixels a).
  Definition mrows (k : nat) (src : list (Z * Z * R)) : list (R * R * R) :=
    combine (combine (map mx (combine (seq k (length src)) src)) (map my (combine (seq k (length src)) src))) (map mfx src).

  Lemma in_pix_unif X Y u : (0 <= u < 1)%R -> in_pix X (u + (IZR Y - / 2)) = (X =? Y)%Z.
  Proof using Type.
    intros Hu. unfold in_pix. destruct (Z.eqb_spec X Y) as [-> |N].
    - destruct (Rltb_spec (u + (IZR Y - / 2)) (IZR Y - / 2)); [lra|]. destruct (Rltb_spec (u + (IZR Y - / 2)) (IZR Y + / 2)); [reflexivity|lra].
    - destruct (Rltb_spec (u + (IZR Y - / 2)) (IZR X - / 2)) as [|L]; [reflexivity|]. destruct (Rltb_spec (u + (IZR Y - / 2)) (IZR X + / 2)) as [U|U]; [|reflexivity].
      exfalso. assert (IZR X < IZR Y + 1)%R by lra. assert (IZR Y < IZR X + 1)%R by lra. rewrite <- plus_IZR in *. apply lt_IZR in H, H0. lia.
  Qed.

  Hypothesis U : forall k, (0 <= ux k < 1)%R /\ (0 <= uy k < 1)%R.

  Lemma mrows_sum src k i j :
    sel_sum (fun x y => in_pix (nv (bxmin b) + j) x && in_pix (nv (bymin b) + i) y) (mrows k src) = psum i j mfx src.
  Proof using U.
    revert k. induction src as [|t src IH]; intros k; [reflexivity|]. unfold mrows. cbn [length seq combine map]. rewrite sel_sum_cons.
    fold (mrows (S k) src). rewrite IH. cbn [psum fold_right]. fold (psum i j mfx src). f_equal. unfold mx, my. cbn [fst snd]. rewrite !in_pix_unif by apply U.
    replace (nv (bxmin b) + j =? nv (bxmin b) + snd (fst t))%Z with (j =? snd (fst t))%Z by lia.
    replace (nv (bymin b) + i =? nv (bymin b) + fst (fst t))%Z with (i =? fst (fst t))%Z by lia. rewrite andb_comm. reflexivity.
  Qed.

  Lemma psum_src i j l : psum i j mfx (flat_map (fun t => repeat t (n_per mf (snd t))) l) = psum i j snd l.
  Proof using Type.
    induction l as [|t l IH]; [reflexivity|]. cbn [flat_map]. rewrite psum_app, IH, psum_repeat. cbn [psum fold_right]. fold (psum i j snd l). f_equal.
    destruct (_ && _)%Z; [|reflexivity]. unfold mfx. field. apply not_0_INR. pose proof (n_per_pos mf (snd t)). lia.
  Qed.
End Make.

Lemma combine_seq_length A k (s : list A) : length (combine (seq k (length s)) s) = length s.
Proof. rewrite combine_length, seq_length. lia. Qed.

Lemma makeFromImage_shape a b mf ux uy : (0 < mf)%R -> (1 <= nrow a)%Z -> (1 <= ncol a)%Z -> exists p,
  makeFromImage a b None mf ux uy = Ok p /\ wfp p /\ all_kept p /\ 1 <= pN p /\
  px p = map (mx b ux) (combine (seq 0 (length (msrc mf a))) (msrc mf a)) /\
  py_ p = map (my b uy) (combine (seq 0 (length (msrc mf a))) (msrc mf a)) /\
  pfl p = map (mfx mf) (msrc mf a) /\ pN p = length (msrc mf a).
Proof.
  intros Hm Hr Hc. unfold makeFromImage. destruct (Rltb_spec 0 mf); [|lra]. cbn [negb]. fold (msrc mf a).
  assert (P : 1 <= length (msrc mf a)).
  { unfold msrc, pixels. destruct (Z.to_nat (nrow a)) as [|nr] eqn:Er; [lia|]. destruct (Z.to_nat (ncol a)) as [|nc] eqn:Ec; [lia|].
    cbn [seq map flat_map app]. rewrite app_length, repeat_length. pose proof (n_per_pos mf (snd (Z.of_nat 0, Z.of_nat 0, elt a (Z.of_nat 0) (Z.of_nat 0)))). lia. }
  set (src := msrc mf a) in *. clearbody src.
  destruct (pa_new_exists None (length src)) as (p & E & W & Np & K & C); [left; reflexivity|]. rewrite E. cbn [bind].
  unfold set_x. rewrite Np, bcast_array by (rewrite map_length; apply combine_seq_length). cbn [bind].
  unfold set_y. cbn [pN set_pxy]. rewrite Np, bcast_array by (rewrite map_length; apply combine_seq_length). cbn [bind].
  unfold set_flux. cbn [pN set_pxy]. rewrite Np, bcast_array by (rewrite map_length; reflexivity). cbn [bind].
  set (p2 := set_pxy (set_pxy p _ _) _ _).
  assert (W2 : wfp p2).
  { apply set_pxy_wf; [apply set_pxy_wf; [exact W|rewrite map_length, combine_seq_length; lia|wf_split W; assumption]|cbn; rewrite map_length, combine_seq_length; lia|cbn; rewrite map_length, combine_seq_length; lia]. }
  assert (K2 : all_kept p2) by exact K. assert (N2 : pN p2 = length src) by exact Np.
  rewrite (all_kept_ratio p2 W2 K2) by lia. eexists. split; [reflexivity|].
  split; [apply set_pfl_wf; [exact W2|rewrite !map_length; lia]|]. split; [exact K2|]. split; [cbn; lia|]. split; [reflexivity|]. split; [reflexivity|]. split; [|exact N2].
  cbn [pfl set_pfl]. rewrite map_map. apply map_ext. intros t. unfold mfx. field. apply not_0_INR. pose proof (n_per_pos mf (snd t)). lia.
Qed.

Lemma all_kept_photons p : wfp p -> all_kept p -> 1 <= pN p -> map (fun v => v * ratio p)%R (masked_flux p) = pfl p.
Proof.
  intros W K N. pose proof (all_kept_num p W K) as E. pose proof (masked_length p W) as Lm. assert (Lf : length (pfl p) = pN p) by (wf_split W; assumption).
  apply (nth_ext' _ 0%R); [rewrite map_length; lia|]. rewrite map_length. intros i Hi. rewrite (nth_map _ _ _ _ i 0%R) by exact Hi.
  rewrite nth_masked by (try assumption; lia). assert (Ki := K i ltac:(lia)). apply kept_iff in Ki; [|exact W|lia]. rewrite Ki, ratio_all by lia. lra.
Qed.

Lemma makeFromImage_ok a b mf ux uy : (0 < mf)%R -> (1 <= nrow a)%Z -> (1 <= ncol a)%Z ->
  (forall k, (0 <= ux k < 1)%R /\ (0 <= uy k < 1)%R) -> exists p,
  makeFromImage a b None mf ux uy = Ok p /\ wfp p /\ all_kept p /\
  (forall i, i < pN p -> (Rabs (vis p i) <= mf)%R) /\
  (forall i j, (0 <= i < nrow a)%Z -> (0 <= j < ncol a)%Z ->
     sel_sum (fun x y => in_pix (nv (bxmin b) + j) x && in_pix (nv (bymin b) + i) y) (rows p) = elt a i j).
Proof.
  intros Hm Hr Hc HU. destruct (makeFromImage_shape a b mf ux uy Hm Hr Hc) as (p & E & W & K & P & Ex & Ey & Ef & En).
  exists p. split; [exact E|]. split; [exact W|]. split; [exact K|]. pose proof (all_kept_num p W K) as Ek. split.
  - intros i Hi. rewrite vis_val by (try assumption; lia). assert (Ki := K i Hi). apply kept_iff in Ki; [|exact W|exact Hi]. rewrite Ki, ratio_all by lia.
    rewrite Ef. rewrite (nth_map _ _ _ _ i (0%Z, 0%Z, 0%R)) by lia. rewrite Rmult_1_r. apply n_per_bound. exact Hm.
  - intros i j Hi Hj. rewrite <- photons_rows by (try assumption; lia). rewrite all_kept_photons by assumption. rewrite Ex, Ey, Ef.
    change (sel_sum (fun x y => in_pix (nv (bxmin b) + j) x && in_pix (nv (bymin b) + i) y) (mrows b mf ux uy 0 (msrc mf a)) = elt a i j).
    rewrite mrows_sum by exact HU. unfold msrc. rewrite psum_src. apply psum_pixels; assumption.
Qed.

(** * Files *)
Definition cols_ok (p : parr) : Prop :=
  (forall l, In l [pdxdz p; pdydz p; pwave p; ppu p; ppv p; ptime p] -> anyfin l = false -> l = nans (pN p)) /\
  anyfin (pdxdz p) = anyfin (pdydz p) /\ anyfin (ppu p) = anyfin (ppv p).

Lemma nans_anyfin l n : anyfin l = false -> length l = n -> l = nans n.
Proof.
  revert n. induction l as [|v l IH]; intros n A L; cbn in *; [subst; reflexivity|]. destruct v; [discriminate|]. cbn in A.
  subst n. unfold nans. cbn. f_equal. apply IH; [exact A|reflexivity].
Qed.

Lemma zero_same a b : anyfin a = anyfin b -> zero_if_needed b a = a.
Proof. intros E. unfold zero_if_needed. rewrite E. destruct (anyfin b); reflexivity. Qed.

Lemma read_write fs p f : wfp p -> 1 <= num_keep p -> anyfin (pdxdz p) = anyfin (pdydz p) -> anyfin (ppu p) = anyfin (ppv p) ->
  same_size fs (pN p) -> write p = Some f -> exists q,
  read fs f = Ok q /\ q = PA (pN p) (px p) (py_ p) (map (fun v => v * ratio p)%R (masked_flux p)) (pnk p)
     (pdxdz p) (pdydz p) (pwave p) (ppu p) (ppv p) (ptime p) false.
Proof.
  intros W K A1 A2 HS. unfold write. destruct (flux_some p W K) as (l & El & Ll & Vl). rewrite El. intros HH.
  assert (Hl : l = map (fun v => v * ratio p)%R (masked_flux p)).
  { apply (nth_ext' _ 0%R); [rewrite map_length, masked_length by exact W; exact Ll|]. intros i Hi. rewrite Vl by lia.
    rewrite (nth_map _ _ _ _ i 0%R) by (rewrite masked_length by exact W; lia). rewrite nth_masked by (try assumption; lia). destruct (nth i (pnk p) false); lra. }
  assert (f = PF (px p) (py_ p) l (pnk p) (if hasAngles p then Some (pdxdz p, pdydz p) else None) (if hasWave p then Some (pwave p) else None)
     (if hasPupil p then Some (ppu p, ppv p) else None) (if hasTime p then Some (ptime p) else None)) by congruence. subst f. clear HH.
  pose proof W as W'. wf_split W'. unfold read. cbn [f_x f_y f_flux f_nk f_ang f_wave f_pup f_time]. rewrite Wx.
  destruct (pa_new_exists fs (pN p) HS) as (q & E & Wq & Nq & Kq & Cq). assert (Ok0 := E). rewrite E. cbn [bind].
  assert (Q : pdxdz q = nans (pN p) /\ pdydz q = nans (pN p) /\ pwave q = nans (pN p) /\ ppu q = nans (pN p) /\ ppv q = nans (pN p) /\ ptime q = nans (pN p)).
  { clear - E HS. unfold pa_new in E. destruct (match fs with Some s => _ | None => _ end); [discriminate|].
    match type of E with Ok ?t = _ => assert (q = t) by congruence end. subst q. cbn [pdxdz pdydz pwave ppu ppv ptime].
    match goal with |- nans ?x = _ /\ _ => assert (HH : x = pN p) end.
    { destruct HS as [-> | ->]; [reflexivity|]. destruct (pN p); reflexivity. }
    rewrite HH. repeat split. }
  destruct Q as (Q1 & Q2 & Q3 & Q4 & Q5 & Q6).
  unfold set_x. rewrite Nq, bcast_array by exact Wx. cbn [bind]. unfold set_y. cbn [pN set_pxy]. rewrite Nq, bcast_array by exact Wy. cbn [bind].
  unfold set_flux. cbn [pN set_pxy]. rewrite Nq, bcast_array by exact Ll. cbn [bind].
  set (p2 := set_pxy (set_pxy q _ _) _ _).
  assert (W2' : wfp p2) by (apply set_pxy_wf; [apply set_pxy_wf; [exact Wq|lia|apply Wq]|cbn; lia|cbn; lia]).
  assert (K2 : all_kept p2) by exact Kq. assert (N2 : pN p2 = pN p) by exact Nq.
  assert (NP : 1 <= pN p) by (pose proof (num_keep_le p W); lia).
  rewrite (all_kept_ratio p2 W2' K2) by lia. cbn [set_pnk set_pfl pdxdz pdydz pwave ppu ppv ptime pN px py_ pfl pnk p2 set_pxy]. rewrite Q1, Q2, Q3, Q4, Q5, Q6.
  assert (C1 : (if hasAngles p then Some (pdxdz p, pdydz p) else None) = Some (pdxdz p, pdydz p) \/
               ((if hasAngles p then Some (pdxdz p, pdydz p) else None) = None /\ pdxdz p = nans (pN p) /\ pdydz p = nans (pN p))).
  { destruct (hasAngles p) eqn:H; [left; reflexivity|right]. split; [reflexivity|]. unfold hasAngles in H. apply orb_false_iff in H as [H H']. split; apply nans_anyfin; assumption. }
  assert (C2 : (if hasPupil p then Some (ppu p, ppv p) else None) = Some (ppu p, ppv p) \/
               ((if hasPupil p then Some (ppu p, ppv p) else None) = None /\ ppu p = nans (pN p) /\ ppv p = nans (pN p))).
  { destruct (hasPupil p) eqn:H; [left; reflexivity|right]. split; [reflexivity|]. unfold hasPupil in H. apply orb_false_iff in H as [H H']. split; apply nans_anyfin; assumption. }
  assert (Ed : map (fun f => (f / 1)%R) l = map (fun v => (v * ratio p)%R) (masked_flux p)) by (rewrite Hl, map_map; apply map_ext; intros; field).
  rewrite Ed.
  assert (Ew : (match (if hasWave p then Some (pwave p) else None) with Some w => w | None => nans (pN p) end) = pwave p).
  { destruct (hasWave p) eqn:H; [reflexivity|]. symmetry. apply nans_anyfin; [exact H|assumption]. }
  assert (Et : (match (if hasTime p then Some (ptime p) else None) with Some w => w | None => nans (pN p) end) = ptime p).
  { destruct (hasTime p) eqn:H; [reflexivity|]. symmetry. apply nans_anyfin; [exact H|assumption]. }
  rewrite Ew, Et.
  destruct C1 as [-> |(-> & E1 & E2)]; destruct C2 as [-> |(-> & E3 & E4)]; (eexists; split; [reflexivity|]);
    unfold set_oth; cbn [px py_ pfl pnk pN pcorr set_pfl]; rewrite ?(zero_same _ _ A1), ?(zero_same _ _ A2); rewrite ?E1, ?E2, ?E3, ?E4; f_equal; first [exact Cq|exact Nq].
Qed.

Lemma pa_roundtrip p : pa_unflatten (pa_flatten p) = p.
Proof. destruct p. reflexivity. Qed.

(** * Photon counts *)
Lemma truncR_IZR z : truncR (IZR z + / 2) = if (0 <=? z)%Z then z else (z + 1)%Z.
Proof.
  unfold truncR. destruct (Z.leb_spec 0 z) as [P|P].
  - apply IZR_le in P. destruct (Rltb_spec (IZR z + / 2) 0); [lra|]. apply floorR_unique. lra.
  - assert (z <= -1)%Z by lia. apply IZR_le in H. destruct (Rltb_spec (IZR z + / 2) 0); [|lra]. apply ceilR_unique. rewrite plus_IZR. lra.
Qed.

Lemma n_photons_given pd flux eta sb z poisson extra : (0 < z)%Z -> fst (calculate_n_photons pd flux eta sb (IZR z) poisson extra) = z.
Proof.
  intros P. unfold calculate_n_photons. destruct (Reqb_spec (IZR z) 0) as [E|_]; [apply eq_IZR in E; lia|]. cbn [fst]. rewrite truncR_IZR.
  destruct (Z.leb_spec 0 z); [reflexivity|lia].
Qed.

Lemma ceilR_nonneg x : (0 <= x)%R -> (0 <= ceilR x)%Z.
Proof. intros H. apply le_IZR. pose proof (ceilR_bounds x). lra. Qed.

Lemma n_photons_nonneg pd flux eta sb poisson extra : poisson = true \/ (0 <= flux)%R -> eta <> 0%R ->
  (0 <= fst (calculate_n_photons pd flux eta sb 0 poisson extra))%Z.
Proof.
  intros HP He. unfold calculate_n_photons. destruct (Reqb_spec 0 0) as [_|]; [|lra]. destruct (Reqb_spec flux 0) as [_|Nf]; [cbn; lia|].
  unfold n_photons_nonzero. assert (E2 : (0 < eta * eta)%R) by nra.
  assert (H : forall m g, (0 <= m)%R -> (0 <= fst (let '(mod_flux, g) := if Rltb 0 extra then let gf := (1 + extra / Rabs sb)%R in (m / gf, g * gf)%R else (m, g) in (ceilR mod_flux, g)))%Z).
  { intros m g Hm. destruct (Rltb_spec 0 extra) as [Hx|_]; cbv zeta iota; cbn [fst]; apply ceilR_nonneg; [|exact Hm].
    assert (0 <= extra / Rabs sb)%R.
    { destruct (Req_dec sb 0) as [-> |Hs]; [rewrite Rabs_R0; unfold Rdiv; rewrite Rinv_0; lra|]. apply Rlt_le, Rdiv_lt_0_compat; [exact Hx|apply Rabs_pos_lt; exact Hs]. }
    apply Rmult_le_pos; [exact Hm|]. apply Rlt_le, Rinv_0_lt_compat. lra. }
  destruct poisson.
  - apply H. apply Rabs_pos.
  - apply H. destruct HP as [HP|HP]; [discriminate|]. apply Rmult_le_pos; [exact HP|]. apply Rlt_le, Rinv_0_lt_compat, E2.
Qed.

(** * Copying *)
Lemma copyFrom_ok p rhs s1 s2 : wfp p -> wfp rhs -> 1 <= num_keep p -> 1 <= num_keep rhs -> NoDup s1 -> length s1 = length s2 ->
  (forall i, In i s1 -> i < pN p) -> (forall i, In i s2 -> i < pN rhs) ->
  let m := scatter (pnk p) s1 (gather false (pnk rhs) s2) in 1 <= nfalse m ->
  exists q, copyFrom p rhs s1 s2 true true false = Some q /\ wfp q /\ pN q = pN p /\ 1 <= num_keep q /\
    (forall k, k < length s1 -> let i := nth k s1 0 in let j := nth k s2 0 in
       nth i (px q) 0%R = nth j (px rhs) 0%R /\ nth i (py_ q) 0%R = nth j (py_ rhs) 0%R /\ (kept q i <-> kept rhs j) /\ vis q i = vis rhs j) /\
    (forall i, i < pN p -> ~ In i s1 -> nth i (px q) 0%R = nth i (px p) 0%R /\ nth i (py_ q) 0%R = nth i (py_ p) 0%R /\ (kept q i <-> kept p i) /\ vis q i = vis p i).
Proof.
  intros Wp Wr Kp Kr ND Len R1 R2 m Km. unfold copyFrom. cbn [orb andb]. fold m.
  assert (Lm : length m = pN p) by (unfold m; rewrite scatter_length; wf_split Wp; assumption).
  set (p1 := set_pnk p m). assert (W1 : wfp p1) by (apply set_pnk_wf; [exact Wp|exact Lm]).
  assert (K1 : 1 <= num_keep p1) by exact Km.
  rewrite (flux_ratio_some p Kp), (flux_ratio_some p1 K1), (flux_ratio_some rhs Kr).
  set (p2 := set_pxy p1 _ _). eexists. split; [reflexivity|].
  set (q := set_pfl p2 _). pose proof Wp as (Wx & Wy & Wf & Wk & _). pose proof Wr as (Vx & Vy & Vf & Vk & _).
  assert (W2 : wfp p2) by (apply set_pxy_wf; [exact W1|cbn; rewrite scatter_length; assumption..]).
  assert (Wq : wfp q) by (apply set_pfl_wf; [exact W2|cbn; rewrite scatter_length, map_length; assumption]).
  assert (Kq : num_keep q = num_keep p1) by reflexivity. assert (Rq : ratio q = ratio p1) by reflexivity.
  pose proof (ratio_pos p1 W1 K1) as P1. clear -Wp Wr Kp Kr ND Len R1 R2 Lm W1 K1 W2 Wq Kq Rq P1 Wx Wy Wf Wk Vx Vy Vf Vk.
  assert (Mq : pnk q = m) by reflexivity. assert (Nq : pN q = pN p) by reflexivity.
  assert (Xq : px q = scatter (px p) s1 (gather 0%R (px rhs) s2)) by reflexivity. assert (Yq : py_ q = scatter (py_ p) s1 (gather 0%R (py_ rhs) s2)) by reflexivity.
  assert (Fq : pfl q = scatter (map (fun f => f * ratio p / ratio p1)%R (pfl p)) s1 (map (fun f => f * ratio rhs / ratio p1)%R (gather 0%R (pfl rhs) s2))) by reflexivity.
  clearbody q p1 p2. split; [exact Wq|]. split; [exact Nq|]. split; [lia|]. split.
  - intros k Hk. set (i := nth k s1 0). set (j := nth k s2 0). assert (Hi : i < pN p) by (apply R1, nth_In; exact Hk). assert (Hj : j < pN rhs) by (apply R2, nth_In; lia).
    assert (Mi : forall d, nth i (pnk q) d = nth j (pnk rhs) false).
    { intros d. rewrite Mq. unfold m, i. rewrite (nth_scatter _ _ _ _ k d) by (rewrite ?gather_length; try assumption; fold i; lia). apply nth_gather. lia. }
    split; [|split; [|split]].
    + rewrite Xq. unfold i. rewrite (nth_scatter _ _ _ _ k) by (rewrite ?gather_length; try assumption; fold i; lia). apply nth_gather. lia.
    + rewrite Yq. unfold i. rewrite (nth_scatter _ _ _ _ k) by (rewrite ?gather_length; try assumption; fold i; lia). apply nth_gather. lia.
    + rewrite (kept_iff q i Wq) by lia. rewrite (kept_iff rhs j Wr Hj). rewrite Mi. tauto.
    + rewrite (vis_val q) by (try assumption; lia). rewrite (vis_val rhs) by assumption. rewrite Mi. destruct (nth j (pnk rhs) false); [reflexivity|].
      rewrite Fq, Rq. unfold i. rewrite (nth_scatter _ _ _ _ k) by (rewrite ?map_length, ?gather_length; try assumption; fold i; lia).
      rewrite (nth_map _ _ _ _ k 0%R) by (rewrite gather_length; lia). rewrite nth_gather by lia. fold j. field. lra.
  - intros i Hi NI.
    assert (Mi : forall d, nth i (pnk q) d = nth i (pnk p) d).
    { intros d. rewrite Mq. unfold m. apply nth_scatter_other; [rewrite gather_length; exact Len|exact NI]. }
    split; [|split; [|split]].
    + rewrite Xq. apply nth_scatter_other; [rewrite gather_length; exact Len|exact NI].
    + rewrite Yq. apply nth_scatter_other; [rewrite gather_length; exact Len|exact NI].
    + unfold kept. rewrite Mi, Nq. tauto.
    + rewrite (vis_val q) by (try assumption; lia). rewrite (vis_val p) by assumption. rewrite Mi. destruct (nth i (pnk p) false); [reflexivity|].
      rewrite Fq, Rq. rewrite nth_scatter_other by (rewrite ?map_length, ?gather_length; assumption). rewrite (nth_map _ _ _ _ i 0%R) by lia. field. lra.
Qed.

(** * Sum shooting *)
Lemma shoot_leaf F gx gy fs N p : (forall n, length (gx n) = n /\ length (gy n) = n) -> 1 <= N -> ready N p ->
  exists q, shoot_ fs (SLeaf F gx gy) p = Ok q /\ shot fs N F q.
Proof.
  intros HG HN (W & Np & K & C). cbn [shoot_]. rewrite Np. destruct (HG N) as [Lx Ly].
  unfold set_x. rewrite Np, bcast_array by exact Lx. cbn [bind]. unfold set_y. cbn [pN set_pxy]. rewrite Np, bcast_array by exact Ly. cbn [bind].
  eexists. split; [unfold set_flux; cbn [bcast bind]; reflexivity|].
  assert (W2 : wfp (set_pxy (set_pxy p (gx N) (py_ p)) (px (set_pxy p (gx N) (py_ p))) (gy N))).
  { apply set_pxy_wf; [apply set_pxy_wf; [exact W|lia|wf_split W; assumption]|cbn; lia|cbn; lia]. }
  set (p2 := set_pxy _ _ (gy N)) in *. assert (N2 : pN p2 = N) by exact Np. assert (K2 : all_kept p2) by exact K.
  rewrite (all_kept_ratio p2 W2 K2) by lia.
  split; [apply set_pfl_wf; [exact W2|rewrite map_length, repeat_length; reflexivity]|]. split; [exact N2|]. split; [exact K2|]. split; [exact C|].
  intros i Hi. cbn [pfl set_pfl]. rewrite N2. rewrite (nth_map _ _ _ _ i 0%R) by (rewrite repeat_length; exact Hi). rewrite nth_repeat' by exact Hi. field.
  apply not_0_INR. lia.
Qed.

Lemma component_shot o fs N : good_component o -> same_size fs N -> 1 <= N ->
  exists q, shoot fs o N = Ok q /\ shot fs N (sflux o) q /\ sflux o <> 0%R.
Proof.
  intros [G|(F & gx & gy & -> & NF & HG)] HS HN.
  - destruct (shoot_ok o fs N G HS HN) as (q & E & Sq). exists q. split; [exact E|]. split; [exact Sq|]. pose proof (good_tree_pos o G). lra.
  - destruct (shoot_with_ready fs N (shoot_ fs (SLeaf F gx gy)) (shot fs N F) HS HN) as (q & E & Sq).
    + intros p Rp. apply shoot_leaf; assumption.
    + exists q. split; [exact E|]. split; [exact Sq|]. exact NF.
Qed.

Lemma assign_cat_xy N p q cat i : 1 <= N -> ready N p -> ready N q -> length cat = N ->
  forall j, j < N ->
  nth j (px (assign_cat p cat i q)) 0%R = (if Nat.eqb i (nth j cat 0) then nth j (px q) 0%R else nth j (px p) 0%R) /\
  nth j (py_ (assign_cat p cat i q)) 0%R = (if Nat.eqb i (nth j cat 0) then nth j (py_ q) 0%R else nth j (py_ p) 0%R).
Proof.
  intros HN (Wp & Np & _) (Wq & Nq & _) Lc j Hj. wf_split Wp. destruct Wq as (Vx & Vy & _). unfold assign_cat. cbn [px py_].
  rewrite !nth_where by (rewrite ?map_length; lia). rewrite (nth_map _ _ _ cat j 0) by lia. split; reflexivity.
Qed.

Lemma sum_shoot objs cat fs N : Forall good_component objs ->
  length (cat N) = N -> (forall j, j < N -> nth j (cat N) 0 < length objs) -> same_size fs N -> 1 <= N ->
  exists q, shoot fs (SSum objs cat) N = Ok q /\ ready N q /\
    forall j, j < N -> exists o c, nth_error objs (nth j (cat N) 0) = Some o /\ shoot fs o N = Ok c /\
      nth j (px q) 0%R = nth j (px c) 0%R /\ nth j (py_ q) 0%R = nth j (py_ c) 0%R /\
      nth j (pfl q) 0%R = (sflux o / Rabs (sflux o) * (sum_abs objs / INR N))%R.
Proof.
  intros HG Lc Rc HS HN. unfold shoot. apply shoot_with_ready; [exact HS|exact HN|]. intros p Rp. cbn [shoot_].
  change (fold_right (fun o s => (absflux o + s)%R) 0%R objs) with (sum_abs objs). set (tot := sum_abs objs).
  assert (Loop : forall os pre p, Forall good_component os -> pre ++ os = objs -> ready N p ->
           let good j q o c := nth_error objs (nth j (cat N) 0) = Some o /\ shoot fs o N = Ok c /\
              nth j (px q) 0%R = nth j (px c) 0%R /\ nth j (py_ q) 0%R = nth j (py_ c) 0%R /\
              nth j (pfl q) 0%R = (sflux o / Rabs (sflux o) * (tot / INR N))%R in
           (forall j, j < N -> nth j (cat N) 0 < length pre -> exists o c, good j p o c) ->
           exists q, (fix go (os : list sprof) (i : nat) (p : parr) {struct os} : res parr :=
              match os with
              | [] => Ok p
              | o :: os =>
                  bind (shoot_with (shoot_ fs o) fs (pN p)) (fun q =>
                  go os (S i) (assign_cat p (cat (pN p)) i (scaleFlux q (tot / absflux o))))
              end) os (length pre) p = Ok q /\ ready N q /\ forall j, j < N -> exists o c, good j q o c).
  { induction os as [|o os IHos]; intros pre p' Hg Epre R' good Inv.
    - exists p'. split; [reflexivity|]. split; [exact R'|]. intros j Hj. apply Inv; [exact Hj|]. specialize (Rc j Hj). rewrite app_nil_r in Epre. subst pre. exact Rc.
    - apply Forall_cons_iff in Hg as [Hg Hg']. assert (Np : pN p' = N) by apply R'. rewrite Np.
      destruct (component_shot o fs N Hg HS HN) as (c & Ec & Sc & NZ). change (shoot_with (shoot_ fs o) fs N) with (shoot fs o N). rewrite Ec. cbn [bind].
      pose proof (scaleFlux_shot _ _ _ (tot / absflux o) _ Sc) as Sc'.
      pose proof (assign_cat_ok N p' _ (cat N) (length pre) HN R' (shot_ready _ _ _ _ Sc') Lc) as AC. cbv zeta in AC. destruct AC as [Ra Va].
      pose proof (assign_cat_xy N p' _ (cat N) (length pre) HN R' (shot_ready _ _ _ _ Sc') Lc) as XY.
      specialize (IHos (pre ++ [o]) _ Hg' ltac:(rewrite <- app_assoc; exact Epre) Ra). cbv zeta in IHos. rewrite app_length in IHos. cbn [length] in IHos. rewrite Nat.add_1_r in IHos.
      apply IHos. intros j Hj Hc. destruct (XY j Hj) as [Xx Xy]. specialize (Va j Hj). destruct (Nat.eqb_spec (length pre) (nth j (cat N) 0)) as [E|E].
      + exists o, c. rewrite <- E. rewrite <- Epre. rewrite nth_error_app2 by lia. rewrite Nat.sub_diag. split; [reflexivity|]. split; [exact Ec|].
        rewrite Xx, Xy, Va. split; [reflexivity|]. split; [reflexivity|]. destruct Sc' as (_ & _ & _ & _ & Vc). rewrite Vc by exact Hj. unfold absflux. field.
        split; [apply not_0_INR; lia|]. apply Rabs_no_R0. exact NZ.
      + destruct (Inv j Hj ltac:(lia)) as (o' & c' & G1 & G2 & G3 & G4 & G5). exists o', c'. rewrite Xx, Xy, Va. repeat split; assumption. }
  destruct (Loop objs [] p HG eq_refl Rp) as (q & E & R' & V); [cbn; intros; lia|]. exists q. split; [exact E|]. split; [exact R'|]. exact V.
Qed.
