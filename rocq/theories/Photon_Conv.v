(** Convolution of photon arrays and shooting of profile trees. *)
From Coq Require Import ZArith Reals Bool List Arith Lia Lra Permutation.
From Verif Require Import Base Array_Model Bounds_Model Bounds_Proofs FFT_Model FFT_Proofs Photon_Model Photon_Spec Photon_Lists Photon_Proofs.
Import ListNotations.
Open Scope nat_scope.

Lemma sort_restore s q : wfp q -> isperm s (pN q) -> set_at_inds s (sort_by s q) = q.
Proof.
  intros H P. wf_split H. pose proof (isperm_length _ _ P) as LP. destruct q as [n x y f k a b c d e g co]. cbn in *. unfold set_at_inds, sort_by. cbn.
  f_equal; apply (scatter_gather' _ _ _ _ _ n); try assumption; rewrite gather_length; exact LP.
Qed.

Lemma isperm_gather s t n : isperm s n -> isperm t n -> isperm (gather 0 s t) n.
Proof.
  intros Ps Pt. unfold isperm. etransitivity; [|exact Ps]. apply gather_perm. rewrite (isperm_length _ _ Ps). exact Pt.
Qed.

Lemma pick_length own other c s n : length own = n -> length s = n -> length (pick own other c s) = n.
Proof. intros A B. unfold pick. destruct c; [rewrite gather_length; exact B|exact A]. Qed.

Lemma convolve_size p q rs : pN q <> pN p -> convolve p q rs = Err GalSimIncompatibleValuesError.
Proof. intros H. unfold convolve. destruct (Nat.eqb_spec (pN q) (pN p)); [contradiction|reflexivity]. Qed.

Lemma convolve_ok p q rs : wfp p -> wfp q -> pN q = pN p -> isperm rs (pN p) ->
  exists p', convolve p q rs = Ok (p', q) /\ wfp p' /\ pN p' = pN p /\ pnk p' = pnk p /\ pcorr p' = pcorr p || pcorr q /\
  exists sg, isperm sg (pN p) /\
    (forall i, i < pN p ->
       nth i (px p') 0%R = (nth i (px p) 0 + nth (nth i sg 0%nat) (px q) 0)%R /\
       nth i (py_ p') 0%R = (nth i (py_ p) 0 + nth (nth i sg 0%nat) (py_ q) 0)%R /\
       nth i (pfl p') 0%R = (nth i (pfl p) 0 * nth (nth i sg 0%nat) (pfl q) 0 * INR (pN p))%R /\
       (num_keep q = num_keep p -> (kept q (nth i sg 0%nat) <-> kept p i))) /\
    (pcorr p && pcorr q = false -> pnk p = pnk q -> forall i, i < pN p -> nth i sg 0 = i).
Proof.
  intros Hp Hq EN Prs. unfold convolve. rewrite EN, Nat.eqb_refl. cbn [negb].
  pose proof (argsortb_perm (pnk p)) as Psi. pose proof (argsortb_perm (pnk q)) as Pri.
  assert (Lkp : length (pnk p) = pN p) by (wf_split Hp; assumption). assert (Lkq : length (pnk q) = pN p) by (wf_split Hq; lia).
  rewrite Lkp in Psi. rewrite Lkq in Pri.
  set (si := argsortb (pnk p)) in *. set (ri := argsortb (pnk q)) in *.
  cbn [pcorr sort_by pN].
  set (sinds := if pcorr p && pcorr q then gather 0 rs (argsortb (gather false (pnk (sort_by ri q)) rs)) else seq 0 (pN p)).
  assert (Ps : isperm sinds (pN p)).
  { unfold sinds. destruct (pcorr p && pcorr q); [|unfold isperm; reflexivity]. apply isperm_gather; [exact Prs|].
    pose proof (argsortb_perm (gather false (pnk (sort_by ri q)) rs)) as X. rewrite gather_length, (isperm_length _ _ Prs) in X. exact X. }
  rewrite (sort_restore ri q Hq) by (rewrite EN; exact Pri).
  eexists. split; [reflexivity|].
  pose proof (isperm_length _ _ Psi) as Lsi. pose proof (isperm_length _ _ Pri) as Lri. pose proof (isperm_length _ _ Ps) as Ls.
  pose proof (sort_by_wf si p Hp Psi) as Hsp.
  split; [|split; [reflexivity|split; [|split; [reflexivity|]]]].
  - unfold wfp, set_at_inds. cbn -[scatter gather combine map]. rewrite !scatter_length. wf_split Hsp. cbn [px py_ pfl pnk pdxdz pdydz pwave ppu ppv ptime sort_by pN] in *.
    rewrite !map_length, !combine_length, !gather_length, Lsi, Ls. rewrite !Nat.min_id.
    rewrite !(pick_length _ _ _ _ (pN p)); try (rewrite ?gather_length; assumption). repeat split.
  - cbn [set_at_inds pnk sort_by]. apply (scatter_gather' _ _ _ _ _ (pN p)); [exact Psi|exact Lkp|rewrite gather_length; exact Lsi].
  - set (sg := scatter (seq 0 (pN p)) si (gather 0 ri sinds)).
    assert (Lgr : length (gather 0 ri sinds) = pN p) by (rewrite gather_length; exact Ls).
    assert (Esg : forall k, k < pN p -> nth (nth k si 0) sg 0 = nth (nth k sinds 0) ri 0).
    { intros k Hk. unfold sg. rewrite nth_scatter.
      - apply nth_gather. lia.
      - apply (isperm_nodup _ _ Psi).
      - lia.
      - lia.
      - rewrite seq_length. apply (isperm_lt _ _ _ Psi Hk). }
    assert (Lsg : length sg = pN p) by (unfold sg; rewrite scatter_length, seq_length; reflexivity).
    assert (Psg : isperm sg (pN p)).
    { unfold isperm. transitivity (gather 0 sg si).
      - apply Permutation_sym. apply gather_perm. rewrite Lsg. exact Psi.
      - replace (gather 0 sg si) with (gather 0 ri sinds); [apply isperm_gather; assumption|].
        apply (nth_ext' _ 0); [rewrite Lgr, gather_length; lia|]. intros k Hk. rewrite Lgr in Hk. rewrite !nth_gather by lia. symmetry. apply Esg. exact Hk. }
    exists sg. split; [exact Psg|]. split.
    + intros i Hi. destruct (isperm_onto _ _ i Psi Hi) as (k & Hk & <-). rewrite Esg by exact Hk.
      pose proof (isperm_lt _ _ _ Ps Hk) as Hs. pose proof (isperm_lt _ _ _ Psi Hk) as Hsik. pose proof (isperm_lt _ _ _ Pri Hs) as Hrik.
      assert (Z : forall (f : R -> R -> R) (a b : list R), length a = pN p -> length b = pN p ->
         nth k (map (fun t => f (fst t) (snd t)) (combine (gather 0%R a si) (gather 0%R (gather 0%R b ri) sinds))) 0%R
         = f (nth (nth k si 0) a 0%R) (nth (nth (nth k sinds 0) ri 0) b 0%R)).
      { intros f a b La Lb. rewrite nth_zip by (rewrite !gather_length; lia). rewrite !nth_gather by lia. reflexivity. }
      assert (LZ : forall (f : R -> R -> R) (a b : list R), length (map (fun t => f (fst t) (snd t)) (combine (gather 0%R a si) (gather 0%R (gather 0%R b ri) sinds))) = pN p).
      { intros f a b. rewrite zip_length; rewrite !gather_length; lia. }
      wf_split Hp. clear Wk; rename Wx into Wx', Wy into Wy', Wf into Wf'. clear W1 W2 W3 W4 W5 W6. wf_split Hq. rewrite EN in *.
      cbn [set_at_inds px py_ pfl sort_by].
      split; [|split; [|split]].
      * rewrite nth_scatter; [apply (Z Rplus); assumption|apply (isperm_nodup _ _ Psi)|rewrite LZ; exact Lsi|lia|rewrite LZ; exact Hsik].
      * rewrite nth_scatter; [apply (Z Rplus); assumption|apply (isperm_nodup _ _ Psi)|rewrite LZ; exact Lsi|lia|rewrite LZ; exact Hsik].
      * rewrite nth_scatter; [|apply (isperm_nodup _ _ Psi)|rewrite map_length, LZ; exact Lsi|lia|rewrite map_length, LZ; exact Hsik].
        rewrite (nth_map _ _ _ _ k 0%R) by (rewrite LZ; exact Hk). rewrite (Z Rmult) by assumption. reflexivity.
      * intros Eke. unfold kept. rewrite EN.
        assert (A : nth (nth k si 0) (pnk p) true = (num_keep p <=? k)).
        { rewrite (nth_indep _ true false) by lia. unfold si. rewrite argsortb_rank by lia. rewrite num_keep_nfalse, Nat.leb_antisym. reflexivity. }
        assert (B : nth (nth (nth k sinds 0) ri 0) (pnk q) true = (num_keep q <=? k)).
        { assert (Rk : forall s, s < pN p -> nth (nth s ri 0) (pnk q) false = negb (s <? nfalse (pnk q))).
          { intros s Hs'. unfold ri. apply argsortb_rank. lia. }
          assert (Lg : length (gather false (pnk (sort_by ri q)) rs) = pN p) by (rewrite gather_length; apply (isperm_length _ _ Prs)).
          rewrite (nth_indep _ true false) by lia. rewrite num_keep_nfalse, Nat.leb_antisym. unfold sinds. destruct (pcorr p && pcorr q).
          - set (mm := gather false (pnk (sort_by ri q)) rs) in *. pose proof (argsortb_rank mm k ltac:(lia)) as X.
            assert (Pmm : Permutation mm (pnk q)).
            { unfold mm. transitivity (pnk (sort_by ri q)).
              - apply gather_perm. cbn [pnk sort_by]. rewrite gather_length, Lri. exact Prs.
              - cbn [pnk sort_by]. apply gather_perm. rewrite Wk. exact Pri. }
            rewrite (nfalse_perm _ _ Pmm) in X. rewrite <- X.
            assert (Pm : isperm (argsortb mm) (pN p)). { pose proof (argsortb_perm mm) as Y. rewrite Lg in Y. exact Y. }
            pose proof (isperm_length _ _ Pm) as Lm. pose proof (isperm_lt _ _ _ Pm Hk) as Lmk.
            rewrite (nth_gather _ 0) by lia. set (t := nth k (argsortb mm) 0) in *. clearbody t. unfold mm. rewrite (nth_gather _ false) by (rewrite (isperm_length _ _ Prs); exact Lmk).
            cbn [pnk sort_by]. rewrite (nth_gather _ false) by (rewrite Lri; apply (isperm_lt _ _ _ Prs Lmk)). reflexivity.
          - rewrite seq_nth by exact Hk. apply Rk. exact Hk. }
        rewrite A, B, Eke. tauto.
    + intros Hc Em i Hi. destruct (isperm_onto _ _ i Psi Hi) as (k & Hk & <-). rewrite Esg by exact Hk. unfold sinds. rewrite Hc.
      rewrite seq_nth by exact Hk. unfold ri, si. rewrite <- Em. reflexivity.
Qed.

(** * Shooting *)
Section SInd.
  Variable P : sprof -> Prop.
  Hypothesis HL : forall F gx gy, P (SLeaf F gx gy).
  Hypothesis HS : forall objs cat, Forall P objs -> P (SSum objs cat).
  Hypothesis HC : forall o objs rs, P o -> Forall P objs -> P (SConv o objs rs).
  Hypothesis HT : forall o j off s, P o -> P (STrans o j off s).
  Fixpoint sprof_ind' (o : sprof) : P o :=
    let all := fix all (l : list sprof) : Forall P l :=
      match l with [] => Forall_nil P | x :: l => Forall_cons x (sprof_ind' x) (all l) end in
    match o with
    | SLeaf F gx gy => HL F gx gy
    | SSum objs cat => HS objs cat (all objs)
    | SConv o objs rs => HC o objs rs (sprof_ind' o) (all objs)
    | STrans o j off s => HT o j off s (sprof_ind' o)
    end.
End SInd.

Lemma good_forall l : fold_right (fun o P => good_tree o /\ P) True l <-> Forall good_tree l.
Proof. induction l; cbn; split; intros H; [constructor|exact I|constructor; tauto|inversion H; tauto]. Qed.

Lemma good_tree_pos o : good_tree o -> (0 < sflux o)%R.
Proof.
  induction o as [F gx gy|objs cat IH|o objs rs IH IHs|o j off s IH] using sprof_ind'; intros G.
  - apply G.
  - destruct G as (Ne & Gs & _). apply good_forall in Gs. cbn.
    assert (A : forall l, Forall (fun o => good_tree o -> (0 < sflux o)%R) l -> Forall good_tree l -> (0 <= fold_right (fun o s => sflux o + s) 0 l)%R).
    { clear. induction l as [|o l IHl]; intros H1 H2; cbn; [lra|]. apply Forall_cons_iff in H1 as [H1 H1']. apply Forall_cons_iff in H2 as [H2 H2'].
      specialize (IHl H1' H2'). specialize (H1 H2). lra. }
    destruct objs as [|o objs]; [congruence|]. cbn. apply Forall_cons_iff in IH as [H1 H1']. apply Forall_cons_iff in Gs as [H2 H2'].
    pose proof (A objs H1' H2'). specialize (H1 H2). lra.
  - destruct G as (Go & Gs & _). apply good_forall in Gs. cbn. apply Rmult_lt_0_compat; [auto|].
    clear - IHs Gs. induction objs as [|o objs IHl]; cbn; [lra|]. apply Forall_cons_iff in IHs as [H1 H1']. apply Forall_cons_iff in Gs as [H2 H2'].
    apply Rmult_lt_0_compat; auto.
  - destruct G as (Go & Hs). cbn. apply Rmult_lt_0_compat; auto.
Qed.

Lemma all_kept_ratio p : wfp p -> all_kept p -> 1 <= pN p -> flux_ratio p = Some 1%R.
Proof.
  intros W K N. pose proof (all_kept_num p W K) as E. rewrite flux_ratio_some by lia. f_equal. apply ratio_all; lia.
Qed.

Definition shot (fs : option nat) (N : nat) (F : R) (q : parr) : Prop :=
  wfp q /\ pN q = N /\ all_kept q /\ pcorr q = false /\ forall i, i < N -> nth i (pfl q) 0%R = (F / INR N)%R.
Definition ready (N : nat) (p : parr) : Prop := wfp p /\ pN p = N /\ all_kept p /\ pcorr p = false.
Lemma shot_ready fs N F q : shot fs N F q -> ready N q.
Proof. intros (A & B & C & D & _). exact (conj A (conj B (conj C D))). Qed.

Lemma assign_cat_ok N p q cat i : 1 <= N -> ready N p -> ready N q -> length cat = N ->
  let r := assign_cat p cat i q in
  ready N r /\ forall j, j < N -> nth j (pfl r) 0%R = if Nat.eqb i (nth j cat 0) then nth j (pfl q) 0%R else nth j (pfl p) 0%R.
Proof.
  intros HN (Wp & Np & Kp & Cp) (Wq & Nq & Kq & Cq) Lc. cbv zeta. unfold assign_cat.
  set (msk := map (Nat.eqb i) cat). assert (Lm : length msk = N) by (unfold msk; rewrite map_length; exact Lc).
  pose proof Wp as Wp'. pose proof Wq as Wq'. unfold wfp in Wp', Wq'. rewrite Np in Wp'. rewrite Nq in Wq'.
  destruct Wp' as (P1 & P2 & P3 & P4 & P5 & P6 & P7 & P8 & P9 & P10). destruct Wq' as (Q1 & Q2 & Q3 & Q4 & Q5 & Q6 & Q7 & Q8 & Q9 & Q10).
  assert (Mk : where_ msk (pnk q) (pnk p) = repeat false N).
  { apply repeat_all_false; [rewrite where_length; lia|]. intros j Hj. rewrite nth_where by lia.
    destruct (nth j msk false); [apply (Kq j); lia|apply (Kp j); lia]. }
  rewrite Mk. rewrite (all_kept_ratio p), (all_kept_ratio q) by (try assumption; lia).
  assert (Kn : all_kept (set_pnk p (repeat false N))).
  { intros j Hj. cbn in Hj. split; [exact Hj|]. cbn. apply nth_repeat'. lia. }
  assert (Wn : wfp (set_pnk p (repeat false N))) by (apply set_pnk_wf; [exact Wp|rewrite repeat_length; lia]).
  rewrite (all_kept_ratio _ Wn Kn) by (cbn; lia).
  split.
  - split; [|split; [exact Np|split; [|exact Cp]]].
    + unfold wfp. cbn. rewrite Np. rewrite repeat_length. rewrite !where_length; rewrite ?map_length; try lia; repeat split; lia.
    + intros j Hj. cbn in Hj. split; [exact Hj|]. cbn. apply nth_repeat'. lia.
  - intros j Hj. cbn [pfl]. rewrite nth_where by (rewrite ?map_length; lia). unfold msk at 1. rewrite (nth_map _ _ _ cat j 0) by lia.
    rewrite (nth_map _ _ _ (pfl q) j 0%R) by lia. rewrite (nth_map _ _ _ (pfl p) j 0%R) by lia.
    destruct (Nat.eqb i (nth j cat 0)); field.
Qed.

Lemma pa_new_ready fs N : same_size fs N -> exists p, pa_new fs N = Ok p /\ ready N p.
Proof. intros H. destruct (pa_new_exists fs N H) as (p & E & W & Np & K & C). exists p. split; [exact E|]. exact (conj W (conj Np (conj K C))). Qed.

Lemma shoot_with_ready fs N sh (Q : parr -> Prop) : same_size fs N -> 1 <= N ->
  (forall p, ready N p -> exists q, sh p = Ok q /\ Q q) -> exists q, shoot_with sh fs N = Ok q /\ Q q.
Proof.
  intros HS HN H. destruct (pa_new_ready fs N HS) as (p & E & Rp). unfold shoot_with. rewrite E. cbn [bind].
  destruct Rp as (W & Np & R). rewrite Np. destruct (Nat.eqb_spec N 0); [lia|]. apply H. exact (conj W (conj Np R)).
Qed.

Lemma scaleFlux_shot fs N F s q : shot fs N F q -> shot fs N (F * s)%R (scaleFlux q s).
Proof.
  intros (W & Nq & K & C & V). split; [apply scaleFlux_wf; exact W|]. split; [exact Nq|]. split; [exact K|]. split; [exact C|].
  intros i Hi. cbn [pfl scaleFlux set_pfl]. wf_split W. rewrite (nth_map _ _ _ (pfl q) i 0%R) by lia. rewrite V by exact Hi. unfold Rdiv. lra.
Qed.

Lemma shoot_tree o : good_tree o -> forall fs N p, same_size fs N -> 1 <= N -> ready N p ->
  exists q, shoot_ fs o p = Ok q /\ shot fs N (sflux o) q.
Proof.
  induction o as [F gx gy|objs cat IH|o objs rs IH IHs|o j off s IH] using sprof_ind'; intros G fs N p HS HN Rp.
  - destruct G as [HF HG]. destruct Rp as (W & Np & K & C). cbn [shoot_]. rewrite Np. destruct (HG N) as [Lx Ly].
    unfold set_x. rewrite Np, bcast_array by exact Lx. cbn [bind]. unfold set_y. cbn [pN set_pxy]. rewrite Np, bcast_array by exact Ly. cbn [bind].
    eexists. split; [unfold set_flux; cbn [bcast bind]; reflexivity|].
    assert (W2 : wfp (set_pxy (set_pxy p (gx N) (py_ p)) (px (set_pxy p (gx N) (py_ p))) (gy N))).
    { apply set_pxy_wf; [apply set_pxy_wf; [exact W|lia|wf_split W; assumption]|cbn; lia|cbn; lia]. }
    set (p2 := set_pxy _ _ (gy N)) in *. assert (N2 : pN p2 = N) by exact Np. assert (K2 : all_kept p2) by exact K.
    rewrite (all_kept_ratio p2 W2 K2) by lia.
    split; [apply set_pfl_wf; [exact W2|rewrite map_length, repeat_length; reflexivity]|]. split; [exact N2|]. split; [exact K2|]. split; [exact C|].
    intros i Hi. cbn [pfl set_pfl]. rewrite N2. rewrite (nth_map _ _ _ _ i 0%R) by (rewrite repeat_length; exact Hi). rewrite nth_repeat' by exact Hi. cbn [sflux]. field.
    apply not_0_INR. lia.
  - destruct G as (Ne & Gs & Hcat). apply good_forall in Gs. cbn [shoot_].
    set (tot := fold_right (fun o s => (absflux o + s)%R) 0%R objs).
    assert (Etot : tot = sflux (SSum objs cat)).
    { unfold tot. cbn. clear - Gs. induction objs as [|o l IHl]; cbn; [reflexivity|]. apply Forall_cons_iff in Gs as [H1 H2]. rewrite IHl by exact H2.
      unfold absflux. rewrite Rabs_right by (pose proof (good_tree_pos o H1); lra). reflexivity. }
    destruct (Hcat N) as [Lc Rc].
    assert (Loop : forall os i p, Forall good_tree os -> Forall (fun o => good_tree o -> forall fs N p, same_size fs N -> 1 <= N -> ready N p ->
               exists q, shoot_ fs o p = Ok q /\ shot fs N (sflux o) q) os -> ready N p ->
             (forall j, j < N -> nth j (cat N) 0 < i -> nth j (pfl p) 0%R = (tot / INR N)%R) ->
             exists q, (fix go (os : list sprof) (i : nat) (p : parr) {struct os} : res parr :=
                match os with
                | [] => Ok p
                | o :: os =>
                    bind (shoot_with (shoot_ fs o) fs (pN p)) (fun q =>
                    go os (S i) (assign_cat p (cat (pN p)) i (scaleFlux q (tot / absflux o))))
                end) os i p = Ok q /\ ready N q /\
             (forall j, j < N -> nth j (cat N) 0 < i + length os -> nth j (pfl q) 0%R = (tot / INR N)%R)).
    { clear IH. induction os as [|o os IHos]; intros i p' Hg Hi R' Inv.
      - exists p'. split; [reflexivity|]. split; [exact R'|]. intros j Hj Hc. apply Inv; [exact Hj|cbn in Hc; lia].
      - apply Forall_cons_iff in Hg as [Hg Hg']. apply Forall_cons_iff in Hi as [Hi Hi'].
        assert (Np : pN p' = N) by apply R'. rewrite Np.
        destruct (shoot_with_ready fs N (shoot_ fs o) (shot fs N (sflux o)) HS HN (fun p Rp => Hi Hg fs N p HS HN Rp)) as (q & Eq & Sq).
        rewrite Eq. cbn [bind]. pose proof (scaleFlux_shot _ _ _ (tot / absflux o) _ Sq) as Sq'.
        pose proof (assign_cat_ok N p' _ (cat N) i HN R' (shot_ready _ _ _ _ Sq') Lc) as AC. cbv zeta in AC. destruct AC as [Ra Va].
        destruct (IHos (S i) _ Hg' Hi' Ra) as (q' & E' & R'' & V').
        + intros j Hj Hc. rewrite Va by exact Hj. destruct (Nat.eqb_spec i (nth j (cat N) 0)) as [E|E].
          * destruct Sq' as (_ & _ & _ & _ & Vq). rewrite Vq by exact Hj. unfold absflux. pose proof (good_tree_pos o Hg).
            rewrite Rabs_right by lra. field. split; [apply not_0_INR; lia|lra].
          * apply Inv; [exact Hj|lia].
        + exists q'. split; [exact E'|]. split; [exact R''|]. intros j Hj Hc. apply V'; [exact Hj|cbn in Hc; lia]. }
    destruct (Loop objs 0 p Gs IH Rp) as (q & E & (W & Nq & K & C) & V); [intros; lia|].
    exists q. split; [exact E|]. split; [exact W|]. split; [exact Nq|]. split; [exact K|]. split; [exact C|].
    intros i Hi. rewrite <- Etot. apply V; [exact Hi|]. apply Rc. exact Hi.
  - destruct G as (Go & Gs & Hrs). apply good_forall in Gs. cbn [shoot_]. destruct (IH Go fs N p HS HN Rp) as (p1 & E1 & S1). rewrite E1. cbn [bind].
    assert (Loop : forall os p F, Forall good_tree os -> Forall (fun o => good_tree o -> forall fs N p, same_size fs N -> 1 <= N -> ready N p ->
               exists q, shoot_ fs o p = Ok q /\ shot fs N (sflux o) q) os -> shot fs N F p ->
             exists q, (fix go (os : list sprof) (p : parr) {struct os} : res parr :=
                match os with
                | [] => Ok p
                | o :: os =>
                    bind (pa_new fs (pN p)) (fun q =>
                    bind (shoot_ fs o q) (fun q =>
                    bind (convolve p q (rs (pN p))) (fun r => go os (fst r))))
                end) os p = Ok q /\ shot fs N (F * fold_right (fun o s => (sflux o * s)%R) 1%R os)%R q).
    { clear - HS HN Hrs. induction os as [|o os IHos]; intros p F Hg Hi Sp.
      - exists p. split; [reflexivity|]. cbn. rewrite Rmult_1_r. exact Sp.
      - apply Forall_cons_iff in Hg as [Hg Hg']. apply Forall_cons_iff in Hi as [Hi Hi'].
        pose proof Sp as (Wp & Np & Kp & Cp & Vp). rewrite Np. destruct (pa_new_ready fs N HS) as (q0 & E0 & R0). rewrite E0. cbn [bind].
        destruct (Hi Hg fs N q0 HS HN R0) as (q & Eq & (Wq & Nq & Kq & Cq & Vq)). rewrite Eq. cbn [bind].
        destruct (convolve_ok p q (rs N) Wp Wq) as (p' & Ec & Wp' & Np' & Mp' & Cp' & sg & Psg & V & _); [lia|rewrite Np; apply Hrs|].
        rewrite Ec. cbn [bind fst].
        assert (Sp' : shot fs N (F * sflux o)%R p').
        { split; [exact Wp'|]. split; [lia|]. split; [|split].
          - intros i Hi''. unfold kept. rewrite Mp', Np'. apply (Kp i). lia.
          - rewrite Cp', Cp, Cq. reflexivity.
          - intros i Hi''. destruct (V i ltac:(lia)) as (_ & _ & Vf & _). rewrite Vf, Vp by exact Hi''. rewrite Np in Psg. rewrite Vq by (apply (isperm_lt _ _ _ Psg Hi'')).
            rewrite Np. field. apply not_0_INR. lia. }
        destruct (IHos p' (F * sflux o)%R Hg' Hi' Sp') as (q' & E' & S'). exists q'. split; [exact E'|]. cbn [fold_right]. rewrite <- Rmult_assoc. exact S'. }
    destruct (Loop objs p1 (sflux o) Gs IHs S1) as (q & E & Sq). exists q. split; [exact E|]. exact Sq.
  - destruct G as (Go & Hs). destruct j as [[[a b] c] d]. destruct off as [ox oy]. cbn [shoot_].
    destruct (IH Go fs N p HS HN Rp) as (p1 & E1 & S1). rewrite E1. cbn [bind]. eexists. split; [reflexivity|]. cbn [sflux]. rewrite Rmult_comm.
    apply scaleFlux_shot. destruct S1 as (W & N1 & K & C & V). split; [|split; [exact N1|split; [exact K|split; [exact C|exact V]]]].
    apply set_pxy_wf; [exact W|wf_split W; rewrite map_length, combine_length; lia..].
Qed.

Lemma shoot_ok o fs N : good_tree o -> same_size fs N -> 1 <= N -> exists q, shoot fs o N = Ok q /\ shot fs N (sflux o) q.
Proof. intros G HS HN. apply shoot_with_ready; [exact HS|exact HN|]. intros p Rp. apply shoot_tree; assumption. Qed.

Lemma shot_total fs N F q : 1 <= N -> shot fs N F q -> getTotalFlux q = Some F.
Proof.
  intros HN (W & Nq & K & C & V). pose proof (all_kept_num q W K) as E. rewrite total_vis by (try assumption; lia). f_equal.
  rewrite (rsuml_const _ (F / INR N)%R).
  - rewrite map_length, seq_length, Nq. field. apply not_0_INR. lia.
  - rewrite map_length, seq_length. intros i Hi. rewrite (nth_map _ _ _ _ i 0) by (rewrite seq_length; exact Hi). rewrite seq_nth by exact Hi. cbn [plus].
    rewrite vis_val by (try assumption; lia). assert (Ki := K i Hi). apply kept_iff in Ki; [|exact W|exact Hi]. rewrite Ki. rewrite V by lia.
    rewrite ratio_all by lia. lra.
Qed.
