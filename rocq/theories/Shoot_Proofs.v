(** Photons of interpolants: tables of Cubic and Quintic, positions, fluxes. *)
From Coq Require Import ZArith Reals Bool List Lra Lia FunctionalExtensionality.
From Coquelicot Require Import Coquelicot.
From Verif Require Import Base Array_Model Bounds_Model Bounds_Proofs FFT_Model Geo_Model Size_Model Size_Spec Interp_Model Interp_Spec Interp_Kernels Interp_Smooth Interp_Proofs II_Model WCS_Model Photon_Model Photon_Spec
  Photon_Lists Photon_Proofs Shoot_Model Shoot_Spec Shoot_Table Shoot_Kernels.
Import ListNotations.
Open Scope R_scope.

(** The kernels shot with tables, and the integral of their absolute value *)
Definition absflux1 (i : interpolant) : R := match i with Cubic => 7 / 6 | _ => 2 * quintic_flux - 1 end.
Definition tabled (i : interpolant) : Prop := i = Cubic \/ i = Quintic.
Definition zs_of (i : interpolant) : list R := match i with Cubic => [-2; -1; 1; 2] | _ => qzs end.
Definition ks_of (i : interpolant) : list R := match i with Cubic => [-2; -1; 0; 1; 2] | _ => qks end.
Definition L_of (i : interpolant) : R := match i with Cubic => 3 | _ => 7 end.
Definition M_of (i : interpolant) : R := match i with Cubic => 5 | _ => 24 end.

Section Proofs.
  Variable kva : R.
  Variable LK : Z -> nat -> R.
  Let K i := xval kva LK i.
  Lemma tabled_tame : forall i, tabled i -> tame (K i) (xrange kva i) (L_of i) (M_of i) (zs_of i) (ks_of i).
  Proof using Type. intros i [-> | ->]; [exact cubic_tame|exact quintic_tame]. Qed.
  Lemma tabled_even : forall i, tabled i -> forall x, K i (Rabs x) = K i x.
  Proof using Type. intros i T x. unfold Rabs. destruct (Rcase_abs x); [|reflexivity]. destruct T as [-> | ->]; [apply cub_even|apply qui_even]. Qed.
  Lemma abs_parts : forall (f : R -> R) a b p n, is_RInt (positive_part f) a b p -> is_RInt (negative_part f) a b n -> is_RInt (fun x => Rabs (f x)) a b (p + n) /\ is_RInt f a b (p - n).
  Proof using Type.
    intros f a b p n P N. split.
    - apply (is_RInt_ext (fun x => plus (positive_part f x) (negative_part f x))); [|apply (is_RInt_plus (V := R_NormedModule)); assumption].
      intros x _. unfold positive_part, negative_part. change plus with Rplus. unfold Rabs, Rmax. destruct (Rcase_abs (f x)); repeat destruct (Rle_dec _ _); lra.
    - apply (is_RInt_ext (fun x => minus (positive_part f x) (negative_part f x))); [|apply (is_RInt_minus (V := R_NormedModule)); assumption].
      intros x _. unfold positive_part, negative_part. change minus with Rminus. unfold Rmax. repeat destruct (Rle_dec _ _); lra.
  Qed.
  Lemma tabled_ints : forall i, tabled i -> is_RInt (fun x => Rabs (K i x)) (- xrange kva i) (xrange kva i) (absflux1 i) /\ is_RInt (K i) (- xrange kva i) (xrange kva i) 1.
  Proof using Type.
    intros i [-> | ->]; unfold K; cbn [xval xrange absflux1].
    - destruct pos_cubic as [P N]. destruct (abs_parts _ _ _ _ _ P N) as [A B]. split; [replace (7 / 6) with (13 / 12 + 1 / 12) by field; exact A|replace 1 with (13 / 12 - 1 / 12) by field; exact B].
    - destruct pos_quintic as [P N]. destruct (abs_parts _ _ _ _ _ P N) as [A B]. split; [replace (2 * quintic_flux - 1) with (quintic_flux + (quintic_flux - 1)) by ring; exact A|replace (quintic_flux - (quintic_flux - 1)) with 1 in B by ring; exact B].
  Qed.
  Lemma quintic_flux_range : 1 <= quintic_flux <= 6 / 5.
  Proof using Type. pose proof flux_const as F. apply Rabs_def2 in F. lra. Qed.
  Lemma absflux1_ge : forall i, tabled i -> 1 <= absflux1 i.
  Proof using Type. pose proof quintic_flux_range. intros i [-> | ->]; cbn [absflux1]; lra. Qed.
  (** The values of the kernels are at most 1. *)
  Lemma tabled_le1 : forall i x, tabled i -> Rabs (K i x) <= 1.
  Proof using Type.
    intros i x T. rewrite <- (tabled_even i T). pose proof (Rabs_pos x) as P. set (y := Rabs x) in *. clearbody y. unfold K. destruct T as [-> | ->]; cbn [xval].
    - destruct (Rle_dec y 1) as [l|l]; [|destruct (Rle_dec y 2) as [l2|l2]].
      + pose proof (cub_ge y ltac:(lra)). rewrite Rabs_pos_eq by lra. rewrite cub_1 by lra. unfold cubic_one. assert (0 <= y * y) by nra. nra.
      + rewrite cub_2 by lra. unfold cubic_two. set (z := y - 1). replace y with (1 + z) by (unfold z; ring). assert (0 <= z <= 1) by (unfold z; lra). clearbody z. apply Rabs_le. nra.
      + rewrite cub_out, Rabs_R0 by lra. lra.
    - destruct (Rle_dec y 1) as [l|l]; [|destruct (Rle_dec y 2) as [l2|l2]; [|destruct (Rle_dec y 3) as [l3|l3]]].
      + pose proof (qui_ge1 y ltac:(lra)). rewrite Rabs_pos_eq by lra. rewrite qui_1 by lra. unfold quintic_one. assert (Y3 : 0 <= y * y * y) by (repeat apply Rmult_le_pos; lra).
        assert (Q2 : - (95 / 12) + y * (23 / 2 + y * - (55 / 12)) <= 0) by (pose proof (Rle_0_sqr (y - 69 / 55)) as Q; unfold Rsqr in Q; lra). assert (Q3 : 0 <= - (- (95 / 12) + y * (23 / 2 + y * - (55 / 12)))) by lra. pose proof (Rmult_le_pos _ _ Y3 Q3). lra.
      + rewrite qui_2 by lra. unfold quintic_two. set (z := y - 1). replace y with (1 + z) by (unfold z; ring). assert (Z : 0 <= z <= 1) by (unfold z; lra). clearbody z.
        assert (B : Rabs (- (23 / 4) + (1 + z) * (29 / 2 + (1 + z) * (- (83 / 8) + (1 + z) * (55 / 24)))) <= 4).
        { replace (- (23 / 4) + (1 + z) * (29 / 2 + (1 + z) * (- (83 / 8) + (1 + z) * (55 / 24)))) with (2 / 3 + 5 / 8 * z - 7 / 2 * (z * z) + 55 / 24 * (z * z * z)) by field. assert (0 <= z * z <= 1) by nra. assert (0 <= z * z * z <= 1) by nra. apply Rabs_le. lra. }
        rewrite Rabs_mult. assert (Rabs (z * (1 + z - 2)) <= 1 / 4). { apply Rabs_le. pose proof (Rle_0_sqr (z - 1 / 2)) as Q. unfold Rsqr in Q. pose proof (Rmult_le_pos z (1 - z) ltac:(lra) ltac:(lra)). lra. }
        apply Rle_trans with (1 / 4 * 4); [apply Rmult_le_compat; try apply Rabs_pos; assumption|lra].
      + rewrite qui_3 by lra. unfold quintic_three. set (z := y - 2). replace y with (2 + z) by (unfold z; ring). assert (Z : 0 <= z <= 1) by (unfold z; lra). clearbody z.
        assert (H1 : 0 <= z * z <= 1) by nra. assert (H2 : 0 <= z * z * z <= 1) by nra. assert (H3 : 0 <= z * z * z * z <= 1) by nra. apply Rabs_le. nra.
      + rewrite qui_out, Rabs_R0 by lra. lra.
  Qed.

  (** ** The tables *)
  Section Table.
    Variable N : nat.
    Hypothesis N1 : (1 <= N)%nat.
    Lemma tab_node : forall i k, tab_x kva i (S N) k = node (xrange kva i) N k.
    Proof using Type. intros. unfold tab_x, linspace, node. change (S N - 1)%nat with (N - 0)%nat. rewrite Nat.sub_0_r. reflexivity. Qed.
    Lemma tab_cum_is : forall i k, tabled i -> tab_cum kva LK i (S N) k = cum (K i) (xrange kva i) N k.
    Proof using N1.
      intros i k T. unfold tab_cum, cum. apply cumsum_ext. intros j _. unfold tab_px, mass. rewrite !tab_node. fold (K i). rewrite !(tabled_even i T). unfold tab_dx. rewrite !tab_node, !(node_step _ N N1). reflexivity.
    Qed.
    Lemma tab_cdf_is : forall i k, tabled i -> tab_cdf kva LK i (S N) k = cum (K i) (xrange kva i) N k / cum (K i) (xrange kva i) N N.
    Proof using N1. intros i k T. unfold tab_cdf. change (S N - 1)%nat with (N - 0)%nat. rewrite Nat.sub_0_r. rewrite !tab_cum_is by assumption. reflexivity. Qed.
    Lemma cell_of : forall i t, tabled i -> - xrange kva i <= t <= xrange kva i -> exists k, (k < N)%nat /\ node (xrange kva i) N k <= t <= node (xrange kva i) N (S k).
    Proof using N1 LK.
      intros i t T B. pose proof (node_N (xrange kva i) N N1) as EN. pose proof (node_0 (xrange kva i) N N1) as E0.
      assert (G : forall m, t <= node (xrange kva i) N (S m) -> exists k, (k <= m)%nat /\ node (xrange kva i) N k <= t <= node (xrange kva i) N (S k)).
      { induction m as [|m IH]; intro H; [exists 0%nat; split; [lia|lra]|]. destruct (Rle_dec t (node (xrange kva i) N (S m))) as [l|l]; [destruct (IH l) as (k & A & D); exists k; split; [lia|exact D]|]. exists (S m). split; [lia|lra]. }
      destruct N as [|m] eqn:E; [lia|]. destruct (G m) as (k & A & D); [rewrite EN; lra|]. exists k. split; [lia|exact D].
    Qed.
    Hypothesis NB : 9999 <= INR N.
    Lemma step_small : forall i, tabled i -> 0 < hstep (xrange kva i) N <= 2 * xrange kva i / 9999.
    Proof using N1 NB.
      intros i T. assert (X : 0 < xrange kva i) by (destruct T as [-> | ->]; cbn [xrange]; lra). unfold hstep. split; [apply Rdiv_lt_0_compat; lra|].
      apply Rmult_le_compat_l; [lra|]. apply Rinv_le_contravar; lra.
    Qed.
    Lemma errs : forall i, tabled i -> err1 (xrange kva i) (L_of i) (M_of i) (ks_of i) N <= (match i with Cubic => 27 | _ => 271 end) / 10000000 /\
      err2 (xrange kva i) (L_of i) (M_of i) (ks_of i) N <= (match i with Cubic => 51 | _ => 497 end) / 10000000.
    Proof using N1 NB.
      intros i T. pose proof (step_small i T) as [H0 H1]. set (h := hstep (xrange kva i) N) in *.
      assert (NH : INR N * h = 2 * xrange kva i) by (unfold h, hstep; field; lra).
      assert (H2 : h ^ 2 <= (2 * xrange kva i / 9999) ^ 2) by (apply pow_incr; lra).
      assert (E : forall M, INR N * (M * h ^ 3 / 12) = M * (2 * xrange kva i) / 12 * h ^ 2) by (intro M; rewrite <- NH; field).
      unfold err1, err2. fold h. rewrite !E. destruct T as [-> | ->]; cbn [xrange L_of M_of ks_of length qks INR] in *; lra.
    Qed.
    Lemma err1_pos : forall i, tabled i -> 0 <= err1 (xrange kva i) (L_of i) (M_of i) (ks_of i) N.
    Proof using N1 LK. intros i T. pose proof (table_error _ _ _ _ _ _ (tabled_tame i T) N N1 N (le_n N)) as H. pose proof (Rabs_pos (RInt (fun x : R => Rabs (K i x)) (- xrange kva i) (node (xrange kva i) N N) - cum (K i) (xrange kva i) N N)). lra. Qed.
    Lemma total_pos : forall i, tabled i -> 99 / 100 <= cum (K i) (xrange kva i) N N.
    Proof using N1 NB.
      intros i T. pose proof (table_error _ _ _ _ _ _ (tabled_tame i T) N N1 N (le_n N)) as H. rewrite (node_N _ N N1) in H. destruct (tabled_ints i T) as [A _]. apply (is_RInt_unique (V := R_CompleteNormedModule)) in A. rewrite A in H. apply Rabs_le_between in H.
      destruct (errs i T) as [E _]. pose proof (absflux1_ge i T). assert (match i with Cubic => 27 | _ => 271 end / 10000000 <= 1 / 100) by (destruct T as [-> | ->]; lra). lra.
    Qed.
    Lemma tab_mono : forall i j, tabled i -> tab_cdf kva LK i (S N) j <= tab_cdf kva LK i (S N) (S j).
    Proof using N1 NB. intros i j T. rewrite !tab_cdf_is by assumption. apply Rmult_le_compat_r; [apply Rlt_le, Rinv_0_lt_compat; pose proof (total_pos i T); lra|]. apply (cum_mono _ _ _ _ _ _ (tabled_tame i T) N N1). Qed.
    Lemma tab_first : forall i, tabled i -> tab_cdf kva LK i (S N) 0 = 0.
    Proof using N1. intros i T. rewrite tab_cdf_is by assumption. unfold cum at 1. cbn [cumsum]. unfold Rdiv. ring. Qed.
    Lemma tab_last : forall i, tabled i -> tab_cdf kva LK i (S N) N = 1.
    Proof using N1 NB. intros i T. rewrite tab_cdf_is by assumption. pose proof (total_pos i T). field. lra. Qed.
    Lemma tab_close : forall i k, tabled i -> (k <= N)%nat -> Rabs (tab_cdf kva LK i (S N) k - abs_cdf (K i) (xrange kva i) (node (xrange kva i) N k)) <= 5 / 2 * err1 (xrange kva i) (L_of i) (M_of i) (ks_of i) N.
    Proof using N1 NB.
      intros i k T KN. rewrite tab_cdf_is by assumption. unfold abs_cdf. apply (table_cdf (K i) (xrange kva i) (L_of i) (M_of i) (zs_of i) (ks_of i) (tabled_tame i T) N N1); [exact KN| |reflexivity| |reflexivity].
      - destruct (tabled_ints i T) as [A _]. apply (is_RInt_unique (V := R_CompleteNormedModule)) in A. rewrite A. apply absflux1_ge, T.
      - destruct (errs i T) as [E _]. assert (match i with Cubic => 27 | _ => 271 end / 10000000 <= 1 / 100) by (destruct T as [-> | ->]; lra). lra.
    Qed.
    Variable search : nat -> (nat -> R) -> R -> nat.
    Hypothesis SE : searches search.
    Lemma below : forall i k u, tabled i -> (k <= N)%nat -> 0 <= u < 1 -> (shoot_pos kva LK search i (S N) u < node (xrange kva i) N k <-> u < tab_cdf kva LK i (S N) k).
    Proof using N1 NB SE.
      intros i k u T KN U. rewrite <- tab_node. unfold shoot_pos. apply interp_below; [exact SE|lia|lia| | |].
      - intros j _. rewrite !tab_node. apply (node_lt _ _ _ _ _ _ (tabled_tame i T) N N1).
      - intros. apply tab_mono, T.
      - change (S N - 1)%nat with (N - 0)%nat. rewrite Nat.sub_0_r, tab_first, tab_last by assumption. exact U.
    Qed.
    Lemma cdf_step : forall i a b, tabled i -> a <= b -> 0 <= abs_cdf (K i) (xrange kva i) b - abs_cdf (K i) (xrange kva i) a <= b - a.
    Proof using LK.
      intros i a b T AB. pose proof (absK_int _ _ _ _ _ _ (tabled_tame i T)) as I. unfold abs_cdf. destruct (tabled_ints i T) as [A _]. apply (is_RInt_unique (V := R_CompleteNormedModule)) in A. rewrite A. pose proof (absflux1_ge i T) as F1.
      rewrite <- (RInt_Chasles (V := R_CompleteNormedModule) (fun x => Rabs (K i x)) (- xrange kva i) a b (I _ _) (I _ _)). change plus with Rplus.
      assert (P : 0 <= RInt (fun x => Rabs (K i x)) a b) by (apply RInt_ge_0; [exact AB|apply I|intros; apply Rabs_pos]).
      assert (Q : RInt (fun x => Rabs (K i x)) a b <= b - a).
      { eapply Rle_trans; [apply (RInt_le _ (fun _ => 1) a b AB (I a b) (ex_RInt_const a b 1)); intros; apply tabled_le1, T|]. rewrite RInt_const. change (scal (b - a) 1) with ((b - a) * 1). lra. }
      set (v := RInt (fun x => Rabs (K i x)) a b) in *. set (w := RInt _ (- xrange kva i) a). replace ((w + v) / absflux1 i - w / absflux1 i) with (v / absflux1 i) by (field; lra).
      assert (0 < / absflux1 i <= 1) by (split; [apply Rinv_0_lt_compat; lra|rewrite <- Rinv_1; apply Rinv_le_contravar; lra]). unfold Rdiv. split; [apply Rmult_le_pos; lra|]. apply Rle_trans with (v * 1); [apply Rmult_le_compat_l; lra|lra].
    Qed.
    Lemma draws : forall i, tabled i -> draws_from (shoot_pos kva LK search i (S N)) (abs_cdf (K i) (xrange kva i)) (- xrange kva i) (xrange kva i) (xrange kva i / 4000).
    Proof using N1 NB SE.
      intros i T t u B U. destruct (cell_of i t T B) as (k & KN & K1 & K2). pose proof (step_small i T) as [_ H]. pose proof (node_step (xrange kva i) N N1 k) as ST. destruct (errs i T) as [E _].
      assert (SM : 5 / 2 * err1 (xrange kva i) (L_of i) (M_of i) (ks_of i) N + hstep (xrange kva i) N <= xrange kva i / 4000) by (destruct T as [-> | ->]; cbn [xrange] in *; lra).
      pose proof (tab_close i k T ltac:(lia)) as C1. pose proof (tab_close i (S k) T ltac:(lia)) as C2. apply Rabs_le_between in C1. apply Rabs_le_between in C2.
      pose proof (cdf_step i _ _ T K1) as D1. pose proof (cdf_step i _ _ T K2) as D2. split; intro P.
      - apply Rlt_le_trans with (node (xrange kva i) N k); [|exact K1]. apply below; [exact T|lia|exact U|lra].
      - assert (Q : shoot_pos kva LK search i (S N) u < node (xrange kva i) N (S k)) by lra. apply below in Q; [lra|exact T|lia|exact U].
    Qed.
    Lemma pos_range : forall i u, tabled i -> 0 <= u < 1 -> - xrange kva i <= shoot_pos kva LK search i (S N) u < xrange kva i.
    Proof using N1 NB SE.
      intros i u T U. split.
      - destruct (Rle_dec (- xrange kva i) (shoot_pos kva LK search i (S N) u)) as [l|l]; [exact l|]. exfalso. rewrite <- (node_0 (xrange kva i) N N1) in l. assert (Q : shoot_pos kva LK search i (S N) u < node (xrange kva i) N 0) by lra. apply below in Q; [|exact T|lia|exact U]. rewrite tab_first in Q by assumption. lra.
      - apply Rlt_le_trans with (node (xrange kva i) N N); [|rewrite (node_N _ N N1); lra]. apply below; [exact T|lia|exact U|]. rewrite tab_last by assumption. lra.
    Qed.
    Lemma mean_one : forall i p n, tabled i -> positive_flux i = Some p -> negative_flux i = Some n ->
      mean_near (fun u => (p + n) * sgn (xval kva LK i (shoot_pos kva LK search i (S N) u))) 1 (match i with Cubic => 1 / 100000 | _ => 1 / 10000 end).
    Proof using N1 NB SE.
      intros i p n T P Q. destruct (tabled_ints i T) as [A B]. apply (is_RInt_unique (V := R_CompleteNormedModule)) in A. apply (is_RInt_unique (V := R_CompleteNormedModule)) in B. destruct (errs i T) as [E1 E2]. pose proof (err1_pos i T) as EP.
      assert (F1 : 1 <= p + n) by (destruct T as [-> | ->]; injection P as <-; injection Q as <-; lra).
      assert (FD : Rabs (p + n - RInt (fun x => Rabs (K i x)) (- xrange kva i) (xrange kva i)) <= 1 / 100000000000000000).
      { rewrite A. pose proof flux_const as FC. apply Rabs_def2 in FC. destruct T as [-> | ->]; injection P as <-; injection Q as <-; cbn [absflux1]; apply Rabs_le; lra. }
      assert (ES : err1 (xrange kva i) (L_of i) (M_of i) (ks_of i) N + 1 / 100000000000000000 <= 1 / 100) by (destruct T as [-> | ->]; lra).
      pose proof (mean_unit (K i) (xrange kva i) (L_of i) (M_of i) (zs_of i) (ks_of i) (tabled_tame i T) N N1 search (p + n) _ SE B F1 FD ES ltac:(lra)) as MU.
      apply (mean_weaken _ _ _ 1 (match i with Cubic => 1 / 100000 | _ => 1 / 10000 end)) in MU; [|rewrite Rminus_diag_eq, Rabs_R0 by reflexivity; destruct T as [-> | ->]; lra].
      eapply mean_ext; [|exact MU]. intro u. cbv beta. unfold shoot_pos. assert (EC : tab_cdf kva LK i (S N) = fun k => cum (K i) (xrange kva i) N k / cum (K i) (xrange kva i) N N) by (apply functional_extensionality; intro; apply tab_cdf_is, T). assert (EX : tab_x kva i (S N) = node (xrange kva i) N) by (apply functional_extensionality; intro; apply tab_node). rewrite EC, EX. reflexivity.
    Qed.
  End Table.
End Proofs.
