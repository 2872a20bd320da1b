(** maxk at particular parameters, by interval evaluation of the fit. *)
From Coq Require Import ZArith QArith Qreals Reals Bool List Lra Lia.
From Verif Require Import Base Bounds_Model GSP_Model Size_Model Num_Consts MoffK_Model MoffK_Int MoffK_Fit MoffK_Maxk.
Import ListNotations.
Open Scope R_scope.

Definition tab64 : list (list itv) := Eval vm_compute in map (map (conv 64)) rational_poly_vals.
Lemma tab64_in : Forall2 (Forall2 (inI 64)) tab64 fit_table.
Proof. replace tab64 with (map (map (conv 64)) rational_poly_vals) by (vm_compute; reflexivity). exact (tab_in 64 rational_poly_vals ltac:(discriminate)). Qed.
Ltac crd L := let H := fresh in pose proof L as H; pose proof log_beta_min_b; pose proof log_beta_max_v; pose proof ln10_b;
  unfold inI; rewrite two64; cbn [fst snd];
  match goal with |- ?l <= bcoord ?b * _ <= ?h => assert (l / 18446744073709551616 <= bcoord b) by (apply bcoord_ge; lra); assert (bcoord b <= h / 18446744073709551616) by (apply bcoord_le; lra); lra end.
Lemma at_ok : forall p b m x y l h x1 x2, 0 < mo_r0 p -> mo_beta p = b -> g_maxk (mo_gs p) = / 10 ^ m -> inI 64 x (bcoord b) -> inI 64 y ((12 - INR m) / 11) ->
  (exists i, ifit 64 tab64 x y = Some i /\ (l <= fst i)%Z /\ (snd i <= h)%Z) -> 0 < x1 -> 0 < x2 -> ln x1 * 18446744073709551616 <= IZR l -> IZR h <= ln x2 * 18446744073709551616 -> x1 <= mo_maxk p * mo_r0 p <= x2.
Proof.
  intros p b m x y l h x1 x2 R0 Bb T X Y (i & I1 & I2 & I3) P1 P2 L1 L2. rewrite maxk_fit by exact R0. rewrite Bb, T, tcoord_pow.
  pose proof (ifit_ok 64 ltac:(discriminate) _ _ _ _ _ _ _ tab64_in X Y I1) as [H1 H2]. rewrite two64 in H1, H2. set (v := pade2 _ _ _) in *. apply IZR_le in I2, I3.
  split; [apply exp_ge; [exact P1|lra]|apply exp_le; [exact P2|lra]].
Qed.
Ltac at_point crd m fit a b := let P := fresh in let R0 := fresh in let B := fresh in let T := fresh in intros P R0 B T;
  eapply (at_ok P _ m _ _ _ _ _ _ R0 B T crd); [|exact fit| | | |];
  [unfold inI; rewrite two64; cbn [fst snd]; rewrite INR_IZR_INZ; cbn [Z.of_nat Pos.of_succ_nat Pos.succ]; lra|lra|lra|pose proof a; lra|pose proof b; lra].

Lemma lnb_15 : 4054651081081 / 10000000000000 <= ln (3 / 2) <= 4054651081082 / 10000000000000.
Proof. exact (ln_between 0 3 2 4054651081081 4054651081082 10000000000000 ltac:(vm_compute; reflexivity)). Qed.
Lemma crd_15 : inI 64 (1268627620476342695, 1268627620845277577)%Z (bcoord (3 / 2)).
Proof. crd lnb_15. Qed.
Lemma lnb_25 : 9162907318741 / 10000000000000 <= ln (5 / 2) <= 9162907318742 / 10000000000000.
Proof. exact (ln_between 1 5 2 9162907318741 9162907318742 10000000000000 ltac:(vm_compute; reflexivity)). Qed.
Lemma crd_25 : inI 64 (3358065304677541705, 3358065305046476586)%Z (bcoord (5 / 2)).
Proof. crd lnb_25. Qed.
Lemma lnb_35 : 12527629684953 / 10000000000000 <= ln (7 / 2) <= 12527629684954 / 10000000000000.
Proof. exact (ln_between 1 7 2 12527629684953 12527629684954 10000000000000 ltac:(vm_compute; reflexivity)). Qed.
Lemma crd_35 : inI 64 (4734342723380184448, 4734342723749119330)%Z (bcoord (7 / 2)).
Proof. crd lnb_35. Qed.
Lemma lnb_45 : 15040773967762 / 10000000000000 <= ln (9 / 2) <= 15040773967763 / 10000000000000.
Proof. exact (ln_between 2 9 2 15040773967762 15040773967763 10000000000000 ltac:(vm_compute; reflexivity)). Qed.
Lemma crd_45 : inI 64 (5762297885774613972, 5762297886143548854)%Z (bcoord (9 / 2)).
Proof. crd lnb_45. Qed.
Lemma lnb_505 : 39219733362813 / 10000000000000 <= ln (101 / 2) <= 39219733362814 / 10000000000000.
Proof. exact (ln_between 5 101 2 39219733362813 39219733362814 10000000000000 ltac:(vm_compute; reflexivity)). Qed.
Lemma crd_505 : inI 64 (15652253787425379867, 15652253787794314748)%Z (bcoord (101 / 2)).
Proof. crd lnb_505. Qed.
Lemma lnb_10005 : 69082551540237 / 10000000000000 <= ln (2001 / 2) <= 69082551540238 / 10000000000000.
Proof. exact (ln_between 9 2001 2 69082551540237 69082551540238 10000000000000 ltac:(vm_compute; reflexivity)). Qed.
Lemma crd_10005 : inI 64 (27867086942495076608, 27867086942864011489)%Z (bcoord (2001 / 2)).
Proof. crd lnb_10005. Qed.
Lemma lx1_15_3 : 19326326779759 / 10000000000000 <= ln (863459 / 125000) <= 19326326779760 / 10000000000000.
Proof. exact (ln_between 2 863459 125000 19326326779759 19326326779760 10000000000000 ltac:(vm_compute; reflexivity)). Qed.
Lemma lx2_15_3 : 19326331122755 / 10000000000000 <= ln (276307 / 40000) <= 19326331122756 / 10000000000000.
Proof. exact (ln_between 2 276307 40000 19326331122755 19326331122756 10000000000000 ltac:(vm_compute; reflexivity)). Qed.
(** beta = 1.5, threshold 1e-3 *)
Lemma fit_15_3 : exists i, ifit 64 tab64 (1268627620476342695, 1268627620845277577)%Z (15092790605762360413, 15092790605762360414)%Z = Some i /\ (35650785110047322021 <= fst i)%Z /\ (snd i <= 35650785847917084971)%Z.
Proof. eexists. split; [vm_compute; reflexivity|split; vm_compute; discriminate]. Qed.
Lemma at_15_3 : forall p, 0 < mo_r0 p -> mo_beta p = 3 / 2 -> g_maxk (mo_gs p) = / 10 ^ 3 -> 863459 / 125000 <= mo_maxk p * mo_r0 p <= 276307 / 40000.
Proof. at_point crd_15 3%nat fit_15_3 lx1_15_3 lx2_15_3. Qed.
Lemma lx1_25_3 : 22228233375164 / 10000000000000 <= ln (9233363 / 1000000) <= 22228233375165 / 10000000000000.
Proof. exact (ln_between 3 9233363 1000000 22228233375164 22228233375165 10000000000000 ltac:(vm_compute; reflexivity)). Qed.
Lemma lx2_25_3 : 22228236624250 / 10000000000000 <= ln (4616683 / 500000) <= 22228236624251 / 10000000000000.
Proof. exact (ln_between 3 4616683 500000 22228236624250 22228236624251 10000000000000 ltac:(vm_compute; reflexivity)). Qed.
(** beta = 2.5, threshold 1e-3 *)
Lemma fit_25_3 : exists i, ifit 64 tab64 (3358065304677541705, 3358065305046476586)%Z (15092790605762360413, 15092790605762360414)%Z = Some i /\ (41003856441783426109 <= fst i)%Z /\ (snd i <= 41003857179653189058)%Z.
Proof. eexists. split; [vm_compute; reflexivity|split; vm_compute; discriminate]. Qed.
Lemma at_25_3 : forall p, 0 < mo_r0 p -> mo_beta p = 5 / 2 -> g_maxk (mo_gs p) = / 10 ^ 3 -> 9233363 / 1000000 <= mo_maxk p * mo_r0 p <= 4616683 / 500000.
Proof. at_point crd_25 3%nat fit_25_3 lx1_25_3 lx2_25_3. Qed.
Lemma lx1_35_3 : 23832210400509 / 10000000000000 <= ln (5419881 / 500000) <= 23832210400510 / 10000000000000.
Proof. exact (ln_between 3 5419881 500000 23832210400509 23832210400510 10000000000000 ltac:(vm_compute; reflexivity)). Qed.
Lemma lx2_35_3 : 23832213168097 / 10000000000000 <= ln (2167953 / 200000) <= 23832213168098 / 10000000000000.
Proof. exact (ln_between 3 2167953 200000 23832213168097 23832213168098 10000000000000 ltac:(vm_compute; reflexivity)). Qed.
(** beta = 3.5, threshold 1e-3 *)
Lemma fit_35_3 : exists i, ifit 64 tab64 (4734342723380184448, 4734342723749119330)%Z (15092790605762360413, 15092790605762360414)%Z = Some i /\ (43962669933713650919 <= fst i)%Z /\ (snd i <= 43962670671583413869)%Z.
Proof. eexists. split; [vm_compute; reflexivity|split; vm_compute; discriminate]. Qed.
Lemma at_35_3 : forall p, 0 < mo_r0 p -> mo_beta p = 7 / 2 -> g_maxk (mo_gs p) = / 10 ^ 3 -> 5419881 / 500000 <= mo_maxk p * mo_r0 p <= 2167953 / 200000.
Proof. at_point crd_35 3%nat fit_35_3 lx1_35_3 lx2_35_3. Qed.
Lemma lx1_45_3 : 24987983780371 / 10000000000000 <= ln (1520983 / 125000) <= 24987983780372 / 10000000000000.
Proof. exact (ln_between 3 1520983 125000 24987983780371 24987983780372 10000000000000 ltac:(vm_compute; reflexivity)). Qed.
Lemma lx2_45_3 : 24987986245882 / 10000000000000 <= ln (12167867 / 1000000) <= 24987986245883 / 10000000000000.
Proof. exact (ln_between 3 12167867 1000000 24987986245882 24987986245883 10000000000000 ltac:(vm_compute; reflexivity)). Qed.
(** beta = 4.5, threshold 1e-3 *)
Lemma fit_45_3 : exists i, ifit 64 tab64 (5762297885774613972, 5762297886143548854)%Z (15092790605762360413, 15092790605762360414)%Z = Some i /\ (46094695593906029842 <= fst i)%Z /\ (snd i <= 46094696331775792791)%Z.
Proof. eexists. split; [vm_compute; reflexivity|split; vm_compute; discriminate]. Qed.
Lemma at_45_3 : forall p, 0 < mo_r0 p -> mo_beta p = 9 / 2 -> g_maxk (mo_gs p) = / 10 ^ 3 -> 1520983 / 125000 <= mo_maxk p * mo_r0 p <= 12167867 / 1000000.
Proof. at_point crd_45 3%nat fit_45_3 lx1_45_3 lx2_45_3. Qed.
Lemma lx1_505_1 : 30627234095713 / 10000000000000 <= ln (534643 / 25000) <= 30627234095714 / 10000000000000.
Proof. exact (ln_between 4 534643 25000 30627234095713 30627234095714 10000000000000 ltac:(vm_compute; reflexivity)). Qed.
Lemma lx2_505_1 : 30627235498518 / 10000000000000 <= ln (21385723 / 1000000) <= 30627235498519 / 10000000000000.
Proof. exact (ln_between 4 21385723 1000000 30627235498518 30627235498519 10000000000000 ltac:(vm_compute; reflexivity)). Qed.
(** beta = 50.5, threshold 1e-1 *)
Lemma fit_505_1 : exists i, ifit 64 tab64 (15652253787425379867, 15652253787794314748)%Z (18446744073709551616, 18446744073709551616)%Z = Some i /\ (56497276003600820382 <= fst i)%Z /\ (snd i <= 56497276741470583331)%Z.
Proof. eexists. split; [vm_compute; reflexivity|split; vm_compute; discriminate]. Qed.
Lemma at_505_1 : forall p, 0 < mo_r0 p -> mo_beta p = 101 / 2 -> g_maxk (mo_gs p) = / 10 ^ 1 -> 534643 / 25000 <= mo_maxk p * mo_r0 p <= 21385723 / 1000000.
Proof. at_point crd_505 1%nat fit_505_1 lx1_505_1 lx2_505_1. Qed.
Lemma lx1_505_3 : 36338453030176 / 10000000000000 <= ln (37858113 / 1000000) <= 36338453030177 / 10000000000000.
Proof. exact (ln_between 5 37858113 1000000 36338453030176 36338453030177 10000000000000 ltac:(vm_compute; reflexivity)). Qed.
Lemma lx2_505_3 : 36338453822609 / 10000000000000 <= ln (9464529 / 250000) <= 36338453822610 / 10000000000000.
Proof. exact (ln_between 5 9464529 250000 36338453822609 36338453822610 10000000000000 ltac:(vm_compute; reflexivity)). Qed.
(** beta = 50.5, threshold 1e-3 *)
Lemma fit_505_3 : exists i, ifit 64 tab64 (15652253787425379867, 15652253787794314748)%Z (15092790605762360413, 15092790605762360414)%Z = Some i /\ (67032614821591977110 <= fst i)%Z /\ (snd i <= 67032615559461740060)%Z.
Proof. eexists. split; [vm_compute; reflexivity|split; vm_compute; discriminate]. Qed.
Lemma at_505_3 : forall p, 0 < mo_r0 p -> mo_beta p = 101 / 2 -> g_maxk (mo_gs p) = / 10 ^ 3 -> 37858113 / 1000000 <= mo_maxk p * mo_r0 p <= 9464529 / 250000.
Proof. at_point crd_505 3%nat fit_505_3 lx1_505_3 lx2_505_3. Qed.
Lemma lx1_10005_3 : (-162726930972376) / 10000000000000 <= ln (21419 / 250000000000) <= (-162726930972375) / 10000000000000.
Proof. exact (ln_between (-24) 21419 250000000000 (-162726930972376) (-162726930972375) 10000000000000 ltac:(vm_compute; reflexivity)). Qed.
Lemma lx2_10005_3 : (-162726580822103) / 10000000000000 <= ln (85679 / 1000000000000) <= (-162726580822102) / 10000000000000.
Proof. exact (ln_between (-24) 85679 1000000000000 (-162726580822103) (-162726580822102) 10000000000000 ltac:(vm_compute; reflexivity)). Qed.
(** beta = 1000.5, threshold 1e-3 *)
Lemma fit_10005_3 : exists i, ifit 64 tab64 (27867086942495076608, 27867086942864011489)%Z (15092790605762360413, 15092790605762360414)%Z = Some i /\ (-300177889712744218991 <= fst i)%Z /\ (snd i <= -300177886023395404248)%Z.
Proof. eexists. split; [vm_compute; reflexivity|split; vm_compute; discriminate]. Qed.
Lemma at_10005_3 : forall p, 0 < mo_r0 p -> mo_beta p = 2001 / 2 -> g_maxk (mo_gs p) = / 10 ^ 3 -> 21419 / 250000000000 <= mo_maxk p * mo_r0 p <= 85679 / 1000000000000.
Proof. at_point crd_10005 3%nat fit_10005_3 lx1_10005_3 lx2_10005_3. Qed.
Lemma lx1_15_23 : 11617251064735 / 10000000000000 <= ln (3195441 / 1000000) <= 11617251064736 / 10000000000000.
Proof. exact (ln_between 1 3195441 1000000 11617251064735 11617251064736 10000000000000 ltac:(vm_compute; reflexivity)). Qed.
Lemma lx2_15_23 : 11617260453106 / 10000000000000 <= ln (798861 / 250000) <= 11617260453107 / 10000000000000.
Proof. exact (ln_between 1 798861 250000 11617260453106 11617260453107 10000000000000 ltac:(vm_compute; reflexivity)). Qed.
(** beta = 1.5, threshold 1e-23 *)
Lemma fit_15_23 : exists i, ifit 64 tab64 (1268627620476342695, 1268627620845277577)%Z (-18446744073709551616, -18446744073709551616)%Z = Some i /\ (21430054964707083034 <= fst i)%Z /\ (snd i <= 21430055702576845983)%Z.
Proof. eexists. split; [vm_compute; reflexivity|split; vm_compute; discriminate]. Qed.
Lemma at_15_23 : forall p, 0 < mo_r0 p -> mo_beta p = 3 / 2 -> g_maxk (mo_gs p) = / 10 ^ 23 -> 3195441 / 1000000 <= mo_maxk p * mo_r0 p <= 798861 / 250000.
Proof. at_point crd_15 23%nat fit_15_23 lx1_15_23 lx2_15_23. Qed.
