(** Convolutions, deconvolutions, bandwidths and the choice of the drawing routine. *)
From Coq Require Import Reals Bool List Lra Lia Psatz Permutation.
From Coquelicot Require Import Complex.
From Verif Require Import Base Bounds_Model Bounds_Proofs Geo_Model Geo_Proofs GSP_Model GSP_Spec GSP_Proofs Prof_Model Prof_Spec Prof_Proofs Prof_Draw Prof_Combine.
Import ListNotations.
Open Scope R_scope.

(** * When the constructor raises *)
Lemma forallb_Forall : forall A (f : A -> bool) l, forallb f l = true <-> Forall (fun o => f o = true) l.
Proof. intros. rewrite forallb_forall, Forall_forall. tauto. Qed.
Lemma decide_spec : forall rs l, rs <> RSOther ->
  exists b, decide_real_space rs l = Ok b /\
    (b = true <-> wants_real_space rs l /\ (length l <= 2)%nat /\ Forall (fun o => is_analytic_x o = true) l).
Proof.
  intros rs l N. unfold decide_real_space, wants_real_space.
  assert (T : forall b : bool, (if b then if Nat.ltb 2 (length l) then false else forallb is_analytic_x l else false) = true <->
    b = true /\ (length l <= 2)%nat /\ Forall (fun o => is_analytic_x o = true) l).
  { intros []; [|split; [discriminate|intros [? _]; discriminate]]. destruct (Nat.ltb_spec 2 (length l)) as [h|h].
    - split; [discriminate|intros (_ & ? & _); lia].
    - rewrite forallb_Forall. tauto. }
  destruct rs as [|b|]; [| |congruence]; cbn [bind]; eexists; (split; [reflexivity|]); rewrite T; clear T.
  - destruct (Nat.leb_spec (length l) 2) as [h|h].
    + rewrite forallb_Forall. split; [intros (A & B & C); split; [right|]; auto|intros ([X|(_ & _ & A)] & B & C); [discriminate|auto]].
    + split; [intros (X & _); discriminate|intros (_ & B & _); lia].
  - split; [intros (-> & B & C); split; [left|]; auto|intros ([X|(X & _)] & B & C); [|discriminate]]. injection X as ->. auto.
Qed.
Lemma map_nonempty : forall A B (f : A -> B) l, l <> [] -> map f l <> [].
Proof. intros A B f [|] H; [congruence|discriminate]. Qed.
Lemma mkConv_spec : forall rs l gs pg, l <> [] -> rs <> RSOther ->
  let raises := wants_real_space rs l /\ (length l <= 2)%nat /\ Forall (fun o => is_analytic_x o = true) l in
  (raises /\ mkConv rs l gs pg = Err NotImplementedErr) \/
  (~ raises /\ exists g, (match gs with Some h => g = h | None => gspR_combine (map gsparams l) = Ok g end) /\
     mkConv rs l gs pg = Ok (PConv (if pg then map (withGSP g) l else l) g pg)).
Proof.
  intros rs l gs pg N NO raises. destruct (decide_spec rs l NO) as (b & E & D). fold raises in D.
  destruct l as [|a t]; [congruence|]. unfold mkConv. rewrite E. cbn [bind]. destruct b.
  - left. tauto.
  - right. split. { intros X. apply D in X. discriminate. }
    destruct gs as [h|]. { exists h. auto. }
    destruct (combineR_ok (map gsparams (a :: t)) (map_nonempty _ _ _ _ N)) as (g & Eg & _). exists g. rewrite Eg. auto.
Qed.
Lemma wants_perm : forall rs l l', Permutation l l' -> wants_real_space rs l -> wants_real_space rs l'.
Proof.
  intros rs l l' P [H|(H1 & H2 & H3)]; [left; auto|right]. split; auto. rewrite <- (Permutation_length P). split; auto. eapply Permutation_Forall; eauto.
Qed.
Lemma decide_perm : forall rs l l', Permutation l l' -> decide_real_space rs l = decide_real_space rs l'.
Proof.
  intros rs l l' P. unfold decide_real_space. rewrite (Permutation_length P), (forallb_perm _ has_hard_edges _ _ P), (forallb_perm _ is_analytic_x _ _ P). reflexivity.
Qed.
Lemma mkConv_perm : forall rs l l' gs pg, Permutation l l' ->
  match mkConv rs l gs pg, mkConv rs l' gs pg with
  | Ok p, Ok p' => alike p p'
  | Err e, Err e' => e = e'
  | _, _ => False
  end.
Proof.
  intros rs l l' gs pg P. pose proof (decide_perm rs l l' P) as D. pose proof (combine_gs_perm l l' P) as G. unfold mkConv.
  destruct l as [|a t]. { apply Permutation_nil in P. subst. reflexivity. }
  destruct l' as [|a' t']. { apply Permutation_sym, Permutation_nil in P. discriminate. }
  rewrite <- D. destruct (decide_real_space rs (a :: t)) as [[]|]; cbn [bind]; auto. rewrite <- G.
  destruct (match gs with Some g => Ok g | None => gspR_combine (map gsparams (a :: t)) end) as [g|]; cbn [bind]; auto.
  destruct pg; apply conv_alike; [apply Permutation_map|]; auto.
Qed.

(** * Nesting *)
Lemma prodR_app : forall a b, prodR (a ++ b) = prodR a * prodR b.
Proof. induction a as [|x a IH]; intros b; unfold prodR in *; cbn [app fold_right]; [ring|]. rewrite IH. ring. Qed.
Lemma sumR_app : forall a b, sumR (a ++ b) = sumR a + sumR b.
Proof. induction a as [|x a IH]; intros b; unfold sumR in *; cbn [app fold_right]; [ring|]. rewrite IH. ring. Qed.
Lemma prodC_app : forall a b, prodC (a ++ b) = Cmult (prodC a) (prodC b).
Proof. induction a as [|x a IH]; intros b; unfold prodC in *; cbn [app fold_right]; [ring|]. rewrite IH. ring. Qed.
Lemma minR_ne : forall l, l <> [] -> In (minR l) l /\ forall y, In y l -> minR l <= y.
Proof. intros [|a t] N; [congruence|]. apply minR_spec. Qed.
Lemma minR_nest : forall l1 m l2, m <> [] -> minR (l1 ++ minR m :: l2) = minR (l1 ++ m ++ l2).
Proof.
  intros l1 m l2 N. destruct (minR_ne m N) as [I M].
  destruct (minR_ne (l1 ++ minR m :: l2)) as [I1 M1]; [destruct l1; discriminate|].
  destruct (minR_ne (l1 ++ m ++ l2)) as [I2 M2]; [destruct l1, m; try discriminate; congruence|].
  set (u := minR (l1 ++ minR m :: l2)) in *. set (v := minR (l1 ++ m ++ l2)) in *. clearbody u v. apply Rle_antisym.
  - rewrite !in_app_iff in I2. destruct I2 as [I2|[I2|I2]].
    + apply M1. apply in_app_iff. auto.
    + apply Rle_trans with (minR m); [|apply M; auto]. apply M1. apply in_app_iff. right; left; auto.
    + apply M1. apply in_app_iff. right; right; auto.
  - rewrite in_app_iff in I1. destruct I1 as [I1|[I1|I1]].
    + apply M2. rewrite !in_app_iff. auto.
    + rewrite <- I1. apply M2. rewrite !in_app_iff. auto.
    + apply M2. rewrite !in_app_iff. auto.
Qed.
Lemma calc_pn_app : forall l1 m l2, m <> [] -> calc_pn (l1 ++ calc_pn m :: l2) = calc_pn (l1 ++ m ++ l2).
Proof.
  intros l1 m l2 N. rewrite (calc_pn_char (l1 ++ calc_pn m :: l2)), (calc_pn_char (l1 ++ m ++ l2)).
  - cbv zeta. rewrite !map_app, !prodR_app. cbn [map]. change (prodR (?x :: ?t)) with (x * prodR t).
    rewrite (calc_pn_sum m N), (calc_pn_diff m N). f_equal; field.
  - destruct l1, m; try discriminate; congruence.
  - destruct l1; discriminate.
Qed.
Lemma sum_sq_pos : forall m : list prof, m <> [] -> Forall (fun o => stepk o <> 0) m -> 0 < sumR (map (fun o => / (stepk o ^ 2)) m).
Proof.
  intros m N H. assert (NN : forall t, Forall (fun o => stepk o <> 0) t -> 0 <= sumR (map (fun o => / (stepk o ^ 2)) t)).
  { intros t T. apply sumR_nonneg. apply Forall_forall. intros x Hx. apply in_map_iff in Hx. destruct Hx as (o & <- & Ho). rewrite Forall_forall in T. specialize (T o Ho).
    apply Rlt_le, Rinv_0_lt_compat. nra. }
  destruct H as [|o t Ho T]; [congruence|]. cbn [map]. change (sumR (?x :: ?t)) with (x + sumR t). specialize (NN t T).
  assert (0 < / (stepk o ^ 2)) by (apply Rinv_0_lt_compat; nra). lra.
Qed.
(** Same Fourier amplitudes and size parameters. *)
Lemma conv_nest : forall l1 m l2 g g' pg pg', m <> [] ->
  let p := PConv (l1 ++ PConv m g' pg' :: l2) g pg in let q := PConv (l1 ++ m ++ l2) g pg in
  (forall k, kValue p k = kValue q k) /\ flux p = flux q /\ centroid p = centroid q /\ pnflux p = pnflux q /\ maxk p = maxk q /\
  is_axisymmetric p = is_axisymmetric q /\ is_analytic_k p = is_analytic_k q /\
  (Forall (fun o => stepk o <> 0) m -> stepk p = stepk q) /\
  (Forall (fun o => flux o <> 0) m -> sumR (map (fun o => flux o / max_sb o) m) <> 0 -> max_sb p = max_sb q).
Proof.
  intros l1 m l2 g g' pg pg' N p q. unfold p, q. cbn [kValue flux centroid pnflux maxk is_axisymmetric is_analytic_k stepk max_sb].
  split; [|split; [|split; [|split; [|split; [|split; [|split; [|split]]]]]]]; intros; rewrite ?map_app, ?forallb_app; cbn [map forallb].
  - cbn [kValue]. rewrite !prodC_app. change (prodC (?x :: ?t)) with (Cmult x (prodC t)). ring.
  - cbn [flux]. rewrite !prodR_app. change (prodR (?x :: ?t)) with (x * prodR t). ring.
  - change (vsum (map centroid l1 ++ centroid (PConv m g' pg') :: map centroid l2) = vsum (map centroid l1 ++ map centroid m ++ map centroid l2)).
    replace (centroid (PConv m g' pg')) with (vsum (map centroid m)) by reflexivity.
    rewrite !vsum_coord, !map_app. cbn [map]. rewrite !sumR_app. change (sumR (?x :: ?t)) with (x + sumR t). cbn [fst snd]. f_equal; ring.
  - replace (pnflux (PConv m g' pg')) with (calc_pn (map pnflux m)) by reflexivity. apply calc_pn_app, map_nonempty, N.
  - replace (maxk (PConv m g' pg')) with (minR (map maxk m)) by reflexivity. apply minR_nest, map_nonempty, N.
  - cbn [is_axisymmetric]. reflexivity.
  - cbn [is_analytic_k]. reflexivity.
  - replace (stepk (PConv m g' pg')) with (1 / sqrt (sumR (map (fun o => / (stepk o ^ 2)) m))) by reflexivity.
    pose proof (sum_sq_pos m N H) as P. set (s := sumR (map (fun o => / (stepk o ^ 2)) m)) in *.
    rewrite !sumR_app. change (sumR (?x :: ?t)) with (x + sumR t). fold s. replace (/ (1 / sqrt s) ^ 2) with s; [reflexivity|].
    assert (0 < sqrt s) by (apply sqrt_lt_R0; auto). replace ((1 / sqrt s) ^ 2) with (/ (sqrt s * sqrt s)) by (field; lra). rewrite sqrt_sqrt by lra. rewrite Rinv_inv by lra. reflexivity.
  - replace (max_sb (PConv m g' pg')) with (prodR (map flux m) / sumR (map (fun o => flux o / max_sb o) m)) by reflexivity.
    replace (flux (PConv m g' pg')) with (prodR (map flux m)) by reflexivity.
    assert (F : prodR (map flux m) <> 0). { clear - H. induction H as [|o t Ho T IH]; cbn [map]; [unfold prodR; cbn; lra|]. change (prodR (?x :: ?t)) with (x * prodR t). apply Rmult_integral_contrapositive_currified; auto. }
    rewrite !prodR_app, !sumR_app. change (prodR (?x :: ?t)) with (x * prodR t). change (sumR (?x :: ?t)) with (x + sumR t).
    set (s := sumR (map (fun o => flux o / max_sb o) m)) in *. set (f := prodR (map flux m)) in *.
    replace (f / (f / s)) with s by (field; auto). f_equal; ring.
Qed.
Lemma withGSP_conv : forall g c m, Forall (fun o => exists h, uniform h o) m ->
  withGSP g (PConv (map (withGSP c) m) c true) = PConv (map (withGSP g) m) g true.
Proof.
  intros g c m U. rewrite withGSP_unfold. cbn [gsparams]. destruct (gspR_eqb_spec g c) as [->|NE]; [reflexivity|]. rewrite map_map. f_equal. apply map_ext_in.
  intros o Ho. rewrite Forall_forall in U. destruct (U o Ho) as [h Uh]. eapply withGSP_twice; eauto.
Qed.
Lemma mkConv_nest : forall l1 m l2 c, Forall (fun o => exists h, uniform h o) m -> mkConv (RSBool false) m None true = Ok c ->
  exists g, mkConv (RSBool false) (l1 ++ c :: l2) None true = Ok (PConv (map (withGSP g) l1 ++ PConv (map (withGSP g) m) g true :: map (withGSP g) l2) g true) /\
            mkConv (RSBool false) (l1 ++ m ++ l2) None true = Ok (PConv (map (withGSP g) l1 ++ map (withGSP g) m ++ map (withGSP g) l2) g true).
Proof.
  intros l1 m l2 c U E. assert (N : m <> []) by (intros ->; discriminate).
  destruct (mkConv_spec (RSBool false) m None true N ltac:(discriminate)) as [[_ X]|(_ & h & Eh & X)]; [congruence|]. rewrite X in E. injection E as <-.
  assert (N1 : l1 ++ PConv (map (withGSP h) m) h true :: l2 <> []) by (destruct l1; discriminate).
  assert (N2 : l1 ++ m ++ l2 <> []) by (destruct l1, m; try discriminate; congruence).
  assert (NR : forall l, ~ (wants_real_space (RSBool false) l /\ (length l <= 2)%nat /\ Forall (fun o => is_analytic_x o = true) l)).
  { intros l ([W|(W & _)] & _); discriminate. }
  destruct (mkConv_spec (RSBool false) _ None true N1 ltac:(discriminate)) as [[Y _]|(_ & g1 & E1 & X1)]; [exfalso; eapply NR; eauto|].
  destruct (mkConv_spec (RSBool false) _ None true N2 ltac:(discriminate)) as [[Y _]|(_ & g2 & E2 & X2)]; [exfalso; eapply NR; eauto|].
  assert (g1 = g2).
  { cbv beta iota in Eh, E1, E2. rewrite !map_app in E1. rewrite !map_app in E2. cbn [map gsparams] in E1. rewrite <- (combineR_stage (map gsparams l1) (map gsparams m) (map gsparams l2) h [h]) in E2.
    - cbn [app] in E2. congruence.
    - apply map_nonempty; auto. - auto. - discriminate. - intros g [<-|[]]. reflexivity. }
  subst g2. exists g1. rewrite X1, X2. split; f_equal; f_equal; rewrite !map_app; [|reflexivity]. cbn [map]. rewrite withGSP_conv; auto.
Qed.

(** * Deconvolution *)
Lemma dec_conv : forall p q g pg g' pg' k, 0 < flux p -> 0 < g_kacc g -> flux p * g_kacc g <= Cmod (kValue p k) ->
  kValue (PConv [PDec p g pg; q; p] g' pg') k = kValue q k.
Proof.
  intros p q g pg g' pg' k F A B. cbn [kValue map]. cbv zeta. destruct (Rltb_spec (Cmod (kValue p k)) (flux p * g_kacc g)) as [l|l]; [lra|].
  unfold prodC. cbn [fold_right]. assert (NZ : kValue p k <> RtoC 0). { intros Z. rewrite Z, Cmod_R, Rabs_R0 in B. assert (0 < flux p * g_kacc g) by nra. lra. }
  field. exact NZ.
Qed.
Lemma dec_conv_low : forall p q g pg g' pg' k, 0 < flux p -> 0 < g_kacc g ->
  Cmod (kValue (PConv [PDec p g pg; q; p] g' pg') k) <= Cmod (kValue q k).
Proof.
  intros p q g pg g' pg' k F A. destruct (Rle_lt_dec (flux p * g_kacc g) (Cmod (kValue p k))) as [h|h].
  - rewrite dec_conv; auto. lra.
  - cbn [kValue map]. cbv zeta. destruct (Rltb_spec (Cmod (kValue p k)) (flux p * g_kacc g)) as [l|l]; [|lra].
    unfold prodC. cbn [fold_right]. rewrite !Cmod_mult, !Cmod_R, Rabs_R1. assert (P : 0 < flux p * g_kacc g) by nra. set (a := flux p * g_kacc g) in *.
    rewrite (Rabs_right (1 / a)). 2:{ apply Rle_ge, Rlt_le. apply Rdiv_lt_0_compat; lra. }
    pose proof (Cmod_ge_0 (kValue q k)) as C1. pose proof (Cmod_ge_0 (kValue p k)) as C2.
    assert (1 / a * Cmod (kValue p k) <= 1). { apply Rmult_le_reg_l with a; auto. replace (a * (1 / a * Cmod (kValue p k))) with (Cmod (kValue p k)) by (field; lra). lra. }
    nra.
Qed.
Lemma dec_dec : forall p g pg g' pg' k, 0 < flux p -> 0 < g_kacc g -> 0 < g_kacc g' ->
  flux p * g_kacc g <= Cmod (kValue p k) -> Cmod (kValue p k) <= flux p / g_kacc g' ->
  kValue (PDec (PDec p g pg) g' pg') k = kValue p k.
Proof.
  intros p g pg g' pg' k F A A' B B'. cbn [kValue flux]. cbv zeta.
  assert (P : 0 < flux p * g_kacc g) by nra.
  destruct (Rltb_spec (Cmod (kValue p k)) (flux p * g_kacc g)) as [l|l]; [lra|].
  assert (NZ : kValue p k <> RtoC 0). { intros Z. rewrite Z, Cmod_R, Rabs_R0 in B. lra. }
  rewrite Cmod_div, Cmod_R, Rabs_R1 by auto.
  destruct (Rltb_spec (1 / Cmod (kValue p k)) (1 / flux p * g_kacc g')) as [l2|l2].
  - exfalso. assert (M : 0 < Cmod (kValue p k)) by lra. set (c := Cmod (kValue p k)) in *.
    assert (X : 1 / c * (c * flux p) < 1 / flux p * g_kacc g' * (c * flux p)) by (apply Rmult_lt_compat_r; nra).
    replace (1 / c * (c * flux p)) with (flux p) in X by (field; lra). replace (1 / flux p * g_kacc g' * (c * flux p)) with (g_kacc g' * c) in X by (field; lra).
    assert (Y : c * g_kacc g' <= flux p / g_kacc g' * g_kacc g') by (apply Rmult_le_compat_r; lra). replace (flux p / g_kacc g' * g_kacc g') with (flux p) in Y by (field; lra). lra.
  - field. split; [exact NZ|]. intros E. injection E as E. lra.
Qed.
(** drawing *)
Lemma dec_draw : forall p g pg jac k, no_deconvolution p -> let kk := mapp (mT (jac_or_eye jac)) k in
  drawK (PDec p g pg) jac k =
    if Rltb (maxk p ^ 2) (fst kk ^ 2 + snd kk ^ 2) then RtoC 0
    else if Reqb (Cmod (kValue p kk)) (flux p * g_kacc g) then RtoC (1 / (flux p * g_kacc g)) else kValue (PDec p g pg) kk.
Proof.
  intros p g pg jac k N kk. cbn [drawK kValue]. cbv zeta. rewrite (drawK_spec p jac k N). rewrite rowdot_T. fold kk.
  destruct (Rltb (maxk p ^ 2) (fst kk ^ 2 + snd kk ^ 2)); auto.
  destruct (Reqb_spec (Cmod (kValue p kk)) (flux p * g_kacc g)) as [e|e], (Rltb_spec (flux p * g_kacc g) (Cmod (kValue p kk))) as [a|a], (Rltb_spec (Cmod (kValue p kk)) (flux p * g_kacc g)) as [b|b]; auto; lra.
Qed.

(** * gsparams *)
Lemma uniform_nosum : forall h o, uniform h o -> match o with PSum _ _ _ => False | _ => True end \/ exists l, o = PSum l h true /\ Forall (uniform h) l /\ Forall (fun o => match o with PSum _ _ _ => False | _ => True end) l.
Proof.
  intros h [] U; auto. right. destruct U as [(-> & -> & N) V]. exists l. split; auto. split; auto. apply every_list. auto.
Qed.
Lemma uniform_withGSP : forall h g o, uniform h o -> uniform g (withGSP g o).
Proof. intros h g o U. rewrite (withGSP_setg h g o U). eapply uniform_setg; eauto. Qed.
Lemma uniform_mkTransform : forall h o J off fr gs, uniform h o -> uniform (match gs with Some g => g | None => h end) (mkTransform o J off fr gs true).
Proof.
  intros h o J off fr gs U. unfold mkTransform. rewrite (uniform_gs h o U). set (g := match gs with Some g => g | None => h end).
  pose proof (uniform_withGSP h g o U) as V. destruct (withGSP g o) as [own fam fl g0|o' J' off' fr' g0 pg|l g0 pg|l g0 pg|o' g0 pg]; try (split; [split; reflexivity|exact V]).
  destruct V as [_ V]. split; [split; reflexivity|exact V].
Qed.
Lemma uniform_mkDec : forall h o gs, uniform h o -> uniform (match gs with Some g => g | None => h end) (mkDec o gs true).
Proof. intros h o gs U. unfold mkDec. rewrite (uniform_gs h o U). split; [split; reflexivity|]. apply uniform_withGSP with h. auto. Qed.
Lemma flat_nosum : forall l, Forall (fun o => exists h, uniform h o) l -> Forall (fun o => exists h, uniform h o /\ match o with PSum _ _ _ => False | _ => True end) (flat l).
Proof.
  intros l U. apply Forall_forall. intros o Ho. unfold flat in Ho. apply in_flat_map in Ho. destruct Ho as (x & Hx & Ho). rewrite Forall_forall in U. destruct (U x Hx) as [h Uh].
  exists h. destruct (uniform_nosum h x Uh) as [NS|(l0 & -> & U0 & N0)].
  - destruct x; try contradiction; destruct Ho as [<-|[]]; auto.
  - rewrite Forall_forall in U0, N0. split; [apply U0|apply N0]; auto.
Qed.
Lemma uniform_mkSum : forall l gs s, Forall (fun o => exists h, uniform h o) l -> mkSum l gs true = Ok s -> uniform (gsparams s) s.
Proof.
  intros l gs s U E. pose proof (flat_nosum l U) as F. rewrite mkSum_eq in E. destruct l as [|a t]; [discriminate|].
  destruct (match gs with Some g => Ok g | None => gspR_combine (map gsparams (flat (a :: t))) end) as [g|]; [|discriminate]. cbn [bind] in E. injection E as <-. cbn [gsparams].
  rewrite Forall_forall in F. split; [split; [reflexivity|split; [reflexivity|]]|].
  - apply Forall_forall. intros o Ho. apply in_map_iff in Ho. destruct Ho as (x & <- & Hx). destruct (F x Hx) as (h & Uh & NS). rewrite (withGSP_setg h g x Uh). destruct x; auto.
  - apply every_list, Forall_forall. intros o Ho. apply in_map_iff in Ho. destruct Ho as (x & <- & Hx). destruct (F x Hx) as (h & Uh & NS). apply uniform_withGSP with h. auto.
Qed.
Lemma uniform_mkConv : forall rs l gs s, Forall (fun o => exists h, uniform h o) l -> mkConv rs l gs true = Ok s -> uniform (gsparams s) s.
Proof.
  intros rs l gs s U E. unfold mkConv in E. destruct l as [|a t]; [discriminate|]. destruct (decide_real_space rs (a :: t)) as [[]|]; try discriminate. cbn [bind] in E.
  destruct (match gs with Some g => Ok g | None => gspR_combine (map gsparams (a :: t)) end) as [g|]; [|discriminate]. cbn [bind] in E. injection E as <-. cbn [gsparams].
  split; [split; reflexivity|]. apply every_list, Forall_forall. intros o Ho. change (In o (map (withGSP g) (a :: t))) in Ho. apply in_map_iff in Ho. destruct Ho as (x & <- & Hx). rewrite Forall_forall in U. destruct (U x Hx) as [h Uh]. apply uniform_withGSP with h. auto.
Qed.
Lemma uniform_apply : forall h p o, uniform h p -> uniform h (apply p o).
Proof.
  intros h p o U. rewrite apply_parts.
  assert (T : uniform h (let '(J, off, fr) := op_parts (flux p) o in mkTransform p J off fr None true)).
  { destruct (op_parts (flux p) o) as [[J off] fr]. exact (uniform_mkTransform h p J off fr None U). }
  destruct o; auto. destruct p as [[] fam fl g| | | |]; auto.
Qed.
Lemma setg_values : forall g p, accuracy_free p ->
  flux (setg g p) = flux p /\ centroid (setg g p) = centroid p /\ (forall x, xValue (setg g p) x = xValue p x) /\ (forall k, kValue (setg g p) k = kValue p k).
Proof.
  intros g p. induction p as [own fam fl g0|o J off fr g0 pg IH|l g0 pg IH|l g0 pg IH|o g0 pg IH] using prof_ind2; intros A; cbn [setg flux centroid xValue kValue].
  - destruct A as [A _]. apply A.
  - destruct A as [_ A]. destruct (IH A) as (F & C0 & X & K). rewrite F, C0. split; [|split; [|split]]; auto; intros; rewrite ?X, ?K; auto.
  - destruct A as [_ A]. apply every_list in A. rewrite Forall_forall in IH, A.
    assert (Z : forall o, In o l -> flux (setg g o) = flux o /\ centroid (setg g o) = centroid o /\ (forall x, xValue (setg g o) x = xValue o x) /\ (forall k, kValue (setg g o) k = kValue o k)) by (intros; apply IH; auto; apply A; auto).
    rewrite !map_map.
    rewrite (map_ext_in _ flux l) by (intros; apply Z; auto).
    rewrite (map_ext_in (fun x => fst (centroid (setg g x)) * flux (setg g x)) (fun o => fst (centroid o) * flux o) l) by (intros o Ho; destruct (Z o Ho) as (-> & -> & _); auto).
    rewrite (map_ext_in (fun x => snd (centroid (setg g x)) * flux (setg g x)) (fun o => snd (centroid o) * flux o) l) by (intros o Ho; destruct (Z o Ho) as (-> & -> & _); auto).
    split; [|split; [|split]]; auto; intros; rewrite map_map; f_equal; apply map_ext_in; intros o Ho; apply Z; auto.
  - destruct A as [_ A]. apply every_list in A. rewrite Forall_forall in IH, A.
    assert (Z : forall o, In o l -> flux (setg g o) = flux o /\ centroid (setg g o) = centroid o /\ (forall x, xValue (setg g o) x = xValue o x) /\ (forall k, kValue (setg g o) k = kValue o k)) by (intros; apply IH; auto; apply A; auto).
    rewrite !map_map.
    rewrite (map_ext_in (fun x => flux (setg g x)) flux l) by (intros; apply Z; auto).
    rewrite (map_ext_in (fun x => centroid (setg g x)) centroid l) by (intros; apply Z; auto).
    split; [|split; [|split]]; auto; intros; rewrite map_map; f_equal; apply map_ext_in; intros o Ho; apply Z; auto.
  - destruct A as [[] _].
Qed.

(** * Bandwidth *)
Lemma Cmod_expi : forall t, Cmod (expi t) = 1.
Proof. intros t. unfold expi, Cmod. cbn [fst snd]. replace (cos t ^ 2 + sin t ^ 2) with 1; [apply sqrt_1|]. pose proof (sin2_cos2 t). unfold Rsqr in *. nra. Qed.
Lemma major_minor_T : forall J, snd (major_minor (mT J)) = snd (major_minor J).
Proof.
  intros J. unfold major_minor, mT. cbn [m00 m01 m10 m11 snd]. cbv zeta. f_equal. f_equal. f_equal.
  - unfold hypot. f_equal. ring.
  - f_equal. ring.
Qed.
Lemma sumC_mod : forall A (f : A -> C) (b : A -> R) l, (forall o, In o l -> Cmod (f o) <= b o) -> Cmod (sumC (map f l)) <= sumR (map b l).
Proof.
  intros A f b l H. induction l as [|a l IH]; cbn [map].
  - unfold sumC, sumR. cbn. rewrite Cmod_R, Rabs_R0. lra.
  - change (sumC (?x :: ?t)) with (Cplus x (sumC t)). change (sumR (?x :: ?t)) with (x + sumR t). eapply Rle_trans; [apply Cmod_triangle|].
    apply Rplus_le_compat; [apply H; left; auto|apply IH; intros; apply H; right; auto].
Qed.
Lemma prodC_mod : forall A (f : A -> C) (b : A -> R) l, (forall o, In o l -> Cmod (f o) <= b o) -> Cmod (prodC (map f l)) <= prodR (map b l).
Proof.
  intros A f b l H. induction l as [|a l IH]; cbn [map].
  - unfold prodC, prodR. cbn. rewrite Cmod_R, Rabs_R1. lra.
  - change (prodC (?x :: ?t)) with (Cmult x (prodC t)). change (prodR (?x :: ?t)) with (x * prodR t). rewrite Cmod_mult.
    apply Rmult_le_compat; try apply Cmod_ge_0; [apply H; left; auto|apply IH; intros; apply H; right; auto].
Qed.
Lemma sumR_scale : forall a l, sumR (map (fun x => a * x) l) = a * sumR l.
Proof. intros a l. unfold sumR. induction l as [|x l IH]; cbn [map fold_right]; [ring|]. rewrite IH. ring. Qed.
Lemma sumR_pos : forall l, l <> [] -> Forall (fun x => 0 < x) l -> 0 < sumR l.
Proof.
  intros l N H. destruct H as [|x t Hx T]; [congruence|]. change (sumR (x :: t)) with (x + sumR t).
  assert (0 <= sumR t). { apply sumR_nonneg. eapply Forall_impl; [|exact T]. intros; cbn in *; lra. } lra.
Qed.
Lemma prodR_pos : forall l, Forall (fun x => 0 < x) l -> 0 < prodR l.
Proof. intros l H. unfold prodR. induction H; cbn [fold_right]; [lra|]. apply Rmult_lt_0_compat; auto. Qed.
Lemma prodC_one_small : forall thr (l : list prof) o k, 0 <= thr -> In o l -> (forall q, In q l -> 0 < flux q /\ Cmod (kValue q k) <= flux q) -> Cmod (kValue o k) <= thr * flux o ->
  Cmod (prodC (map (fun q => kValue q k) l)) <= thr * prodR (map flux l).
Proof.
  intros thr l o k T I H S0. induction l as [|a l IH]; [destruct I|]. cbn [map]. change (prodC (?x :: ?t)) with (Cmult x (prodC t)). change (prodR (?x :: ?t)) with (x * prodR t). rewrite Cmod_mult.
  destruct (H a (or_introl eq_refl)) as [Fa Ka]. destruct I as [->|I].
  - rewrite <- Rmult_assoc. apply Rmult_le_compat; try apply Cmod_ge_0; auto. apply prodC_mod. intros q Hq. apply H. right; auto.
  - replace (thr * (flux a * prodR (map flux l))) with (flux a * (thr * prodR (map flux l))) by ring.
    apply Rmult_le_compat; try apply Cmod_ge_0; auto. apply IH; auto. intros; apply H; right; auto.
Qed.
Lemma tree_banded : forall thr p, 0 <= thr -> band_ok thr p -> banded thr p.
Proof.
  intros thr p T. induction p as [own fam fl g0|o J off fr g0 pg IH|l g0 pg IH|l g0 pg IH|o g0 pg IH] using prof_ind2; intros B.
  - destruct B as [B _]. exact B.
  - destruct B as [[D P] B]. destruct (IH B) as (F & K & M). assert (DP : 0 < Rabs (mdet J)) by (apply Rabs_pos_lt; auto).
    assert (CK : forall k, Cmod (kValue (PTr o J off fr g0 pg) k) = Cmod (kValue o (mapp (mT J) k)) * (Rabs (mdet J) * fr)).
    { intros k. cbn [kValue]. unfold kfactor. rewrite !Cmod_mult, Cmod_R, Cmod_expi, Rmult_1_r. f_equal. apply Rabs_right. nra. }
    assert (DF : 0 < Rabs (mdet J) * fr) by nra. split; [|split].
    + cbn [flux]. apply Rmult_lt_0_compat; auto.
    + intros k. rewrite CK. cbn [flux]. rewrite Rmult_comm. apply Rmult_le_compat_l; [lra|apply K].
    + intros k Hk. rewrite CK. cbn [flux maxk] in *. replace (thr * (Rabs (mdet J) * fr * flux o)) with ((Rabs (mdet J) * fr) * (thr * flux o)) by ring. rewrite Rmult_comm. apply Rmult_le_compat_l; [lra|]. apply M.
      destruct (minor_pos J D) as [MP _]. pose proof (proj1 (mapp_norm_bounds (mT J) k)) as NB. rewrite major_minor_T in NB.
      assert (maxk o / snd (major_minor J) * snd (major_minor J) < norm k * snd (major_minor J)) by (apply Rmult_lt_compat_r; auto).
      replace (maxk o / snd (major_minor J) * snd (major_minor J)) with (maxk o) in H by (field; lra). lra.
  - destruct B as [NE B]. apply every_list in B. rewrite Forall_forall in IH, B. assert (Z : forall o, In o l -> banded thr o) by (intros o Ho; apply IH; auto; apply B; auto).
    split; [|split].
    + cbn [flux]. apply sumR_pos; [apply map_nonempty; auto|]. apply Forall_forall. intros x Hx. apply in_map_iff in Hx. destruct Hx as (o & <- & Ho). apply (Z o Ho).
    + intros k. cbn [kValue flux]. apply sumC_mod. intros o Ho. apply (Z o Ho).
    + intros k Hk. cbn [kValue flux maxk] in *. rewrite <- sumR_scale, map_map. apply sumC_mod. intros o Ho. apply (Z o Ho). apply Rle_lt_trans with (maxR (map maxk l)); auto.
      destruct l as [|a t]; [destruct Ho|]. apply (proj2 (maxR_spec (maxk a) (map maxk t))). change (maxk a :: map maxk t) with (map maxk (a :: t)). apply in_map. auto.
  - destruct B as [NE B]. apply every_list in B. rewrite Forall_forall in IH, B. assert (Z : forall o, In o l -> banded thr o) by (intros o Ho; apply IH; auto; apply B; auto).
    split; [|split].
    + cbn [flux]. apply prodR_pos. apply Forall_forall. intros x Hx. apply in_map_iff in Hx. destruct Hx as (o & <- & Ho). apply (Z o Ho).
    + intros k. cbn [kValue flux]. apply prodC_mod. intros o Ho. apply (Z o Ho).
    + intros k Hk. cbn [kValue flux maxk] in *. destruct l as [|a t]; [congruence|].
      pose proof (proj1 (minR_spec (maxk a) (map maxk t))) as I. change (maxk a :: map maxk t) with (map maxk (a :: t)) in I. apply in_map_iff in I. destruct I as (o & Eo & Ho).
      apply prodC_one_small with o; auto. { intros q Hq. destruct (Z q Hq) as (A & C0 & _). auto. } apply (Z o Ho). rewrite Eo. exact Hk.
  - destruct B as [[] _].
Qed.

Lemma inside_list : forall l x, fold_right (fun o acc => inside o x \/ acc) False l <-> exists o, In o l /\ inside o x.
Proof.
  intros l x. induction l as [|a l IH]; cbn [fold_right].
  - split; [tauto|intros (o & [] & _)].
  - rewrite IH. split.
    + intros [H|(o & Ho & H)]; [exists a|exists o]; split; auto; [left|right]; auto.
    + intros (o & [->|Ho] & H); eauto.
Qed.
Lemma stepk_disc : forall p, step_ok p -> 0 < stepk p /\ forall x, inside p x -> norm x <= PI / stepk p.
Proof.
  intros p. induction p as [own fam fl g0|o J off fr g0 pg IH|l g0 pg IH|l g0 pg IH|o g0 pg IH] using prof_ind2; intros B.
  - destruct B as [B _]. split; auto.
  - destruct B as [D B]. destruct (IH B) as [SP IN]. cbn [stepk]. destruct (minor_pos J D) as [_ MP].
    pose proof PI_RGT_0 as PP. set (M := fst (major_minor J)) in *. set (h := hypot (fst off) (snd off)). assert (HP : 0 <= h) by apply hypot_pos.
    assert (R1 : PI / (stepk o / M) = PI / stepk o * M) by (field; lra).
    assert (R2 : 0 < PI / stepk o * M) by (apply Rmult_lt_0_compat; auto; apply Rdiv_lt_0_compat; auto).
    split.
    + apply Rdiv_lt_0_compat; auto. lra.
    + intros x (y & Iy & ->). replace (PI / (PI / (PI / (stepk o / M) + h))) with (PI / stepk o * M + h) by (rewrite R1; set (w := PI / stepk o * M) in *; clearbody w; field; split; lra).
      eapply Rle_trans; [apply norm_triangle|]. apply Rplus_le_compat.
      * eapply Rle_trans; [apply (proj2 (mapp_norm_bounds J y))|]. fold M. rewrite Rmult_comm. apply Rmult_le_compat_r; [lra|]. auto.
      * apply Rle_refl.
  - destruct B as [NE B]. apply every_list in B. rewrite Forall_forall in IH, B. assert (Z : forall o, In o l -> 0 < stepk o /\ forall x, inside o x -> norm x <= PI / stepk o) by (intros o Ho; apply IH; auto; apply B; auto).
    cbn [stepk]. destruct l as [|a t]; [congruence|]. destruct (minR_spec (stepk a) (map stepk t)) as [I M]. change (stepk a :: map stepk t) with (map stepk (a :: t)) in I, M.
    assert (P : 0 < minR (map stepk (a :: t))). { apply in_map_iff in I. destruct I as (o & <- & Ho). apply (Z o Ho). }
    split; auto. intros x Hx. cbn [inside] in Hx. apply (inside_list (a :: t)) in Hx. destruct Hx as (o & Ho & Hx). destruct (Z o Ho) as [SO IO]. eapply Rle_trans; [apply IO; auto|].
    unfold Rdiv. apply Rmult_le_compat_l; [pose proof PI_RGT_0; lra|]. apply Rinv_le_contravar; auto. apply M. apply in_map. auto.
  - destruct B as [[] _].
  - destruct B as [[] _].
Qed.

(** * Routes *)
Lemma anx_sound : forall p, x_ok p -> is_analytic_x p = true -> forall x, exists v, xValue p x = Ok v.
Proof.
  intros p. induction p as [own fam fl g0|o J off fr g0 pg IH|l g0 pg IH|l g0 pg IH|o g0 pg IH] using prof_ind2; intros B A x; cbn [is_analytic_x xValue] in *.
  - destruct B as [B _]. auto.
  - destruct B as [_ B]. destruct (IH B A (mapp (minv J) (vsub x off))) as [v E]. rewrite E. cbn [bind]. eauto.
  - destruct B as [_ B]. apply every_list in B. clear g0 pg. induction l as [|a l IHl]; cbn [map sumres]; eauto.
    inversion IH as [|? ? Ha Hl]; subst. inversion B as [|? ? Ba Bl]; subst. cbn [forallb] in A. apply andb_prop in A. destruct A as [A1 A2].
    destruct (Ha Ba A1 x) as [v E]. destruct (IHl Hl Bl A2) as [w E']. rewrite E, E'. cbn [bind]. eauto.
  - destruct B as [B _]. destruct l as [|a [|b t]]; try discriminate. cbn in B. congruence.
  - discriminate.
Qed.
Lemma choose_spec : forall m img pixel g,
  choose_route m img pixel g =
  let hard := has_hard_edges img && has_hard_edges pixel in
  let ana := is_analytic_x img && is_analytic_x pixel in
  let conv := PConv [withGSP g img; withGSP g pixel] g true in
  match m with
  | MAuto => if hard && ana then Err NotImplementedErr else Ok (RtFFT conv)
  | MFFT => Ok (RtFFT conv)
  | MRealSpace => if ana then Err NotImplementedErr else Ok (RtFFT conv)
  | MNoPixel => Ok (if is_analytic_x img then RtReal img else RtFFT img)
  end.
Proof.
  intros m img pixel g. unfold choose_route, mkConv, decide_real_space. cbn [length forallb Nat.leb Nat.ltb]. rewrite !andb_true_r. cbv zeta.
  destruct m; cbn [bind]; auto; destruct (has_hard_edges img), (has_hard_edges pixel), (is_analytic_x img), (is_analytic_x pixel); reflexivity.
Qed.

(** * What the constructors compute, in terms of their arguments *)
Lemma plain_values : forall g o, plain o -> flux (withGSP g o) = flux o /\ centroid (withGSP g o) = centroid o /\
  (forall x, xValue (withGSP g o) x = xValue o x) /\ (forall k, kValue (withGSP g o) k = kValue o k).
Proof. intros g o [[h U] A]. rewrite (withGSP_setg h g o U). apply setg_values. auto. Qed.
Lemma sumC_app : forall a b, sumC (a ++ b) = Cplus (sumC a) (sumC b).
Proof. induction a as [|x a IH]; intros b; unfold sumC in *; cbn [app fold_right]; [ring|]. rewrite IH. ring. Qed.
Lemma sumres_app : forall a b, agree (sumres (a ++ b)) (bind (sumres a) (fun x => bind (sumres b) (fun y => Ok (x + y)))).
Proof.
  induction a as [|x a IH]; intros b; cbn [app sumres bind].
  - destruct (sumres b); cbn; auto. ring.
  - destruct x as [v|e]; cbn [bind]; [|cbn; auto]. specialize (IH b). destruct (sumres (a ++ b)), (sumres a), (sumres b); cbn in *; auto; try tauto. rewrite IH. ring.
Qed.
Lemma flat_values : forall l, sumR (map flux (flat l)) = sumR (map flux l) /\
  (forall k, sumC (map (fun o => kValue o k) (flat l)) = sumC (map (fun o => kValue o k) l)) /\
  (forall x, agree (sumres (map (fun o => xValue o x) (flat l))) (sumres (map (fun o => xValue o x) l))).
Proof.
  induction l as [|a l (F & K & X)]; [split; [|split]; intros; cbn; auto|].
  change (flat (a :: l)) with ((match a with PSum l' _ _ => l' | _ => [a] end) ++ flat l). cbn [map]. split; [|split].
  - rewrite map_app, sumR_app, F. change (sumR (?x :: ?t)) with (x + sumR t). f_equal. destruct a; try (unfold sumR; cbn [map fold_right]; ring). reflexivity.
  - intros k. rewrite map_app, sumC_app, K. change (sumC (?x :: ?t)) with (Cplus x (sumC t)). f_equal. destruct a; try (unfold sumC; cbn [map fold_right]; ring). reflexivity.
  - intros x. rewrite map_app. eapply agree_trans; [apply sumres_app|]. specialize (X x). cbn [sumres].
    assert (E : sumres (map (fun o => xValue o x) (match a with PSum l' _ _ => l' | _ => [a] end)) = xValue a x).
    { destruct a; try reflexivity; cbn [map sumres]; match goal with |- bind ?e _ = _ => destruct e end; cbn [bind]; auto; rewrite Rplus_0_r; auto. }
    rewrite E. destruct (xValue a x); cbn [bind]; [|cbn; auto]. destruct (sumres (map (fun o => xValue o x) (flat l))), (sumres (map (fun o => xValue o x) l)); cbn in *; try tauto. congruence.
Qed.
Lemma plain_flat : forall l, Forall plain l -> Forall plain (flat l).
Proof.
  intros l H. apply Forall_forall. intros o Ho. unfold flat in Ho. apply in_flat_map in Ho. destruct Ho as (x & Hx & Ho). rewrite Forall_forall in H. specialize (H x Hx).
  destruct x as [| |l0 g0 pg0| |]; try (destruct Ho as [<-|[]]; auto; fail). destruct H as [[h [_ U]] [_ A]]. apply every_list in U. apply every_list in A. rewrite Forall_forall in U, A. split; [exists h; apply U|apply A]; auto.
Qed.
Lemma mkSum_values : forall l gs s, Forall plain l -> mkSum l gs true = Ok s ->
  flux s = sumR (map flux l) /\ (forall k, kValue s k = sumC (map (fun o => kValue o k) l)) /\
  (forall x, agree (xValue s x) (sumres (map (fun o => xValue o x) l))).
Proof.
  intros l gs s P E. apply plain_flat in P as PF. rewrite Forall_forall in PF. destruct (flat_values l) as (F & K & X). rewrite mkSum_eq in E. destruct l as [|a t]; [discriminate|].
  destruct (match gs with Some g => Ok g | None => gspR_combine (map gsparams (flat (a :: t))) end) as [g|]; [|discriminate]. cbn [bind] in E. injection E as <-. cbn [flux kValue xValue].
  rewrite <- F. rewrite map_map. split; [|split].
  - f_equal. apply map_ext_in. intros o Ho. apply plain_values; auto.
  - intros k. rewrite <- K, map_map. f_equal. apply map_ext_in. intros o Ho. apply plain_values; auto.
  - intros x. rewrite map_map. rewrite (map_ext_in _ (fun o => xValue o x)). { apply X. } intros o Ho. apply plain_values; auto.
Qed.
Lemma mkConv_values : forall rs l gs s, Forall plain l -> mkConv rs l gs true = Ok s ->
  flux s = prodR (map flux l) /\ (forall k, kValue s k = prodC (map (fun o => kValue o k) l)).
Proof.
  intros rs l gs s P E. rewrite Forall_forall in P. unfold mkConv in E. destruct l as [|a t]; [discriminate|]. destruct (decide_real_space rs (a :: t)) as [[]|]; try discriminate. cbn [bind] in E.
  destruct (match gs with Some g => Ok g | None => gspR_combine (map gsparams (a :: t)) end) as [g|]; [|discriminate]. cbn [bind] in E. injection E as <-.
  change (withGSP g a :: map (withGSP g) t) with (map (withGSP g) (a :: t)). cbn [flux kValue]. rewrite map_map. split.
  - f_equal. apply map_ext_in. intros o Ho. apply plain_values; auto.
  - intros k. rewrite map_map. f_equal. apply map_ext_in. intros o Ho. apply plain_values; auto.
Qed.
