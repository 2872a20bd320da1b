(** The half-light radius of a Spergel profile: the fitted rational function has no zero and no pole on [-0.85, 4], and what it gives for nu = -1/2 and nu = 1/2. *)
From Coq Require Import ZArith QArith Qreals Reals Bool List Lra Lia.
From Coquelicot Require Import Coquelicot.
From Verif Require Import Base Bounds_Model Bounds_Proofs GSP_Model Sky_Model Util_Model Util_Spec Util_Proofs Size_Model Size_Spec Num_Consts Size_Proofs Size_Moffat Size_Band Size_Spergel Size_Neg.
Import ListNotations.
Open Scope R_scope.

Fixpoint lowq (h : Q) (l : list Q) : Q := match l with [] => 0 | c :: t => let m := lowq h t in Qred (c + (if Qle_bool 0 m then 0 else h * m)) end.
Fixpoint mulx (prev a : Q) (s : list Q) : list Q := match s with [] => [prev] | d :: s' => Qred (prev + a * d) :: mulx d a s' end.
Fixpoint shiftq (a : Q) (l : list Q) : list Q := match l with [] => [] | c :: t => mulx c a (shiftq a t) end.
Fixpoint pos_on (a h : Q) (k : nat) (l : list Q) : bool :=
  match k with O => true | S k => negb (Qle_bool (lowq h (shiftq a l)) 0) && pos_on (Qred (a + h)) h k l end.
Lemma Qred_R : forall q, Q2R (Qred q) = Q2R q.
Proof. intro q. apply Qeq_eqR, Qred_correct. Qed.
Lemma Qle_false : forall a b, Qle_bool a b = false -> Q2R b < Q2R a.
Proof. intros a b H. apply Qlt_Rlt. apply Qnot_le_lt. intro L. apply Qle_bool_iff in L. congruence. Qed.
Lemma Q0R : Q2R 0 = 0.
Proof. unfold Q2R. cbn [Qnum Qden]. lra. Qed.
Lemma lowq_ok : forall h l x, 0 <= x <= Q2R h -> Q2R (lowq h l) <= horner (map Q2R l) x.
Proof.
  intros h l x X. induction l as [|c t IH]; cbn [lowq map horner fold_right]; [rewrite Q0R; lra|]. fold (horner (map Q2R t) x). cbv zeta. rewrite Qred_R, Q2R_plus. apply Rplus_le_compat_l.
  destruct (Qle_bool 0 (lowq h t)) eqn:E.
  - apply Qle_bool_iff, Qle_Rle in E. rewrite Q0R in *. nra.
  - apply Qle_false in E. rewrite Q0R in E. rewrite Q2R_mult. nra.
Qed.
Lemma mulx_ok : forall s prev a x, horner (map Q2R (mulx prev a s)) x = Q2R prev + (Q2R a + x) * horner (map Q2R s) x.
Proof.
  induction s as [|d s IH]; intros prev a x; cbn [mulx map]; unfold horner in *; cbn [fold_right]; [ring|]. rewrite IH, Qred_R, Q2R_plus, Q2R_mult. cbn [map fold_right]. ring.
Qed.
Lemma shiftq_ok : forall a l x, horner (map Q2R (shiftq a l)) x = horner (map Q2R l) (Q2R a + x).
Proof. intros a l x. induction l as [|c t IH]; [reflexivity|]. cbn [shiftq]. rewrite mulx_ok, IH. reflexivity. Qed.
Lemma pos_on_ok : forall l h k a x, Q2R a <= x <= Q2R a + INR k * Q2R h -> 0 < Q2R h -> (0 < k)%nat -> pos_on a h k l = true -> 0 < horner (map Q2R l) x.
Proof.
  intros l h. induction k as [|k IH]; intros a x X H K P; [lia|]. cbn [pos_on] in P. apply andb_prop in P as [P1 P2]. destruct (Rle_lt_dec x (Q2R a + Q2R h)) as [L|L].
  - replace x with (Q2R a + (x - Q2R a)) by ring. rewrite <- shiftq_ok. apply (Rlt_le_trans _ (Q2R (lowq h (shiftq a l)))); [|apply (lowq_ok h); lra]. destruct (Qle_bool (lowq h (shiftq a l)) 0) eqn:E; [discriminate|]. apply Qle_false in E. rewrite Q0R in E. exact E.
  - rewrite S_INR in X. destruct k as [|k]; [change (INR 0) with 0 in X; lra|]. apply (IH (Qred (a + h)) x); [|exact H|lia|exact P2]. rewrite Qred_R, Q2R_plus. lra.
Qed.
Definition pq : list Q := [12571513771129166 # 10 ^ 16; 37059053890269102 # 10 ^ 16; 28577090425861944 # 10 ^ 16; -30570486567039273 # 10 ^ 17; 6589831675940833 # 10 ^ 16;
   3375577680133867 # 10 ^ 15; 28143565844741403 # 10 ^ 16; 9292378858457211 # 10 ^ 16; 12096941981286179 # 10 ^ 17; 4206502758293099 # 10 ^ 18].
Definition qq : list Q := [1 # 1; 21939178810491837 # 10 ^ 16; 8281034080784796 # 10 ^ 16; -5163329765186994 # 10 ^ 16; 9164871490929886 # 10 ^ 16;
   18988551389326231 # 10 ^ 16; 1042688817291684 # 10 ^ 15; 22580140592548198 # 10 ^ 17; 1681923980317362 # 10 ^ 17; 18168506955933716 # 10 ^ 20].
Lemma pq_ok : pade_p = map Q2R pq.
Proof. unfold pade_p, pq. cbn [map]. repeat (f_equal; try (unfold Q2R; cbn [Qnum Qden]; lra)). Qed.
Lemma qq_ok : pade_q = map Q2R qq.
Proof. unfold pade_q, qq. cbn [map]. repeat (f_equal; try (unfold Q2R; cbn [Qnum Qden]; lra)). Qed.
Lemma pade_pos : forall nu, - (17 / 20) <= nu <= 4 -> 0 < horner pade_p nu /\ 0 < horner pade_q nu.
Proof.
  intros nu N. rewrite pq_ok, qq_ok. assert (B : Q2R (-17 # 20) <= nu <= Q2R (-17 # 20) + INR 97 * Q2R (1 # 20)) by (rewrite INR_IZR_INZ; unfold Q2R; cbn [Qnum Qden Z.of_nat]; cbn; lra).
  assert (H : 0 < Q2R (1 # 20)) by (unfold Q2R; cbn [Qnum Qden]; lra).
  split; eapply (pos_on_ok _ _ 97 _ nu B H); try lia; vm_compute; reflexivity.
Qed.
Lemma hlr_pade_pos : forall nu, - (17 / 20) <= nu <= 4 -> 0 < hlr_pade nu.
Proof. intros nu N. destruct (pade_pos nu N) as [P Q]. unfold hlr_pade. apply Rmult_lt_0_compat; [exact P|apply Rinv_0_lt_compat, Q]. Qed.
Lemma spergel_back : forall nu x flux gs, - (17 / 20) <= nu <= 4 ->
  (exists p, spergel_new nu (Some x) None flux gs = Ok p /\ sp_r0 p = x /\ sp_nu p = nu /\ sp_flux p = flux /\ sp_gs p = gs) /\
  (exists p, spergel_new nu None (Some x) flux gs = Ok p /\ sp_half_light_radius p = x /\ sp_nu p = nu /\ sp_flux p = flux /\ sp_gs p = gs).
Proof.
  intros nu x flux gs N. pose proof (hlr_pade_pos nu N). split; eexists; (split; [reflexivity|]); (split; [|repeat split]); unfold sp_half_light_radius; cbn [sp_r0 sp_nu]; [reflexivity|field; lra].
Qed.
Definition hornerq (l : list Q) (x : Q) : Q := fold_right (fun c s => Qred (c + x * s)) 0%Q l.
Lemma hornerq_ok : forall l x, horner (map Q2R l) (Q2R x) = Q2R (hornerq l x).
Proof. intros l x. unfold horner, hornerq. induction l as [|c t IH]; cbn [map fold_right]; [symmetry; apply Q0R|]. rewrite IH, Qred_R, Q2R_plus, Q2R_mult. reflexivity. Qed.
Lemma pade_at : forall x a b, Qle_bool (a * hornerq qq x) (hornerq pq x) = true -> Qle_bool (hornerq pq x) (b * hornerq qq x) = true -> Qle_bool (hornerq qq x) 0 = false -> Q2R a <= hlr_pade (Q2R x) <= Q2R b.
Proof.
  intros x a b A B C. unfold hlr_pade. rewrite pq_ok, qq_ok, !hornerq_ok. apply Qle_bool_iff, Qle_Rle in A. apply Qle_bool_iff, Qle_Rle in B. apply Qle_false in C. rewrite Q0R in C. rewrite Q2R_mult in A, B. set (u := Q2R (hornerq pq x)) in *. set (v := Q2R (hornerq qq x)) in *.
  split; apply (Rmult_le_reg_r v); try exact C; replace (u / v * v) with u by (field; lra); lra.
Qed.
Lemma pade_mhalf : Rabs (hlr_pade (- (1 / 2)) - ln 2) <= 1 / (5 * 10 ^ 7).
Proof.
  pose proof (pade_at (-1 # 2) (693147162 # 1000000000) (693147163 # 1000000000) ltac:(vm_compute; reflexivity) ltac:(vm_compute; reflexivity) ltac:(vm_compute; reflexivity)) as P.
  replace (Q2R (-1 # 2)) with (- (1 / 2)) in P by (unfold Q2R; cbn [Qnum Qden]; lra). destruct ln2_bounds as [A B]. revert P A B. generalize (hlr_pade (- (1 / 2))) (ln 2). intros a b P A B. unfold ln2_lo, ln2_hi, Q2R in *. cbn [Qnum Qden] in *. apply Rabs_le_between. lra.
Qed.
Lemma pade_half : ex_hlr_factor <= hlr_pade (1 / 2) <= ex_hlr_factor + 1 / 10 ^ 9.
Proof.
  pose proof (pade_at (1 # 2) (16783469905 # 10000000000) (16783469909 # 10000000000) ltac:(vm_compute; reflexivity) ltac:(vm_compute; reflexivity) ltac:(vm_compute; reflexivity)) as P.
  replace (Q2R (1 # 2)) with (1 / 2) in P by (unfold Q2R; cbn [Qnum Qden]; lra). revert P. generalize (hlr_pade (1 / 2)). intros a P. unfold ex_hlr_factor, Q2R in *. cbn [Qnum Qden] in *. lra.
Qed.
Lemma exp_pade_mhalf : Rabs (exp (- hlr_pade (- (1 / 2))) - 1 / 2) <= 1 / (5 * 10 ^ 7).
Proof.
  pose proof pade_mhalf as P. set (h := hlr_pade (- (1 / 2))) in *. replace (- h) with (- ln 2 + - (h - ln 2)) by ring. rewrite exp_plus, exp_Ropp, exp_ln by lra.
  pose proof (exp_near (- (h - ln 2)) (1 / (5 * 10 ^ 7))) as N. rewrite Rabs_Ropp in N. specialize (N P ltac:(lra)). apply Rabs_le_between in N. apply Rabs_le_between. lra.
Qed.
Lemma tail_pade_half : Rabs ((1 + hlr_pade (1 / 2)) * exp (- hlr_pade (1 / 2)) - 1 / 2) <= 1 / (5 * 10 ^ 7).
Proof.
  pose proof pade_half as P. pose proof ex_hlr_near as N. assert (G0 : 1 < ex_hlr_factor) by (unfold ex_hlr_factor; lra). set (g := ex_hlr_factor) in *. set (h := hlr_pade (1 / 2)) in *. clearbody g h.
  pose proof (tail_decr g h ltac:(lra) ltac:(lra)) as U. apply Rabs_le_between in N. assert (L : (1 + g) * exp (- g) * (1 - (h - g)) <= (1 + h) * exp (- h)).
  { replace (- h) with (- g + - (h - g)) by ring. rewrite exp_plus. pose proof (exp_ineq1_le (- (h - g))) as E. pose proof (exp_pos (- g)) as EP. set (e := exp (- g)) in *. set (w := exp (- (h - g))) in *.
    apply (Rle_trans _ ((1 + g) * e * w)); [apply Rmult_le_compat_l; [apply Rmult_le_pos; lra|lra]|]. replace ((1 + h) * (e * w)) with ((1 + h) * e * w) by ring. apply Rmult_le_compat_r; [unfold w; apply Rlt_le, exp_pos|]. apply Rmult_le_compat_r; lra. }
  set (y := (1 + g) * exp (- g)) in *. apply Rabs_le_between. nra.
Qed.
(** * Half-integer orders *)
Lemma sqrt_q0 : forall z, 0 < z -> sqrt (PI / (2 * z)) = q0 * Rpower z (- (1 / 2)).
Proof.
  intros z Z. pose proof PI_RGT_0 as P. rewrite sqrt_div by lra. rewrite sqrt_mult by lra. unfold q0. rewrite !Rpower_Ropp. replace (1 / 2) with (/ 2) by field. rewrite !Rpower_sqrt by lra.
  pose proof (sqrt_lt_R0 2 ltac:(lra)). pose proof (sqrt_lt_R0 z Z). field. lra.
Qed.
Lemma bessel_ext : forall nu G K L K1 L1, (forall z, 0 < z -> K z = L z) -> (forall z, 0 < z -> K1 z = L1 z) -> bessel_pair nu G L L1 -> bessel_pair nu G K K1.
Proof.
  intros nu G K L K1 L1 E E1 (A & B & C). assert (EE : forall z, 0 < z -> Rpower z (nu + 1) * K1 z = Rpower z (nu + 1) * L1 z) by (intros z Z; rewrite E1 by exact Z; reflexivity).
  split; [intros z Z; destruct (A z Z) as (A1 & A2 & A3); rewrite E by exact Z; split; [exact A1|split]|split].
  - apply (continuous_ext_loc K L); [|exact A2]. exists (mkposreal z Z). intros y Y. change (Rabs (y - z) < z) in Y. apply Rabs_def2 in Y. symmetry. apply E. lra.
  - apply (derive_near _ (fun z => Rpower z (nu + 1) * L1 z) z _ Z EE). exact A3.
  - apply (filterlim_ext_loc (fun z => Rpower z (nu + 1) * L1 z)); [|exact B]. exists (mkposreal 1 Rlt_0_1). intros y _ Y. symmetry. apply EE. exact Y.
  - apply (lim_near _ (fun z => Rpower z (nu + 1) * L1 z)); [exact EE|exact C].
Qed.
Lemma gamma_half : forall lgamma inf x, x = 1 / 2 \/ x = 3 / 2 \/ x = - (3 / 2) -> gamma_ lgamma inf x = exp (lgamma x).
Proof.
  intros lgamma inf x X. unfold gamma_. destruct (Reqb_spec x 0); [lra|]. destruct (Reqb_spec x 1); [lra|]. destruct (Reqb_spec x 2); [lra|]. destruct (Reqb_spec x 3); [lra|]. destruct (Reqb_spec x 4); [lra|]. destruct (Reqb_spec x 5); [lra|]. unfold gamma. rewrite Rmult_1_r. reflexivity.
Qed.
Section Orders.
Variables (kv : R -> R -> R) (lgamma : R -> R) (inf : R).
Hypothesis HO : half_orders kv lgamma.
Lemma ho_mhalf : bessel_pair (- (1 / 2)) (sqrt PI) (kv (- (1 / 2))) (kv (- (1 / 2) + 1)).
Proof.
  destruct HO as [H _]. apply (bessel_ext _ _ _ (kv0 (- (1 / 2))) _ (kv0 (- (1 / 2) + 1))); [| |apply bessel_mhalf]; intros z Z; rewrite kv0_low by lra; rewrite <- sqrt_q0 by exact Z.
  - apply H. exact Z.
  - replace (- (1 / 2) + 1) with (1 / 2) by lra. apply H. exact Z.
Qed.
Lemma ho_half : bessel_pair (1 / 2) (sqrt PI / 2) (kv (1 / 2)) (kv (1 / 2 + 1)).
Proof.
  destruct HO as [H _]. apply (bessel_ext _ _ _ (kv0 (1 / 2)) _ (kv0 (1 / 2 + 1))); [| |apply bessel_half]; intros z Z.
  - rewrite kv0_low by lra. rewrite <- sqrt_q0 by exact Z. apply H. exact Z.
  - replace (1 / 2 + 1) with (3 / 2) by lra. unfold kv0. destruct (Reqb_spec (3 / 2) (3 / 2)); [|lra]. rewrite <- sqrt_q0 by exact Z. apply H. exact Z.
Qed.
Lemma ho_gamma : gammap1 lgamma inf (- (1 / 2)) = sqrt PI /\ gammap1 lgamma inf (1 / 2) = sqrt PI / 2 /\ gamma_ lgamma inf (-2 - - (1 / 2)) = 4 / 3 * sqrt PI.
Proof.
  destruct HO as (_ & A & B & C & _). unfold gammap1. replace (- (1 / 2) + 1) with (1 / 2) by lra. replace (1 / 2 + 1) with (3 / 2) by lra. replace (-2 - - (1 / 2)) with (- (3 / 2)) by lra. rewrite !gamma_half by tauto. repeat split; assumption.
Qed.
Lemma ho_K1 : forall z, 0 < z -> Rpower z (- (1 / 2) + 1) * kv (- (1 / 2) + 1) z = q0 * exp (- z).
Proof.
  intros z Z. destruct HO as [H _]. replace (- (1 / 2) + 1) with (1 / 2) by lra. destruct (H z Z) as (_ & -> & _). rewrite sqrt_q0 by exact Z. pose proof (half_powers z Z) as E. set (u := Rpower z (1 / 2)) in *. set (v := Rpower z (- (1 / 2))) in *.
  replace (u * (q0 * v * exp (- z))) with (u * v * (q0 * exp (- z))) by ring. rewrite E. ring.
Qed.
Lemma ho_K0 : forall z, 0 < z -> Rpower z (- (1 / 2)) * kv (- (1 / 2)) z = q0 * exp (- z) / z.
Proof.
  intros z Z. destruct HO as [H _]. destruct (H z Z) as (-> & _). rewrite sqrt_q0 by exact Z. assert (E : Rpower z (- (1 / 2)) * Rpower z (- (1 / 2)) = / z) by (rewrite <- Rpower_plus; replace (- (1 / 2) + - (1 / 2)) with (- (1)) by lra; rewrite Rpower_Ropp, Rpower_1 by lra; reflexivity).
  set (v := Rpower z (- (1 / 2))) in *. replace (v * (q0 * v * exp (- z))) with (v * v * (q0 * exp (- z))) by ring. rewrite E. field. lra.
Qed.
Lemma ho_K2 : forall z, 0 < z -> Rpower z (1 / 2 + 1) * kv (1 / 2 + 1) z = q0 * ((1 + z) * exp (- z)).
Proof.
  intros z Z. destruct HO as [H _]. rewrite Rpower_1half by exact Z. replace (1 / 2 + 1) with (3 / 2) by lra. destruct (H z Z) as (_ & _ & ->). rewrite sqrt_q0 by exact Z. pose proof (half_powers z Z) as E. set (u := Rpower z (1 / 2)) in *. set (v := Rpower z (- (1 / 2))) in *.
  replace (z * u * (q0 * v * exp (- z) * (1 + 1 / z))) with (u * v * (q0 * ((1 + z) * exp (- z)))) by (field; lra). rewrite E. ring.
Qed.
Lemma ho_frac_mhalf : forall z, 1 / 10 ^ 10 < z -> fluxfraction kv lgamma inf z (- (1 / 2)) 0 = 1 - exp (- z).
Proof.
  intros z Z. destruct ho_gamma as (G & _ & _). rewrite (frac_at kv lgamma inf (- (1 / 2)) (sqrt PI) G) by exact Z. rewrite ho_K1 by lra. change (Rpower 2 (- (1 / 2)) * sqrt PI) with q0. pose proof q0_pos. field. lra.
Qed.
Lemma q0_half : Rpower 2 (1 / 2) * (sqrt PI / 2) = q0.
Proof. unfold q0. replace (1 / 2) with (- (1 / 2) + 1) at 1 by lra. rewrite Rpower_plus, Rpower_1 by lra. field. Qed.
Lemma ho_frac_half : forall z, 1 / 10 ^ 10 < z -> fluxfraction kv lgamma inf z (1 / 2) 0 = 1 - (1 + z) * exp (- z).
Proof.
  intros z Z. destruct ho_gamma as (_ & G & _). rewrite (frac_at kv lgamma inf (1 / 2) (sqrt PI / 2) G) by exact Z. rewrite ho_K2 by lra. rewrite q0_half. pose proof q0_pos. field. lra.
Qed.
(** the flux beyond the half-light radius *)
Lemma spergel_half : forall p f, sp_nu p = - (1 / 2) \/ sp_nu p = 1 / 2 -> 0 < sp_r0 p -> flux_beyond (sp_xValue kv lgamma inf p) (sp_half_light_radius p) f -> Rabs (f - sp_flux p * (1 / 2)) <= 1 / (5 * 10 ^ 7) * Rabs (sp_flux p).
Proof.
  intros p f N S F. destruct ho_gamma as (G1 & G2 & _). unfold sp_half_light_radius in *.
  assert (LOW : 1 / 10 < hlr_pade (sp_nu p)).
  { destruct N as [-> | ->]; [pose proof pade_mhalf as P; apply Rabs_le_between in P; destruct ln2_bounds as [A _]; unfold ln2_lo, Q2R in A; cbn [Qnum Qden] in A; lra|pose proof pade_half; unfold ex_hlr_factor in *; lra]. }
  set (h := hlr_pade (sp_nu p)) in *. assert (E : f = sp_flux p * (1 - fluxfraction kv lgamma inf h (sp_nu p) 0)).
  { assert (B : flux_beyond (sp_xValue kv lgamma inf p) (sp_r0 p * h) (sp_flux p * (1 - fluxfraction kv lgamma inf (sp_r0 p * h / sp_r0 p) (sp_nu p) 0))).
    { destruct N as [N|N]; rewrite N; [apply (sp_beyond kv lgamma inf _ (sqrt PI) ho_mhalf G1)|apply (sp_beyond kv lgamma inf _ (sqrt PI / 2) ho_half G2)]; try assumption; nra. }
    replace (sp_r0 p * h / sp_r0 p) with h in B by (field; lra). unfold flux_beyond in *. apply is_lim_unique in F. apply is_lim_unique in B. rewrite F in B. now injection B. }
  rewrite E. replace (sp_flux p * (1 - fluxfraction kv lgamma inf h (sp_nu p) 0) - sp_flux p * (1 / 2)) with ((1 - fluxfraction kv lgamma inf h (sp_nu p) 0 - 1 / 2) * sp_flux p) by ring. rewrite Rabs_mult. apply Rmult_le_compat_r; [apply Rabs_pos|].
  destruct N as [N|N]; unfold h in *; rewrite N in *.
  - rewrite ho_frac_mhalf by lra. replace (1 - (1 - exp (- hlr_pade (- (1 / 2)))) - 1 / 2) with (exp (- hlr_pade (- (1 / 2))) - 1 / 2) by ring. apply exp_pade_mhalf.
  - rewrite ho_frac_half by lra. replace (1 - (1 - (1 + hlr_pade (1 / 2)) * exp (- hlr_pade (1 / 2))) - 1 / 2) with ((1 + hlr_pade (1 / 2)) * exp (- hlr_pade (1 / 2)) - 1 / 2) by ring. apply tail_pade_half.
Qed.
End Orders.
(** half_orders has an instance *)
Lemma half_orders_ex : half_orders kv0 lg0.
Proof.
  split; [|split; [|split; [|split]]].
  - intros z Z. rewrite sqrt_q0 by exact Z. rewrite !kv0_low by lra. repeat split. unfold kv0. destruct (Reqb_spec (3 / 2) (3 / 2)); [reflexivity|lra].
  - unfold lg0. destruct (Reqb_spec (1 / 2) (1 / 2)); [|lra]. apply exp_ln, sqrt_pi_pos.
  - unfold lg0. destruct (Reqb_spec (3 / 2) (1 / 2)); [lra|]. destruct (Reqb_spec (3 / 2) (3 / 2)); [|lra]. apply exp_ln. pose proof sqrt_pi_pos. lra.
  - unfold lg0. destruct (Reqb_spec (- (3 / 2)) (1 / 2)); [lra|]. destruct (Reqb_spec (- (3 / 2)) (3 / 2)); [lra|]. destruct (Reqb_spec (- (3 / 2)) (- (5 / 2))); [lra|]. apply exp_ln. pose proof sqrt_pi_pos. lra.
  - unfold lg0. destruct (Reqb_spec (- (5 / 2)) (1 / 2)); [lra|]. destruct (Reqb_spec (- (5 / 2)) (3 / 2)); [lra|]. destruct (Reqb_spec (- (5 / 2)) (- (5 / 2))); [|lra]. apply exp_ln. pose proof sqrt_pi_pos. lra.
Qed.
