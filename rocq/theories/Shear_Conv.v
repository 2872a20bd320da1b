(** The constructors and attributes of Shear against each other. *)
From Coq Require Import Reals Bool String List Lra Lia Psatz.
From Coquelicot Require Import Complex.
From Verif Require Import Base Bounds_Model Bounds_Proofs Geo_Model Geo_Proofs Calc_Proofs Shear_Model Shear_Spec Shear_Proofs.
Import ListNotations.
Open Scope R_scope.

Lemma two_components : forall n1 n2 a b kw f, String.eqb n1 n2 = false -> components n1 n2 a b kw ->
  two n1 n2 kw f = f a b.
Proof.
  intros n1 n2 a b kw f N H. assert (N' : String.eqb n2 n1 = false) by (rewrite String.eqb_sym; auto).
  assert (X : forall r : res C, bind r (fun g => Ok g) = r) by (intros []; reflexivity).
  destruct H; subst; unfold two, kw_num, kw_get, kw_del, filter; repeat (rewrite ?N, ?N', ?String.eqb_refl; cbn [fst snd filter negb bind]); apply X.
Qed.
Lemma polar_magnitude : forall n x beta kw f, String.eqb n "beta" = false -> magnitude n x beta kw -> polar n kw f = f x beta.
Proof.
  intros n x beta kw f N H. assert (N' : String.eqb "beta" n = false) by (rewrite String.eqb_sym; auto).
  assert (X : forall r : res C, bind r (fun g => Ok g) = r) by (intros []; reflexivity).
  destruct H; subst; unfold polar, kw_num, kw_get, kw_del, filter; cbn [fst snd];
  repeat (rewrite ?N, ?N', ?String.eqb_refl; cbn [fst snd filter negb bind]); apply X.
Qed.

Lemma Cmod_le_1 : forall a b, Cmod (a, b) <= 1 <-> a * a + b * b <= 1.
Proof.
  intros a b. pose proof (Cmod_sqr a b). pose proof (Cmod_ge_0 (a, b)). split; intros; nra.
Qed.
Lemma mk_g : forall a b kw, components "g1" "g2" a b kw ->
  mk_shear [] kw = if Rltb 1 (Cmod (a, b)) then Err RuntimeError else Ok (a, b).
Proof. intros a b kw H. rewrite <- (two_components "g1" "g2" a b kw (fun a b => if Rltb 1 (Cmod (a, b)) then Err RuntimeError else Ok (a, b)) eq_refl H). destruct H; reflexivity. Qed.
Lemma mk_e : forall a b kw, components "e1" "e2" a b kw ->
  mk_shear [] kw = if Rltb 1 (a ^ 2 + b ^ 2) then Err RuntimeError else Ok (Cmult (a, b) (RtoC (e2g (a ^ 2 + b ^ 2)))).
Proof. intros a b kw H. rewrite <- (two_components "e1" "e2" a b kw (fun a b => if Rltb 1 (a ^ 2 + b ^ 2) then Err RuntimeError else Ok (Cmult (a, b) (RtoC (e2g (a ^ 2 + b ^ 2))))) eq_refl H). destruct H; reflexivity. Qed.
Lemma mk_eta : forall a b kw, components "eta1" "eta2" a b kw ->
  mk_shear [] kw = Ok (Cmult (a, b) (RtoC (eta2g (Cmod (a, b))))).
Proof. intros a b kw H. rewrite <- (two_components "eta1" "eta2" a b kw (fun a b => Ok (Cmult (a, b) (RtoC (eta2g (Cmod (a, b)))))) eq_refl H). destruct H; reflexivity. Qed.

Lemma mult_R : forall a b c, Cmult (a, b) (RtoC c) = (a * c, b * c).
Proof. intros. unfold Cmult, RtoC. cbn [fst snd]. f_equal; ring. Qed.
Lemma R_mult : forall r beta, Cmult (RtoC r) (expi2 beta) = (r * cos (2 * beta), r * sin (2 * beta)).
Proof. intros. unfold Cmult, RtoC, expi2. cbn [fst snd]. f_equal; ring. Qed.
Lemma Cmod_scaled : forall a b c, 0 <= c -> Cmod (a * c, b * c) = Cmod (a, b) * c.
Proof. intros. rewrite <- mult_R, Cmod_mult, Cmod_R, Rabs_right by lra. reflexivity. Qed.
Lemma Cmod_polar : forall r t, 0 <= r -> Cmod (r * cos t, r * sin t) = r.
Proof.
  intros r t H. rewrite Cmod_hypot. unfold hypot.
  replace (r * cos t * (r * cos t) + r * sin t * (r * sin t)) with (Rsqr r * (Rsqr (sin t) + Rsqr (cos t))) by (unfold Rsqr; ring).
  rewrite sin2_cos2, Rmult_1_r. apply sqrt_Rsqr. lra.
Qed.
Lemma close_scale : forall x f, Rabs (f - 1) <= / 10 ^ 16 -> close (x * f) x.
Proof.
  intros x f H. unfold close. replace (x * f - x) with ((f - 1) * x) by ring. rewrite Rabs_mult. apply Rmult_le_compat_r; [apply Rabs_pos|auto].
Qed.

Lemma g_components : forall g1 g2 kw, g1 * g1 + g2 * g2 <= 1 -> components "g1" "g2" g1 g2 kw ->
  exists s, mk_shear [] kw = Ok s /\ Re s = g1 /\ Im s = g2.
Proof.
  intros a b kw H K. rewrite (mk_g a b kw K). apply Cmod_le_1 in H. destruct (Rltb_spec 1 (Cmod (a, b))) as [l|l]; [lra|].
  exists (a, b). auto.
Qed.
Lemma e_components : forall e1 e2 kw, e1 * e1 + e2 * e2 <= 1 -> components "e1" "e2" e1 e2 kw ->
  exists s, mk_shear [] kw = Ok s /\ close (sh_e1 s) e1 /\ close (sh_e2 s) e2 /\
    (1 / 10000 < e1 * e1 + e2 * e2 -> sh_e1 s = e1 /\ sh_e2 s = e2) /\ Cmod s <= 1.
Proof.
  intros a b kw H K. rewrite (mk_e a b kw K). set (q := a ^ 2 + b ^ 2). assert (Q : q = a * a + b * b) by (unfold q; ring).
  assert (Q0 : 0 <= q) by (rewrite Q; nra). destruct (Rltb_spec 1 q) as [l|l]; [lra|].
  destruct (e2g_pos q ltac:(lra)) as [P1 P2]. rewrite mult_R. eexists; split; [reflexivity|].
  assert (E : sh_g (a * e2g q, b * e2g q) ^ 2 = q * (e2g q * e2g q)) by (unfold sh_g; rewrite Cmod_scaled by lra; rewrite Rpow_mult_distr, Cmod_sqr, <- Q; ring).
  unfold sh_e1, sh_e2. rewrite E. cbn [Re Im fst snd]. rewrite !Rmult_assoc. split; [|split; [|split]].
  - apply close_scale, e_round. lra.
  - apply close_scale, e_round. lra.
  - rewrite <- Q. intros M. rewrite e2g_exact by lra. split; ring.
  - rewrite Cmod_scaled by lra. assert (Cmod (a, b) <= 1) by (apply Cmod_le_1; lra). pose proof (Cmod_ge_0 (a, b)). nra.
Qed.
Lemma eta_components : forall eta1 eta2 kw, components "eta1" "eta2" eta1 eta2 kw ->
  exists s, mk_shear [] kw = Ok s /\ close (sh_eta1 s) eta1 /\ close (sh_eta2 s) eta2 /\ Cmod s < 1.
Proof.
  intros a b kw K. rewrite (mk_eta a b kw K), mult_R. eexists; split; [reflexivity|].
  set (m := Cmod (a, b)). assert (M : 0 <= m) by apply Cmod_ge_0. destruct (eta2g_pos m M) as [P1 P2].
  unfold sh_eta1, sh_eta2, sh_g. rewrite Cmod_scaled by lra. fold m. rewrite (Rmult_comm m).
  cbn [Re Im fst snd]. rewrite !Rmult_assoc. split; [|split; [|auto]]; apply close_scale, eta_round; auto.
Qed.

Definition pol_mag (n : string) (x : R) : R :=
  if String.eqb n "g" then x else if String.eqb n "e" then e2g (x ^ 2) * x
  else if String.eqb n "eta" then eta2g x * x else eta2g (- ln x) * (- ln x).
Lemma mk_polar : forall n x beta kw, magnitude n x beta kw ->
  (n = "g"%string /\ 0 <= x <= 1 \/ n = "e"%string /\ 0 <= x <= 1 \/ n = "eta"%string /\ 0 <= x \/ n = "q"%string /\ 0 < x <= 1) ->
  mk_shear [] kw = Ok (Cmult (RtoC (pol_mag n x)) (expi2 beta)).
Proof.
  intros n x beta kw H [[-> D]|[[-> D]|[[-> D]|[-> D]]]].
  - transitivity (polar "g" kw (fun g beta => if Rltb 1 g || Rltb g 0 then Err RuntimeError else Ok (Cmult (RtoC g) (expi2 beta)))).
    { destruct H; reflexivity. }
    rewrite (polar_magnitude "g" x beta) by auto. destruct (Rltb_spec 1 x) as [l|l]; [lra|]. destruct (Rltb_spec x 0) as [l'|l']; [lra|]. reflexivity.
  - transitivity (polar "e" kw (fun e beta => if Rltb 1 e || Rltb e 0 then Err RuntimeError else Ok (Cmult (RtoC (e2g (e ^ 2) * e)) (expi2 beta)))).
    { destruct H; reflexivity. }
    rewrite (polar_magnitude "e" x beta) by auto. destruct (Rltb_spec 1 x) as [l|l]; [lra|]. destruct (Rltb_spec x 0) as [l'|l']; [lra|]. reflexivity.
  - transitivity (polar "eta" kw (fun eta beta => if Rltb eta 0 then Err RuntimeError else Ok (Cmult (RtoC (eta2g eta * eta)) (expi2 beta)))).
    { destruct H; reflexivity. }
    rewrite (polar_magnitude "eta" x beta) by auto. destruct (Rltb_spec x 0) as [l'|l']; [lra|]. reflexivity.
  - transitivity (polar "q" kw (fun q beta => if negb (Rltb 0 q) || Rltb 1 q then Err RuntimeError else let eta := - ln q in Ok (Cmult (RtoC (eta2g eta * eta)) (expi2 beta)))).
    { destruct H; reflexivity. }
    rewrite (polar_magnitude "q" x beta) by auto. destruct (Rltb_spec 0 x) as [l|l]; [|lra]. destruct (Rltb_spec 1 x) as [l'|l']; [lra|]. reflexivity.
Qed.
Lemma polar_beta : forall r beta, 0 < r -> - PI / 2 < beta <= PI / 2 -> sh_beta (Cmult (RtoC r) (expi2 beta)) = beta.
Proof.
  intros r beta H B. rewrite R_mult. unfold sh_beta. cbn [Re Im fst snd]. rewrite atan2_unique by lra. field.
Qed.
Lemma polar_round_trip : forall n x beta kw, magnitude n x beta kw ->
  (n = "g"%string /\ 0 <= x <= 1 \/ n = "e"%string /\ 0 <= x <= 1 \/ n = "eta"%string /\ 0 <= x \/ n = "q"%string /\ 0 < x <= 1) ->
  exists s, mk_shear [] kw = Ok s /\
    (n = "g"%string -> sh_g s = x) /\ (n = "e"%string -> close (sh_e s) x) /\
    (n = "eta"%string -> close (sh_eta s) x) /\ (n = "q"%string -> Rabs (sh_q s - x) <= / 10 ^ 16) /\
    (s <> RtoC 0 -> - PI / 2 < beta <= PI / 2 -> sh_beta s = beta) /\
    (s = RtoC 0 <-> (n = "q"%string /\ x = 1 \/ n <> "q"%string /\ x = 0)).
Proof.
  intros n x beta kw H D. rewrite (mk_polar n x beta kw H D). eexists; split; [reflexivity|].
  assert (P : 0 <= pol_mag n x /\ (pol_mag n x = 0 <-> (n = "q"%string /\ x = 1 \/ n <> "q"%string /\ x = 0))).
  { destruct D as [[-> D]|[[-> D]|[[-> D]|[-> D]]]]; cbn [pol_mag String.eqb Ascii.eqb Bool.eqb].
    - split; [tauto|]. split; [right; split; [discriminate|auto]|intros [[? _]|[_ ?]]; [discriminate|auto]].
    - destruct (e2g_pos (x ^ 2) ltac:(nra)) as [P1 P2]. split; [nra|].
      split; [intros; right; split; [discriminate|nra]|intros [[? _]|[_ ->]]; [discriminate|ring]].
    - destruct (eta2g_pos x D) as [P1 P2]. split; [nra|].
      split; [intros; right; split; [discriminate|nra]|intros [[? _]|[_ ->]]; [discriminate|ring]].
    - destruct (q_round x D) as [E0 _]. cbv zeta in E0. destruct (eta2g_pos _ E0) as [P1 P2]. split; [nra|]. split.
      + intros Z. left. split; auto. assert (- ln x = 0) by nra. apply ln_inv; [lra|lra|rewrite ln_1; lra].
      + intros [[_ ->]|[? _]]; [rewrite ln_1; ring|congruence]. }
  destruct P as [P1 P2]. set (r := pol_mag n x) in *.
  assert (G : sh_g (Cmult (RtoC r) (expi2 beta)) = r) by (rewrite R_mult; apply Cmod_polar; auto).
  split; [|split; [|split; [|split; [|split]]]].
  - intros ->. exact G.
  - intros ->. unfold sh_e. rewrite G. destruct D as [[? D]|[[_ D]|[[? D]|[? D]]]]; try discriminate.
    change r with (e2g (x ^ 2) * x). replace ((e2g (x ^ 2) * x) ^ 2) with (x ^ 2 * (e2g (x ^ 2) * e2g (x ^ 2))) by ring.
    replace (e2g (x ^ 2) * x * g2e (x ^ 2 * (e2g (x ^ 2) * e2g (x ^ 2)))) with (x * (e2g (x ^ 2) * g2e (x ^ 2 * (e2g (x ^ 2) * e2g (x ^ 2))))) by ring.
    apply close_scale, e_round. nra.
  - intros ->. unfold sh_eta. rewrite G. destruct D as [[? D]|[[? D]|[[_ D]|[? D]]]]; try discriminate.
    change r with (eta2g x * x). replace (eta2g x * x * g2eta (eta2g x * x)) with (x * (eta2g x * g2eta (eta2g x * x))) by ring.
    apply close_scale, eta_round. auto.
  - intros ->. unfold sh_q. rewrite G. destruct D as [[? D]|[[? D]|[[? D]|[_ D]]]]; try discriminate.
    destruct (q_round x D) as [_ Q]. exact Q.
  - intros Z B. apply polar_beta; auto. destruct P1 as [P1|P1]; auto. exfalso. apply Z. rewrite <- P1, R_mult. unfold RtoC. f_equal; ring.
  - rewrite <- P2. split.
    + intros Z. rewrite <- G, Z. unfold sh_g. apply Cmod_0.
    + intros ->. rewrite R_mult. unfold RtoC. f_equal; ring.
Qed.

Lemma attributes_agree : forall s,
  Re s = sh_g s * cos (2 * sh_beta s) /\ Im s = sh_g s * sin (2 * sh_beta s) /\
  sh_e1 s = sh_e s * cos (2 * sh_beta s) /\ sh_e2 s = sh_e s * sin (2 * sh_beta s) /\
  sh_eta1 s = sh_eta s * cos (2 * sh_beta s) /\ sh_eta2 s = sh_eta s * sin (2 * sh_beta s) /\
  sh_g s ^ 2 = Re s ^ 2 + Im s ^ 2.
Proof.
  intros [a b]. assert (E : Re (a, b) = sh_g (a, b) * cos (2 * sh_beta (a, b)) /\ Im (a, b) = sh_g (a, b) * sin (2 * sh_beta (a, b))).
  { unfold sh_g, sh_beta. rewrite Cmod_hypot. cbn [Re Im fst snd]. replace (2 * (/ 2 * atan2 b a)) with (atan2 b a) by field.
    destruct (atan2_polar b a). auto. }
  destruct E as [E1 E2]. split; auto. split; auto.
  unfold sh_e1, sh_e2, sh_eta1, sh_eta2, sh_e, sh_eta. rewrite E1, E2.
  repeat split; try ring. rewrite <- E1, <- E2. unfold sh_g. rewrite Cmod_sqr. cbn [Re Im fst snd]. ring.
Qed.

Lemma out_of_range : forall kw a b,
  (components "g1" "g2" a b kw /\ 1 < a * a + b * b \/
   components "e1" "e2" a b kw /\ 1 < a * a + b * b \/
   magnitude "g" a b kw /\ (a < 0 \/ 1 < a) \/ magnitude "e" a b kw /\ (a < 0 \/ 1 < a) \/
   magnitude "eta" a b kw /\ a < 0 \/ magnitude "q" a b kw /\ (a <= 0 \/ 1 < a)) ->
  mk_shear [] kw = Err RuntimeError.
Proof.
  intros kw a b [[H D]|[[H D]|[[H D]|[[H D]|[[H D]|[H D]]]]]].
  - rewrite (mk_g a b kw H). destruct (Rltb_spec 1 (Cmod (a, b))) as [l|l]; auto. apply Rnot_lt_le in l. apply Cmod_le_1 in l. lra.
  - rewrite (mk_e a b kw H). destruct (Rltb_spec 1 (a ^ 2 + b ^ 2)) as [l|l]; auto. exfalso. nra.
  - transitivity (polar "g" kw (fun g beta => if Rltb 1 g || Rltb g 0 then Err RuntimeError else Ok (Cmult (RtoC g) (expi2 beta)))).
    { destruct H; reflexivity. }
    rewrite (polar_magnitude "g" a b) by auto. destruct (Rltb_spec 1 a) as [l|l]; auto. destruct (Rltb_spec a 0) as [l'|l']; auto. lra.
  - transitivity (polar "e" kw (fun e beta => if Rltb 1 e || Rltb e 0 then Err RuntimeError else Ok (Cmult (RtoC (e2g (e ^ 2) * e)) (expi2 beta)))).
    { destruct H; reflexivity. }
    rewrite (polar_magnitude "e" a b) by auto. destruct (Rltb_spec 1 a) as [l|l]; auto. destruct (Rltb_spec a 0) as [l'|l']; auto. lra.
  - transitivity (polar "eta" kw (fun eta beta => if Rltb eta 0 then Err RuntimeError else Ok (Cmult (RtoC (eta2g eta * eta)) (expi2 beta)))).
    { destruct H; reflexivity. }
    rewrite (polar_magnitude "eta" a b) by auto. destruct (Rltb_spec a 0) as [l'|l']; auto. lra.
  - transitivity (polar "q" kw (fun q beta => if negb (Rltb 0 q) || Rltb 1 q then Err RuntimeError else let eta := - ln q in Ok (Cmult (RtoC (eta2g eta * eta)) (expi2 beta)))).
    { destruct H; reflexivity. }
    rewrite (polar_magnitude "q" a b) by auto. destruct (Rltb_spec 0 a) as [l|l]; auto. destruct (Rltb_spec 1 a) as [l'|l']; auto. lra.
Qed.

Lemma two_leftover : forall n1 n2 kw f, kw_del n2 (kw_del n1 kw) <> [] -> exists e, two n1 n2 kw f = Err e.
Proof.
  intros n1 n2 kw f H. unfold two. destruct (kw_num n1 kw) as [u|]; [|eexists; reflexivity]. cbn [bind].
  destruct (kw_num n2 kw) as [w|]; [|eexists; reflexivity]. cbn [bind]. destruct (f u w); [|eexists; reflexivity]. cbn [bind].
  destruct (kw_del n2 (kw_del n1 kw)); [congruence|]. eexists; reflexivity.
Qed.
Lemma polar_no_beta : forall n kw f, (forall b, kw_get "beta" kw <> Some (KAng b)) -> exists e, polar n kw f = Err e.
Proof.
  intros n kw f H. unfold polar. destruct (kw_get "beta" kw) as [[x|b]|] eqn:E; try (eexists; reflexivity).
  exfalso. eapply H; eauto.
Qed.
Lemma malformed : forall kw,
  (List.length kw > 2)%nat \/
  (exists n v, kw = [(n, v)] /\ ~ In n ["g1"; "g2"; "e1"; "e2"; "eta1"; "eta2"]%string) \/
  (exists n m x y, kw = [(n, KNum x); (m, KNum y)] /\
     ~ (In n ["g1"; "g2"] /\ In m ["g1"; "g2"] \/ In n ["e1"; "e2"] /\ In m ["e1"; "e2"] \/
        In n ["eta1"; "eta2"] /\ In m ["eta1"; "eta2"])%string /\ n <> m) ->
  exists e, mk_shear [] kw = Err e.
Proof.
  assert (NB : forall kw f n, (forall b, kw_get "beta" kw <> Some (KAng b)) -> exists e, polar n kw f = Err e) by (intros; apply polar_no_beta; auto).
  assert (HAS : forall n k, kw_has n [k] = String.eqb n (fst k)) by (intros n [k v]; unfold kw_has; cbn; destruct (String.eqb n k); reflexivity).
  assert (HAS2 : forall n k l, kw_has n [k; l] = (String.eqb n (fst k) || String.eqb n (fst l))%bool) by (intros n [k v] [k' v']; unfold kw_has; cbn; destruct (String.eqb n k); auto; destruct (String.eqb n k'); reflexivity).
  intros kw [H|[(n & v & -> & N)|(n & m & x & y & -> & N & D)]].
  - unfold mk_shear. assert (E : Nat.ltb 2 (List.length kw) = true) by (apply Nat.ltb_lt; lia). rewrite E. eexists; reflexivity.
  - unfold mk_shear. cbn [List.length Nat.ltb Nat.leb Nat.eqb]. rewrite !HAS. cbn [fst].
    assert (A : forall a, In a ["g1"; "g2"; "e1"; "e2"; "eta1"; "eta2"]%string -> String.eqb a n = false).
    { intros a Ha. destruct (String.eqb_spec a n) as [->|]; auto. contradiction. }
    rewrite !A by (cbn; tauto). cbn [orb].
    destruct (String.eqb_spec "g" n) as [<-|]; [apply NB; discriminate|].
    destruct (String.eqb_spec "e" n) as [<-|]; [apply NB; discriminate|].
    destruct (String.eqb_spec "eta" n) as [<-|]; [apply NB; discriminate|].
    destruct (String.eqb_spec "q" n) as [<-|]; [apply NB; discriminate|].
    destruct (String.eqb "beta" n); eexists; reflexivity.
  - assert (ND : forall b, kw_get "beta" [(n, KNum x); (m, KNum y)] <> Some (KAng b)).
    { intros b. cbn. destruct (match n with EmptyString => _ | String _ _ => _ end); try discriminate;
      destruct (match m with EmptyString => _ | String _ _ => _ end); discriminate. }
    assert (LEFT : forall a b f, In n [a; b] \/ In m [a; b] -> ~ (In n [a; b] /\ In m [a; b]) ->
              exists e, two a b [(n, KNum x); (m, KNum y)] f = Err e).
    { intros a b f I NI. apply two_leftover. unfold kw_del, filter. cbn [fst].
      destruct (String.eqb_spec a n), (String.eqb_spec a m), (String.eqb_spec b n), (String.eqb_spec b m); subst; cbn [negb fst];
        rewrite ?String.eqb_refl; cbn [negb];
        repeat match goal with H : ?u <> ?w |- context [String.eqb ?u ?w] => rewrite (proj2 (String.eqb_neq u w) H) end; cbn [negb]; try discriminate;
        exfalso; cbn in I, NI; intuition congruence. }
    unfold mk_shear. cbn [List.length Nat.ltb Nat.leb Nat.eqb]. rewrite !HAS2. cbn [fst].
    assert (OR : forall a b, ((String.eqb a n || String.eqb a m) || (String.eqb b n || String.eqb b m))%bool = true -> In n [a; b] \/ In m [a; b]).
    { intros a b E. rewrite !orb_true_iff, !String.eqb_eq in E. cbn. intuition. }
    match goal with |- context [if ?c then _ else _] => destruct c eqn:E1 end; [apply LEFT; [apply OR; auto|tauto]|].
    match goal with |- context [if ?c then _ else _] => destruct c eqn:E2 end; [apply LEFT; [apply OR; auto|tauto]|].
    match goal with |- context [if ?c then _ else _] => destruct c eqn:E3 end; [apply LEFT; [apply OR; auto|tauto]|].
    repeat match goal with |- context [if ?c then _ else _] => destruct c end; try (apply NB; exact ND); eexists; reflexivity.
Qed.

Lemma disc_not_enforced :
  (exists kw s, mk_shear [] kw = Ok s /\ sqrt (1 - sh_g s ^ 2) = 0) /\
  (exists s, mk_shear [(s, true)] [] = Ok s /\ 1 < Cmod s).
Proof.
  split.
  - exists [("g1"%string, KNum 1)]. destruct (g_components 1 0 _ ltac:(lra) (only1 "g1" "g2" 1 0 eq_refl)) as (s & E & A & B).
    exists s. split; auto. replace (1 - sh_g s ^ 2) with 0; [apply sqrt_0|].
    destruct (attributes_agree s) as (_ & _ & _ & _ & _ & _ & ->). rewrite A, B. ring.
  - exists (RtoC 2). split; [reflexivity|]. rewrite Cmod_R, Rabs_right; lra.
Qed.
