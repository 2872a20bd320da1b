(** C143: the arithmetic of profiles; C144: making a profile changes no other. *)
From Coq Require Import Reals Bool List Arith Lra Lia.
From Coquelicot Require Import Complex.
From Verif Require Import Base Bounds_Model Geo_Model GSP_Model Prof_Model Prof_Spec Prof_Props Ops_Model Ops_Spec Ops_Proofs.
Import ListNotations.
Open Scope R_scope.

(** * C143 *)
(** Every expression of profiles, numbers and the operators +, -, *, / and unary - is evaluated, to a profile
    with the flux, the amplitudes and the surface brightnesses the expression stands for. *)
Theorem C143_expressions : forall e, sound e ->
  exists p, eval e = Ok p /\ flux p = flux_of e /\ (forall k, kValue p k = amp_of e k) /\ (forall x, agree (xValue p x) (sb_of e x)).
Proof.
  intros e S. destruct (eval_ok e S) as (p & E & _ & _ & H1 & H2 & H3). exists p. exact (conj E (conj H1 (conj H2 H3))).
Qed.
Print Assumptions C143_expressions.

(** Hence the laws of a vector space hold for amplitudes: subtracting undoes adding, dividing undoes multiplying,
    numbers distribute over sums, and a profile minus itself vanishes. *)
Theorem C143_laws : forall a b c, sound a -> sound b -> c <> 0 ->
  (forall p q, eval (ESub (EAdd a b) b) = Ok p -> eval a = Ok q -> flux p = flux q /\ forall k, kValue p k = kValue q k) /\
  (forall p q, eval (EDiv (EMul a c) c) = Ok p -> eval a = Ok q -> flux p = flux q /\ forall k, kValue p k = kValue q k) /\
  (forall p q, eval (EMul (EAdd a b) c) = Ok p -> eval (EAdd (EMul a c) (EMul b c)) = Ok q -> flux p = flux q /\ forall k, kValue p k = kValue q k) /\
  (forall p, eval (ESub a a) = Ok p -> flux p = 0 /\ forall k, kValue p k = RtoC 0).
Proof.
  intros a b c Sa Sb Hc.
  assert (V : forall e p, sound e -> eval e = Ok p -> flux p = flux_of e /\ forall k, kValue p k = amp_of e k).
  { intros e p S E. destruct (eval_ok e S) as (p' & E' & _ & _ & H1 & H2 & _). rewrite E in E'. injection E' as <-. split; assumption. }
  assert (Hc' : RtoC c <> RtoC 0) by (intro K; apply RtoC_inj in K; contradiction).
  split; [|split; [|split]].
  - intros p q E1 E2. destruct (V _ p (conj (conj Sa Sb) Sb : sound (ESub (EAdd a b) b)) E1) as [F1 K1]. destruct (V a q Sa E2) as [F2 K2]. cbn [flux_of amp_of] in *.
    split; [rewrite F1, F2; ring|]. intro k. rewrite K1, K2. unfold Cminus. ring.
  - intros p q E1 E2. destruct (V _ p (conj Sa Hc : sound (EDiv (EMul a c) c)) E1) as [F1 K1]. destruct (V a q Sa E2) as [F2 K2]. cbn [flux_of amp_of] in *.
    split; [rewrite F1, F2; field; exact Hc|]. intro k. rewrite K1, K2. field. exact Hc'.
  - intros p q E1 E2. destruct (V _ p (conj Sa Sb : sound (EMul (EAdd a b) c)) E1) as [F1 K1].
    destruct (V _ q (conj Sa Sb : sound (EAdd (EMul a c) (EMul b c))) E2) as [F2 K2]. cbn [flux_of amp_of] in *.
    split; [rewrite F1, F2; ring|]. intro k. rewrite K1, K2. ring.
  - intros p E. destruct (V _ p (conj Sa Sa : sound (ESub a a)) E) as [F1 K1]. cbn [flux_of amp_of] in *.
    split; [rewrite F1; ring|]. intro k. rewrite K1. unfold Cminus. ring.
Qed.
Print Assumptions C143_laws.

(** Sums and differences with anything but a profile, quotients by a profile and Python's division by zero raise; *)
Theorem C143_refused : forall p q c,
  op_add p (ONum c) = Err TypeError /\ op_radd p (ONum c) = Err TypeError /\ op_sub p (ONum c) = Err TypeError /\
  op_add p OOther = Err TypeError /\ op_sub p OOther = Err TypeError /\
  op_div p (OProf q) = Err TypeError /\ op_div p (ONum 0) = Err ZeroDivErr.
Proof.
  intros p q c. repeat (split; [reflexivity|]). unfold op_div, Reqb. destruct (Req_EM_T 0 0); [reflexivity|congruence].
Qed.
Print Assumptions C143_refused.

(** but the product of two profiles, which stands for nothing, is accepted without an exception. *)
Theorem C143_products_refuted : forall p q, exists o, op_mul p (OProf q) = Ok (ROdd p (OProf o)).
Proof. intros p q. destruct p; eexists; reflexivity. Qed.
Print Assumptions C143_products_refuted.

(** A sum, a difference and a quotient; all the hypotheses of C143_laws *)
Example C143_ex : let e := ESub (EAdd (EProf (G 3)) (EDiv (EProf (G 8)) 4)) (ENeg (EMul (EProf (G 1)) 5)) in sound e /\ flux_of e = 10.
Proof.
  cbn [sound flux_of]. split.
  - repeat split; try apply plain_G; lra.
  - cbn. lra.
Qed.

(** * C144 *)
(** While numbers are passed, or arrays only to profiles that are no Transformation, no array changes, and every
    profile keeps its flux, whatever is made from it. *)
Theorem C144_nothing_changes : forall st l, harmless_run st l ->
  fst (hrun st l) = fst st /\ forall p, In p (snd st) -> hflux (fst (hrun st l)) p = hflux (fst st) p.
Proof.
  intros st l H. destruct (hrun_safe l st H) as [E K]. split; [exact E|]. intros p Hp. exact (proj2 (K p Hp)).
Qed.
Print Assumptions C144_nothing_changes.

(** The new profile has the flux asked for. *)
Theorem C144_flux : forall h p v, let r := hscale h p (Val v) in hflux (fst r) (snd r) = v * hflux h p.
Proof. exact hscale_flux. Qed.
Print Assumptions C144_flux.

(** But scaling a scaled profile by a NumPy array overwrites the array, and scaling twice by the same array changes the
    profile that was made first: with f = np.array(3.0), q = g * f has three times the flux of g, and after q * f
    it has nine times, as f has become 9. *)
Theorem C144_arrays_refuted : forall fl, fl <> 0 ->
  let st0 := (fun _ : nat => 3, [HLeaf fl]) in
  let st1 := hrun st0 [(0%nat, Ref 0)] in
  let st2 := hrun st0 [(0%nat, Ref 0); (1%nat, Ref 0)] in
  exists q, nth_error (snd st1) 1 = Some q /\ nth_error (snd st2) 1 = Some q /\
    hflux (fst st1) q = 3 * fl /\ hflux (fst st2) q = 9 * fl /\ fst st2 0%nat = 9 /\ hflux (fst st2) q <> hflux (fst st1) q.
Proof.
  intros fl Hf. exists (HTr fl (Ref 0)). cbn. repeat split; try reflexivity; try ring; try lra.
Qed.
Print Assumptions C144_arrays_refuted.

(** A run meeting the hypothesis: g * f with an array, then twice a number *)
Example C144_ex : harmless_run (fun _ : nat => 3, [HLeaf 2]) [(0%nat, Ref 0); (1%nat, Val 5); (2%nat, Val 7)] /\
  let st := hrun (fun _ : nat => 3, [HLeaf 2]) [(0%nat, Ref 0); (1%nat, Val 5); (2%nat, Val 7)] in
  map (hflux (fst st)) (snd st) = [2; 6; 30; 210].
Proof.
  split.
  - cbn. repeat split.
    + right. exists 2. reflexivity.
    + left. exists 5. reflexivity.
    + left. exists 7. reflexivity.
  - cbn. repeat (apply f_equal2; [ring|]). reflexivity.
Qed.
