(** A concrete instance of the pixel-value interface used in the examples and refutations:
    numbers in units of one half, dtypes "float" (false) and "integer" (true), so that
    rounding (half to even) and truncation differ; a wcs is just an origin. *)
From Coq Require Import ZArith Bool Lia ZifyBool.
From Verif Require Import Base Array_Model Bounds_Model Bounds_Spec MSum Wrap_Model Wrap_Spec Image_Model Image_Spec Image_Proofs.
Open Scope Z_scope.

Definition round_half_even (v : Z) : Z :=   (* v/2 rounded *)
  if Z.even v then v / 2 else if Z.even (v / 2) then v / 2 else v / 2 + 1.
Definition bop_ex (o : aop) (d d2 : bool) (a b : Z) : Z :=
  let f (x y : Z) := match o with
    | Add => x + y | Sub => x - y | Mul => x * y | Div => x / y | FloorDiv => x / y | Mod => x mod y
    | And => Z.land x y | Or => Z.lor x y | Xor => Z.lxor x y end in
  match o with
  | Add => if d && d2 then 2 * (Z.quot a 2 + Z.quot b 2) else a + b
  | Sub => if d && d2 then 2 * (Z.quot a 2 - Z.quot b 2) else a - b
  | Mul => if d && d2 then 2 * (Z.quot a 2 * Z.quot b 2) else a * b / 2
  | Div => 2 * a / b
  | _ => 2 * f (Z.quot a 2) (Z.quot b 2)
  end.
Definition Tex : vops Z bool (Z * Z) := {|
  vzero := 0; vone := 2;
  isint := fun d => d; deqb := Bool.eqb; prom := andb;
  tcast := fun d v => if d then 2 * Z.quot v 2 else v;
  rcast := fun d v => if d then 2 * round_half_even v else v;
  bop := bop_ex;
  vrecip := fun v => 4 / v; viszero := Z.eqb 0; visneg := fun v => v <? 0; vconj := Z.opp;
  wshift := fun w dx dy => (fst w + dx, snd w + dy) |}.

Lemma round_double z : round_half_even (2 * z) = z.
Proof. unfold round_half_even. rewrite Z.even_mul. cbn [Z.even orb]. rewrite Z.mul_comm. apply Z.div_mul. discriminate. Qed.
Lemma lawful_Tex : lawful Tex.
Proof.
  split; [|split].
  - intros d d2. apply eqb_prop.
  - intros o d a b H. destruct d; [|reflexivity]. cbn. unfold bop_ex.
    destruct o; cbn [andb]; try (rewrite round_double; reflexivity). specialize (H eq_refl). discriminate.
  - intros o d d2 a b H Hd. cbn in *. rewrite Hd.
    destruct H as [H|[H|H]]; subst o; unfold bop_ex; rewrite round_double; rewrite Z.mul_comm, Z.quot_mul by discriminate; reflexivity.
Qed.
Lemma monoid_Tex : add_monoid Tex false.
Proof. split; [|split]; cbn; intros; [apply Z.add_comm|apply Z.add_assoc|reflexivity]. Qed.

(** The image of dtype d on [x0..x0+w-1]x[y0..y0+h-1] with given pixel function. *)
Definition mk (d : bool) (x0 w y0 h : Z) (f : Z -> Z -> Z) : image Z bool (Z * Z) :=
  Img (Arr h w (fun i j => f (x0 + j) (y0 + i))) (BoundsI (ArgsKwDelta (py x0) (py w) (py y0) (py h))) d (Some false) None.
Lemma wf_mk d x0 w y0 h f : 1 <= w -> 1 <= h -> wfimg (mk d x0 w y0 h f).
Proof.
  intros Hw Hh. unfold wfimg, mk. cbn [ibnd iarr nrow ncol]. split; [eexists; reflexivity|].
  split; [apply BoundsI_delta_def; assumption|]. split; [reflexivity|].
  split; [assumption|]. split; [assumption|]. split; reflexivity.
Qed.
Lemma okb_box x1 x2 y1 y2 : x1 <= x2 -> y1 <= y2 -> okb (BoundsI (Args4 (py x1) (py x2) (py y1) (py y2))).
Proof.
  intros Hx Hy. assert (H : forall a b, a <= b -> (b - a + 1 <? 1) = false).
  { intros a b Hab. apply Z.ltb_ge. apply (Z.add_le_mono_r 0 (b - a) 1). apply Z.le_0_sub. exact Hab. }
  assert (H' : forall a b, a <= b -> 1 <= b - a + 1).
  { intros a b Hab. apply (Z.add_le_mono_r 0 (b - a) 1). apply Z.le_0_sub. exact Hab. }
  split; [eexists; reflexivity|]. split; [|split].
  - intros _. cbn. split; apply H'; assumption.
  - unfold BoundsI, boundsI_finish, parse, py_check. cbn. rewrite !H by assumption. reflexivity.
  - reflexivity.
Qed.

Definition Fex (x y : Z) : Z :=
  if (x =? 3) && (y =? 0) then 6 else if (x =? -3) && (y =? 0) then -6 else 0.
Lemma asymmetric_refuted :
  ~ (forall (im : image Z bool (Z * Z)) b F,
      wfimg im -> okb b -> includesI_b (ibnd im) b = true ->
      nv (bxmin (ibnd im)) = 0 -> nv (bxmin b) = 0 -> 2 <= nv (bdx b) ->
      hermitianF Z Z.opp F ->
      (forall x y, F x y <> 0 -> pix im x y = Some (F x y) \/ pix im (- x) (- y) = Some (F (- x) (- y))) ->
      (forall x y v, pix im x y = Some v -> v = F x y) ->
      exists s, snd (wrap Tex im b HX) = Ok s /\
      forall x y, includesI b x y = true ->
        getValue s x y = Ok (congruent_sum Z Z.add 0 F (-10) 21 (-10) 21 (2 * (nv (bdx b) - 1)) (nv (bdy b)) x y)).
Proof.
  intros H. pose (im := mk false 0 4 (-2) 4 Fex). pose (b := BoundsI (Args4 (py 0) (py 2) (py (-2)) (py 1))).
  destruct (H im b Fex) as (s & Es & Hs).
  - apply wf_mk; lia.
  - apply okb_box; lia.
  - reflexivity.
  - reflexivity.
  - reflexivity.
  - discriminate.
  - intros x y. unfold Fex. destruct ((- x =? 3) && (- y =? 0)) eqn:A, ((x =? 3) && (y =? 0)) eqn:B,
      ((- x =? -3) && (- y =? 0)) eqn:C, ((x =? -3) && (y =? 0)) eqn:E; lia.
  - intros x y Hne. unfold Fex in Hne. destruct ((x =? 3) && (y =? 0)) eqn:A.
    + left. assert (x = 3) by lia. assert (y = 0) by lia. subst. reflexivity.
    + destruct ((x =? -3) && (y =? 0)) eqn:B; [|lia]. right.
      assert (x = -3) by lia. assert (y = 0) by lia. subst. reflexivity.
  - intros x y v Hv. assert (Hw : wfimg im) by (apply wf_mk; lia). unfold pix in Hv. rewrite (getValue_pget im x y Hw) in Hv.
    destruct (includesI (ibnd im) x y); [|discriminate]. assert (E : v = pf (pm_of im) x y) by congruence. rewrite E. clear Hv E.
    unfold im, mk. cbn [pf pm_of iarr ibnd elt]. change (nv (bxmin (BoundsI (ArgsKwDelta (py 0) (py 4) (py (-2)) (py 4))))) with 0. change (nv (bymin (BoundsI (ArgsKwDelta (py 0) (py 4) (py (-2)) (py 4))))) with (-2). f_equal; lia.
  - specialize (Hs 1 0 eq_refl). revert Es Hs. vm_compute. intros Es. injection Es as <-. discriminate.
Qed.
