(** Properties C71 (bisection), C72 (equality with arrays), C73 (polynomials), C77 (moments). *)
From Coq Require Import ZArith Reals Bool String List Lra Lia.
From Coquelicot Require Import Complex.
From Verif Require Import Base Bounds_Model Bounds_Proofs Array_Model MSum Util_Model Util_Spec Util_Eq Util_Proofs Shear_Model.
Import ListNotations.
Open Scope R_scope.

(** * C71 *)
(** For every function whose values at the ends have opposite signs: either the result is the right end of
    a sign-changing bracket of width (high-low)/2^niter, or some midpoint (of depth k) was hit exactly as a
    root, and then all that is known is that the result lies within (high-low)/2^k to the left of that root. *)
Theorem C71_bracket_partial : forall f l h n, l < h -> f l * f h < 0 ->
  let r := bisect_for_root f l h n in
  (exists a, l <= a /\ a < r /\ r <= h /\ r - a = (h - l) / 2 ^ n /\ f a * f r < 0) \/
  (exists k x, (1 <= k <= n)%nat /\ dyadic l h k x /\ l < x < h /\ f x = 0 /\ x - (h - l) / 2 ^ k <= r <= x).
Proof. intros f l h n. exact (bisect_general f n l h). Qed.
Print Assumptions C71_bracket_partial.
(** A continuous function that is not exactly zero at a midpoint has a root within (high-low)/2^niter. *)
Theorem C71_root_partial : forall f l h n, continuity f -> l < h -> f l * f h < 0 ->
  (forall k x, dyadic l h k x -> f x <> 0) ->
  exists x, l <= x <= h /\ f x = 0 /\ Rabs (bisect_for_root f l h n - x) <= (h - l) / 2 ^ n.
Proof.
  intros f l h n HC H S ND. destruct (bisect_general f n l h H S) as [[a [A1 [A2 [A3 [A4 A5]]]]] | [k [x [_ [D [_ [Z _]]]]]]].
  - destruct (IVT_cor f a (bisect_for_root f l h n) HC) as [x [X Z]]; [lra|lra|]. exists x. split; [lra|]. split; [exact Z|].
    rewrite Rabs_right by lra. lra.
  - destruct (ND k x D Z).
Qed.
Print Assumptions C71_root_partial.
(** Full statement, for every function with a sign change: the result is within (high-low)/2^niter of a
    sign change. It is false: the product with an exact zero is not negative, so that the search goes on in
    the left half, away from the root; the root of f x = x on [-1,1] is missed by at least one half
    after two or more iterations ([C71_wrong_limit]). *)
Theorem C71_exact_hit_refuted : ~ (forall f l h n, continuity f -> l < h -> f l * f h < 0 ->
  exists x, l <= x <= h /\ f x = 0 /\ Rabs (bisect_for_root f l h n - x) <= (h - l) / 2 ^ n).
Proof.
  intro F. destruct (F (fun x => x) (-1) 1 3%nat) as [x [_ [-> H]]]; [exact (derivable_continuous _ derivable_id)|lra|lra|].
  rewrite (bisect_id 2) in H. rewrite Rabs_left in H by (cbn; lra). cbn in H. lra.
Qed.
Print Assumptions C71_exact_hit_refuted.
Theorem C71_wrong_limit : forall n, bisect_for_root (fun x => x) (-1) 1 (S n) = -1 + 1 / 2 ^ n.
Proof. exact bisect_id. Qed.
Print Assumptions C71_wrong_limit.
Example C71_witness : bisect_for_root (fun x => x * x - 2) 1 2 2 = 3 / 2 /\ (1 * 1 - 2) * (2 * 2 - 2) < 0.
Proof.
  split; [|lra]. unfold bisect_for_root. cbn [fori]. rewrite step_eq. cbv beta.
  destruct (Rltb_spec (((1 + 2) / 2 * ((1 + 2) / 2) - 2) * (2 * 2 - 2)) 0) as [c|c]; [lra|]. rewrite step_eq. cbv beta.
  destruct (Rltb_spec (((1 + (1 + 2) / 2) / 2 * ((1 + (1 + 2) / 2) / 2) - 2) * ((1 + 2) / 2 * ((1 + 2) / 2) - 2)) 0) as [d|d]; lra.
Qed.

(** * C72 *)
(** On values of the same layout the comparison gives a truth value, the same in both directions, and true
    exactly when the values are the same; [foreign] (what JAX does with other operands) is never reached. *)
Theorem C72_equality_partial : forall foreign x y, alike x y ->
  exists b, is_equal foreign x y = Ok (EBool b) /\ is_equal foreign y x = Ok (EBool b) /\ (b = true <-> same x y).
Proof. exact equal_symmetric. Qed.
Print Assumptions C72_equality_partial.
Theorem C72_equivalence : (forall x, nan_free x -> same x x) /\ (forall x y, same x y -> same y x) /\
  (forall x y z, same x y -> same y z -> same x z) /\ (forall foreign x y, same x y -> is_equal foreign x y = Ok (EBool true)).
Proof. split; [exact same_refl|]. split; [exact same_sym|]. split; [exact same_trans|]. exact same_equal. Qed.
Print Assumptions C72_equivalence.
(** Equal values get equal keys for hashing. *)
Theorem C72_hash : forall foreign x y h, alike x y -> is_equal foreign x y = Ok (EBool true) -> ensure_hashable x = Some h -> ensure_hashable y = Some h.
Proof.
  intros f x y h A E. apply same_hash. destruct (equal_symmetric f x y A) as [b [E' [_ B]]]. apply B. congruence.
Qed.
Print Assumptions C72_hash.
(** and arrays of one shape that differ get different keys. *)
Theorem C72_keys_distinguish : forall sh d d', length d = fold_right Nat.mul 1%nat sh -> length d' = fold_right Nat.mul 1%nat sh ->
  ensure_hashable (PArr sh d) = ensure_hashable (PArr sh d') -> d = d'.
Proof. intros sh d d' L L' E. apply (tolist_inj sh); auto. cbn in E. congruence. Qed.
Print Assumptions C72_keys_distinguish.
(** Full statement: reflexive, symmetric, never raises. Each part fails: nan; a number compared with an
    array of one element is equal, but not the other way round; a list with a number compared with a list
    with a longer array raises ValueError. *)
Theorem C72_reflexive_refuted : ~ (forall foreign x, is_equal foreign x x = Ok (EBool true)).
Proof. intro F. specialize (F (fun _ _ => Ok true) (PNum None)). discriminate. Qed.
Print Assumptions C72_reflexive_refuted.
Theorem C72_symmetric_refuted : forall foreign,
  is_equal foreign (PList [PNum (Some 1)]) (PList [PArr [1%nat] [Some 1]]) = Ok (EBool true) /\
  is_equal foreign (PList [PArr [1%nat] [Some 1]]) (PList [PNum (Some 1)]) = Ok (EBool false).
Proof. intro. split; [|reflexivity]. cbn. now rewrite Reqb_refl. Qed.
Print Assumptions C72_symmetric_refuted.
Theorem C72_never_raises_refuted : forall foreign,
  is_equal foreign (PList [PNum (Some 1)]) (PList [PArr [2%nat] [Some 1; Some 1]]) = Err ValueError /\
  is_equal foreign (PList [PArr [2%nat] [Some 1; Some 1]]) (PList [PNum (Some 1)]) = Ok (EBool false).
Proof. intro. split; reflexivity. Qed.
Print Assumptions C72_never_raises_refuted.
Example C72_witness :
  let x := PDict [("a"%string, PArr [2%nat] [Some 1; Some 2]); ("b"%string, PTuple [PNum (Some 3)])] in
  let y := PDict [("b"%string, PTuple [PArr [] [Some 3]]); ("a"%string, PArr [2%nat] [Some 1; Some 2])] in
  nan_free x /\ alike x y /\ same x y.
Proof.
  cbv zeta. assert (N : forall s t : string, s <> t -> NoDup [s; t]).
  { intros s t H. constructor; [intros [<- | []]; auto|]. constructor; [intros []|constructor]. }
  assert (AB : "a"%string <> "b"%string) by discriminate. assert (BA : "b"%string <> "a"%string) by discriminate.
  split; [|split].
  - apply nf_dict; [exact (N _ _ AB)|]. repeat constructor; discriminate.
  - apply alike_dict; [exact (N _ _ AB) | exact (N _ _ BA)|].
    intros k v v' [E | [E | []]] [E' | [E' | []]]; inversion E; inversion E'; subst; try discriminate.
    + apply alike_arr. + apply alike_tuple. intros _. constructor; [|constructor]. apply alike_num; constructor.
  - apply same_dict; [exact (N _ _ AB) | exact (N _ _ BA) | cbn; tauto |].
    intros k v v' [E | [E | []]] [E' | [E' | []]]; inversion E; inversion E'; subst; try discriminate.
    + apply same_arr. repeat constructor; discriminate.
    + apply same_tuple. constructor; [|constructor]. apply same_num with 3; [left | right]; reflexivity.
Qed.

(** * C73 *)
Theorem C73_horner : forall sh d l, horner (sh, d) (C1 l) = Ok (sh, map (poly l) d).
Proof. intros. unfold horner. cbn [fst snd]. do 2 f_equal. apply map_ext. intro. apply polyval_poly. Qed.
Print Assumptions C73_horner.
(** A bare number is the constant polynomial; any other number of dimensions is an error. *)
Theorem C73_horner_other : forall sh d c n rows, horner (sh, d) (C0 c) = Ok (sh, map (fun _ => c) d) /\
  horner (sh, d) (C2 n rows) = Err GalSimValueError /\ horner (sh, d) CMore = Err GalSimValueError.
Proof. intros. repeat split. unfold horner, polyval. cbn [fst snd rev app fold_left]. do 2 f_equal. apply map_ext. intro. ring. Qed.
Print Assumptions C73_horner_other.
Theorem C73_horner2d : forall sh dx dy n rows tri, (tri = true -> length rows = n) ->
  horner2d (sh, dx) (sh, dy) (C2 n rows) tri = Ok (sh, map (fun p => poly2 rows tri (fst p) (snd p)) (combine dx dy)).
Proof.
  intros sh dx dy n rows tri H. unfold horner2d. cbn [fst snd]. rewrite nat_eqb_list_refl. cbn [negb].
  destruct tri; cbn [andb]; [rewrite H, Nat.eqb_refl by reflexivity; cbn [negb]|]; do 2 f_equal; apply map_ext; intros [x y];
    [apply horner2d_triangle | apply horner2d_plain].
Qed.
Print Assumptions C73_horner2d.
Theorem C73_horner2d_errors : forall x y c n rows,
  (fst x <> fst y -> horner2d x y c false = Err GalSimIncompatibleValuesError /\ horner2d x y c true = Err GalSimIncompatibleValuesError) /\
  (fst x = fst y -> length rows <> n -> horner2d x y (C2 n rows) true = Err GalSimIncompatibleValuesError) /\
  (fst x = fst y -> (forall n rows, c <> C2 n rows) -> horner2d x y c false = Err GalSimValueError /\ horner2d x y c true = Err GalSimValueError).
Proof.
  intros x y c n rows. unfold horner2d. repeat split; intros.
  - destruct (list_eqb Nat.eqb (fst x) (fst y)) eqn:E; [apply nat_eqb_list in E; contradiction | reflexivity].
  - destruct (list_eqb Nat.eqb (fst x) (fst y)) eqn:E; [apply nat_eqb_list in E; contradiction | reflexivity].
  - rewrite H, nat_eqb_list_refl. cbn. apply Nat.eqb_neq in H0. now rewrite H0.
  - rewrite H, nat_eqb_list_refl. cbn. destruct c; auto. now destruct (H0 ncol rows0).
  - rewrite H, nat_eqb_list_refl. cbn. destruct c; auto. now destruct (H0 ncol rows0).
Qed.
Print Assumptions C73_horner2d_errors.
Example C73_witness : horner ([1%nat], [2]) (C1 [1; 0; 3]) = Ok ([1%nat], [13]) /\
  poly2 [[1; 2]; [3; 4]] false 5 7 = 1 + 2 * 7 + 3 * 5 + 4 * 5 * 7 /\ poly2 [[1; 2]; [3; 4]] true 5 7 = 1 + 2 * 7 + 3 * 5.
Proof. split; [cbn; do 3 f_equal; lra|]. split; unfold poly2, sumf; cbn; lra. Qed.

(** * C77 *)
(** The moments are the sums over the pixels, with coordinates of the pixels relative to the origin given;
    the second moments are central. *)
Theorem C77_moments : forall a imx imy ox oy, let m := unweighted_moments a imx imy (Some (ox, oy)) in
  let M := total a (fun _ _ => 1) in let x := fun i j : Z => IZR j + (imx - ox) in let y := fun i j : Z => IZR i + (imy - oy) in M <> 0 ->
  mo0 m = M /\ mox m = total a x / M /\ moy m = total a y / M /\
  moxx m = total a (fun i j => x i j ^ 2) / M - mox m ^ 2 /\
  moyy m = total a (fun i j => y i j ^ 2) / M - moy m ^ 2 /\
  moxy m = total a (fun i j => x i j * y i j) / M - mox m * moy m.
Proof. exact moments_ok. Qed.
Print Assumptions C77_moments.
(** Moving the image moves the centroid and nothing else; so does moving the origin, the other way. *)
Theorem C77_shift : forall a imx imy dx dy, total a (fun _ _ => 1) <> 0 ->
  let m := unweighted_moments a imx imy None in let m' := unweighted_moments a (imx + dx) (imy + dy) None in
  mo0 m' = mo0 m /\ mox m' = mox m + dx /\ moy m' = moy m + dy /\ moxx m' = moxx m /\ moyy m' = moyy m /\ moxy m' = moxy m.
Proof. exact moments_shift. Qed.
Print Assumptions C77_shift.
Theorem C77_origin : forall a imx imy ox oy, unweighted_moments a imx imy (Some (ox, oy)) = unweighted_moments a (imx - ox) (imy - oy) None.
Proof. exact moments_origin. Qed.
Print Assumptions C77_origin.
(** Brightness scale, exchange of axes, mirror image *)
Theorem C77_scale : forall a c imx imy, c <> 0 -> total a (fun _ _ => 1) <> 0 ->
  let m := unweighted_moments a imx imy None in let m' := unweighted_moments (amap (Rmult c) a) imx imy None in
  mo0 m' = c * mo0 m /\ mox m' = mox m /\ moy m' = moy m /\ moxx m' = moxx m /\ moyy m' = moyy m /\ moxy m' = moxy m.
Proof. exact moments_scale. Qed.
Print Assumptions C77_scale.
Theorem C77_transpose : forall a imx imy, total a (fun _ _ => 1) <> 0 ->
  let m := unweighted_moments a imx imy None in let m' := unweighted_moments (atrans a) imy imx None in
  mo0 m' = mo0 m /\ mox m' = moy m /\ moy m' = mox m /\ moxx m' = moyy m /\ moyy m' = moxx m /\ moxy m' = moxy m.
Proof. exact moments_transpose. Qed.
Print Assumptions C77_transpose.
Theorem C77_mirror : forall a imx imy, total a (fun _ _ => 1) <> 0 ->
  let m := unweighted_moments a imx imy None in let m' := unweighted_moments (amirror a) imx imy None in
  mo0 m' = mo0 m /\ mox m' = 2 * imx + IZR (ncol a - 1) - mox m /\ moy m' = moy m /\
  moxx m' = moxx m /\ moyy m' = moyy m /\ moxy m' = - moxy m.
Proof. exact moments_mirror. Qed.
Print Assumptions C77_mirror.
(** Non-negative pixels have non-negative sizes and an ellipticity of at most one. *)
Theorem C77_shape : forall a imx imy, (forall i j, 0 <= elt a i j) -> 0 < total a (fun _ _ => 1) ->
  let m := unweighted_moments a imx imy None in
  0 <= moxx m /\ 0 <= moyy m /\ moxy m ^ 2 <= moxx m * moyy m /\
  (0 < moxx m + moyy m -> let '(_, e1, e2) := unweighted_shape m in e1 ^ 2 + e2 ^ 2 <= 1).
Proof. exact shape_bound. Qed.
Print Assumptions C77_shape.
(** The conversion of reduced shear to distortion agrees with the one of the Shear class. *)
Theorem C77_g2e : forall g1 g2, g1g2_to_e1e2 g1 g2 = (sh_e1 (g1, g2), sh_e2 (g1, g2)).
Proof.
  intros. rewrite g2e_ok. unfold sh_e1, sh_e2, g2e, sh_g, Cmod. cbn [Re Im fst snd].
  assert (P : 0 <= g1 ^ 2 + g2 ^ 2) by (apply Rplus_le_le_0_compat; apply pow2_ge_0).
  rewrite (pow2_sqrt _ P).
  f_equal; field; lra.
Qed.
Print Assumptions C77_g2e.
Example C77_witness : let a := Arr 2 2 (fun i j => if (i =? 0)%Z then 1 else 0) in
  total a (fun _ _ => 1) = 2 /\ mox (unweighted_moments a 1 1 None) = 3 / 2 /\ moxx (unweighted_moments a 1 1 None) = / 4 /\
  (forall i j, 0 <= elt a i j).
Proof.
  cbv zeta. unfold total, unweighted_moments, asum, zsum. cbn [nrow ncol elt mox moxx mo0]. change (Z.to_nat 2) with 2%nat.
  cbn [nsum Z.of_nat Pos.of_succ_nat Pos.succ Z.eqb]. split; [lra|]. split; [lra|]. split; [lra|].
  intros i j. destruct (i =? 0)%Z; lra.
Qed.
