(** Properties C49 (shears compose like the matrices they stand for) and C50 (parametrisations). *)
From Coq Require Import Reals Bool String List Lra Psatz.
From Coquelicot Require Import Complex.
From Verif Require Import Base Bounds_Model Bounds_Proofs Geo_Model Geo_Proofs Shear_Model Shear_Spec Shear_Proofs Shear_Conv.
Import ListNotations.
Open Scope R_scope.

(** * C49 *)
Theorem C49_addition_stays_in_disc : forall s o, Cmod s < 1 -> Cmod o < 1 ->
  Cmod (sh_add s o) < 1 /\ Cmod (sh_sub s o) < 1 /\ Cmod (sh_neg s) < 1.
Proof.
  intros s o Hs Ho. assert (N : forall z, Cmod z < 1 -> Cmod (sh_neg z) < 1) by (intros; unfold sh_neg; rewrite Cmod_opp; auto).
  split; [|split; auto]; unfold sh_sub; apply shear_add_in_disc; auto.
Qed.
Print Assumptions C49_addition_stays_in_disc.

Theorem C49_negative_is_inverse : forall s, Cmod s < 1 ->
  sh_add s (sh_neg s) = RtoC 0 /\ sh_add (sh_neg s) s = RtoC 0 /\ sh_sub s s = RtoC 0.
Proof. intros s H. destruct (shear_neg_inverse s H). unfold sh_sub. auto. Qed.
Print Assumptions C49_negative_is_inverse.

(** [s - o] is the shear that undoes [o] before applying [s]: adding it to [-s] leaves [-o]. *)
Theorem C49_subtraction : forall s o, Cmod s < 1 -> Cmod o < 1 -> sh_add (sh_neg s) (sh_sub s o) = sh_neg o.
Proof. exact sub_cancel. Qed.
Print Assumptions C49_subtraction.

Theorem C49_zero_is_neutral : forall s, Cmod s < 1 -> sh_add s (RtoC 0) = s /\ sh_add (RtoC 0) s = s.
Proof. exact shear_zero. Qed.
Print Assumptions C49_zero_is_neutral.

(** The matrix of a shear preserves areas and is symmetric; the zero shear and the negative act as
    the identity and the inverse. *)
Theorem C49_matrix : forall s, Cmod s < 1 ->
  mdet (getMatrix s) = 1 /\ mT (getMatrix s) = getMatrix s /\ getMatrix (RtoC 0) = mI /\
  mdot (getMatrix (sh_neg s)) (getMatrix s) = mI.
Proof. intros s H. split; [|split; [|split]]. - apply getMatrix_det; auto. - apply getMatrix_sym. - apply getMatrix_0. - apply getMatrix_neg; auto. Qed.
Print Assumptions C49_matrix.

(** Applying [o] and then [s] is the rotation by rotationWith followed by the sum of the shears. *)
Theorem C49_composition : forall s o x, Cmod s < 1 -> Cmod o < 1 ->
  let t := rotationWith s o in
  mapp (getMatrix s) (mapp (getMatrix o) x) =
  mapp (getMatrix (sh_add s o)) (cos t * fst x - sin t * snd x, sin t * fst x + cos t * snd x).
Proof.
  intros s o x Hs Ho t. rewrite <- mapp_mdot, shear_product, mapp_mdot by auto. f_equal. unfold rot, mapp, t.
  cbn [m00 m01 m10 m11 fst snd]. f_equal; ring.
Qed.
Print Assumptions C49_composition.

Example C49_witness : Cmod (1 / 2, 1 / 3) < 1 /\ Cmod (0, - 1 / 2) < 1 /\
  sh_add (1 / 2, 1 / 3) (0, - 1 / 2) <> sh_add (0, - 1 / 2) (1 / 2, 1 / 3).
Proof.
  split; [apply Cmod_lt_1; lra|]. split; [apply Cmod_lt_1; lra|].
  intros E. rewrite !sh_add_coord in E by (unfold ww, w1, w2; lra). injection E. unfold k1, k2, ww, w1, w2. intros. lra.
Qed.

(** * C50: reading back the parametrisation that was given *)
Theorem C50_g_round_trip : forall g1 g2 kw, g1 * g1 + g2 * g2 <= 1 -> components "g1" "g2" g1 g2 kw ->
  exists s, mk_shear [] kw = Ok s /\ Re s = g1 /\ Im s = g2.
Proof. exact g_components. Qed.
Print Assumptions C50_g_round_trip.
Theorem C50_e_round_trip : forall e1 e2 kw, e1 * e1 + e2 * e2 <= 1 -> components "e1" "e2" e1 e2 kw ->
  exists s, mk_shear [] kw = Ok s /\ close (sh_e1 s) e1 /\ close (sh_e2 s) e2 /\
    (1 / 10000 < e1 * e1 + e2 * e2 -> sh_e1 s = e1 /\ sh_e2 s = e2) /\ Cmod s <= 1.
Proof. exact e_components. Qed.
Print Assumptions C50_e_round_trip.
Theorem C50_eta_round_trip : forall eta1 eta2 kw, components "eta1" "eta2" eta1 eta2 kw ->
  exists s, mk_shear [] kw = Ok s /\ close (sh_eta1 s) eta1 /\ close (sh_eta2 s) eta2 /\ Cmod s < 1.
Proof. exact eta_components. Qed.
Print Assumptions C50_eta_round_trip.

(** Magnitude and position angle; the angle comes back when it lies in (-pi/2, pi/2] and the shear
    is not zero. *)
Theorem C50_polar_round_trip : forall n x beta kw, magnitude n x beta kw ->
  (n = "g"%string /\ 0 <= x <= 1 \/ n = "e"%string /\ 0 <= x <= 1 \/ n = "eta"%string /\ 0 <= x \/ n = "q"%string /\ 0 < x <= 1) ->
  exists s, mk_shear [] kw = Ok s /\
    (n = "g"%string -> sh_g s = x) /\ (n = "e"%string -> close (sh_e s) x) /\
    (n = "eta"%string -> close (sh_eta s) x) /\ (n = "q"%string -> Rabs (sh_q s - x) <= / 10 ^ 16) /\
    (s <> RtoC 0 -> - PI / 2 < beta <= PI / 2 -> sh_beta s = beta) /\
    (s = RtoC 0 <-> (n = "q"%string /\ x = 1 \/ n <> "q"%string /\ x = 0)).
Proof. exact polar_round_trip. Qed.
Print Assumptions C50_polar_round_trip.

(** The components and the polar attributes of any shear in the disc describe the same shear. *)
Theorem C50_attributes_agree : forall s,
  Re s = sh_g s * cos (2 * sh_beta s) /\ Im s = sh_g s * sin (2 * sh_beta s) /\
  sh_e1 s = sh_e s * cos (2 * sh_beta s) /\ sh_e2 s = sh_e s * sin (2 * sh_beta s) /\
  sh_eta1 s = sh_eta s * cos (2 * sh_beta s) /\ sh_eta2 s = sh_eta s * sin (2 * sh_beta s) /\
  sh_g s ^ 2 = Re s ^ 2 + Im s ^ 2.
Proof. exact attributes_agree. Qed.
Print Assumptions C50_attributes_agree.

(** Values outside the domain of a parametrisation are rejected. *)
Theorem C50_out_of_range_raises : forall kw a b,
  (components "g1" "g2" a b kw /\ 1 < a * a + b * b \/
   components "e1" "e2" a b kw /\ 1 < a * a + b * b \/
   magnitude "g" a b kw /\ (a < 0 \/ 1 < a) \/ magnitude "e" a b kw /\ (a < 0 \/ 1 < a) \/
   magnitude "eta" a b kw /\ a < 0 \/ magnitude "q" a b kw /\ (a <= 0 \/ 1 < a)) ->
  mk_shear [] kw = Err RuntimeError.
Proof. exact out_of_range. Qed.
Print Assumptions C50_out_of_range_raises.

(** A magnitude without a position angle, a position angle alone, an unknown keyword, components of
    two parametrisations and more than two keywords are all errors. *)
Theorem C50_malformed_calls_raise : forall kw,
  (List.length kw > 2)%nat \/
  (exists n v, kw = [(n, v)] /\ ~ In n ["g1"; "g2"; "e1"; "e2"; "eta1"; "eta2"]%string) \/
  (exists n m x y, kw = [(n, KNum x); (m, KNum y)] /\
     ~ (In n ["g1"; "g2"] /\ In m ["g1"; "g2"] \/ In n ["e1"; "e2"] /\ In m ["e1"; "e2"] \/
        In n ["eta1"; "eta2"] /\ In m ["eta1"; "eta2"])%string /\ n <> m) ->
  exists e, mk_shear [] kw = Err e.
Proof. exact malformed. Qed.
Print Assumptions C50_malformed_calls_raise.

(** What is missing from "out-of-range values raise": |g| = 1 is accepted by the keyword calls (and
    its matrix divides by zero), and the unnamed argument is not checked at all. *)
Theorem C50_disc_not_enforced_refuted :
  (exists kw s, mk_shear [] kw = Ok s /\ sqrt (1 - sh_g s ^ 2) = 0) /\
  (exists s, mk_shear [(s, true)] [] = Ok s /\ 1 < Cmod s).
Proof. exact disc_not_enforced. Qed.
Print Assumptions C50_disc_not_enforced_refuted.

Example C50_witness : exists s, mk_shear [] [("beta"%string, KAng (PI / 3)); ("q"%string, KNum (1 / 2))] = Ok s /\
  Rabs (sh_q s - 1 / 2) <= / 10 ^ 16 /\ sh_beta s = PI / 3.
Proof.
  destruct (C50_polar_round_trip "q" (1 / 2) (PI / 3) _ (mag21 _ _ _)) as (s & E & _ & _ & _ & Q & B & Z).
  { right. right. right. split; [reflexivity|lra]. }
  exists s. split; auto. split; [auto|]. apply B; [|pose proof PI_RGT_0; lra]. intros H. apply Z in H. destruct H as [[_ H]|[H _]]; [lra|congruence].
Qed.
