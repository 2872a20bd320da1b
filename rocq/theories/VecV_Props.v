(** Property C141: evaluating a profile at an array of positions. *)
From Coq Require Import Reals Bool List Lra.
From Coquelicot Require Import Complex.
From Verif Require Import Base Bounds_Model Bounds_Proofs Geo_Model GSP_Model Prof_Model Prof_Props VecV_Model VecV_Spec VecV_Proofs VecV_Ex.
Import ListNotations.
Open Scope R_scope.

(** * C141 *)
(** Without a Convolution the value at an array of positions is the array of the values. *)
Theorem C141_kvalues_entrywise : forall p ks, no_conv p = true -> kValues p ks = Ok (Ar (map (kValue p) ks)).
Proof. exact entries. Qed.
Print Assumptions C141_kvalues_entrywise.
Example C141_ex : no_conv (PDec (PTr (PSum [G 1; PTr (G 2) (Mat 2 0 0 1) (0, 0) 1 g0 true] g0 true) (Mat 1 0 0 1) (1, 0) 3 g0 true) g0 true) = true.
Proof. reflexivity. Qed.

(** For a Convolution (with no further one inside) it is one number, the product over all the positions; it never is
    the array of values. *)
Theorem C141_convolution_refuted :
  (forall l g pg ks, l <> [] -> forallb no_conv l = true -> kValues (PConv l g pg) ks = Ok (Sc (prodC (map (kValue (PConv l g pg)) ks)))) /\
  (forall l g pg ks, kValues (PConv l g pg) ks <> Ok (Ar (map (kValue (PConv l g pg)) ks))).
Proof. split; [exact conv_value|exact conv_refuted]. Qed.
Print Assumptions C141_convolution_refuted.

(** Moved, sheared or rescaled, the result has the right number of entries, but in all of them the same product stands in
    the place of the value at the position; with two positions the values of the convolution of two Gaussians are wrong. *)
Theorem C141_moved_convolution_refuted :
  (forall l g pg J off fr g' pg' ks, l <> [] -> forallb no_conv l = true ->
    kValues (PTr (PConv l g pg) J off fr g' pg') ks =
    Ok (Ar (map (fun k => Cmult (prodC (map (fun k' => kValue (PConv l g pg) (mapp (mT J) k')) ks)) (kfactor J off fr k)) ks))) /\
  (let p := PTr (PConv [G 1; G 1] g0 true) mI (0, 0) 2 g0 true in
   let ks := [(0, 0); (1, 0)] in
   kValues p ks = Ok (Ar [RtoC (2 * exp (- 1)); RtoC (2 * exp (- 1))]) /\ map (kValue p) ks = [RtoC 2; RtoC (2 * exp (- 1))]).
Proof. split; [exact moved_conv|exact two_gaussians]. Qed.
Print Assumptions C141_moved_convolution_refuted.

(** A Sum of a Convolution and a profile without one raises at every array of positions. *)
Theorem C141_mixed_sum_refuted : forall l g pg p g' pg' ks, l <> [] -> forallb no_conv l = true -> no_conv p = true ->
  kValues (PSum [PConv l g pg; p] g' pg') ks = Err ValueError /\ kValues (PSum [p; PConv l g pg] g' pg') ks = Err ValueError.
Proof. exact mixed_sum. Qed.
Print Assumptions C141_mixed_sum_refuted.
Example C141_mixed_ex : [G 1; B 1] <> [] /\ forallb no_conv [G 1; B 1] = true /\ no_conv (G 3) = true.
Proof. split; [discriminate|split; reflexivity]. Qed.

(** Surface brightness: wherever every single position has a value, and no component is a DeltaFunction, an array of
    positions gives the array of the values. *)
Theorem C141_xvalues_entrywise : forall delta p xs (v : vec -> R), no_delta delta p = true -> xs <> [] ->
  (forall x, In x xs -> xValue p x = Ok (v x)) -> xValues delta p xs = Ok (Ar (map v xs)).
Proof. exact xentries_v. Qed.
Print Assumptions C141_xvalues_entrywise.
Example C141_x_ex : let p := PTr (PSum [G 1; B 2] g0 true) (Mat 2 0 0 1) (1, 0) 3 g0 true in
  no_delta (fun _ => false) p = true /\ (forall x, exists v, xValue p x = Ok v).
Proof. split; [reflexivity|]. intros x. cbn [xValue map sumres bind G B lf_x gauss box]. eexists. reflexivity. Qed.

(** A DeltaFunction, alone or first in a Sum, raises at an array of positions although it has a value at each. *)
Theorem C141_delta_refuted : forall (delta : prof -> bool) own fam fl g J off fr rest g' pg xs,
  let d := PLeaf own fam fl g in delta d = true ->
  xValues delta d xs = Err TypeError /\ xValues delta (PTr d J off fr g' pg) xs = Err TypeError /\
  xValues delta (PSum (d :: rest) g' pg) xs = Err TypeError.
Proof. exact delta_raises. Qed.
Print Assumptions C141_delta_refuted.
Definition deltaf (f : R) (g : gspR) : leafdata :=
  LeafData (fun x => Ok (if Reqb (fst x) 0 && Reqb (snd x) 0 then 10 ^ 300 else 0)) (fun k => RtoC f)
           f (0, 0) 0 (10 ^ 300) (10 ^ 300) (10 ^ 300) false true true true.
Example C141_delta_ex : let d := PLeaf true deltaf 1 g0 in
  let delta p := match p with PLeaf _ fam fl g => Reqb (lf_maxsb (fam fl g)) (10 ^ 300) | _ => false end in
  delta d = true /\ forall x, is_ok (xValue d x) = true.
Proof. cbv zeta. split; [cbn [deltaf lf_maxsb]; destruct (Bounds_Proofs.Reqb_spec (10 ^ 300) (10 ^ 300)) as [_|H]; [reflexivity|congruence]|intros; reflexivity]. Qed.
