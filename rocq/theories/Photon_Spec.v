(** What photon arrays mean: the list of photons one would tabulate. *)
From Coq Require Import ZArith Reals Bool List Arith Permutation.
From Verif Require Import Base Array_Model Bounds_Model Photon_Model.
Import ListNotations.
Open Scope nat_scope.

(** all columns have the array's length *)
Definition wfp (p : parr) : Prop :=
  length (px p) = pN p /\ length (py_ p) = pN p /\ length (pfl p) = pN p /\ length (pnk p) = pN p /\
  length (pdxdz p) = pN p /\ length (pdydz p) = pN p /\ length (pwave p) = pN p /\
  length (ppu p) = pN p /\ length (ppv p) = pN p /\ length (ptime p) = pN p.

Definition kept (p : parr) (i : nat) : Prop := i < pN p /\ nth i (pnk p) true = false.
Definition all_kept (p : parr) : Prop := forall i, i < pN p -> kept p i.

(** flux of photon i as read through the flux attribute *)
Definition vis (p : parr) (i : nat) : R := match flux p with Some l => nth i l 0%R | None => 0%R end.

(** The kept photons as rows (x, y, visible flux). *)
Definition rows (p : parr) : list (R * R * R) :=
  map (fun i => (nth i (px p) 0%R, nth i (py_ p) 0%R, vis p i))
      (filter (fun i => negb (nth i (pnk p) true)) (seq 0 (pN p))).

(** x lies in the unit-width pixel centred at the integer X *)
Definition in_pix (X : Z) (x : R) : bool := negb (Rltb x (IZR X - / 2)) && Rltb x (IZR X + / 2).
(** in the span of pixels X .. X+n-1 *)
Definition in_span (X n : Z) (x : R) : bool := negb (Rltb x (IZR X - / 2)) && Rltb x (IZR (X + n) - / 2).

Definition sel_sum (f : R -> R -> bool) (l : list (R * R * R)) : R :=
  fold_right (fun t s => let '(x, y, w) := t in ((if f x y then w else 0) + s)%R) 0%R l.

(** Operations whose sequences are considered. *)
Inductive pop : Type :=
| OFlux (v : vals R) | OScaleFlux (s : R) | OTotal (t : R) | OScaleXY (s : R)
| OX (v : vals R) | OY (v : vals R) | OKeep (n : nat).
Definition papply (o : pop) (p : parr) : option parr :=
  let ok r := match r with Ok p => Some p | Err _ => None end in
  match o with
  | OFlux v => ok (set_flux p v)
  | OScaleFlux s => Some (scaleFlux p s)
  | OTotal t => setTotalFlux p t
  | OScaleXY s => Some (scaleXY p s)
  | OX v => ok (set_x p v)
  | OY v => ok (set_y p v)
  | OKeep n => if (1 <=? n)%nat then Some (set_num_keep p n) else None
  end.
Fixpoint prun (l : list pop) (p : parr) : option parr :=
  match l with [] => Some p | o :: l => match papply o p with Some p => prun l p | None => None end end.

(** a tree of profiles with positive fluxes whose random choices have the right lengths and ranges *)
Fixpoint good_tree (o : sprof) : Prop :=
  match o with
  | SLeaf F gx gy => (0 < F)%R /\ forall n, length (gx n) = n /\ length (gy n) = n
  | SSum objs cat => objs <> [] /\ fold_right (fun o P => good_tree o /\ P) True objs /\
      forall n, length (cat n) = n /\ forall i, i < n -> nth i (cat n) 0 < length objs
  | SConv o objs rs => good_tree o /\ fold_right (fun o P => good_tree o /\ P) True objs /\
      forall n, Permutation (rs n) (seq 0 n)
  | STrans o _ _ s => good_tree o /\ (0 < s)%R
  end.

(** the array size in force when N photons are shot is N *)
Definition same_size (fs : option nat) (N : nat) : Prop := fs = None \/ fs = Some N.

(** a component of a Sum: a good tree, or a single profile of nonzero flux of either sign *)
Definition good_component (o : sprof) : Prop :=
  good_tree o \/ exists F gx gy, o = SLeaf F gx gy /\ F <> 0%R /\ forall n, length (gx n) = n /\ length (gy n) = n.
Definition sum_abs (objs : list sprof) : R := fold_right (fun o s => (Rabs (sflux o) + s)%R) 0%R objs.

(** Totals over the rounds of a drawing loop: photons, flux selected by position, flux shot. *)
Definition nsum (l : list (nat * parr)) : nat := fold_right (fun t s => fst t + s) 0 l.
Definition fsum (f : R -> R -> bool) (l : list (nat * parr)) : R := fold_right (fun t s => (sel_sum f (rows (snd t)) + s)%R) 0%R l.
Definition tsum (l : list (nat * parr)) : R := fold_right (fun t s => (match getTotalFlux (snd t) with Some f => f | None => 0 end + s)%R) 0%R l.
(** photons per round *)
Definition chunk (fs maxN : option nat) (Ntot : nat) : nat :=
  match maxN, fs with
  | None, None => Ntot
  | Some m, None => m
  | None, Some s => s
  | Some m, Some s => Nat.min m s
  end.
