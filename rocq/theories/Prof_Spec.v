(** The vocabulary of the properties of profile trees. *)
From Coq Require Import Reals Bool List.
From Coquelicot Require Import Complex.
From Verif Require Import Base Geo_Model Geo_Proofs GSP_Model Prof_Model.
Import ListNotations.
Open Scope R_scope.

(** Every leaf, every transformation, ... of a tree. *)
Fixpoint everywhere (P : prof -> Prop) (p : prof) : Prop :=
  P p /\
  match p with
  | PLeaf _ _ _ _ => True
  | PTr o _ _ _ _ _ | PDec o _ _ => everywhere P o
  | PSum l _ _ | PConv l _ _ => fold_right (fun o acc => everywhere P o /\ acc) True l
  end.
(** No transformation is singular. *)
Definition nonsingular : prof -> Prop :=
  everywhere (fun p => match p with PTr _ J _ _ _ _ => mdet J <> 0 | _ => True end).
(** There is no deconvolution in the tree. *)
Definition no_deconvolution : prof -> Prop :=
  everywhere (fun p => match p with PDec _ _ _ => False | _ => True end).
(** Something holds of the data of all leaves. *)
Definition leaves (P : leafdata -> Prop) : prof -> Prop :=
  everywhere (fun p => match p with PLeaf _ fam fl g => P (fam fl g) | _ => True end).

Definition scale_res (a : R) (r : res R) : res R := match r with Ok v => Ok (a * v) | Err e => Err e end.

(** A class that overrides withFlux has a profile proportional to the flux parameter. *)
Definition flux_linear : prof -> Prop :=
  everywhere (fun p => match p with
    | PLeaf true fam _ _ => forall f g,
        lf_flux (fam f g) = f /\ (forall x, lf_x (fam f g) x = scale_res f (lf_x (fam 1 g) x)) /\
        (forall k, lf_k (fam f g) k = Cmult (RtoC f) (lf_k (fam 1 g) k)) /\ lf_cen (fam f g) = lf_cen (fam 1 g)
    | _ => True end).

(** * What the user's operations mean *)
(** Where a point of the profile goes. *)
Definition moves (o : op) (x : vec) : vec :=
  match o with
  | Expand s | Dilate s => (s * fst x, s * snd x)
  | Magnify mu => (sqrt mu * fst x, sqrt mu * snd x)
  | ShearBy g => let n := sqrt (1 - (Re g ^ 2 + Im g ^ 2)) in
                 (((1 + Re g) * fst x + Im g * snd x) / n, (Im g * fst x + (1 - Re g) * snd x) / n)
  | LensBy g mu => let n := sqrt (1 - (Re g ^ 2 + Im g ^ 2)) in
                   (sqrt mu * (((1 + Re g) * fst x + Im g * snd x) / n), sqrt mu * ((Im g * fst x + (1 - Re g) * snd x) / n))
  | Rotate t => (cos t * fst x - sin t * snd x, sin t * fst x + cos t * snd x)
  | TransformBy a b c d => (a * fst x + b * snd x, c * fst x + d * snd x)
  | Shift dx dy => (fst x + dx, snd x + dy)
  | ScaleFlux _ | WithFlux _ => x
  end.
(** By how much areas grow. *)
Definition magnifies (o : op) : R :=
  match o with
  | Expand s | Dilate s => s * s
  | Magnify mu | LensBy _ mu => mu
  | TransformBy a b c d => Rabs (a * d - b * c)
  | ShearBy _ | Rotate _ | Shift _ _ | ScaleFlux _ | WithFlux _ => 1
  end.
(** By how much the surface brightness is multiplied, for a profile of flux [F]. *)
Definition brightens (F : R) (o : op) : R :=
  match o with
  | Dilate s => / (s * s)
  | ScaleFlux f => f
  | WithFlux f => f / F
  | _ => 1
  end.
Definition sensible (F : R) (o : op) : Prop :=
  match o with
  | Expand s | Dilate s => s <> 0
  | Magnify mu => 0 < mu
  | ShearBy g => Re g ^ 2 + Im g ^ 2 < 1
  | LensBy g mu => Re g ^ 2 + Im g ^ 2 < 1 /\ 0 < mu
  | TransformBy a b c d => a * d - b * c <> 0
  | WithFlux _ => F <> 0
  | Rotate _ | Shift _ _ | ScaleFlux _ => True
  end.
(** A sequence of operations: where points go, the change in surface brightness and the flux. *)
Definition path (ops : list op) (x : vec) : vec := fold_left (fun x o => moves o x) ops x.
Fixpoint effect (F : R) (ops : list op) : R * R :=
  match ops with
  | [] => (1, F)
  | o :: t => let '(a, F') := effect (F * brightens F o * magnifies o) t in (brightens F o * a, F')
  end.
Fixpoint all_sensible (F : R) (ops : list op) : Prop :=
  match ops with [] => True | o :: t => sensible F o /\ all_sensible (F * brightens F o * magnifies o) t end.

(** [k'] is where [k] goes under the adjoint of the linear part of the map [M]. *)
Definition adjoint (M : vec -> vec) (k k' : vec) : Prop :=
  forall x, fst k * (fst (M x) - fst (M (0, 0))) + snd k * (snd (M x) - snd (M (0, 0))) =
            fst k' * fst x + snd k' * snd x.

(** Results that agree: the same value, or both raise. *)
Definition agree {A} (a b : res A) : Prop :=
  match a, b with Ok x, Ok y => x = y | Err _, Err _ => True | _, _ => False end.

(** Two profiles that cannot be told apart by any of their attributes or by evaluation. *)
Record alike (p q : prof) : Prop := Alike {
  al_flux : flux p = flux q; al_cen : centroid p = centroid q; al_pn : pnflux p = pnflux q;
  al_maxk : maxk p = maxk q; al_stepk : stepk p = stepk q; al_sb : max_sb p = max_sb q;
  al_axi : is_axisymmetric p = is_axisymmetric q; al_ank : is_analytic_k p = is_analytic_k q;
  al_anx : is_analytic_x p = is_analytic_x q; al_hard : has_hard_edges p = has_hard_edges q;
  al_k : forall k, kValue p k = kValue q k; al_x : forall x, agree (xValue p x) (xValue q x);
  al_gs : gsparams p = gsparams q }.

(** All parts of the tree use the same gsparams and pass them on: what the constructors make
    unless told otherwise. *)
Definition uniform (g : gspR) : prof -> Prop :=
  everywhere (fun p => match p with
    | PLeaf _ _ _ g' => g' = g
    | PTr _ _ _ _ g' pg | PConv _ g' pg | PDec _ g' pg => g' = g /\ pg = true
    | PSum l g' pg => g' = g /\ pg = true /\ Forall (fun o => match o with PSum _ _ _ => False | _ => True end) l
    end).

(** Rotational symmetry. *)
Definition radial {A} (f : vec -> A) : Prop :=
  forall x y, fst x ^ 2 + snd x ^ 2 = fst y ^ 2 + snd y ^ 2 -> f x = f y.

(** * Conditions on trees *)
(** The leaves' Fourier amplitude at 0 is their flux; what is deconvolved has flux. *)
Definition flux_ok : prof -> Prop :=
  everywhere (fun p => match p with
    | PLeaf _ fam fl g => lf_k (fam fl g) (0, 0) = RtoC (lf_flux (fam fl g))
    | PDec o g _ => flux o <> 0 /\ 0 <= g_kacc g <= 1
    | _ => True end).
(** No convolution of nothing. *)
Definition nonempty : prof -> Prop := everywhere (fun p => match p with PConv [] _ _ => False | _ => True end).
(** Positive and negative parts of the leaves are non-negative, and nothing flips the sign. *)
Definition pn_ok : prof -> Prop :=
  everywhere (fun p => match p with
    | PLeaf _ fam fl g => 0 <= lf_neg (fam fl g) /\ 0 <= lf_flux (fam fl g) + lf_neg (fam fl g)
    | PTr _ _ _ fr _ _ => 0 <= fr
    | PDec o _ _ => 0 < flux o
    | _ => True end).

(** Real-space convolution is asked for, or chosen by the automatic rule. *)
Definition wants_real_space (rs : rsarg) (l : list prof) : Prop :=
  rs = RSBool true \/ (rs = RSNone /\ (length l <= 2)%nat /\ Forall (fun o => has_hard_edges o = true) l).
(** Leaves whose values do not depend on the accuracy parameters. *)
Definition accuracy_free : prof -> Prop :=
  everywhere (fun p => match p with
    | PLeaf _ fam fl g => forall g', lf_flux (fam fl g') = lf_flux (fam fl g) /\ lf_cen (fam fl g') = lf_cen (fam fl g) /\
        (forall x, lf_x (fam fl g') x = lf_x (fam fl g) x) /\ (forall k, lf_k (fam fl g') k = lf_k (fam fl g) k)
    | PDec _ _ _ => False
    | _ => True end).
(** The amplitude is bounded by the flux, and by a fraction [thr] of it beyond maxk. *)
Definition banded (thr : R) (p : prof) : Prop :=
  0 < flux p /\ (forall k, Cmod (kValue p k) <= flux p) /\ (forall k, maxk p < norm k -> Cmod (kValue p k) <= thr * flux p).
(** The leaves are; the rest of the tree has positive weights. *)
Definition band_ok (thr : R) : prof -> Prop :=
  everywhere (fun p => match p with
    | PLeaf _ fam fl g => banded thr p
    | PTr _ J _ fr _ _ => mdet J <> 0 /\ 0 < fr
    | PSum l _ _ | PConv l _ _ => l <> []
    | PDec _ _ _ => False end).
(** Where the bulk of a tree without convolutions lies, given discs for the leaves. *)
Fixpoint inside (p : prof) (x : vec) : Prop :=
  match p with
  | PLeaf _ _ _ _ => norm x <= PI / stepk p
  | PTr o J off _ _ _ => exists y, inside o y /\ x = vadd (mapp J y) off
  | PSum l _ _ => fold_right (fun o acc => inside o x \/ acc) False l
  | PConv _ _ _ | PDec _ _ _ => False
  end.
(** A tree of transformations and sums. *)
Definition step_ok : prof -> Prop :=
  everywhere (fun p => match p with
    | PLeaf _ _ _ _ => 0 < stepk p
    | PTr _ J _ _ _ _ => mdet J <> 0
    | PSum l _ _ => l <> []
    | PConv _ _ _ | PDec _ _ _ => False end).
(** Leaves that claim to be analytic can be evaluated; no convolution of a single object. *)
Definition x_ok : prof -> Prop :=
  everywhere (fun p => match p with
    | PLeaf _ fam fl g => lf_anx (fam fl g) = true -> forall x, exists v, lf_x (fam fl g) x = Ok v
    | PTr _ J _ _ _ _ => mdet J <> 0
    | PConv l _ _ => length l <> 1%nat
    | _ => True end).
(** Built with default propagation from leaves whose values do not depend on gsparams. *)
Definition plain (o : prof) : Prop := (exists h, uniform h o) /\ accuracy_free o.
