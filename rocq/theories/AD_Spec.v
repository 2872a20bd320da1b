(** What a gradient should be: the partial derivative of the function of the reals. *)
From Coq Require Import Reals.
From Coquelicot Require Import Coquelicot.
From Verif Require Import Base Bounds_Model GSP_Model Size_Model AD_Model.
Open Scope R_scope.

Definition upd (env : nat -> R) (v : nat) (t : R) (n : nat) : R := if Nat.eqb n v then t else env n.
(** Backpropagation through [e] at [env] gives a number, the derivative of [f] in variable [v] *)
Definition is_gradient (e : expr) (f : (nat -> R) -> R) (env : nat -> R) (v : nat) : Prop :=
  exists d : R, grad e env v = Fin d /\ is_derive (fun t => f (upd env v t)) (env v) d.
(** Every operation of the program, in branches not taken too, is performed where it is differentiable. The square of abs(z) counts
    as differentiable at 0. *)
Fixpoint smooth (e : expr) (env : nat -> R) : Prop :=
  match e with
  | Var _ | Cst _ => True
  | Let a b => smooth a env /\ smooth b (scons (reval a env) env)
  | Add a b | Sub a b | Mul a b => smooth a env /\ smooth b env
  | Div a b => smooth a env /\ smooth b env /\ reval b env <> 0
  | Neg a | Exp a => smooth a env
  | Sq a => smooth a env \/ match a with Cabs b c => smooth b env /\ smooth c env | _ => False end
  | Sqrt a => smooth a env /\ 0 < reval a env
  | Pow a b => smooth a env /\ smooth b env /\ 0 < reval a env
  | Cabs a b => smooth a env /\ smooth b env /\ (reval a env <> 0 \/ reval b env <> 0)
  | Where _ l r a b => smooth l env /\ smooth r env /\ smooth a env /\ smooth b env /\ reval l env <> reval r env
  | Stop _ => False
  | Prim p a => smooth a env /\ exists r d : R,
      p_val p (Fin (reval a env)) = Fin r /\ p_der p (Fin (reval a env)) = Fin d /\
      is_derive (fun t => toR (p_val p (Fin t))) (reval a env) d
  end.
(** Profiles as functions of position, flux and sizes, of Size_Model *)
Definition gaussian_of (gs : gsp R) (env : nat -> R) : gaussian := Gau (env 3%nat) (env 2%nat) gs.
Definition exponential_of (gs : gsp R) (env : nat -> R) : exponential := Exn (env 3%nat) (env 2%nat) gs.
Definition moffat_of (gs : gsp R) (env : nat -> R) : moffat := Mof (env 4%nat) (env 3%nat) (env 2%nat) gs.
Definition spergel_of (gs : gsp R) (env : nat -> R) : spergel := Spe (env 4%nat) (env 3%nat) (env 2%nat) gs.
Definition box_of (gs : gsp R) (env : nat -> R) : box := Box (env 3%nat) (env 4%nat) (env 2%nat) gs.
Definition at_ (env : nat -> R) : R * R := (env 0%nat, env 1%nat).
(** An Exponential of flux env 0 and scale radius env 1 sheared by (env 2, env 3), at (cx, cy), times fs *)
Definition sheared (gs : gsp R) (cx cy fs : R) (env : nat -> R) : R :=
  let g1 := env 2%nat in let g2 := env 3%nat in
  let s := sqrt (1 - g1 ^ 2 - g2 ^ 2) in
  ex_xValue (Exn (env 1%nat) (env 0%nat) gs) (((1 - g1) * cx - g2 * cy) / s, ((1 + g1) * cy - g2 * cx) / s) * fs.
(** Backpropagation gives nan although [f] has a derivative *)
Definition lost (e : expr) (f : (nat -> R) -> R) (env : nat -> R) (v : nat) : Prop :=
  grad e env v = NaN /\ exists d : R, is_derive (fun t => f (upd env v t)) (env v) d.
