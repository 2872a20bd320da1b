(** Gradients as JAX computes them: reverse mode over the operations the code performs, with inf and nan.
    exponential.py:130-136, gaussian.py:130-137, moffat.py:147-205, 322-329, spergel.py:318-353, 414-422, 98-130,
    box.py:88-92, core/math.py:5-10, core/draw.py:9-38, shear.py:66-71, 241-262, 287-292.
    The rules of the primitives are those JAX documents; an operation is differentiated with respect to its inputs at the
    values computed, cotangents of an intermediate result are added up before they are passed on ([Let]), jnp.where passes 0 to
    the branch not taken. Simplifications: a zero has no sign (division by it is division by +0); jnp.linalg.inv of a 2x2 matrix is
    the cofactor formula; floats are reals with inf and nan. *)
From Coq Require Import Reals List Bool.
From Verif Require Import Base Bounds_Model Sky_Model Size_Model Geo_Model.
Open Scope R_scope.

(** * Numbers *)
Inductive ext : Type := Fin (r : R) | PInf | NInf | NaN.
Definition eneg (a : ext) : ext := match a with Fin r => Fin (- r) | PInf => NInf | NInf => PInf | NaN => NaN end.
Definition eadd (a b : ext) : ext :=
  match a, b with
  | Fin r, Fin s => Fin (r + s)
  | NaN, _ | _, NaN | PInf, NInf | NInf, PInf => NaN
  | PInf, _ | _, PInf => PInf
  | NInf, _ | _, NInf => NInf
  end.
Definition esign (r : R) : ext := if Rltb 0 r then PInf else if Rltb r 0 then NInf else NaN.
Definition emul (a b : ext) : ext :=
  match a, b with
  | Fin r, Fin s => Fin (r * s)
  | NaN, _ | _, NaN => NaN
  | Fin r, PInf | PInf, Fin r => esign r
  | Fin r, NInf | NInf, Fin r => esign (- r)
  | PInf, PInf | NInf, NInf => PInf
  | PInf, NInf | NInf, PInf => NInf
  end.
Definition ediv (a b : ext) : ext :=
  match a, b with
  | Fin r, Fin s => if Reqb s 0 then esign r else Fin (r / s)
  | Fin _, (PInf | NInf) => Fin 0
  | PInf, Fin s => if Rltb s 0 then NInf else PInf
  | NInf, Fin s => if Rltb s 0 then PInf else NInf
  | _, _ => NaN
  end.
Definition esqrt (a : ext) : ext := match a with Fin r => if Rltb r 0 then NaN else Fin (sqrt r) | PInf => PInf | _ => NaN end.
Definition eexp (a : ext) : ext := match a with Fin r => Fin (exp r) | PInf => PInf | NInf => Fin 0 | NaN => NaN end.
Definition elog (a : ext) : ext :=
  match a with Fin r => if Rltb 0 r then Fin (ln r) else if Reqb r 0 then NInf else NaN | PInf => PInf | _ => NaN end.
(** x ** y for finite x >= 0 and y *)
Definition epow (a b : ext) : ext :=
  match a, b with
  | Fin x, Fin y =>
      if Rltb 0 x then Fin (Rpower x y)
      else if Reqb x 0 then (if Reqb y 0 then Fin 1 else if Rltb 0 y then Fin 0 else PInf) else NaN
  | _, _ => NaN
  end.
Inductive cmp : Type := Gt | Le | Is.
Definition ecmp (c : cmp) (a b : ext) : bool :=
  match a, b with
  | NaN, _ | _, NaN => false
  | Fin r, Fin s => match c with Gt => Rltb s r | Le => negb (Rltb s r) | Is => Reqb r s end
  | PInf, PInf | NInf, NInf => match c with Gt => false | _ => true end
  | PInf, _ | _, NInf => match c with Gt => true | _ => false end
  | NInf, _ | _, PInf => match c with Le => true | _ => false end
  end.

(** * Programs *)
(** A function of one number with its gradient, such as kv with its custom_vjp *)
Record prim : Type := Fun { p_val : ext -> ext; p_der : ext -> ext }.
Inductive expr : Type :=
| Var (n : nat) | Cst (r : R)
| Let (a b : expr)                 (* the value of [a] is variable 0 of [b] *)
| Add (a b : expr) | Sub (a b : expr) | Mul (a b : expr) | Div (a b : expr)
| Neg (a : expr) | Sq (a : expr)   (* a ** 2 *)
| Sqrt (a : expr) | Exp (a : expr) | Pow (a b : expr)
| Cabs (a b : expr)                (* abs(a + 1j b) *)
| Where (c : cmp) (l r a b : expr) (* jnp.where(l c r, a, b) *)
| Stop (a : expr)                  (* jax.lax.stop_gradient *)
| Prim (p : prim) (a : expr).
Definition scons {A} (a : A) (env : nat -> A) (n : nat) : A := match n with O => a | S m => env m end.
Definition ehalf : ext := Fin (1 / 2).
Definition replace_zero (a : ext) : ext := match a with Fin r => if Reqb r 0 then Fin 1 else a | _ => a end.
Fixpoint val (e : expr) (env : nat -> ext) : ext :=
  match e with
  | Var n => env n
  | Cst r => Fin r
  | Let a b => val b (scons (val a env) env)
  | Add a b => eadd (val a env) (val b env)
  | Sub a b => eadd (val a env) (eneg (val b env))
  | Mul a b => emul (val a env) (val b env)
  | Div a b => ediv (val a env) (val b env)
  | Neg a => eneg (val a env)
  | Sq a => emul (val a env) (val a env)
  | Sqrt a => esqrt (val a env)
  | Exp a => eexp (val a env)
  | Pow a b => epow (val a env) (val b env)
  | Cabs a b => esqrt (eadd (emul (val a env) (val a env)) (emul (val b env) (val b env)))
  | Where c l r a b => if ecmp c (val l env) (val r env) then val a env else val b env
  | Stop a => val a env
  | Prim p a => p_val p (val a env)
  end.
(** The part of the cotangent [ct] of the result of [e] that reaches variable [v] *)
Fixpoint back (e : expr) (env : nat -> ext) (ct : ext) (v : nat) : ext :=
  match e with
  | Var n => if Nat.eqb n v then ct else Fin 0
  | Cst _ => Fin 0
  | Let a b => let env' := scons (val a env) env in eadd (back b env' ct (S v)) (back a env (back b env' ct 0) v)
  | Add a b => eadd (back a env ct v) (back b env ct v)
  | Sub a b => eadd (back a env ct v) (back b env (eneg ct) v)
  | Mul a b => eadd (back a env (emul ct (val b env)) v) (back b env (emul ct (val a env)) v)
  | Div a b => eadd (back a env (ediv ct (val b env)) v)
                    (back b env (emul (emul (eneg ct) (val a env)) (ediv (Fin 1) (emul (val b env) (val b env)))) v)
  | Neg a => back a env (eneg ct) v
  | Sq a => back a env (emul ct (emul (Fin 2) (val a env))) v
  | Sqrt a => back a env (emul ct (ediv ehalf (esqrt (val a env)))) v
  | Exp a => back a env (emul ct (eexp (val a env))) v
  | Pow a b =>
      let x := val a env in let y := val b env in
      let jac := emul y (epow x (eadd y (Fin (-1)))) in
      eadd (back a env (emul ct jac) v) (back b env (emul ct (emul (elog (replace_zero x)) (epow x y))) v)
  | Cabs a b =>
      let n := replace_zero (esqrt (eadd (emul (val a env) (val a env)) (emul (val b env) (val b env)))) in
      eadd (back a env (emul ct (ediv (val a env) n)) v) (back b env (emul ct (ediv (val b env) n)) v)
  | Where c l r a b =>
      let t := ecmp c (val l env) (val r env) in
      eadd (back a env (if t then ct else Fin 0) v) (back b env (if t then Fin 0 else ct) v)
  | Stop _ => Fin 0
  | Prim p a => back a env (emul ct (p_der p (val a env))) v
  end.
(** jax.grad with respect to variable [v] *)
Definition grad (e : expr) (env : nat -> R) (v : nat) : ext := back e (fun n => Fin (env n)) (Fin 1) v.

(** The function over the reals *)
Definition toR (a : ext) : R := match a with Fin r => r | _ => 0 end.
Definition rcmp (c : cmp) (a b : R) : bool := ecmp c (Fin a) (Fin b).
Fixpoint reval (e : expr) (env : nat -> R) : R :=
  match e with
  | Var n => env n
  | Cst r => r
  | Let a b => reval b (scons (reval a env) env)
  | Add a b => reval a env + reval b env
  | Sub a b => reval a env - reval b env
  | Mul a b => reval a env * reval b env
  | Div a b => reval a env / reval b env
  | Neg a => - reval a env
  | Sq a => reval a env * reval a env
  | Sqrt a => sqrt (reval a env)
  | Exp a => exp (reval a env)
  | Pow a b => jpow (reval a env) (reval b env)
  | Cabs a b => sqrt (reval a env * reval a env + reval b env * reval b env)
  | Where c l r a b => if rcmp c (reval l env) (reval r env) then reval a env else reval b env
  | Stop a => reval a env
  | Prim p a => toR (p_val p (Fin (reval a env)))
  end.

(** * The code. Variables 0, 1: the position; 2: flux; 3: size; 4: beta or nu, second size *)
Definition one : expr := Cst 1.
Definition rsq : expr := Add (Sq (Var 0)) (Sq (Var 1)).
(** gaussian.py:82-90, 130-137 *)
Definition gaussian_x : expr :=
  let inv_sigsq := Div one (Sq (Var 3)) in
  Mul (Mul (Mul (Var 2) inv_sigsq) (Cst inv_twopi)) (Exp (Mul (Mul (Cst (-0.5)) rsq) inv_sigsq)).
Definition gaussian_k : expr := Mul (Var 2) (Exp (Mul (Cst (-0.5)) (Mul rsq (Sq (Var 3))))).
(** exponential.py:59-71, 130-136 *)
Definition exponential_x : expr :=
  let inv_r0 := Div one (Var 3) in
  Mul (Mul (Mul (Var 2) (Cst inv_twopi)) (Sq inv_r0)) (Exp (Mul (Neg (Sqrt rsq)) inv_r0)).
Definition exponential_k : expr :=
  Let (Add (Mul rsq (Sq (Var 3))) one) (Div (Var 3) (Mul (Var 0) (Sqrt (Var 0)))).
(** moffat.py:147-205, 322-329; [xacc] is gsparams.xvalue_accuracy *)
Definition moffat_x (xacc : R) : expr :=
  let inv_r0 := Div one (Var 3) in
  Let (Mul rsq (Mul inv_r0 inv_r0))
      (let maxRrD := Sqrt (Sub (Pow (Cst xacc) (Div one (Sub one (Var 5)))) one) in
       Where Gt (Var 0) (Mul maxRrD maxRrD) (Cst 0)
         (Mul (Div (Mul (Var 3) (Sub (Var 5) one)) (Mul (Mul (Cst PI) one) (Sq (Var 4)))) (Pow (Add one (Var 0)) (Neg (Var 5))))).
(** spergel.py:419-422 *)
Definition spergel_k : expr :=
  Let (Mul rsq (Mul (Var 3) (Var 3))) (Mul (Var 3) (Pow (Add one (Var 0)) (Sub (Cst (-1)) (Var 5)))).
(** spergel.py:338-353, 414-417, 127-130; nu is behind stop_gradient in fz_nu, and a number here; [kv]: kv(nu, .);
    [small]: fsmallz_nu(., nu); [shootxnorm], [xnorm0]: the numbers of these names *)
Definition spergel_x (nu : R) (kv : prim) (small : expr) (shootxnorm xnorm0 : R) : expr :=
  let inv_r0 := Div one (Var 3) in
  Let (Mul (Sqrt rsq) inv_r0)
      (let inv_r0 := Div one (Var 4) in
       let xnorm := Mul (Mul (Cst shootxnorm) (Var 3)) (Mul inv_r0 inv_r0) in
       let fz := Where Le (Var 0) (Cst (1 / 10 ^ 10)) small (Mul (Pow (Var 0) (Cst nu)) (Prim kv (Var 0))) in
       Mul xnorm (Where Is (Var 0) (Cst 0) (Cst xnorm0) fz)).
(** box.py:88-92; jnp.sinc has its own rule at 0. Variables 3, 4: width, height *)
Definition dsinc (x : R) : R := if Reqb x 0 then 0 else (cos (PI * x) - sinc x) / x.
Definition sinc_prim : prim :=
  Fun (fun a => match a with Fin x => Fin (sinc x) | _ => NaN end) (fun a => match a with Fin x => Fin (dsinc x) | _ => NaN end).
Definition box_k : expr :=
  let wo2pi := Div (Var 3) (Mul (Cst 2) (Cst PI)) in
  let ho2pi := Div (Var 4) (Mul (Cst 2) (Cst PI)) in
  Mul (Mul (Var 2) (Prim sinc_prim (Mul (Var 0) wo2pi))) (Prim sinc_prim (Mul (Var 1) ho2pi)).
(** core/math.py:5-10 *)
Definition safe_sqrt (x : expr) : expr :=
  Let x (Let (Where Gt (Var 0) (Cst 0) (Var 0) one) (Where Gt (Var 1) (Cst 0) (Sqrt (Var 0)) (Cst 0))).
(** One pixel of draw_by_xValue, core/draw.py:9-38, of an Exponential: centre (px, py) times scale less offset is (cx, cy); the variables are
    0: flux, 1: size, 2-5: the matrix. [shear_x] the same with the matrix of Shear(g1, g2), shear.py:287-292; variables 2, 3: g1, g2 *)
Definition exponential_pixel (cx cy fs : R) : expr :=
  Let (Sub (Mul (Var 2) (Var 5)) (Mul (Var 3) (Var 4)))                                            (* det *)
  (Let (Div (Sub (Mul (Cst cx) (Var 6)) (Mul (Cst cy) (Var 4))) (Var 0))                           (* x *)
  (Let (Div (Sub (Mul (Cst cy) (Var 4)) (Mul (Cst cx) (Var 6))) (Var 1))                           (* y *)
  (let inv_r0 := Div one (Var 4) in
   Mul (Mul (Mul (Mul (Var 3) (Cst inv_twopi)) (Sq inv_r0)) (Exp (Mul (Neg (Sqrt (Add (Sq (Var 1)) (Sq (Var 0))))) inv_r0)))
       (Div (Cst fs) (Cabs (Var 2) (Cst 0)))))).
Definition sheared_pixel (cx cy fs : R) : expr :=
  Let (Sqrt (Sub one (Sq (Cabs (Var 2) (Var 3)))))                                                 (* sqrt(1 - g^2) *)
  (Let (Div (Sub one (Var 3)) (Var 0))                                                             (* entry 11 *)
  (Let (Div (Var 5) (Var 1))                                                                       (* entry 10 *)
  (Let (Div (Var 6) (Var 2))                                                                       (* entry 01 *)
  (Let (Div (Add one (Var 6)) (Var 3))                                                             (* entry 00 *)
  (Let (Var 6) (Let (Var 6) (exponential_pixel cx cy fs))))))).
(** spergel.py:338-347, 414-417 off the centre as a function of nu (variable 1; 0 the flux) at one z = r / r0: [shootxnorm] and [fz] are the
    functions of these names of nu *)
Definition spergel_nu (shootxnorm fz : prim) (inv_r0_sq : R) : expr :=
  Mul (Mul (Mul (Prim shootxnorm (Var 1)) (Var 0)) (Cst inv_r0_sq)) (Prim fz (Stop (Var 1))).
(** tanh, arctanh *)
Definition prim_of (f df : R -> R) : prim :=
  Fun (fun a => match a with Fin x => Fin (f x) | _ => NaN end) (fun a => match a with Fin x => Fin (df x) | _ => NaN end).
Definition tanh_prim : prim := prim_of tanh (fun x => 1 - tanh x * tanh x).
Definition arctanh_prim : prim := prim_of arctanh (fun x => 1 / (1 - x * x)).
(** The first component of Shear(e1=, e2=), Shear(eta1=, eta2=) and of Shear.eta1, shear.py:60-78, 184-196, 241-268: complex number
    times factor. Variables 0, 1: the components given *)
Definition e2g_expr (a : expr) : expr :=
  Let a (Where Gt (Var 0) (Cst (1 / 10000)) (Div one (Add one (Sqrt (Sub one (Var 0)))))
           (Add (Cst (1 / 2)) (Mul (Var 0) (Add (Cst 0.125) (Mul (Var 0) (Add (Cst 0.0625) (Mul (Var 0) (Cst 0.0390625)))))))).
Definition eta2g_expr (a : expr) : expr :=
  Let a (Let (Mul (Var 0) (Var 0))
    (Where Gt (Var 1) (Cst (1 / 10000)) (Div (Prim tanh_prim (Mul (Cst (1 / 2)) (Var 1))) (Var 1))
       (Add (Cst (1 / 2)) (Mul (Var 0) (Add (Cst (-1 / 24)) (Mul (Var 0) (Cst (1 / 240)))))))).
Definition g2eta_expr (a : expr) : expr :=
  Let a (Let (Mul (Var 0) (Var 0))
    (Where Gt (Var 1) (Cst (1 / 10000)) (Div (Mul (Cst 2) (Prim arctanh_prim (Var 1))) (Var 1))
       (Add (Cst 2) (Mul (Var 0) (Add (Cst (2 / 3)) (Mul (Var 0) (Cst (2 / 5)))))))).
Definition g1_of_e : expr := Mul (Var 0) (e2g_expr rsq).
Definition g1_of_eta : expr := Mul (Var 0) (eta2g_expr (Cabs (Var 0) (Var 1))).
Definition eta1_of_g : expr := Mul (Var 0) (g2eta_expr (Cabs (Var 0) (Var 1))).
(** JacobianWCS._minScale, wcs.py:1235-1242, of JacobianWCS(s, 0, 0, s); variable 0: s *)
Definition min_scale : expr :=
  let h1 := Sqrt (Add (Sq (Add (Var 0) (Var 0))) (Sq (Sub (Cst 0) (Cst 0)))) in
  let h2 := Sqrt (Add (Sq (Sub (Var 0) (Var 0))) (Sq (Add (Cst 0) (Cst 0)))) in
  Mul (Cst 0.5) (Cabs (Sub h1 h2) (Cst 0)).
