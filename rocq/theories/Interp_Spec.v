(** What is expected of interpolation kernels, stated without the code. *)
From Coq Require Import ZArith Reals Bool List.
From Coquelicot Require Import Coquelicot.
Import ListNotations.
Open Scope R_scope.

(** Sum over the integers lo, lo + 1, ..., hi *)
Fixpoint isum (lo : Z) (n : nat) (f : Z -> R) : R := match n with O => 0 | S n => f lo + isum (lo + 1) n f end.
Definition sum_between (lo hi : Z) (f : Z -> R) : R := isum lo (Z.to_nat (hi - lo + 1)) f.
(** Polynomials, lowest coefficient first *)
Definition peval (p : list R) (x : R) : R := fold_right (fun c v => c + x * v) 0 p.
(** A kernel is cardinal when interpolating with it gives the data back. *)
Definition cardinal (K : R -> R) : Prop := K 0 = 1 /\ forall n : Z, n <> 0%Z -> K (IZR n) = 0.
Definition even (K : R -> R) : Prop := forall x, K (- x) = K x.
Definition supported (K : R -> R) (r : R) : Prop := forall x, r < Rabs x -> K x = 0.
(** Interpolating the values of a polynomial of at most [d] coefficients at the integers gives the polynomial;
    the sum runs over any integers that include those within the range of the kernel. *)
Definition reproduces (K : R -> R) (r : R) (d : nat) (ok : R -> Prop) : Prop :=
  forall p t lo hi, (length p <= d)%nat -> ok t -> IZR lo <= t - r -> t + r <= IZR hi ->
    sum_between lo hi (fun k => peval p (IZR k) * K (t - IZR k)) = peval p t.
(** Once continuously differentiable *)
Definition C1 (K : R -> R) : Prop := exists g, forall x, derivable_pt_lim K x (g x) /\ continuity_pt g x.
(** The Fourier transform of an even kernel within [-r, r] *)
Definition transform (K : R -> R) (r : R) (k v : R) : Prop := is_RInt (fun x => K x * cos (k * x)) (- r) r v.
(** Integrals over the unit intervals about 0, 1, ... *)
Definition unit_integral (K : R -> R) (i : nat) (v : R) : Prop := is_RInt K (INR i - 1 / 2) (INR i + 1 / 2) v.
Definition positive_part (f : R -> R) (x : R) : R := Rmax (f x) 0.
Definition negative_part (f : R -> R) (x : R) : R := Rmax (- f x) 0.
(** The Lanczos kernel sin(pi x) / (pi x) sin(pi x / n) / (pi x / n) *)
Definition sincR (x : R) : R := if Req_EM_T x 0 then 1 else sin (PI * x) / (PI * x).
Definition lanczos (n : R) (x : R) : R := if Rlt_dec (Rabs x) n then sincR x * sincR (x / n) else 0.
(** 1 - 2 sum_j K_j (1 - cos(2 pi j x)), j = 1..5 *)
Definition dc (K : nat -> R) (x : R) : R :=
  1 - 2 * (K 1%nat * (1 - cos (2 * PI * x)) + K 2%nat * (1 - cos (2 * PI * (2 * x))) + K 3%nat * (1 - cos (2 * PI * (3 * x)))
           + K 4%nat * (1 - cos (2 * PI * (4 * x))) + K 5%nat * (1 - cos (2 * PI * (5 * x)))).
(** Si(x), the integral of sin t / t from 0 *)
Definition Si_of (si : R -> R) : Prop := forall x, is_RInt (fun t => sincR (t / PI)) 0 x (si x).

(** Strings that differ only in the case of letters *)
From Coq Require Import String Ascii.
Definition same_char (a b : ascii) : Prop :=
  let n := nat_of_ascii a in let m := nat_of_ascii b in
  n = m \/ (65 <= n <= 90 /\ m = n + 32)%nat \/ (65 <= m <= 90 /\ n = m + 32)%nat.
Inductive same_letters : string -> string -> Prop :=
| SameNil : same_letters EmptyString EmptyString
| SameCons : forall a b s t, same_char a b -> same_letters s t -> same_letters (String a s) (String b t).
(** A numeral written with the digits of a list, and the number it stands for *)
Fixpoint numeral (ds : list nat) : string :=
  match ds with nil => EmptyString | cons d ds => String (ascii_of_nat (48 + d)) (numeral ds) end.
Definition value (ds : list nat) : Z := fold_left (fun v d => (v * 10 + Z.of_nat d)%Z) ds 0%Z.
