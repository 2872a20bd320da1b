(** Rational polynomials: integration, evaluation, integer multiples; sine and cosine between their Taylor polynomials. *)
From Coq Require Import ZArith QArith Qreals Reals List Bool Lra Lia.
From Coquelicot Require Import Coquelicot.
From Verif Require Import Num_Consts Poly_Check.
Import ListNotations.
Open Scope R_scope.
Local Ltac rring := match goal with |- ?a = ?b => change (@eq R a b); ring end.

Fixpoint qpe (p : list Q) (x : R) : R := match p with nil => 0 | a :: p => Q2R a + x * qpe p x end.
Fixpoint qint_from (k : positive) (p : list Q) : list Q := match p with nil => nil | a :: p => Qred (a / (Zpos k # 1)) :: qint_from (Pos.succ k) p end.
Definition qint (p : list Q) : list Q := 0%Q :: qint_from 1 p.
Definition qopp (p : list Q) : list Q := map Qopp p.
Lemma qpe_opp : forall p x, qpe (qopp p) x = - qpe p x.
Proof. induction p as [|a p IH]; intro x; cbn [qopp map qpe]; [ring|]. rewrite Q2R_opp. unfold qopp in IH. rewrite IH. ring. Qed.
(** x^k q_k(x) where the coefficients of q_k are those of p over k, k + 1, ...; its derivative is x^(k-1) p *)
Lemma qint_from_ok : forall p k x, is_derive (fun x => x ^ Pos.to_nat k * qpe (qint_from k p) x) x (x ^ (Pos.to_nat k - 1) * qpe p x).
Proof.
  induction p as [|a p IH]; intros k x; cbn [qint_from qpe].
  - apply (is_derive_ext (fun _ => 0)); [intro t; change (0 = t ^ Pos.to_nat k * 0); ring|]. replace (x ^ (Pos.to_nat k - 1) * 0) with 0 by ring. apply (@is_derive_const R_AbsRing R_NormedModule).
  - assert (K : (0 < Pos.to_nat k)%nat) by apply Pos2Nat.is_pos. specialize (IH (Pos.succ k) x). rewrite Pos2Nat.inj_succ in IH. replace (S (Pos.to_nat k) - 1)%nat with (Pos.to_nat k) in IH by lia.
    apply (is_derive_ext (fun x => Q2R (Qred (a / (Zpos k # 1))) * x ^ Pos.to_nat k + x ^ S (Pos.to_nat k) * qpe (qint_from (Pos.succ k) p) x)); [intro t; cbn [pow]; rring|].
    assert (PX : x ^ Pos.to_nat k = x * x ^ (Pos.to_nat k - 1)) by (destruct (Pos.to_nat k) as [|j]; [lia|]; cbn [pow Nat.sub]; rewrite Nat.sub_0_r; reflexivity).
    assert (EE : Q2R a * x ^ (Pos.to_nat k - 1) + x ^ Pos.to_nat k * qpe p x = x ^ (Pos.to_nat k - 1) * (Q2R a + x * qpe p x)) by (rewrite PX; ring). rewrite <- EE.
    apply (is_derive_plus (fun x => Q2R (Qred (a / (Zpos k # 1))) * x ^ Pos.to_nat k)); [|exact IH]. rewrite Q2R_red, Q2R_div by (intro E; discriminate E). set (m := Pos.to_nat k) in *.
    assert (V : Q2R (Zpos k # 1) = INR m). { unfold Q2R, m. cbn [Qnum Qden]. rewrite INR_IZR_INZ, positive_nat_Z. field. }
    rewrite V. assert (M0 : 0 < INR m) by (apply lt_0_INR; exact K). auto_derive; [exact Logic.I|]. unfold pred. destruct m as [|m]; [lia|]. replace (S m - 1)%nat with m by lia. field. apply not_0_INR. lia.
Qed.
Lemma qint_ok : forall p x, is_derive (qpe (qint p)) x (qpe p x).
Proof.
  intros p x. pose proof (qint_from_ok p 1 x) as H. change (Pos.to_nat 1) with 1%nat in H. apply (is_derive_ext (fun x => x ^ 1 * qpe (qint_from 1 p) x)); [intro t; unfold qint; cbn [qpe pow]; rewrite RMicromega.Q2R_0; rring|].
  refine (eq_ind _ (fun z => is_derive _ x z) H _ _). cbn [Nat.sub pow]. rring.
Qed.
Lemma qint_0 : forall p, qpe (qint p) 0 = 0.
Proof. intro p. unfold qint. cbn [qpe]. rewrite RMicromega.Q2R_0. ring. Qed.
(** Taylor polynomials of the sine and the cosine *)
Fixpoint cosp (n : nat) : list Q := match n with O => [1%Q] | S n => match qopp (qint (qint (cosp n))) with nil => [1%Q] | a :: p => Qred (1 + a) :: p end end.
Definition sinp (n : nat) : list Q := qint (cosp n).
Lemma cosp_S : forall n x, qpe (cosp (S n)) x = 1 - qpe (qint (sinp n)) x.
Proof. intros n x. cbn [cosp]. unfold sinp. rewrite <- (Ropp_involutive (qpe (qint (qint (cosp n))) x)), <- qpe_opp. unfold qint at 1 3. cbn [qopp map qpe]. rewrite Q2R_red, Q2R_plus, RMicromega.Q2R_1. ring. Qed.
Lemma grows2 : forall (f g f' g' : R -> R) x, 0 <= x -> f 0 = g 0 -> (forall t, is_derive f t (f' t)) -> (forall t, is_derive g t (g' t)) -> (forall t, 0 <= t <= x -> f' t <= g' t) -> f x <= g x.
Proof.
  intros f g f' g' x X E F G H. pose proof (grows (fun t => g t - f t) (fun t => g' t - f' t) x X) as K. assert (g 0 - f 0 <= g x - f x); [|lra]. apply K; [intros t _; apply (is_derive_minus g f); auto|]. intros t T. specialize (H t T). lra.
Qed.
Definition below (b : bool) (x y : R) : Prop := if b then y <= x else x <= y.
(** the cosine is below the even ones and above the odd ones; so is the sine *)
Lemma taylor : forall n x, 0 <= x -> below (Nat.odd n) (cos x) (qpe (cosp n) x) /\ below (Nat.odd n) (sin x) (qpe (sinp n) x).
Proof.
  assert (SC : forall n, (forall x, 0 <= x -> below (Nat.odd n) (cos x) (qpe (cosp n) x)) -> forall x, 0 <= x -> below (Nat.odd n) (sin x) (qpe (sinp n) x)).
  { intros n H x X. assert (E : sin 0 = qpe (sinp n) 0) by (unfold sinp; rewrite qint_0; apply sin_0). destruct (Nat.odd n); cbn [below] in *.
    - apply (grows2 (qpe (sinp n)) sin (qpe (cosp n)) cos x X (eq_sym E)); [intro; apply qint_ok|intro; apply is_derive_sin|]. intros t T. apply H. lra.
    - apply (grows2 sin (qpe (sinp n)) cos (qpe (cosp n)) x X E); [intro; apply is_derive_sin|intro; apply qint_ok|]. intros t T. apply H. lra. }
  assert (CC : forall n x, 0 <= x -> below (Nat.odd n) (cos x) (qpe (cosp n) x)).
  { induction n as [|n IH]; intros x X. { cbn [Nat.odd Nat.even negb below cosp qpe]. rewrite RMicromega.Q2R_1. pose proof (COS_bound x). lra. }
    rewrite Nat.odd_succ, <- Nat.negb_odd. pose proof (SC n IH) as K. rewrite cosp_S. assert (E : 1 - cos 0 = qpe (qint (sinp n)) 0) by (rewrite qint_0, cos_0; ring).
    assert (DC : forall t, is_derive (fun t => 1 - cos t) t (sin t)) by (intro t; auto_derive; [exact Logic.I|ring]). destruct (Nat.odd n); cbn [below negb] in *.
    - assert (qpe (qint (sinp n)) x <= 1 - cos x); [|lra]. apply (grows2 (qpe (qint (sinp n))) (fun t => 1 - cos t) (qpe (sinp n)) sin x X (eq_sym E)); [intro; apply qint_ok|exact DC|]. intros t T. apply K. lra.
    - assert (1 - cos x <= qpe (qint (sinp n)) x); [|lra]. apply (grows2 (fun t => 1 - cos t) (qpe (qint (sinp n))) sin (qpe (sinp n)) x X E); [exact DC|intro; apply qint_ok|]. intros t T. apply K. lra. }
  intros n x X. split; [apply CC, X|apply SC; [apply CC|exact X]].
Qed.
(** evaluation at a rational *)
Fixpoint qev (p : list Q) (x : Q) : Q := match p with nil => 0%Q | a :: p => Qred (a + x * qev p x) end.
Lemma qev_ok : forall p x, Q2R (qev p x) = qpe p (Q2R x).
Proof. induction p as [|a p IH]; intro x; cbn [qev qpe]; [apply RMicromega.Q2R_0|]. rewrite Q2R_red, Q2R_plus, Q2R_mult, IH. reflexivity. Qed.
(** integer multiples *)
Definition clear (W : positive) (p : list Q) : list Z := map (fun a => (Qnum a * (Zpos W / Zpos (Qden a)))%Z) p.
Definition clears (W : positive) (p : list Q) : bool := forallb (fun a => (Zpos (Qden a) * (Zpos W / Zpos (Qden a)) =? Zpos W)%Z) p.
Lemma clear_ok : forall W p x, clears W p = true -> zpe (clear W p) x = IZR (Zpos W) * qpe p x.
Proof.
  intros W p x. induction p as [|a p IH]; unfold clears, clear; cbn [forallb map zpe qpe]; [intros _; ring|]. rewrite andb_true_iff. intros [A B]. specialize (IH B). unfold clear in IH. rewrite IH. apply Z.eqb_eq in A. assert (E : IZR (Zpos W) = IZR (Zpos (Qden a)) * IZR (Zpos W / Zpos (Qden a))) by (rewrite <- mult_IZR, A; reflexivity). unfold Q2R. rewrite mult_IZR. set (w := IZR (Zpos W / Zpos (Qden a))) in *. rewrite E. field. apply IZR_neq. discriminate.
Qed.
(** a polynomial in the square *)
Fixpoint spread (p : list Z) : list Z := match p with nil => nil | a :: p => a :: 0%Z :: spread p end.
Lemma spread_ok : forall p x, zpe (spread p) x = zpe p (x * x).
Proof. induction p as [|a p IH]; intro x; cbn [spread zpe]; [reflexivity|]. rewrite IH. ring. Qed.
