(** A decision procedure for lower bounds: integer polynomials that are not negative on an interval between k / M and (k + 1) / M.
    The polynomial is moved to [0, 1] and expanded in 1 / (1 + s), s >= 0; all coefficients must be non-negative. *)
From Coq Require Import ZArith Reals List Bool Lra Lia.
Import ListNotations.
Open Scope R_scope.

Fixpoint zpe (p : list Z) (x : R) : R := match p with nil => 0 | a :: p => IZR a + x * zpe p x end.
Fixpoint zadd (p q : list Z) : list Z := match p, q with nil, q => q | p, nil => p | a :: p, b :: q => (a + b)%Z :: zadd p q end.
Definition zscale (c : Z) (p : list Z) : list Z := map (Z.mul c) p.
Fixpoint zmul (p q : list Z) : list Z := match p with nil => nil | a :: p => zadd (zscale a q) (0%Z :: zmul p q) end.
Fixpoint zderiv_from (k : Z) (p : list Z) : list Z := match p with nil => nil | a :: p => (k * a)%Z :: zderiv_from (k + 1) p end.
Definition zderiv (p : list Z) : list Z := zderiv_from 1 (tl p).
Lemma zpe_add : forall p q x, zpe (zadd p q) x = zpe p x + zpe q x.
Proof. induction p as [|a p IH]; intros [|b q] x; cbn [zadd zpe]; try ring. rewrite plus_IZR, IH. ring. Qed.
Lemma zpe_scale : forall c p x, zpe (zscale c p) x = IZR c * zpe p x.
Proof. intros c p x. unfold zscale. induction p as [|a p IH]; cbn [map zpe]; [ring|]. rewrite mult_IZR, IH. ring. Qed.
Lemma zpe_mul : forall p q x, zpe (zmul p q) x = zpe p x * zpe q x.
Proof. induction p as [|a p IH]; intros q x; cbn [zmul zpe]; [ring|]. rewrite zpe_add, zpe_scale. cbn [zpe]. rewrite IH. ring. Qed.

(** M^(n - 1) p ((k + t) / M), n coefficients *)
Fixpoint zshift (M k : Z) (p : list Z) : list Z :=
  match p with nil => nil | a :: p => zadd [(a * M ^ Z.of_nat (length p))%Z] (zmul [k; 1%Z] (zshift M k p)) end.
(** (1 + s)^(n - 1) q (1 / (1 + s)) *)
Definition zflip (q : list Z) : list Z := fold_left (fun acc c => zadd (zmul [1%Z; 1%Z] acc) [c]) q [].
Definition nonneg (M k : Z) (p : list Z) : bool :=
  let q := zshift M k p in (0 <? M)%Z && (0 <=? hd 0 q)%Z && forallb (Z.leb 0) (zflip q).
Lemma zshift_ok : forall M k p t, (0 < M)%Z -> zpe (zshift M k p) t * IZR M = IZR M ^ length p * zpe p ((IZR k + t) / IZR M).
Proof.
  intros M k p t H. assert (M0 : 0 < IZR M) by (apply IZR_lt; exact H). induction p as [|a p IH]; [cbn; ring|]. cbn [zshift length]. rewrite zpe_add, zpe_mul. cbn [zpe]. rewrite mult_IZR, <- pow_IZR. cbn [pow].
  assert (E : zpe p ((IZR k + t) / IZR M) * IZR M ^ length p = zpe (zshift M k p) t * IZR M) by lra. rewrite 2!Rmult_plus_distr_r.
  replace (IZR M * IZR M ^ length p * (IZR a + (IZR k + t) / IZR M * zpe p ((IZR k + t) / IZR M))) with (IZR M * IZR M ^ length p * IZR a + (IZR k + t) * (zpe p ((IZR k + t) / IZR M) * IZR M ^ length p)) by (field; lra). rewrite E. ring.
Qed.
Lemma zflip_ok : forall q s, -1 < s -> zpe (zflip q) s * (1 + s) = (1 + s) ^ length q * zpe q (1 / (1 + s)).
Proof.
  intros q s H. unfold zflip. assert (G : forall q acc, zpe (fold_left (fun acc c => zadd (zmul [1%Z; 1%Z] acc) [c]) q acc) s * (1 + s) = (1 + s) ^ length q * (zpe acc s * (1 + s) + zpe q (1 / (1 + s)))).
  { clear q. induction q as [|a q IH]; intro acc; cbn [fold_left length pow zpe]; [ring|]. rewrite IH, zpe_add, zpe_mul. cbn [zpe]. set (A := zpe acc s). set (Y := zpe q (1 / (1 + s))). field. lra. }
  rewrite G. cbn [zpe]. ring.
Qed.
Lemma zpe_pos : forall p s, 0 <= s -> forallb (Z.leb 0) p = true -> 0 <= zpe p s.
Proof. intros p s H. induction p as [|a p IH]; cbn [forallb zpe]; [intros _; lra|]. rewrite andb_true_iff. intros [A B]. apply Z.leb_le, IZR_le in A. specialize (IH B). assert (0 <= s * zpe p s) by (apply Rmult_le_pos; assumption). lra. Qed.
Lemma nonneg_ok : forall M k p x, nonneg M k p = true -> IZR k <= IZR M * x <= IZR k + 1 -> 0 <= zpe p x.
Proof.
  intros M k p x H X. unfold nonneg in H. rewrite !andb_true_iff in H. destruct H as [[M0 H0] H]. apply Z.ltb_lt in M0. pose proof M0 as M1. apply IZR_lt in M1. set (t := IZR M * x - IZR k).
  assert (E : x = (IZR k + t) / IZR M) by (unfold t; field; lra). assert (Q : 0 <= zpe (zshift M k p) t).
  { destruct (Req_dec t 0) as [->|T]. { destruct (zshift M k p) as [|a q]; cbn [zpe hd] in *; [lra|]. apply Z.leb_le, IZR_le in H0. lra. }
    assert (T0 : 0 < t) by (unfold t in *; lra). set (s := / t - 1). assert (S0 : 0 <= s). { unfold s. assert (1 <= / t) by (rewrite <- Rinv_1; apply Rinv_le_contravar; unfold t in *; lra). lra. }
    pose proof (zflip_ok (zshift M k p) s ltac:(lra)) as F. replace (1 / (1 + s)) with t in F by (unfold s; field; lra). pose proof (zpe_pos _ s S0 H) as P. assert (W : 0 < (1 + s) ^ length (zshift M k p)) by (apply pow_lt; lra).
    apply (Rmult_le_reg_l ((1 + s) ^ length (zshift M k p))); [exact W|]. rewrite Rmult_0_r, <- F. apply Rmult_le_pos; lra. }
  pose proof (zshift_ok M k p t M0) as S. rewrite <- E in S. apply (Rmult_le_reg_l (IZR M ^ length p)); [apply pow_lt; exact M1|]. rewrite Rmult_0_r, <- S. apply Rmult_le_pos; lra.
Qed.
(** [0, 1 / M] from dyadic pieces: [0, 1 / 2^d M], [1 / 2^d M, 2 / 2^d M], ..., [1 / 2 M, 1 / M] *)
Fixpoint dyadic (d : nat) (M : Z) (p : list Z) : bool := match d with O => nonneg M 0 p | S d => nonneg (2 * M) 1 p && dyadic d (2 * M) p end.
Lemma dyadic_ok : forall d M p x, dyadic d M p = true -> 0 <= IZR M * x <= 1 -> 0 <= zpe p x.
Proof.
  induction d as [|d IH]; intros M p x H X; cbn [dyadic] in H; [apply (nonneg_ok M 0 p x H); lra|]. apply andb_true_iff in H. destruct H as [A B]. destruct (Rle_lt_dec 1 (IZR (2 * M) * x)) as [l|l].
  - apply (nonneg_ok (2 * M) 1 p x A). rewrite mult_IZR in *. lra.
  - apply (IH (2 * M)%Z p x B). rewrite mult_IZR in *. lra.
Qed.
(** consecutive pieces from k / M to (k + n) / M *)
Fixpoint pieces (n : nat) (M k : Z) (p : list Z) : bool := match n with O => true | S n => nonneg M k p && pieces n M (k + 1) p end.
Lemma pieces_ok : forall n M k p x, pieces n M k p = true -> (0 < n)%nat -> IZR k <= IZR M * x <= IZR k + INR n -> 0 <= zpe p x.
Proof.
  induction n as [|n IH]; intros M k p x H N X; [lia|]. cbn [pieces] in H. apply andb_true_iff in H. destruct H as [A B]. destruct (Rle_lt_dec (IZR M * x) (IZR k + 1)) as [l|l]; [apply (nonneg_ok M k p x A); lra|].
  rewrite S_INR in X. destruct n as [|n]; [change (INR 0) with 0 in X; lra|]. apply (IH M (k + 1)%Z p x B); [lia|]. rewrite plus_IZR. lra.
Qed.
