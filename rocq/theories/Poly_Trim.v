(** Smaller polynomials below a given one, so that the checks of Poly_Check stay cheap in the kernel: low bits are cut off, high powers
    are replaced by their least value. *)
From Coq Require Import ZArith Reals List Bool Lra Lia.
From Verif Require Import Poly_Check.
Import ListNotations.
Open Scope R_scope.

(** 2^s trim (2^w x) <= p x for x >= 0 *)
Fixpoint trim (s w : Z) (p : list Z) : list Z := match p with nil => nil | a :: p => Z.shiftr a s :: trim (s + w) w p end.
Lemma shiftr_le : forall a s, (0 <= s)%Z -> IZR (2 ^ s) * IZR (Z.shiftr a s) <= IZR a.
Proof.
  intros a s H. rewrite <- mult_IZR. apply IZR_le. rewrite Z.shiftr_div_pow2 by exact H. apply Z.mul_div_le. apply Z.pow_pos_nonneg; lia.
Qed.
Lemma trim_ok : forall p s w x, (0 <= s)%Z -> (0 <= w)%Z -> 0 <= x -> IZR (2 ^ s) * zpe (trim s w p) (IZR (2 ^ w) * x) <= zpe p x.
Proof.
  induction p as [|a p IH]; intros s w x S W X; cbn [trim zpe]; [lra|]. specialize (IH (s + w)%Z w x ltac:(lia) W X). pose proof (shiftr_le a s S) as A.
  rewrite Z.pow_add_r, mult_IZR in IH by assumption. apply (Rmult_le_compat_l x) in IH; [|exact X]. set (e := zpe (trim (s + w) w p) (IZR (2 ^ w) * x)) in *. lra.
Qed.
(** the first d coefficients, lowered by the negative ones among the rest *)
Definition low (p : list Z) : Z := fold_right (fun a s => (Z.min a 0 + s)%Z) 0%Z p.
Fixpoint chop (d : nat) (p : list Z) : list Z * Z := match d, p with O, p => (nil, low p) | _, nil => (nil, 0%Z) | S d, a :: p => let '(q, l) := chop d p in (a :: q, l) end.
Definition chopped (d : nat) (p : list Z) : list Z := let '(q, l) := chop d p in zadd [l] q.
Lemma low_neg : forall p, (low p <= 0)%Z.
Proof. induction p as [|a p IH]; cbn [low fold_right]; [lia|]. change (fold_right _ 0%Z p) with (low p). lia. Qed.
Lemma low_ok : forall p u, 0 <= u <= 1 -> IZR (low p) <= zpe p u.
Proof.
  induction p as [|a p IH]; intros u U; cbn [low fold_right zpe]; [lra|]. change (fold_right _ 0%Z p) with (low p). specialize (IH u U). rewrite plus_IZR. assert (A : IZR (Z.min a 0) <= IZR a) by (apply IZR_le; lia). pose proof (IZR_le _ _ (low_neg p)) as N. nra.
Qed.
Lemma chop_ok : forall d p u, 0 <= u <= 1 -> zpe (fst (chop d p)) u + IZR (snd (chop d p)) <= zpe p u /\ (snd (chop d p) <= 0)%Z.
Proof.
  induction d as [|d IH]; intros p u U.
  - assert (E : chop 0 p = (nil, low p)) by (destruct p; reflexivity). rewrite E. cbn [fst snd zpe]. pose proof (low_ok p u U). split; [lra|apply low_neg].
  - destruct p as [|a p]; cbn [chop]; [cbn; split; [lra|lia]|]. specialize (IH p u U). destruct (chop d p) as [q l]. cbn [fst snd zpe] in *. destruct IH as [A B]. split; [|exact B]. pose proof (IZR_le _ _ B). nra.
Qed.
Lemma chopped_ok : forall d p u, 0 <= u <= 1 -> zpe (chopped d p) u <= zpe p u.
Proof. intros d p u U. pose proof (proj1 (chop_ok d p u U)) as H. unfold chopped. destruct (chop d p) as [q l]. cbn [fst snd] in H. rewrite zpe_add. cbn [zpe]. lra. Qed.
(** checks on [0, 2^-w] *)
Definition small (k : nat) (s w : Z) (p : list Z) : list Z := chopped k (trim s w p).
Lemma small_ok : forall k s w p x, (0 <= s)%Z -> (0 <= w)%Z -> 0 <= x -> IZR (2 ^ w) * x <= 1 -> 0 <= zpe (small k s w p) (IZR (2 ^ w) * x) -> 0 <= zpe p x.
Proof.
  intros k s w p x S W X U H. eapply Rle_trans; [|apply (trim_ok p s w x S W X)]. apply Rmult_le_pos; [apply IZR_le; apply Z.pow_nonneg; lia|]. eapply Rle_trans; [exact H|]. apply chopped_ok. split; [|exact U]. apply Rmult_le_pos; [apply IZR_le; apply Z.pow_nonneg; lia|exact X].
Qed.
Lemma small_dyadic : forall d k s w p x, (0 <= s)%Z -> (0 <= w)%Z -> dyadic d 1 (small k s w p) = true -> 0 <= x -> IZR (2 ^ w) * x <= 1 -> 0 <= zpe p x.
Proof.
  intros d k s w p x S W H X U. apply (small_ok k s w p x S W X U). apply (dyadic_ok d 1 _ _ H). rewrite Rmult_1_l. split; [|exact U]. apply Rmult_le_pos; [apply IZR_le; apply Z.pow_nonneg; lia|exact X].
Qed.
Lemma small_pieces : forall n M i k s w p x, (0 <= s)%Z -> (0 <= w)%Z -> pieces n M i (small k s w p) = true -> (0 < n)%nat -> 0 <= x -> IZR (2 ^ w) * x <= 1 ->
  IZR i <= IZR M * (IZR (2 ^ w) * x) <= IZR i + INR n -> 0 <= zpe p x.
Proof. intros n M i k s w p x S W H N X U I. apply (small_ok k s w p x S W X U). apply (pieces_ok n M i _ _ H N I). Qed.
(** p (c x) *)
Fixpoint dilate (c m : Z) (p : list Z) : list Z := match p with nil => nil | a :: p => (m * a)%Z :: dilate c (c * m) p end.
Lemma dilate_ok : forall p c m x, zpe (dilate c m p) x = IZR m * zpe p (IZR c * x).
Proof. induction p as [|a p IH]; intros c m x; cbn [dilate zpe]; [ring|]. rewrite IH, !mult_IZR. ring. Qed.
