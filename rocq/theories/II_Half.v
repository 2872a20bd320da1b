(** The stored half of the k plane stands for the whole plane. *)
From Coq Require Import ZArith Reals Lra Lia ZifyBool Bool List.
From Coquelicot Require Import Coquelicot.
From Verif Require Import Base Array_Model Bounds_Model Bounds_Proofs FFT_Model FFT_Proofs Geo_Model MSum
  Interp_Model Interp_Spec II_Model II_Spec II_Proofs.
Open Scope R_scope.

Lemma Cplus_comm' : forall a b : C, Cplus a b = Cplus b a. Proof. exact Cplus_comm. Qed.
Lemma Cplus_as : forall a b c : C, Cplus a (Cplus b c) = Cplus (Cplus a b) c. Proof. exact Cplus_assoc. Qed.
Lemma Cplus_z : forall a : C, Cplus (RtoC 0) a = a. Proof. exact Cplus_0_l. Qed.
Definition cwindow := zsum_window C Cplus (RtoC 0) Cplus_comm' Cplus_as Cplus_z.

Lemma periodic : forall N (g : Z -> C), (forall x, g (x + N)%Z = g x) -> forall n x, g (x + n * N)%Z = g x.
Proof.
  intros N g H n. assert (P : forall m, (0 <= m)%Z -> forall x, g (x + m * N)%Z = g x).
  { intros m Hm. pattern m. apply natlike_ind; [intro; f_equal; lia| |exact Hm].
    intros k Hk IH x. replace (x + Z.succ k * N)%Z with ((x + k * N) + N)%Z by lia. rewrite H. apply IH. }
  intro x. destruct (Z_le_gt_dec 0 n) as [l|l]; [now apply P|].
  rewrite <- (P (- n)%Z ltac:(lia) (x + n * N)%Z). f_equal. lia.
Qed.
Lemma plane_mod : forall N F, (0 < N)%Z -> hermitian_plane N F -> forall x y u v, (x mod N = u mod N)%Z -> (y mod N = v mod N)%Z -> F x y = F u v.
Proof.
  intros N F P (Hx & Hy & _) x y u v Ex Ey.
  rewrite (Z.div_mod x N), (Z.div_mod u N), (Z.div_mod y N), (Z.div_mod v N) by lia.
  rewrite Ex, Ey. set (a := (u mod N)%Z). set (b := (v mod N)%Z).
  replace (N * (x / N) + a)%Z with (a + (x / N) * N)%Z by lia. replace (N * (u / N) + a)%Z with (a + (u / N) * N)%Z by lia.
  replace (N * (y / N) + b)%Z with (b + (y / N) * N)%Z by lia. replace (N * (v / N) + b)%Z with (b + (v / N) * N)%Z by lia.
  rewrite (periodic N (fun x => F x _) (fun x => Hx x _)), (periodic N (fun x => F x _) (fun x => Hx x _)).
  rewrite (periodic N (fun y => F a y) (fun y => Hy a y)), (periodic N (fun y => F a y) (fun y => Hy a y)). reflexivity.
Qed.
Lemma half_ok : forall h F zp, (1 <= h)%Z -> hermitian_plane (2 * h) F -> holds_half zp h F ->
  forall i j, half_lookup zp ((j + h) mod (2 * h)) ((i + h) mod (2 * h)) = F i j.
Proof.
  intros h F zp Hh HP (Zr & Zc & Ze) i j. unfold half_lookup. cbv zeta. rewrite Zr, Zc.
  replace ((h + 1 - 1) * 2)%Z with (2 * h)%Z by lia. replace (h + 1 - 1)%Z with h by lia.
  assert (Bi := Z.mod_pos_bound (i + h) (2 * h) ltac:(lia)). assert (Bj := Z.mod_pos_bound (j + h) (2 * h) ltac:(lia)).
  set (ci := ((i + h) mod (2 * h))%Z) in *. set (cj := ((j + h) mod (2 * h))%Z) in *.
  assert (Ei : (i mod (2 * h) = (ci - h) mod (2 * h))%Z).
  { unfold ci. rewrite Zminus_mod_idemp_l. f_equal. lia. }
  assert (Ej : (j mod (2 * h) = (cj - h) mod (2 * h))%Z).
  { unfold cj. rewrite Zminus_mod_idemp_l. f_equal. lia. }
  clearbody ci cj. assert (P2 : (0 < 2 * h)%Z) by (clear - Hh; lia).
  destruct HP as (Hx & Hy & HH). assert (HP : hermitian_plane (2 * h) F) by (repeat split; assumption).
  destruct (Z.ltb_spec ci h) as [l|l].
  - assert (Bm := Z.mod_pos_bound (2 * h - cj) (2 * h) P2). unfold gather. rewrite Zr, Zc, !gidx_in by (clear Ei Ej; lia).
    rewrite Ze by (clear Ei Ej; lia).
    transitivity (Cconj (F (- (ci - h))%Z (- (cj - h))%Z)).
    + f_equal. apply (plane_mod (2 * h)); [exact P2|exact HP|f_equal; clear; lia|].
      rewrite Zminus_mod_idemp_l. f_equal. clear; lia.
    + rewrite HH. unfold Cconj. destruct (F (ci - h)%Z (cj - h)%Z) as [a b] eqn:E. cbn [fst snd]. rewrite Ropp_involutive. rewrite <- E.
      symmetry. apply (plane_mod (2 * h)); [exact P2|exact HP|exact Ei|exact Ej].
  - unfold gather. rewrite Zr, Zc, !gidx_in by (clear Ei Ej; lia). rewrite Ze by (clear Ei Ej; lia).
    symmetry. apply (plane_mod (2 * h)); [exact P2|exact HP|exact Ei|exact Ej].
Qed.
Lemma draw_k_window : forall K ix kx ky h F zp, (1 <= h)%Z -> hermitian_plane (2 * h) F -> holds_half zp h F ->
  draw_kval K ix kx ky (- h) (- h) zp =
  interpolate_plane K F (floorR kx - ix / 2) (2 * (ix / 2) + 1) (floorR ky - ix / 2) (2 * (ix / 2) + 1) kx ky.
Proof.
  intros K ix kx ky h F zp Hh HP HZ. unfold draw_kval, interpolate_plane. cbv zeta. unfold weight_k. cbv zeta.
  rewrite !floor_shift. apply zsum_ext. intros b Hb. apply zsum_ext. intros a Ha. cbv zeta.
  destruct HZ as (Zr & Zc & Ze). rewrite Zr, Zc. replace ((h + 1 - 1) * 2)%Z with (2 * h)%Z by lia.
  pose proof (floor_shift kx (- h)) as Fx. pose proof (floor_shift ky (- h)) as Fy.
  replace (floorR (kx - IZR (- h)) + (a - ix / 2))%Z with ((floorR kx - ix / 2 + a) + h)%Z by lia.
  replace (floorR (ky - IZR (- h)) + (b - ix / 2))%Z with ((floorR ky - ix / 2 + b) + h)%Z by lia.
  rewrite (half_ok h F zp) by (try assumption; repeat split; assumption).
  replace (floorR kx + (a - ix / 2))%Z with (floorR kx - ix / 2 + a)%Z by lia.
  replace (floorR ky + (b - ix / 2))%Z with (floorR ky - ix / 2 + b)%Z by lia.
  rewrite RtoC_mult. ring.
Qed.
(** Any window that covers the kernel gives the same. *)
Lemma plane_any : forall K ir F x y lox nx loy ny, covered K ir -> (0 <= nx)%Z -> (0 <= ny)%Z ->
  IZR lox <= x - IZR ir -> x + IZR ir < IZR (lox + nx) -> IZR loy <= y - IZR ir -> y + IZR ir < IZR (loy + ny) ->
  interpolate_plane K F (floorR x - ir) (2 * ir + 1) (floorR y - ir) (2 * ir + 1) x y =
  interpolate_plane K F lox nx loy ny x y.
Proof.
  intros K ir F x y lox nx loy ny S Nx Ny X1 X2 Y1 Y2. unfold interpolate_plane. cbv zeta.
  assert (P : (0 <= ir)%Z) by apply S.
  assert (Out : forall t lo n i, IZR lo <= t - IZR ir -> t + IZR ir < IZR (lo + n) -> (i < lo \/ lo + n <= i)%Z -> K (t - IZR i) = 0).
  { intros t lo n i A B [H|H]; apply S; apply IZR_le in P.
    - assert (IZR i <= IZR (lo - 1)) by (apply IZR_le; lia). rewrite minus_IZR in H0. rewrite Rabs_right; lra.
    - apply IZR_le in H. rewrite Rabs_left; lra. }
  transitivity (zsum Cplus (RtoC 0) (2 * ir + 1) (fun b => zsum Cplus (RtoC 0) nx (fun a =>
    (fun j => Cmult (F (lox + a)%Z j) (RtoC (K (x - IZR (lox + a)) * K (y - IZR j)))) (floorR y - ir + b)%Z))).
  - apply zsum_ext. intros b Hb. cbv beta.
    apply (cwindow (fun i => Cmult (F i (floorR y - ir + b)%Z) (RtoC (K (x - IZR i) * K (y - IZR (floorR y - ir + b)))))); try lia.
    + intros i Hi. rewrite (Out x lox nx i X1 X2 Hi). rewrite Rmult_0_l. apply Cmult_0_r.
    + intros i Hi. rewrite (beyond_window K ir x i S Hi). rewrite Rmult_0_l. apply Cmult_0_r.
  - rewrite (zsum_swap C Cplus (RtoC 0) Cplus_comm' Cplus_as Cplus_z), (zsum_swap C Cplus (RtoC 0) Cplus_comm' Cplus_as Cplus_z ny).
    apply zsum_ext. intros a Ha.
    apply (cwindow (fun j => Cmult (F (lox + a)%Z j) (RtoC (K (x - IZR (lox + a)) * K (y - IZR j))))); try lia.
    + intros j Hj. rewrite (Out y loy ny j Y1 Y2 Hj). rewrite Rmult_0_r. apply Cmult_0_r.
    + intros j Hj. rewrite (beyond_window K ir y j S Hj). rewrite Rmult_0_r. apply Cmult_0_r.
Qed.
Lemma plane_center : forall K ir F (m n : Z), (0 <= ir)%Z -> cardinal K ->
  interpolate_plane K F (m - ir) (2 * ir + 1) (n - ir) (2 * ir + 1) (IZR m) (IZR n) = F m n.
Proof.
  intros K ir F m n H Cd. unfold interpolate_plane. cbv zeta.
  transitivity (zsum Cplus (RtoC 0) (2 * ir + 1) (fun b => if (b =? ir)%Z then F m n else RtoC 0)).
  - apply zsum_ext. intros b Hb.
    transitivity (zsum Cplus (RtoC 0) (2 * ir + 1) (fun a => if (a =? ir)%Z then (if (b =? ir)%Z then F m n else RtoC 0) else RtoC 0)).
    + apply zsum_ext. intros a Ha. rewrite !(cardinal_at K) by assumption.
      replace ((m - ir + a =? m)%Z) with ((a =? ir)%Z) by lia. replace ((n - ir + b =? n)%Z) with ((b =? ir)%Z) by lia.
      destruct (Z.eqb_spec a ir) as [->|na]; destruct (Z.eqb_spec b ir) as [->|nb]; rewrite ?Rmult_0_l, ?Rmult_0_r; try apply Cmult_0_r.
      replace (m - ir + ir)%Z with m by lia. replace (n - ir + ir)%Z with n by lia. rewrite Rmult_1_l. apply Cmult_1_r.
    + apply (zsum_single C Cplus (RtoC 0) Cplus_comm' Cplus_as Cplus_z _ _ (fun _ => if (b =? ir)%Z then F m n else RtoC 0)). lia.
  - apply (zsum_single C Cplus (RtoC 0) Cplus_comm' Cplus_as Cplus_z _ _ (fun _ => F m n)). lia.
Qed.
