(** What a user asks of drawImage. *)
From Coq Require Import ZArith Reals Bool List.
From Verif Require Import Base Bounds_Model Bounds_Spec Image_Model Draw_Model.
Import ListNotations.

Section S.
  Context {V D W : Type}.
  Variable T : vops V D W.
  Notation image := (image V D W).

  (** A combination of arguments that contradict each other. *)
  Definition conflicting (a : dargs (V:=V) (D:=D) (W:=W)) : Prop :=
    (exists i, a_image a = Some i /\
       (a_bounds a <> None \/ a_nx a <> None \/ a_ny a <> None \/
        (exists d, a_dtype a = Some d /\ deqb T (idt i) d = false))) \/
    (a_add a = true /\ forall i, a_image a = Some i -> bdef (ibnd i) = false) \/
    (a_image a = None /\ a_bounds a <> None /\ (a_nx a <> None \/ a_ny a <> None)) \/
    (a_image a = None /\ a_bounds a = None /\ (a_nx a = None <-> a_ny a <> None)).

  (** sensible arguments: positive sizes, non-empty bounds *)
  Definition sane (a : dargs (V:=V) (D:=D) (W:=W)) : Prop :=
    (forall n, a_nx a = Some n -> (1 <= n)%Z) /\ (forall n, a_ny a = Some n -> (1 <= n)%Z) /\
    (forall b, a_bounds a = Some b -> wfI b) /\ (forall i, a_image a = Some i -> wfI (ibnd i)).

  (** the place asked for, on the image finally drawn *)
  Definition asked_position (im : image) (a : dargs (V:=V) (D:=D) (W:=W)) : posR :=
    let c := match a_center a with
             | Some c => c
             | None =>
                 if a_utc a
                 then ((IZR (nv (bxmin (ibnd im))) + IZR (nv (xmaxI (ibnd im)))) / 2,
                       (IZR (nv (bymin (ibnd im))) + IZR (nv (ymaxI (ibnd im)))) / 2)%R
                 else match centerI (ibnd im) with Ok (x, y) => (IZR x, IZR y) | Err _ => (0, 0)%R end
             end in
    (fst c + fst (a_offset a), snd c + snd (a_offset a))%R.

  Definition all_zero (im : image) : Prop := forall x y v, getValue im x y = Ok v -> v = vzero T.
End S.

Definition rsum (fs : list (Z -> Z -> R)) (x y : Z) : R := fold_right (fun f s => f x y + s)%R 0%R fs.
