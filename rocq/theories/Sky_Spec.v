(** Geometry of the unit sphere, to state what celestial coordinates should do. *)
From Coq Require Import Reals.
From Verif Require Import Angle_Spec Sky_Model.
Open Scope R_scope.

Definition v3 : Type := (R * R * R)%type.
Definition v3dot (p q : v3) : R := let '(a, b, c) := p in let '(x, y, z) := q in a * x + b * y + c * z.
Definition v3add (p q : v3) : v3 := let '(a, b, c) := p in let '(x, y, z) := q in (a + x, b + y, c + z).
Definition v3scale (k : R) (p : v3) : v3 := let '(x, y, z) := p in (k * x, k * y, k * z).
Definition v3cross (p q : v3) : v3 :=
  let '(a, b, c) := p in let '(x, y, z) := q in (b * z - c * y, c * x - a * z, a * y - b * x).
Definition v3norm (p : v3) : R := sqrt (v3dot p p).

(** The point of the sphere at a longitude and latitude, and the unit tangents there. *)
Definition sky (lon lat : R) : v3 := (cos lat * cos lon, cos lat * sin lon, sin lat).
Definition east (lon : R) : v3 := (- sin lon, cos lon, 0).
Definition north (lon lat : R) : v3 := (- sin lat * cos lon, - sin lat * sin lon, cos lat).

Definition latitude (d : R) : Prop := - PI / 2 <= d <= PI / 2.
(** The angle between two unit vectors *)
Definition angle_of (p q : v3) (t : R) : Prop := 0 <= t <= PI /\ cos t = v3dot p q.
(** A point of the plane tangent at (lon, lat), with x to the west and y to the north: the vector
    from the point of contact *)
Definition in_plane (lon lat u v : R) : v3 := v3add (v3scale (- u) (east lon)) (v3scale v (north lon lat)).
(** The part of p perpendicular to c *)
Definition perp (c p : v3) : v3 := v3add p (v3scale (- v3dot p c) c).
(** Rigid maps of space *)
Definition rigid (f : v3 -> v3) : Prop := forall p q, v3dot (f p) (f q) = v3dot p q.
(** Rotations: rigid and keeping handedness *)
Definition rotation (f : v3 -> v3) : Prop :=
  rigid f /\ forall p q, f (v3cross p q) = v3cross (f p) (f q).
(** Where each projection is defined: on the sky, as a condition on the cosine of the distance; in the plane, on the radius *)
Definition sky_ok (p : proj) (cosc : R) : Prop := match p with Gnomonic => 0 < cosc | _ => -1 < cosc end.
Definition plane_ok (p : proj) (rsq : R) : Prop :=
  match p with Gnomonic | Stereographic => True | Lambert => rsq < 4 | Postel => rsq < PI * PI end.
(** A point moving on the sphere: at time t its velocity is e to the east and n to the north *)
Definition moves (f : R -> R * R) (t e n : R) : Prop :=
  let '(lon, lat) := f t in
  forall w : v3, derivable_pt_lim (fun s => v3dot w (sky (fst (f s)) (snd (f s)))) t
                   (v3dot w (v3add (v3scale e (east lon)) (v3scale n (north lon lat)))).
