(** What a user may expect of a celestial coordinate system. *)
From Coq Require Import ZArith Reals Bool.
From Coquelicot Require Import Coquelicot.
From Verif Require Import Base Geo_Model Sky_Spec Cel_Model.
Open Scope R_scope.

(** The direction, as a unit vector, that the image position p looks at *)
Definition direction {W} (O : celops W) (w : W) (p : vec) : v3 :=
  let '(ra, dec) := c_radec O w (vsub p (c_origin O w)) in sky ra dec.
(** The velocity of a moving vector *)
Definition velocity_of (f : R -> v3) (t : R) (d : v3) : Prop := forall n : v3, derivable_pt_lim (fun s => v3dot n (f s)) t (v3dot n d).
(** A is the solid angle per pixel at (x, y), in steradians: the area of the parallelogram of the two velocities *)
Definition solid_angle (g : vec -> v3) (x y A : R) : Prop :=
  exists a b, velocity_of (fun s => g (s, y)) x a /\ velocity_of (fun s => g (x, s)) y b /\ A = v3norm (v3cross a b).
(** f has three derivatives within one pixel of t, the third at most M *)
Definition smooth (f : R -> R) (t M : R) : Prop :=
  exists f1 f2 f3 : R -> R, forall s, t - 1 <= s <= t + 1 ->
    is_derive f s (f1 s) /\ is_derive f1 s (f2 s) /\ is_derive f2 s (f3 s) /\ Rabs (f3 s) <= M.
(** Near the pixel (x, y), the system is, up to full turns of right ascension, given by functions lon and lat that are smooth along the
    two axes, lon changing by at most 2 radians over two pixels. *)
Definition smooth_at (radec : vec -> R * R) (x y M : R) (lon lat : R -> R -> R) : Prop :=
  smooth (fun s => lon s y) x M /\ smooth (fun s => lon x s) y M /\ smooth (fun s => lat s y) x M /\ smooth (fun s => lat x s) y M /\
  Rabs (lon (x + 1) y - lon (x - 1) y) <= 2 /\ Rabs (lon x (y + 1) - lon x (y - 1)) <= 2 /\
  Rabs (fst (radec (x + 1, y)) - fst (radec (x - 1, y))) < 2 * PI /\ Rabs (fst (radec (x, y + 1)) - fst (radec (x, y - 1))) < 2 * PI /\
  (forall s, x - 1 <= s <= x + 1 -> snd (radec (s, y)) = lat s y /\ exists k, fst (radec (s, y)) = lon s y + 2 * PI * IZR k) /\
  (forall s, y - 1 <= s <= y + 1 -> snd (radec (x, s)) = lat x s /\ exists k, fst (radec (x, s)) = lon x s + 2 * PI * IZR k).
(** The origin is the image position that _radec counts from: a new origin o looks at p as the old system at p - o. *)
Definition lawful_origin {W} (O : celops W) : Prop := forall w o,
  (forall p, c_radec O (c_new O w o) (vsub p (c_origin O (c_new O w o))) = c_radec O w (vsub p o)) /\
  (forall ra dec, bind (c_xy O (c_new O w o) ra dec) (fun p => Ok (vadd p (c_origin O (c_new O w o)))) = bind (c_xy O w ra dec) (fun p => Ok (vadd p o))).
