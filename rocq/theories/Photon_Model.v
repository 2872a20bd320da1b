(** Model of /repo/jax_galsim/photon_array.py, of photon shooting (gsobject.py:1126-1181,
    1328-1337, and the _shoot methods) and of the photon drawing loop (gsobject.py:1197-1325,
    1405-1546).
    Simplifications: floats are exact reals; a NaN is [None]; the random positions, category
    choices and shuffles are parameters carried by the profile (the random state is modelled in
    the RNG files); photon_ops and non-default sensors are left out; outside of jit, so
    equinox.error_if raises. *)
From Coq Require Import ZArith Reals Bool List Arith.
From Verif Require Import Base Array_Model Bounds_Model FFT_Model Draw_Model.
Import ListNotations.

(** * Indexing primitives of jax.numpy on one-dimensional arrays *)
(** a.at[idx].get() *)
Definition gather {A} (d : A) (l : list A) (idx : list nat) : list A := map (fun i => nth i l d) idx.
(** a.at[i].set(v) *)
Fixpoint upd {A} (l : list A) (i : nat) (v : A) : list A :=
  match l, i with
  | [], _ => []
  | _ :: t, O => v :: t
  | h :: t, S i => h :: upd t i v
  end.
(** a.at[idx].set(vals) *)
Definition scatter {A} (l : list A) (idx : list nat) (vals : list A) : list A :=
  fold_left (fun a p => upd a (fst p) (snd p)) (combine idx vals) l.
(** jnp.argsort of a boolean array (stable): False entries first. *)
Definition argsortb (m : list bool) : list nat :=
  filter (fun i => negb (nth i m false)) (seq 0 (length m)) ++ filter (fun i => nth i m false) (seq 0 (length m)).
(** jnp.where(m, a, b) *)
Definition where_ {A} (m : list bool) (a b : list A) : list A :=
  map (fun t : bool * (A * A) => if fst t then fst (snd t) else snd (snd t)) (combine m (combine a b)).
Definition rsuml (l : list R) : R := fold_right Rplus 0%R l.

(** Values assigned to an array attribute: a scalar or an array; .at[:].set broadcasts. *)
Inductive vals (A : Type) : Type := Scalar (v : A) | Array (l : list A).
Arguments Scalar {A}. Arguments Array {A}.
Definition bcast {A} (n : nat) (v : vals A) : res (list A) :=
  match v with
  | Scalar v => Ok (repeat v n)
  | Array [v] => Ok (repeat v n)
  | Array l => if Nat.eqb (length l) n then Ok l else Err ValueError
  end.

(** * PhotonArray *)
Record parr : Type := PA {
  pN : nat;                               (** _Ntot *)
  px : list R; py_ : list R; pfl : list R; (** _x, _y, _flux *)
  pnk : list bool;                        (** _nokeep *)
  pdxdz : list (option R); pdydz : list (option R); pwave : list (option R);
  ppu : list (option R); ppv : list (option R); ptime : list (option R);
  pcorr : bool }.

Definition nans (n : nat) : list (option R) := repeat None n.
(** jnp.arange(n) >= m *)
Definition arange_ge (n m : nat) : list bool := map (fun i => Nat.leb m i) (seq 0 n).

(** PhotonArray(N) with _JAX_GALSIM_PHOTON_ARRAY_SIZE = fs, photon_array.py:80-121. *)
Definition pa_new (fs : option nat) (N : nat) : res parr :=
  let Ntot := match fs with Some (S k) => S k | _ => N end in
  if match fs with Some s => Nat.ltb s N | None => false end then Err RuntimeError
  else Ok (PA Ntot (repeat 0%R Ntot) (repeat 0%R Ntot) (repeat 0%R Ntot) (arange_ge Ntot N)
              (nans Ntot) (nans Ntot) (nans Ntot) (nans Ntot) (nans Ntot) (nans Ntot) false).

(** _num_keep, photon_array.py:269-272. *)
Definition num_keep (p : parr) : nat := length (filter negb (pnk p)).

(** self._Ntot / self._num_keep; None when _num_keep is 0 (division gives inf or nan). *)
Definition flux_ratio (p : parr) : option R :=
  if Nat.eqb (num_keep p) 0 then None else Some (INR (pN p) / INR (num_keep p))%R.

(** jnp.where(self._nokeep, 0.0, self._flux) *)
Definition masked_flux (p : parr) : list R := where_ (pnk p) (repeat 0%R (pN p)) (pfl p).

(** flux getter, photon_array.py:306-320; None when every entry is NaN (0 * inf). *)
Definition flux (p : parr) : option (list R) :=
  if Nat.eqb (pN p) (num_keep p) then Some (masked_flux p)
  else match flux_ratio p with
       | Some r => Some (map (fun f => f * r)%R (masked_flux p))
       | None => None
       end.

Definition set_pfl (p : parr) (l : list R) : parr :=
  PA (pN p) (px p) (py_ p) l (pnk p) (pdxdz p) (pdydz p) (pwave p) (ppu p) (ppv p) (ptime p) (pcorr p).
Definition set_pxy (p : parr) (lx ly : list R) : parr :=
  PA (pN p) lx ly (pfl p) (pnk p) (pdxdz p) (pdydz p) (pwave p) (ppu p) (ppv p) (ptime p) (pcorr p).
Definition set_pnk (p : parr) (l : list bool) : parr :=
  PA (pN p) (px p) (py_ p) (pfl p) l (pdxdz p) (pdydz p) (pwave p) (ppu p) (ppv p) (ptime p) (pcorr p).
Definition set_oth (p : parr) (a b c d e f : list (option R)) : parr :=
  PA (pN p) (px p) (py_ p) (pfl p) (pnk p) a b c d e f (pcorr p).

(** flux setter, photon_array.py:322-330; x / inf = 0. *)
Definition set_flux (p : parr) (v : vals R) : res parr :=
  bind (bcast (pN p) v) (fun l =>
    Ok (set_pfl p (match flux_ratio p with
                   | Some r => map (fun f => f / r)%R l
                   | None => map (fun _ => 0%R) l
                   end))).
(** x and y setters, photon_array.py:290-304. *)
Definition set_x (p : parr) (v : vals R) : res parr :=
  bind (bcast (pN p) v) (fun l => Ok (set_pxy p l (py_ p))).
Definition set_y (p : parr) (v : vals R) : res parr :=
  bind (bcast (pN p) v) (fun l => Ok (set_pxy p (px p) l)).

(** _sort_by_nokeep, photon_array.py:501-516. *)
Definition sort_by (sinds : list nat) (p : parr) : parr :=
  PA (pN p) (gather 0%R (px p) sinds) (gather 0%R (py_ p) sinds) (gather 0%R (pfl p) sinds)
     (gather false (pnk p) sinds)
     (gather None (pdxdz p) sinds) (gather None (pdydz p) sinds) (gather None (pwave p) sinds)
     (gather None (ppu p) sinds) (gather None (ppv p) sinds) (gather None (ptime p) sinds) (pcorr p).
(** _set_self_at_inds, photon_array.py:518-530. *)
Definition set_at_inds (sinds : list nat) (p : parr) : parr :=
  PA (pN p) (scatter (px p) sinds (px p)) (scatter (py_ p) sinds (py_ p)) (scatter (pfl p) sinds (pfl p))
     (scatter (pnk p) sinds (pnk p))
     (scatter (pdxdz p) sinds (pdxdz p)) (scatter (pdydz p) sinds (pdydz p)) (scatter (pwave p) sinds (pwave p))
     (scatter (ppu p) sinds (ppu p)) (scatter (ppv p) sinds (ppv p)) (scatter (ptime p) sinds (ptime p)) (pcorr p).

(** _num_keep setter, photon_array.py:274-280. *)
Definition set_num_keep (p : parr) (n : nat) : parr :=
  let sinds := argsortb (pnk p) in
  let p := sort_by sinds p in
  let p := set_pnk p (arange_ge (pN p) n) in
  set_at_inds sinds p.

(** getTotalFlux, scaleFlux, setTotalFlux, scaleXY, photon_array.py:478-499. setTotalFlux on a total
    that is 0 or NaN leaves inf/NaN fluxes: None. *)
Definition getTotalFlux (p : parr) : option R := option_map rsuml (flux p).
(** photon_array.py:489-492 *)
Definition scaleFlux (p : parr) (s : R) : parr := set_pfl p (map (fun f => f * s)%R (pfl p)).
(** photon_array.py:483-486 *)
Definition setTotalFlux (p : parr) (t : R) : option parr :=
  match getTotalFlux p with
  | None => None
  | Some f => if Reqb f 0 then None else Some (scaleFlux p (t / f))
  end.
(** photon_array.py:495-499 *)
Definition scaleXY (p : parr) (s : R) : parr :=
  set_pxy p (map (fun v => v * s)%R (px p)) (map (fun v => v * s)%R (py_ p)).

(** hasAllocated*, photon_array.py:408-443. *)
Definition anyfin (l : list (option R)) : bool := existsb (fun v => match v with Some _ => true | None => false end) l.
Definition hasAngles (p : parr) : bool := anyfin (pdxdz p) || anyfin (pdydz p).
Definition hasWave (p : parr) : bool := anyfin (pwave p).
Definition hasPupil (p : parr) : bool := anyfin (ppu p) || anyfin (ppv p).
Definition hasTime (p : parr) : bool := anyfin (ptime p).
(** _zero_if_needed_on_set, photon_array.py:1031-1037. *)
Definition zero_if_needed (test zero : list (option R)) : list (option R) :=
  if anyfin test && negb (anyfin zero) then map (fun _ => Some 0%R) zero else zero.

(** _copyFrom, photon_array.py:584-662, with index arrays [s1], [s2] (a slice is the index array of
    its elements). None: a division by a zero _num_keep, giving inf or NaN fluxes. *)
Definition copyFrom (p rhs : parr) (s1 s2 : list nat) (do_xy do_flux do_other : bool) : option parr :=
  let set {A} (d : A) (l1 l2 : list A) := scatter l1 s1 (gather d l2 s2) in
  let p1 := if do_xy || do_flux || do_other then set_pnk p (set false (pnk p) (pnk rhs)) else p in
  let p2 := if do_xy then set_pxy p1 (set 0%R (px p1) (px rhs)) (set 0%R (py_ p1) (py_ rhs)) else p1 in
  let p3 := if do_flux then
      match flux_ratio p, flux_ratio p1, flux_ratio rhs with
      | Some ro, Some rn, Some rr =>
          Some (set_pfl p2 (scatter (map (fun f => f * ro / rn)%R (pfl p2)) s1
                                    (map (fun f => f * rr / rn)%R (gather 0%R (pfl rhs) s2))))
      | _, _, _ => None
      end else Some p2 in
  match p3 with
  | None => None
  | Some p3 =>
      Some (if do_other then
        set_oth p3 (if hasAngles rhs then set None (pdxdz p3) (pdxdz rhs) else pdxdz p3)
                   (if hasAngles rhs then set None (pdydz p3) (pdydz rhs) else pdydz p3)
                   (if hasWave rhs then set None (pwave p3) (pwave rhs) else pwave p3)
                   (if hasPupil rhs then set None (ppu p3) (ppu rhs) else ppu p3)
                   (if hasPupil rhs then set None (ppv p3) (ppv rhs) else ppv p3)
                   (if hasTime rhs then set None (ptime p3) (ptime rhs) else ptime p3)
        else p3)
  end.

(** _assign_from_categorical_index, photon_array.py:664-690 (x, y, flux, _nokeep and the other
    columns all selected by the mask). Zero _num_keep is not reached: ratio 0 stands for inf. *)
Definition assign_cat (p : parr) (cat : list nat) (i : nat) (rhs : parr) : parr :=
  let msk := map (Nat.eqb i) cat in
  let ratio q := match flux_ratio q with Some r => r | None => 0%R end in
  let ro := ratio p in
  let nk := where_ msk (pnk rhs) (pnk p) in
  let rn := ratio (set_pnk p nk) in
  let rr := ratio rhs in
  PA (pN p) (where_ msk (px rhs) (px p)) (where_ msk (py_ rhs) (py_ p))
     (where_ msk (map (fun f => f * rr / rn)%R (pfl rhs)) (map (fun f => f * ro / rn)%R (pfl p))) nk
     (where_ msk (pdxdz rhs) (pdxdz p)) (where_ msk (pdydz rhs) (pdydz p)) (where_ msk (pwave rhs) (pwave p))
     (where_ msk (ppu rhs) (ppu p)) (where_ msk (ppv rhs) (ppv p)) (where_ msk (ptime rhs) (ptime p)) (pcorr p).

(** convolve, photon_array.py:692-815; [rs] is the random permutation rsinds. Only the columns
    x, y, flux and _nokeep and the masks are needed; the other columns follow the same indexing. *)
Definition pick (own other : list (option R)) (cond : bool) (sinds : list nat) : list (option R) :=
  if cond then gather None other sinds else own.
(** photon_array.py:693-815 *)
Definition convolve (p rhs : parr) (rs : list nat) : res (parr * parr) :=
  if negb (Nat.eqb (pN rhs) (pN p)) then Err GalSimIncompatibleValuesError
  else
    let si := argsortb (pnk p) in
    let ri := argsortb (pnk rhs) in
    let p := sort_by si p in
    let rhs := sort_by ri rhs in
    let sinds := if pcorr p && pcorr rhs
                 then gather 0%nat rs (argsortb (gather false (pnk rhs) rs))
                 else seq 0 (pN p) in
    let ca := hasAngles rhs && negb (hasAngles p) in
    let cw := hasWave rhs && negb (hasWave p) in
    let cp := hasPupil rhs && negb (hasPupil p) in
    let ct := hasTime rhs && negb (hasTime p) in
    let zip f (a b : list R) := map (fun t => f (fst t) (snd t)) (combine a b) in
    let q := PA (pN p) (zip Rplus (px p) (gather 0%R (px rhs) sinds)) (zip Rplus (py_ p) (gather 0%R (py_ rhs) sinds))
                (map (fun f => f * INR (pN p))%R (zip Rmult (pfl p) (gather 0%R (pfl rhs) sinds))) (pnk p)
                (pick (pdxdz p) (pdxdz rhs) ca sinds) (pick (pdydz p) (pdydz rhs) ca sinds)
                (pick (pwave p) (pwave rhs) cw sinds) (pick (ppu p) (ppu rhs) cp sinds)
                (pick (ppv p) (ppv rhs) cp sinds) (pick (ptime p) (ptime rhs) ct sinds)
                (pcorr p || pcorr rhs) in
    Ok (set_at_inds si q, set_at_inds ri rhs).

(** * addTo *)
(** _add_photons_to_image, photon_array.py:1008-1028. *)
Definition pix_ind (x : R) (xmin : Z) : Z := floorR (x - IZR xmin + / 2)%R.
Definition in_shape (a : arr R) (i j : Z) : bool :=
  (0 <=? j)%Z && (j <? ncol a)%Z && (0 <=? i)%Z && (i <? nrow a)%Z.
Definition add_photons (ph : list (R * R * R)) (xmin ymin : Z) (a : arr R) (isint : bool) : arr R * R :=
  let good := map (fun t => let '(x, y, f) := t in
                            if in_shape a (pix_ind y ymin) (pix_ind x xmin) then f else 0%R) ph in
  let out := fold_left (fun a t => let '((x, y, _), f) := t in
                          at_upd a (pix_ind y ymin) (pix_ind x xmin) (fun v => v + f)%R) (combine ph good) a in
  ((if isint then amap (fun v => IZR (roundR v)) out else out), rsuml good).

(** PhotonArray.addTo, photon_array.py:871-889, on an image given by its bounds and array; None: NaN. *)
Definition addTo (p : parr) (b : bnd Z) (a : arr R) (isint : bool) : res (option (arr R * R)) :=
  if negb (bdef b) then Err GalSimUndefinedBoundsError
  else Ok match flux_ratio p with
          | Some r => Some (add_photons (combine (combine (px p) (py_ p)) (map (fun f => f * r)%R (masked_flux p)))
                                        (nv (bxmin b)) (nv (bymin b)) a isint)
          | None => if Nat.eqb (pN p) 0 then Some (add_photons [] (nv (bxmin b)) (nv (bymin b)) a isint) else None
          end.

(** * makeFromImage, photon_array.py:891-917 (no fixed array size); [ux], [uy] are the uniform
    deviates, one per photon. *)
Definition n_per (max_flux v : R) : nat := Z.to_nat (Z.max (ceilR (Rabs v / max_flux)) 1).
(** the pixels in ravel order: (row, column, value) *)
Definition pixels (a : arr R) : list (Z * Z * R) :=
  flat_map (fun i => map (fun j => (i, j, elt a i j)) (map Z.of_nat (seq 0 (Z.to_nat (ncol a)))))
           (map Z.of_nat (seq 0 (Z.to_nat (nrow a)))).
(** photon_array.py:893-917 *)
Definition makeFromImage (a : arr R) (b : bnd Z) (scale : option R) (max_flux : R) (ux uy : nat -> R) : res parr :=
  if negb (Rltb 0 max_flux) then Err GalSimRangeError
  else
    let src := flat_map (fun t => repeat t (n_per max_flux (snd t))) (pixels a) in
    let n := length src in
    bind (pa_new None n) (fun p =>
    bind (set_x p (Array (map (fun kt => ux (fst kt) + (IZR (nv (bxmin b) + snd (fst (snd kt))) - / 2))%R (combine (seq 0 n) src)))) (fun p =>
    bind (set_y p (Array (map (fun kt => uy (fst kt) + (IZR (nv (bymin b) + fst (fst (snd kt))) - / 2))%R (combine (seq 0 n) src)))) (fun p =>
    bind (set_flux p (Array (map (fun t => snd t / INR (n_per max_flux (snd t)))%R src))) (fun p =>
    Ok (match scale with Some s => scaleXY p s | None => p end))))).

(** * Round trips *)
(** write / read, photon_array.py:919-1005: the file's columns. *)
Record pfile : Type := PF { f_x : list R; f_y : list R; f_flux : list R; f_nk : list bool;
  f_ang : option (list (option R) * list (option R)); f_wave : option (list (option R));
  f_pup : option (list (option R) * list (option R)); f_time : option (list (option R)) }.
(** None: the flux column is NaN. *)
Definition write (p : parr) : option pfile :=
  match flux p with
  | None => None
  | Some fl => Some (PF (px p) (py_ p) fl (pnk p)
                 (if hasAngles p then Some (pdxdz p, pdydz p) else None)
                 (if hasWave p then Some (pwave p) else None)
                 (if hasPupil p then Some (ppu p, ppv p) else None)
                 (if hasTime p then Some (ptime p) else None))
  end.
(** photon_array.py:968-1005 *)
Definition read (fs : option nat) (f : pfile) : res parr :=
  bind (pa_new fs (length (f_x f))) (fun p =>
  bind (set_x p (Array (f_x f))) (fun p =>
  bind (set_y p (Array (f_y f))) (fun p =>
  bind (set_flux p (Array (f_flux f))) (fun p =>
  let p := set_pnk p (f_nk f) in
  (* dxdz setter, then dydz setter, photon_array.py:340-356, 983-989 *)
  let '(a, b) := match f_ang f with
                 | Some (dx, dy) => (zero_if_needed dy dx, dy)
                 | None => (pdxdz p, pdydz p) end in
  let w := match f_wave f with Some w => w | None => pwave p end in
  let '(u, v) := match f_pup f with
                 | Some (u, v) => (zero_if_needed v u, v)
                 | None => (ppu p, ppv p) end in
  let t := match f_time f with Some t => t | None => ptime p end in
  Ok (set_oth p a b w u v t))))).

(** tree_flatten / tree_unflatten, photon_array.py:228-260. *)
Definition pa_flatten (p : parr) :=
  ((px p, py_ p, pfl p, pnk p), ((pdxdz p, pdydz p, pwave p), (ppu p, ppv p, ptime p), pcorr p), pN p).
Definition pa_unflatten (c : (list R * list R * list R * list bool) *
    ((list (option R) * list (option R) * list (option R)) * (list (option R) * list (option R) * list (option R)) * bool) * nat) : parr :=
  let '((x, y, f, k), ((a, b, w), (u, v, t), corr), n) := c in PA n x y f k a b w u v t corr.

(** * Shooting *)
(** A profile together with the random choices made when it is shot: a leaf of total flux F whose
    random positions are functions of the array length; a Sum with its category choices; a
    Convolution with the shuffles; a Transformation given by its Jacobian, offset and _flux_scaling. *)
Inductive sprof : Type :=
| SLeaf (F : R) (gx gy : nat -> list R)
| SSum (objs : list sprof) (cat : nat -> list nat)
| SConv (first : sprof) (rest : list sprof) (rs : nat -> list nat)
| STrans (o : sprof) (jac : R * R * R * R) (off : R * R) (fscale : R).

(** flux, sum.py:121-122 / convolve.py:227-228 / transform.py _flux. *)
Fixpoint sflux (o : sprof) : R :=
  match o with
  | SLeaf F _ _ => F
  | SSum objs _ => fold_right (fun o s => (sflux o + s)%R) 0%R objs
  | SConv o objs _ => (sflux o * fold_right (fun o s => (sflux o * s)%R) 1%R objs)%R
  | STrans o _ _ s => (s * sflux o)%R
  end.

(** GSObject.shoot, gsobject.py:1328-1337. *)
Definition shoot_with (sh : parr -> res parr) (fs : option nat) (N : nat) : res parr :=
  bind (pa_new fs N) (fun p => if Nat.eqb (pN p) 0 then Ok p else sh p).

(** positive_flux + negative_flux of a component whose flux has one sign (sum.py:193-196). *)
Definition absflux (o : sprof) : R := Rabs (sflux o).

(** _shoot: gaussian.py:151-157 (and box, exponential, moffat, spergel, delta function),
    sum.py:191-240, convolve.py:303-313, transform.py:394-400. *)
Fixpoint shoot_ (fs : option nat) (o : sprof) (p : parr) {struct o} : res parr :=
  match o with
  | SLeaf F gx gy =>
      bind (set_x p (Array (gx (pN p)))) (fun p =>
      bind (set_y p (Array (gy (pN p)))) (fun p =>
      set_flux p (Scalar (F / INR (pN p))%R)))
  | SSum objs cat =>
      let tot := fold_right (fun o s => (absflux o + s)%R) 0%R objs in
      (fix go (os : list sprof) (i : nat) (p : parr) {struct os} : res parr :=
         match os with
         | [] => Ok p
         | o :: os =>
             bind (shoot_with (shoot_ fs o) fs (pN p)) (fun q =>
             go os (S i) (assign_cat p (cat (pN p)) i (scaleFlux q (tot / absflux o))))
         end) objs 0%nat p
  | SConv o objs rs =>
      bind (shoot_ fs o p) (fun p =>
      (fix go (os : list sprof) (p : parr) {struct os} : res parr :=
         match os with
         | [] => Ok p
         | o :: os =>
             bind (pa_new fs (pN p)) (fun q =>
             bind (shoot_ fs o q) (fun q =>
             bind (convolve p q (rs (pN p))) (fun r => go os (fst r))))
         end) objs p)
  | STrans o (a, b, c, d) (ox, oy) s =>
      bind (shoot_ fs o p) (fun p =>
      let xy := combine (px p) (py_ p) in
      Ok (scaleFlux (set_pxy p (map (fun t => a * fst t + b * snd t + ox)%R xy)
                               (map (fun t => c * fst t + d * snd t + oy)%R xy)) s))
  end.
Definition shoot (fs : option nat) (o : sprof) (N : nat) : res parr := shoot_with (shoot_ fs o) fs N.

(** makePhot without photon_ops, gsobject.py:1126-1181. *)
Definition makePhot (fs : option nat) (o : sprof) (Ntot : nat) (g : R) : res parr :=
  bind (shoot fs o Ntot) (fun p => Ok (if Reqb g 1 then p else scaleFlux p g)).

(** * The drawing loop *)
(** _draw_phot_while_loop_shoot up to the accumulation, gsobject.py:1405-1458. *)
Definition loop_shoot (fs : option nat) (o : sprof) (maxN thisN Ntot : nat) (g scale : R) : res parr :=
  bind (shoot fs o maxN) (fun p =>
    let p := set_num_keep p thisN in
    let p := if Reqb g 1 && Nat.eqb thisN Ntot then p else scaleFlux p (g * INR thisN / INR Ntot)%R in
    Ok (if Reqb scale 1 then p else scaleXY p (/ scale)%R)).

(** State of _draw_phot_while_loop: image array, added flux, photons left, and (ghost) the photon
    arrays accumulated so far with the number kept of each. *)
Record lstate : Type := LS { l_arr : arr R; l_added : R; l_left : nat; l_rounds : list (nat * parr) }.

Inductive outcome (A : Type) : Type := Done (a : A) | Raised (e : exn) | IsNaN | OutOfFuel.
Arguments Done {A}. Arguments Raised {A}. Arguments IsNaN {A}. Arguments OutOfFuel {A}.

(** _draw_phot_while_loop, gsobject.py:1476-1546, for a floating point image: one iteration per unit
    of fuel. [obj k] is the profile with the random choices of round k. *)
Fixpoint draw_loop (fuel : nat) (fs : option nat) (obj : nat -> sprof) (maxN Ntot : nat) (g scale : R)
    (b : bnd Z) (st : lstate) : outcome lstate :=
  match l_left st with
  | O => Done st
  | _ =>
    match fuel with
    | O => OutOfFuel
    | S fuel =>
        let thisN := Nat.min maxN (l_left st) in
        match loop_shoot fs (obj (length (l_rounds st))) maxN thisN Ntot g scale with
        | Err e => Raised e
        | Ok p =>
            match addTo p b (l_arr st) false with
            | Err e => Raised e
            | Ok None => IsNaN
            | Ok (Some (a, f)) =>
                draw_loop fuel fs obj maxN Ntot g scale b
                  (LS a (l_added st + f)%R (l_left st - thisN) ((thisN, p) :: l_rounds st))
            end
        end
    end
  end.

(** drawPhot, gsobject.py:1197-1325: g / gain, zeroing, choice of maxN, one shot or loop. *)
Definition drawPhot (fuel : nat) (fs : option nat) (obj : nat -> sprof) (maxN : option nat) (Ntot : nat) (g0 gain scale : R)
    (b : bnd Z) (a : arr R) (add_to_image : bool) : outcome lstate :=
  if negb (Rltb 0 gain) then Raised RuntimeError
  else
    let g := if Reqb gain 1 then g0 else (g0 / gain)%R in
    let a := if add_to_image then a else amap (fun _ => 0%R) a in
    let nz (o : option nat) := match o with Some O => None | o => o end in
    let m := match maxN, fs with
             | Some m, Some s => Some (Nat.min m s)
             | _, _ => match nz fs with Some s => Some s | None => maxN end
             end in
    match m with
    | None =>
        match loop_shoot fs (obj 0%nat) Ntot Ntot Ntot g scale with
        | Err e => Raised e
        | Ok p => match addTo p b a false with
                  | Err e => Raised e
                  | Ok None => IsNaN
                  | Ok (Some (a, f)) => Done (LS a f 0 [(Ntot, p)])
                  end
        end
    | Some m => draw_loop fuel fs obj m Ntot g scale b (LS a 0 Ntot [])
    end.

(** * Number of photons *)
(** calculate_n_photons, core/draw.py:110-479; [pd] is the Poisson deviate drawn with the given mean. *)
Section NPhotons.
  Variable pd : R -> R.
  (** _sample_poisson_flux, core/draw.py:366-372. *)
  Definition sample_poisson_flux (flux eta : R) : R :=
    let absflux := Rabs flux in
    let mean := (eta * eta * absflux)%R in
    ((pd mean - mean + absflux) / absflux)%R.
  (** _calculate_n_photons_flux_nonzero, core/draw.py:389-479. *)
  Definition n_photons_nonzero (flux eta max_sb : R) (poisson : bool) (extra : R) : Z * R :=
    let mod_flux := (flux / (eta * eta))%R in
    let '(mod_flux, g) :=
      if poisson then let ratio := sample_poisson_flux flux eta in (Rabs (mod_flux * ratio), ratio)%R
      else (mod_flux, 1%R) in
    let '(mod_flux, g) :=
      if Rltb 0 extra then let gf := (1 + extra / Rabs max_sb)%R in (mod_flux / gf, g * gf)%R
      else (mod_flux, g) in
    (ceilR mod_flux, g).
  (** _sample_zero and _sample_nonzero, core/draw.py:323-363; jnp.int_ truncates. *)
  Definition truncR (x : R) : Z := if Rltb x 0 then ceilR x else floorR x.
  (** core/draw.py:141-320 *)
  Definition calculate_n_photons (flux eta max_sb n_photons : R) (poisson : bool) (extra : R) : Z * R :=
    if Reqb n_photons 0 then
      if Reqb flux 0 then (0%Z, 1%R) else n_photons_nonzero flux eta max_sb poisson extra
    else
      (truncR (n_photons + / 2), if poisson then sample_poisson_flux flux eta else 1%R).
End NPhotons.
