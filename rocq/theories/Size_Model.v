(** Elementary profiles: gaussian.py, exponential.py, moffat.py, spergel.py, box.py, deltafunction.py. Floats are
    reals; drawing is in Prof_Model, the photon arrays in Photon_Model. Of moffat.py the Fourier side (_maxk, a fitted
    rational function, and _kValue, an interpolation of Bessel functions) is in MoffK_Model. *)
From Coq Require Import ZArith Reals Bool List Lra.
From Verif Require Import Base Bounds_Model GSP_Model Sky_Model Util_Model.
Import ListNotations.
Open Scope R_scope.

(** jnp.power(x, y) and x ** y for x >= 0; inf and nan are not represented. *)
Definition jpow (x y : R) : R := if Reqb x 0 then (if Reqb y 0 then 1 else 0) else Rpower x y.
Definition some {A} (o : option A) : bool := match o with Some _ => true | None => false end.
Definition norm2 (p : R * R) : R := fst p * fst p + snd p * snd p.

(** * Gaussian *)
Record gaussian : Type := Gau { ga_sigma : R; ga_flux : R; ga_gs : gsp R }.
(** gaussian.py:14-19 *)
Definition ga_fwhm_factor : R := 2.3548200450309493.
Definition ga_hlr_factor : R := 1.1774100225154747.
Definition inv_twopi : R := 0.15915494309189535.
(** gaussian.py:26-63 *)
Definition gaussian_new (half_light_radius sigma fwhm : option R) (flux : R) (gs : gsp R) : res gaussian :=
  match fwhm with
  | Some f => if some sigma || some half_light_radius then Err GalSimIncompatibleValuesError else Ok (Gau (f / ga_fwhm_factor) flux gs)
  | None =>
      match half_light_radius with
      | Some h => if some sigma then Err GalSimIncompatibleValuesError else Ok (Gau (h / ga_hlr_factor) flux gs)
      | None => match sigma with None => Err GalSimIncompatibleValuesError | Some s => Ok (Gau s flux gs) end
      end
  end.
(** gaussian.py:65-90 *)
Definition ga_half_light_radius (p : gaussian) : R := ga_sigma p * ga_hlr_factor.
(** gaussian.py:77-78 *)
Definition ga_fwhm (p : gaussian) : R := ga_sigma p * ga_fwhm_factor.
(** gaussian.py:81-82 *)
Definition ga_sigsq (p : gaussian) : R := ga_sigma p ^ 2.
(** gaussian.py:85-86 *)
Definition ga_inv_sigsq (p : gaussian) : R := 1 / ga_sigsq p.
(** gaussian.py:89-90 *)
Definition ga_norm (p : gaussian) : R := ga_flux p * ga_inv_sigsq p * inv_twopi.
(** gaussian.py:115-137 *)
Definition ga_maxk (p : gaussian) : R := sqrt (-2 * ln (g_maxk (ga_gs p))) / ga_sigma p.
(** gaussian.py:120-124 *)
Definition ga_stepk (p : gaussian) : R :=
  let R := sqrt (-2 * ln (g_fold (ga_gs p))) in
  let R := Rmax R (g_hlr (ga_gs p) * ga_hlr_factor) in
  PI / (R * ga_sigma p).
(** gaussian.py:127-128 *)
Definition ga_max_sb (p : gaussian) : R := ga_norm p.
(** gaussian.py:130-132 *)
Definition ga_xValue (p : gaussian) (pos : R * R) : R := ga_norm p * exp (-0.5 * norm2 pos * ga_inv_sigsq p).
(** gaussian.py:134-136 *)
Definition ga_kValue (p : gaussian) (kpos : R * R) : R :=
  let ksq := norm2 kpos * ga_sigsq p in ga_flux p * exp (-0.5 * ksq).
(** gaussian.py:147-149 *)
Definition ga_withFlux (p : gaussian) (flux : R) : res gaussian := gaussian_new None (Some (ga_sigma p)) None flux (ga_gs p).

(** * Exponential *)
Record exponential : Type := Exn { ex_r0 : R; ex_flux : R; ex_gs : gsp R }.
(** exponential.py:20-21 *)
Definition ex_hlr_factor : R := 1.6783469900166605.
Definition one_third : R := 1 / 3.
(** exponential.py:29-53 *)
Definition exponential_new (half_light_radius scale_radius : option R) (flux : R) (gs : gsp R) : res exponential :=
  match half_light_radius with
  | Some h => if some scale_radius then Err GalSimIncompatibleValuesError else Ok (Exn (h / ex_hlr_factor) flux gs)
  | None => match scale_radius with None => Err GalSimIncompatibleValuesError | Some s => Ok (Exn s flux gs) end
  end.
(** exponential.py:59-75 *)
Definition ex_inv_r0 (p : exponential) : R := 1 / ex_r0 p.
(** exponential.py:69-70 *)
Definition ex_norm (p : exponential) : R := ex_flux p * inv_twopi * ex_inv_r0 p ^ 2.
(** exponential.py:74-75 *)
Definition ex_half_light_radius (p : exponential) : R := ex_r0 p * ex_hlr_factor.
(** exponential.py:100-136 *)
Definition ex_maxk (p : exponential) : R := jpow (g_maxk (ex_gs p)) (- one_third) / ex_r0 p.
Definition ex_radius (x : R) : R :=
  let logx := ln x in
  fori 3 (fun R => ln (1 + R) - logx) (- logx).
(** exponential.py:106-124 *)
Definition ex_stepk (p : exponential) : R :=
  let hlr := 1.6783469900166605 in
  let R := Rmax (ex_radius (g_fold (ex_gs p))) (g_hlr (ex_gs p) * hlr) in
  PI / R * ex_inv_r0 p.
(** exponential.py:127-128 *)
Definition ex_max_sb (p : exponential) : R := ex_norm p.
(** exponential.py:130-132 *)
Definition ex_xValue (p : exponential) (pos : R * R) : R := ex_norm p * exp (- sqrt (norm2 pos) * ex_inv_r0 p).
(** exponential.py:134-136 *)
Definition ex_kValue (p : exponential) (kpos : R * R) : R :=
  let ksqp1 := norm2 kpos * ex_r0 p ^ 2 + 1 in ex_flux p / (ksqp1 * sqrt ksqp1).
(** exponential.py:147-151 *)
Definition ex_withFlux (p : exponential) (flux : R) : res exponential := exponential_new None (Some (ex_r0 p)) flux (ex_gs p).

(** * Moffat *)
Record moffat : Type := Mof { mo_beta : R; mo_r0 : R; mo_flux : R; mo_gs : gsp R }.
Definition beta_thr : R := 1.1.
(** moffat.py:47-133. A JAX beta at or below the threshold is reported by equinox. *)
Definition moffat_new (beta : num R) (scale_radius half_light_radius fwhm : option R) (trunc : num R) (flux : R) (gs : gsp R) : res moffat :=
  if negb (npy trunc) || negb (Reqb (nv trunc) 0) then Err ValueError
  else if negb (Rltb beta_thr (nv beta)) then Err (if npy beta then ValueError else RuntimeError)
  else
    let b := nv beta in
    bind (match half_light_radius with
          | Some h => if some scale_radius || some fwhm then Err GalSimIncompatibleValuesError
                      else Ok (Mof b (h / sqrt (jpow 0.5 (1 / (1 - b)) - 1)) flux gs)
          | None =>
              match fwhm with
              | Some f => if some scale_radius then Err GalSimIncompatibleValuesError
                          else Ok (Mof b (f / (2 * sqrt (jpow 2 (1 / b) - 1))) flux gs)
              | None => match scale_radius with None => Err GalSimIncompatibleValuesError | Some s => Ok (Mof b s flux gs) end
              end
          end) (fun p => if Rltb 0.1 (g_maxk (mo_gs p)) then Err ValueError else Ok p).
(** moffat.py:148-200 *)
Definition mo_inv_r0 (p : moffat) : R := 1 / mo_r0 p.
(** moffat.py:162-163 *)
Definition mo_inv_r0_sq (p : moffat) : R := mo_inv_r0 p * mo_inv_r0 p.
(** moffat.py:166-170 *)
Definition mo_maxRrD (p : moffat) : R := sqrt (jpow (g_xacc (mo_gs p)) (1 / (1 - mo_beta p)) - 1).
(** moffat.py:173-175 *)
Definition mo_maxR (p : moffat) : R := mo_maxRrD p * mo_r0 p.
(** moffat.py:178-179 *)
Definition mo_maxRrD_sq (p : moffat) : R := mo_maxRrD p * mo_maxRrD p.
(** moffat.py:182-183 *)
Definition mo_fluxFactor : R := 1.
(** moffat.py:187-190 *)
Definition mo_half_light_radius (p : moffat) : R :=
  mo_r0 p * sqrt (jpow (1 - 0.5 * mo_fluxFactor) (1 / (1 - mo_beta p)) - 1).
(** moffat.py:194-195 *)
Definition mo_fwhm (p : moffat) : R := mo_r0 p * (2 * sqrt (jpow 2 (1 / mo_beta p) - 1)).
(** moffat.py:198-200 *)
Definition mo_norm (p : moffat) : R := mo_flux p * (mo_beta p - 1) / (PI * mo_fluxFactor * mo_r0 p ^ 2).
(** moffat.py:276-317 *)
Definition mo_stepk_lowbeta (p : moffat) : R := PI / mo_maxR p.
(** moffat.py:284-294 *)
Definition mo_stepk_highbeta (p : moffat) : R :=
  let R := jpow (g_fold (mo_gs p)) (0.5 / (1 - mo_beta p)) * mo_r0 p in
  let R := Rmin R (mo_maxR p) in
  let R5hlr := g_hlr (mo_gs p) * mo_half_light_radius p in
  let R := Rmax R R5hlr in
  PI / R.
(** moffat.py:297-304 *)
Definition mo_stepk (p : moffat) : R := if Rltb beta_thr (mo_beta p) then mo_stepk_highbeta p else mo_stepk_lowbeta p.
(** moffat.py:307-308 *)
Definition mo_max_sb (p : moffat) : R := mo_norm p.
(** moffat.py:311-316 *)
Definition mo_xValue (p : moffat) (pos : R * R) : R :=
  let rsq := norm2 pos * mo_inv_r0_sq p in
  if Rltb (mo_maxRrD_sq p) rsq then 0 else mo_norm p * jpow (1 + rsq) (- mo_beta p).

(** * Box, box.py *)
Record box : Type := Box { bx_width : R; bx_height : R; bx_flux : R; bx_gs : gsp R }.
(** box.py:21-27, 69-92 *)
Definition bx_minL (p : box) : R := Rmin (bx_width p) (bx_height p).
(** box.py:27-28 *)
Definition bx_maxL (p : box) : R := Rmax (bx_width p) (bx_height p).
(** box.py:70-71 *)
Definition bx_maxk (p : box) : R := 2 / (g_maxk (bx_gs p) * bx_minL p).
(** box.py:74-75 *)
Definition bx_stepk (p : box) : R := PI / bx_maxL p.
(** box.py:78-79 *)
Definition bx_max_sb (p : box) : R := bx_flux p / (bx_width p * bx_height p).
(** box.py:81-87 *)
Definition bx_xValue (p : box) (pos : R * R) : R :=
  let norm := bx_flux p / (bx_width p * bx_height p) in
  if Rltb (2 * Rabs (fst pos)) (bx_width p) then if Rltb (2 * Rabs (snd pos)) (bx_height p) then norm else 0 else 0.
(** box.py:89-92 *)
Definition bx_kValue (p : box) (kpos : R * R) : R :=
  let wo2pi := bx_width p / (2 * PI) in
  let ho2pi := bx_height p / (2 * PI) in
  bx_flux p * sinc (fst kpos * wo2pi) * sinc (snd kpos * ho2pi).
(** Pixel, box.py:129-135 *)
Definition pixel (scale flux : R) (gs : gsp R) : box := Box scale scale flux gs.

(** * DeltaFunction, deltafunction.py:14-16, 44-67 *)
Record delta : Type := Delta { de_flux : R; de_gs : gsp R }.
Definition mock_inf : R := 10 ^ 300.
(** deltafunction.py:56-61 *)
Definition de_xValue (p : delta) (pos : R * R) : R := if Reqb (fst pos) 0 && Reqb (snd pos) 0 then mock_inf else 0.
(** deltafunction.py:63-66 *)
Definition de_kValue (p : delta) (kpos : R * R) : R := de_flux p + fst kpos * 0.

(** * Tables *)
(** jnp.linspace(a, b, n)[i] *)
Definition linspace (a b : R) (n : nat) (i : nat) : R := a + (b - a) * INR i / INR (n - 1).
(** jnp.interp(x, xp, fp) with tables of length n; [search] is jnp.searchsorted(xp, x, side="right"). A step of at most
    np.spacing(eps) = 2^-104 counts as no step. *)
Definition interp_eps : R := / 2 ^ 104.
Definition interp (search : nat -> (nat -> R) -> R -> nat) (n : nat) (x : R) (xp fp : nat -> R) : R :=
  let i := Nat.min (Nat.max (search n xp x) 1) (n - 1) in
  let df := fp i - fp (i - 1)%nat in
  let dx := xp i - xp (i - 1)%nat in
  let delta := x - xp (i - 1)%nat in
  let f := if Rltb interp_eps (Rabs dx) then fp (i - 1)%nat + delta / dx * df else fp (i - 1)%nat in
  let f := if Rltb x (xp 0%nat) then fp 0%nat else f in
  if Rltb (xp (n - 1)%nat) x then fp (n - 1)%nat else f.

(** * Shooting: the radius as a function of the uniform deviate *)
(** Exponential: _shoot_cdf with n = 10000 points and _shoot, exponential.py:153-210 *)
Definition ex_u_cdf (n : nat) (shoot_accuracy : R) (i : nat) : R :=
  let rmax := - ln shoot_accuracy in
  let umax := 1 - exp (- rmax) in
  linspace 0 umax n i.
Definition ex_cdf0 (u : R) : R := u - (u - 1) * ln (1 - u).
Definition ex_cdf (n : nat) (shoot_accuracy : R) (i : nat) : R :=
  ex_cdf0 (ex_u_cdf n shoot_accuracy i) / ex_cdf0 (ex_u_cdf n shoot_accuracy (n - 1)).
Definition ex_shoot_radius (search : nat -> (nat -> R) -> R -> nat) (n : nat) (p : exponential) (u : R) : R :=
  let acc := g_shoot (ex_gs p) in
  let u := interp search n u (ex_cdf n acc) (ex_u_cdf n acc) in
  - ln (1 - u) * ex_r0 p.
(** Moffat, moffat.py:413-432 *)
Definition mo_shoot_radius (p : moffat) (rsq : R) : R :=
  let newRsq := jpow (1 - rsq * mo_fluxFactor) (1 / (1 - mo_beta p)) - 1 in
  mo_r0 p * sqrt newRsq.
(** Box, box.py:119-124 *)
Definition bx_shoot (p : box) (u v : R) : R * R := ((u - 0.5) * bx_width p, (v - 0.5) * bx_height p).
(** exponential.py:168-172, spergel.py:519-521: the position from the radius and a second deviate *)
Definition polar (r v : R) : R * R := let ang := v * 2 * PI in (r * cos ang, r * sin ang).

(** * Spergel *)
Section Spergel.
(** kv(nu, z) of bessel.py, jax.lax.lgamma, inf *)
Variables (kv : R -> R -> R) (lgamma : R -> R) (inf : R).

(** spergel.py:14-33 *)
Definition gamma (x : R) : R := exp (lgamma (x * 1)).
Definition gamma_ (nu : R) : R :=
  if Reqb nu 0 then inf else if Reqb nu 1 then 1 else if Reqb nu 2 then 1 else if Reqb nu 3 then 2
  else if Reqb nu 4 then 6 else if Reqb nu 5 then 24 else gamma nu.
(** spergel.py:32-34 *)
Definition gammap1 (nu : R) : R := gamma_ (nu + 1).
(** spergel.py:36-95 *)
Definition z2lz (z : R) : R := if Rltb (1 / 10 ^ 40) z then z * z * ln z else 0.
(** spergel.py:44-51 *)
Definition f0 (z : R) : R :=
  let z2 := z * z in let z4 := z2 * z2 in
  0.11593151565841244881 + 0.27898287891460311220 * z2 + 0.025248929932162694513 * z4 - (1 + 0.125 * z2) ^ 2 * ln z.
(** spergel.py:55-62 *)
Definition f1 (z : R) : R :=
  let z2 := z * z in let z4 := z2 * z2 in
  let c0 := z2lz z in
  1 - 0.30796575782920622441 * z2 - 0.08537071972865077805 * z4 + c0 * (0.5 + 0.0625 * z2).
(** spergel.py:66-72 *)
Definition f2 (z : R) : R :=
  let z2 := z * z in let z4 := z2 * z2 in
  let c0 := z2lz z * z2 in
  2 - 0.5 * z2 + 0.10824143945730155610 * z4 - 0.125 * c0.
(** spergel.py:76-80 *)
Definition f3 (z : R) : R := let z2 := z * z in let z4 := z2 * z2 in 8 - z2 + 0.125 * z4.
(** spergel.py:84-88 *)
Definition f4 (z : R) : R := let z2 := z * z in let z4 := z2 * z2 in 48 - 4 * z2 + 0.25 * z4.
(** spergel.py:92-96 *)
Definition f5 (z : R) : R := let z2 := z * z in let z4 := z2 * z2 in 384 - 24 * z2 + z4.
(** spergel.py:98-124 *)
Definition fnu_small (z nu : R) : R :=
  let nu := nu + 1 / 10 ^ 10 in
  let z2 := z * z in let z4 := z2 * z2 in
  let c1 := jpow 2 (-6 - nu) in
  let c2 := gamma_ (-2 - nu) in
  let c3 := gamma_ (-2 + nu) in
  let c4 := jpow z (2 * nu) in
  let c5 := z4 * 8 * z2 * (2 + nu) + 32 * (1 + nu) * (2 + nu) in
  let c6 := z2 * (16 + z2 - 8 * nu) * c3 in
  c1 * (c4 * c5 * c2 + jpow 4 nu * (c6 + 32 * gamma_ nu)).
(** spergel.py:100-118 *)
Definition fsmallz_nu (z nu : R) : R :=
  if Reqb nu 0 then f0 z else if Reqb nu 1 then f1 z else if Reqb nu 2 then f2 z else if Reqb nu 3 then f3 z
  else if Reqb nu 4 then f4 z else fnu_small z nu.
(** spergel.py:122-124 *)
Definition fz_nu (z nu : R) : R := if Rltb (1 / 10 ^ 10) z then jpow z nu * kv nu z else fsmallz_nu z nu.
(** spergel.py:126-153 *)
Definition fnup1_small (z nu : R) : R :=
  let z2 := z * z in let z4 := z2 * z2 in
  let c1 := - jpow 2 (-4 - nu) in
  let c2 := gamma_ (-2 - nu) in
  let c3 := c1 * c2 * (8 + 4 * nu + z2) * jpow z (2 * (1 + nu)) in
  let c4 := jpow 2 nu in
  let c5 := gammap1 nu in
  let c6 := c4 * c5 * (1 - 0.25 * z2 / nu + z4 * 0.03125 / (nu * (nu - 1))) in
  c3 + c6.
(** spergel.py:128-145 *)
Definition fsmallz_nup1 (z nu : R) : R :=
  if Reqb nu 0 then f1 z else if Reqb nu 1 then f2 z else if Reqb nu 2 then f3 z else if Reqb nu 3 then f4 z
  else if Reqb nu 4 then f5 z else fnup1_small z nu.
(** spergel.py:149-153 *)
Definition fz_nup1 (z nu : R) : R := if Rltb (1 / 10 ^ 10) z then jpow z (nu + 1) * kv (nu + 1) z else fsmallz_nup1 z nu.
(** spergel.py:155-193 *)
Definition fluxfraction (z nu alpha : R) : R := 1 - fz_nup1 z nu / (jpow 2 nu * gammap1 nu) - alpha.
Definition reducedfluxfraction (z nu norm : R) : R := fluxfraction z nu 0 / norm.
Definition flux_radius (alpha nu zmin zmax : R) : R := bisect_for_root (fun z => fluxfraction z nu alpha) zmin zmax 75.
(** spergel.py:195-240 *)
Definition pade_p : list R :=
  [1.2571513771129166; 3.7059053890269102; 2.8577090425861944; -0.30570486567039273; 0.6589831675940833;
   3.375577680133867; 2.8143565844741403; 0.9292378858457211; 0.12096941981286179; 0.004206502758293099].
Definition pade_q : list R :=
  [1; 2.1939178810491837; 0.8281034080784796; -0.5163329765186994; 0.9164871490929886;
   1.8988551389326231; 1.042688817291684; 0.22580140592548198; 0.01681923980317362; 0.00018168506955933716].
Definition horner (l : list R) (x : R) : R := fold_right (fun c s => c + x * s) 0 l.
Definition hlr_pade (x : R) : R := horner pade_p x / horner pade_q x.

Record spergel : Type := Spe { sp_nu : R; sp_r0 : R; sp_flux : R; sp_gs : gsp R }.
(** spergel.py:272-306 *)
Definition spergel_new (nu : R) (scale_radius half_light_radius : option R) (flux : R) (gs : gsp R) : res spergel :=
  match half_light_radius with
  | Some h => if some scale_radius then Err GalSimIncompatibleValuesError else Ok (Spe nu (h / hlr_pade nu) flux gs)
  | None => match scale_radius with None => Err GalSimIncompatibleValuesError | Some s => Ok (Spe nu s flux gs) end
  end.
(** spergel.py:318-363 *)
Definition sp_inv_r0 (p : spergel) : R := 1 / sp_r0 p.
(** spergel.py:328-329 *)
Definition sp_r0_sq (p : spergel) : R := sp_r0 p * sp_r0 p.
(** spergel.py:332-333 *)
Definition sp_inv_r0_sq (p : spergel) : R := sp_inv_r0 p * sp_inv_r0 p.
(** spergel.py:337-338 *)
Definition sp_half_light_radius (p : spergel) : R := sp_r0 p * hlr_pade (sp_nu p).
(** spergel.py:341-343 *)
Definition sp_shootxnorm (p : spergel) : R := 1 / (2 * PI * jpow 2 (sp_nu p) * gammap1 (sp_nu p)).
(** spergel.py:346-348 *)
Definition sp_xnorm (p : spergel) : R := sp_shootxnorm p * sp_flux p * sp_inv_r0_sq p.
(** spergel.py:351-355 *)
Definition sp_xnorm0 (p : spergel) : R := if Rltb 0 (sp_nu p) then gamma_ (sp_nu p) * jpow 2 (sp_nu p - 1) else inf.
(** spergel.py:358-359 *)
Definition sp_calculateFluxRadius (p : spergel) (f : R) : R := sp_r0 p * flux_radius f (sp_nu p) 0 40.
(** spergel.py:362-363 *)
Definition sp_calculateIntegratedFlux (p : spergel) (r : R) : R := fluxfraction (r / sp_r0 p) (sp_nu p) 0.
(** spergel.py:394-422 *)
Definition sp_maxk (p : spergel) : R :=
  let res := jpow (g_maxk (sp_gs p)) (-1 / (1 + sp_nu p)) - 1 in
  sqrt res / sp_r0 p.
(** spergel.py:401-406 *)
Definition sp_stepk (p : spergel) : R :=
  let R := flux_radius (1 - g_fold (sp_gs p)) (sp_nu p) 0 40 in
  let R := R * sp_r0 p in
  let R := Rmax R (g_hlr (sp_gs p) * sp_half_light_radius p) in
  PI / R.
(** spergel.py:414-417 *)
Definition sp_xValue (p : spergel) (pos : R * R) : R :=
  let r := sqrt (norm2 pos) * sp_inv_r0 p in
  let res := if Reqb r 0 then sp_xnorm0 p else fz_nu r (sp_nu p) in
  sp_xnorm p * res.
(** spergel.py:420-422 *)
Definition sp_kValue (p : spergel) (kpos : R * R) : R :=
  let ksq := norm2 kpos * sp_r0_sq p in sp_flux p * jpow (1 + ksq) (-1 - sp_nu p).
(** spergel.py:441-460 with n = 10000 points *)
Definition sp_zmax (p : spergel) : R := flux_radius (1 - g_shoot (sp_gs p)) (sp_nu p) 0 30.
Definition sp_z_cdf (n : nat) (p : spergel) (i : nat) : R := linspace 0 (sp_zmax p) n i.
Definition sp_pos_cdf (n : nat) (p : spergel) (i : nat) : R :=
  reducedfluxfraction (sp_z_cdf n p i) (sp_nu p) (fluxfraction (sp_zmax p) (sp_nu p) 0).
(** spergel.py:462-513 *)
Definition cumulflux (z a b zmin nu norm : R) : R :=
  let flux_min := a / 3 * zmin * zmin * zmin + b / 2 * zmin * zmin in
  let c1 := fz_nup1 zmin nu in
  let res := if Rltb zmin z then flux_min + c1 - fz_nup1 z nu else a / 3 * z * z * z + b / 2 * z * z in
  res / norm.
Definition sp_rmin (p : spergel) : R := flux_radius (g_shoot (sp_gs p)) (sp_nu p) 0 40.
Definition sp_line (p : spergel) : R * R :=
  let flux_target := g_shoot (sp_gs p) in
  let rmin := sp_rmin p in
  let knur := fz_nu rmin (sp_nu p) in
  let corrFact := sp_shootxnorm p in
  let b := knur - flux_target / (PI * rmin * rmin * corrFact) in
  let b := 3 * b / rmin in
  let a := knur - rmin * b in
  (a, b).
Definition sp_neg_cdf (n : nat) (p : spergel) (i : nat) : R :=
  let '(a, b) := sp_line p in
  let flux_max := cumulflux (sp_zmax p) a b (sp_rmin p) (sp_nu p) 1 in
  cumulflux (sp_z_cdf n p i) a b (sp_rmin p) (sp_nu p) flux_max.
(** spergel.py:515-518 *)
Definition sp_shoot_radius (search : nat -> (nat -> R) -> R -> nat) (n : nat) (p : spergel) (u : R) : R :=
  if Rltb 0 (sp_nu p) then interp search n u (sp_pos_cdf n p) (sp_z_cdf n p) * sp_r0 p
  else interp search n u (sp_neg_cdf n p) (sp_z_cdf n p) * sp_r0 p.
End Spergel.
