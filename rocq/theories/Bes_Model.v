(** bessel.py: the sine integral si, the modified Bessel function kv and the Bessel function j0, for one argument. Floats are reals;
    decimal constants are exact decimals (digits and number of decimal places); finfo.eps is 2^-52. Olver's expansion for
    orders from 50 on (bessel.py:412-441) is a variable. *)
From Coq Require Import ZArith Reals List Bool.
From Verif Require Import Base Bounds_Model.
Import ListNotations.
Open Scope R_scope.

Definition dec (c : Z * nat) : R := IZR (fst c) / 10 ^ snd c.
(** c0 + y (c1 + y (c2 + ...)) *)
Fixpoint horner (l : list (Z * nat)) (y : R) : R := match l with nil => 0 | c :: l => dec c + y * horner l y end.

(** * si *)
(** _f_pade, bessel.py:10-24 *)
Definition f_num : list (Z * nat) := [(1%Z, 0%nat); (744437068161936700618%Z, 18%nat); (196396372895146869801%Z, 15%nat); (237750310125431834034%Z, 13%nat); (143073403821274636888%Z, 11%nat); (433736238870432522765%Z, 10%nat); (640533830574022022911%Z, 9%nat); (420968180571076940208%Z, 8%nat); (100795182980368574617%Z, 7%nat); (494816688199951963482%Z, 8%nat); ((-494701168645415959931)%Z, 9%nat)].
(** _f_pade, bessel.py:25-36 *)
Definition f_den : list (Z * nat) := [(1%Z, 0%nat); (746437068161927678031%Z, 18%nat); (197865247031583951450%Z, 15%nat); (241535670165126845144%Z, 13%nat); (147478952192985464958%Z, 11%nat); (458595115847765779830%Z, 10%nat); (708501308149515401563%Z, 9%nat); (506084464593475076774%Z, 8%nat); (143468549171581016479%Z, 7%nat); (111535493509914254097%Z, 7%nat)].
(** bessel.py:10-37 *)
Definition f_pade (x x2 : R) : R := let y := 1 / x2 in horner f_num y / (x * horner f_den y).
(** _g_pade, bessel.py:41-55 *)
Definition g_num : list (Z * nat) := [(1%Z, 0%nat); (81359520115168615%Z, 14%nat); (235239181626478200%Z, 12%nat); (312557570795778731%Z, 10%nat); (206297595146763354%Z, 8%nat); (683052205423625007%Z, 7%nat); (109049528450362786%Z, 5%nat); (757664583257834349%Z, 5%nat); (181004487464664575%Z, 4%nat); (643291613143049485%Z, 5%nat); ((-136517137670871689)%Z, 5%nat)].
(** _g_pade, bessel.py:56-67 *)
Definition g_den : list (Z * nat) := [(1%Z, 0%nat); (819595201151451564%Z, 15%nat); (240036752835578777%Z, 12%nat); (326026661647090822%Z, 10%nat); (223355543278099360%Z, 8%nat); (787465017341829930%Z, 7%nat); (139866710696414565%Z, 5%nat); (117164723371736605%Z, 4%nat); (401839087307656620%Z, 4%nat); (399653257887490811%Z, 4%nat)].
(** bessel.py:41-68 *)
Definition g_pade (x x2 : R) : R := let y := 1 / x2 in y * horner g_num y / horner g_den y.
(** _si_small_pade, bessel.py:72-82 *)
Definition si_num : list (Z * nat) := [(1%Z, 0%nat); ((-454393409816329991)%Z, 19%nat); (115457225751016682%Z, 20%nat); ((-141018536821330254)%Z, 22%nat); (943280809438713025%Z, 25%nat); ((-353201978997168357)%Z, 27%nat); (708240282274875911%Z, 30%nat); ((-605338212010422477)%Z, 33%nat)].
(** _si_small_pade, bessel.py:83-91 *)
Definition si_den : list (Z * nat) := [(1%Z, 0%nat); (101162145739225565%Z, 19%nat); (499175116169755106%Z, 22%nat); (155654986308745614%Z, 24%nat); (328067571055789734%Z, 27%nat); (45049097575386581%Z, 29%nat); (321107051193712168%Z, 33%nat)].
(** bessel.py:72-90 *)
Definition si_small_pade (x x2 : R) : R := x * horner si_num x2 / horner si_den x2.
Definition sign (x : R) : R := if Rltb 0 x then 1 else if Rltb x 0 then -1 else 0.
(** si, bessel.py:94-105 *)
Definition si (x : R) : R :=
  let x2 := x * x in
  if Rltb 16 x2 then sign x * (PI / 2) - f_pade x x2 * cos x - g_pade x x2 * sin x else si_small_pade x x2.

(** * kv *)
Definition eps : R := / 2 ^ 52.
(** bessel.py:262, 313 *)
Definition max_iterations : nat := 1000.
(** jax.lax.while_loop with at most [fuel] rounds. The loops below stop by themselves within that number. *)
Fixpoint while_loop {A : Type} (fuel : nat) (cond : A -> bool) (body : A -> A) (a : A) : A :=
  if cond a then match fuel with O => a | S fuel => while_loop fuel cond body (body a) end else a.
(** _evaluate_temme_coeffs, bessel.py:196-204 *)
Definition coeff1_coeffs : list (Z * nat) := [((-1142022680371168)%Z, 15%nat); (65165112670737%Z, 16%nat); (3087090173086%Z, 16%nat); ((-34706269649)%Z, 16%nat); (69437664%Z, 16%nat); (367795%Z, 16%nat); ((-1356)%Z, 16%nat)].
(** bessel.py:205-214 *)
Definition coeff2_coeffs : list (Z * nat) := [(1843740587300905%Z, 15%nat); ((-768528408447867)%Z, 16%nat); (12719271366546%Z, 16%nat); ((-49717367042)%Z, 16%nat); ((-331261198)%Z, 16%nat); (2423096%Z, 16%nat); ((-1702)%Z, 16%nat); ((-149)%Z, 17%nat)].
(** Clenshaw's recurrence, bessel.py:218-234: from the last coefficient down to the second, then the first *)
Definition clenshaw (l : list (Z * nat)) (w : R) : R :=
  let y := 2 * w in
  let '(prev, current) := fold_left (fun pc c => (snd pc, y * snd pc - fst pc + dec c)) (rev (tl l)) (0, 0) in
  w * current - prev + 1 / 2 * dec (hd (0%Z, O) l).
(** bessel.py:215-238 *)
Definition temme_coeffs (v : R) : R * R * R * R :=
  let w := 8 * v * v - 1 in
  let coeff1 := clenshaw coeff1_coeffs w in
  let coeff2 := clenshaw coeff2_coeffs w in
  (coeff1, coeff2, coeff2 - v * coeff1, coeff2 + v * coeff1).
Definition np_sinc (v : R) : R := if Req_EM_T v 0 then 1 else sin (PI * v) / (PI * v).
(** _temme_series_kve, bessel.py:241-303 *)
Record temme : Type := Temme { t_stop : bool; t_index : R; t_f : R; t_p : R; t_q : R; t_coeff : R; t_kv : R; t_kvp1 : R }.
Definition temme_body (v z : R) (c : temme) : temme :=
  let i := t_index c in
  let f := if t_stop c then t_f c else (i * t_f c + t_p c + t_q c) / (i * i - v * v) in
  let p := if t_stop c then t_p c else t_p c / (i - v) in
  let q := if t_stop c then t_q c else t_q c / (i + v) in
  let h := p - i * f in
  let coeff := if t_stop c then t_coeff c else t_coeff c * (z * z) / (4 * i) in
  let kv_sum := if t_stop c then t_kv c else t_kv c + coeff * f in
  let kvp1_sum := if t_stop c then t_kvp1 c else t_kvp1 c + coeff * h in
  let i := i + 1 in
  let stop := Rltb (Rabs (coeff * f)) (Rabs kv_sum * eps) || Rltb (INR max_iterations) i in
  Temme stop i f p q coeff kv_sum kvp1_sum.
Definition temme_init (v z : R) : temme :=
  let '(coeff1, coeff2, gamma1pv_inv, gamma1mv_inv) := temme_coeffs v in
  let logzo2 := ln (z / 2) in
  let mu := - v * logzo2 in
  let sinhc_mu := if Req_EM_T mu 0 then 1 else sinh mu / mu in
  let initial_f := (coeff1 * cosh mu + coeff2 * (- logzo2) * sinhc_mu) / np_sinc v in
  let initial_p := 1 / 2 * exp mu / gamma1pv_inv in
  let initial_q := 1 / 2 * exp (- mu) / gamma1mv_inv in
  Temme false 1 initial_f initial_p initial_q 1 initial_f initial_p.
(** bessel.py:241-303 *)
Definition temme_series_kve (v z : R) : R * R :=
  let r := while_loop max_iterations (fun c => negb (t_stop c)) (temme_body v z) (temme_init v z) in
  (t_kv r * exp z, 2 * t_kvp1 r * exp z / z).
(** _continued_fraction_kve, bessel.py:306-409 *)
Record steed : Type := Steed { s_stop : bool; s_index : R; s_num : R; s_den : R; s_ratio : R; s_diff : R; s_hyp : R; s_k0 : R; s_k1 : R; s_c : R; s_q : R; s_sum : R }.
Definition steed_body (s : steed) : steed :=
  let num := s_num s - 2 * (s_index s - 1) in
  let c := if s_stop s then s_c s else - s_c s * num / s_index s in
  let next_k := (s_k0 s - s_den s * s_k1 s) / num in
  let k0 := if s_stop s then s_k0 s else s_k1 s in
  let k1 := if s_stop s then s_k1 s else next_k in
  let q := if s_stop s then s_q s else s_q s + c * next_k in
  let den := s_den s + 2 in
  let ratio := 1 / (den + num * s_ratio s) in
  let diff := if s_stop s then s_diff s else s_diff s * (den * ratio - 1) in
  let hyp := if s_stop s then s_hyp s else s_hyp s + diff in
  let sum := if s_stop s then s_sum s else s_sum s + q * diff in
  let i := s_index s + 1 in
  let stop := Rltb (Rabs (q * diff)) (Rabs sum * eps) || Rltb (INR max_iterations) i in
  Steed stop i num den ratio diff hyp k0 k1 c q sum.
Definition steed_init (v z : R) : steed :=
  let num := v * v - 1 / 4 in
  let den := 2 * (z + 1) in
  let ratio := 1 / den in
  Steed false 2 num den ratio ratio ratio 0 1 (- num) (- num) (1 - num * ratio).
(** bessel.py:306-409 *)
Definition continued_fraction_kve (v z : R) : R * R :=
  let r := while_loop max_iterations (fun s => negb (s_stop s)) steed_body (steed_init v z) in
  let log_kve := 1 / 2 * ln (PI / (2 * z)) - ln (s_sum r) in
  let log_kvp1e := log_kve + ln (1 + 2 * (v + z + (v * v - 1 / 4) * s_hyp r)) - ln z - ln 2 in
  (exp log_kve, exp log_kvp1e).
(** jnp.round: to the nearest integer, halves to even *)
Definition round_even (v : R) : Z :=
  let n := Int_part v in
  let d := v - IZR n in
  if Rltb d (1 / 2) then n else if Rltb (1 / 2) d then (n + 1)%Z else if Z.even n then n else (n + 1)%Z.
(** _temme_kve, bessel.py:444-481 *)
Definition recurrence_body (u x n : R) (c : R * R * R) : R * R * R :=
  let '(index, kve, kvep1) := c in
  let next_kvep1 := 2 * (u + index) * kvep1 / x + kve in
  (index + 1, if Rltb n index then kve else kvep1, if Rltb n index then kvep1 else next_kvep1).
Definition Rleb (a b : R) : bool := negb (Rltb b a).
(** bessel.py:444-481 *)
Definition temme_kve (v x : R) : R :=
  let v := Rabs v in
  let n := round_even v in
  let u := v - IZR n in
  let small_x := if Rleb x 2 then x else 1 / 10 in
  let large_x := if Rltb 2 x then x else 1000 in
  let '(temme_kue, temme_kuep1) := temme_series_kve u small_x in
  let '(cf_kue, cf_kuep1) := continued_fraction_kve u large_x in
  let kue := if Rleb x 2 then temme_kue else cf_kue in
  let kuep1 := if Rleb x 2 then temme_kuep1 else cf_kuep1 in
  let '(_, kve, _) := while_loop (Z.to_nat n) (fun c => Rleb (fst (fst c)) (IZR n)) (recurrence_body u x (IZR n)) (1, kue, kuep1) in
  kve.
(** A float result: a number, infinity or nan. *)
Inductive fl : Type := Num (r : R) | Inf | Nan.
Section KV.
Variable olver_kve : R -> R -> R.
(** _kve_core, bessel.py:484-499 *)
Definition kve_core (nu x : R) : R :=
  let nu := Rabs nu in
  let small_nu := if Rltb nu 50 then nu else 1 / 10 in
  let large_nu := if Rleb 50 nu then nu else 1000 in
  if Rleb 50 nu then olver_kve large_nu x else temme_kve small_nu x.
(** _kv_scalar, bessel.py:502-518; kv, bessel.py:520-548 *)
Definition kv (nu x : R) : fl :=
  let nu := Rabs nu in
  let safe_x := if Rltb 0 x then x else 1 in
  let result := Num (kve_core nu safe_x * exp (- safe_x)) in
  let result := if Req_EM_T x 0 then Inf else result in
  if Rltb x 0 then Nan else result.
(** _kv_fwd and _kv_bwd, bessel.py:551-565: the gradients with respect to nu and x for an incoming gradient g; None where a value is not finite *)
Definition kv_bwd (nu x g : R) : option (R * R) :=
  match kv (nu - 1) x, kv (nu + 1) x with
  | Num kv_prev, Num kv_next => Some (0, - (1 / 2) * (kv_prev + kv_next) * g)
  | _, _ => None
  end.
End KV.

(** * j0 *)
(** j0, bessel.py:594-604 *)
Definition P1 : list (Z * nat) := [((-41298668500990866786)%Z, 8%nat); (27282507878605942706%Z, 9%nat); ((-62140700423540120665)%Z, 11%nat); (66302997904833794242%Z, 13%nat); ((-36629814655107086448)%Z, 15%nat); (10344222815443188943%Z, 17%nat); ((-12117036164593528341)%Z, 20%nat)].
(** bessel.py:605-615 *)
Definition Q1 : list (Z * nat) := [(23883787996332290397%Z, 7%nat); (26328198300859648632%Z, 9%nat); (13985097372263433271%Z, 11%nat); (45612696224219938200%Z, 14%nat); (93614022392337710626%Z, 17%nat); (10%Z, 1%nat); (0%Z, 1%nat)].
(** bessel.py:617-628 *)
Definition P2 : list (Z * nat) := [((-18319397969392084011)%Z, 16%nat); ((-12254078161378989535)%Z, 15%nat); ((-72879702464464618998)%Z, 16%nat); (10341910641583726701%Z, 15%nat); (11725046279757103576%Z, 15%nat); (44176707025325087628%Z, 16%nat); (74321196680624245801%Z, 17%nat); (48591703355916499363%Z, 18%nat)].
(** bessel.py:629-640 *)
Definition Q2 : list (Z * nat) := [((-35783478026152301072)%Z, 14%nat); (24599102262586308984%Z, 14%nat); ((-84055062591169562211)%Z, 15%nat); (18680990008359188352%Z, 15%nat); ((-29458766545509337327)%Z, 16%nat); (33307310774649071172%Z, 17%nat); ((-25258076240801555057)%Z, 18%nat); (10%Z, 1%nat)].
(** bessel.py:642-651 *)
Definition PC : list (Z * nat) := [(22779090197304684302%Z, 15%nat); (41345386639580765797%Z, 15%nat); (21170523380864944322%Z, 15%nat); (34806486443249270347%Z, 16%nat); (15376201909008354296%Z, 17%nat); (88961548424210455236%Z, 20%nat)].
(** bessel.py:652-661 *)
Definition QC : list (Z * nat) := [(22779090197304684318%Z, 15%nat); (41370412495510416640%Z, 15%nat); (21215350561880115730%Z, 15%nat); (35028735138235608207%Z, 16%nat); (15711159858080893649%Z, 17%nat); (10%Z, 1%nat)].
(** bessel.py:663-672 *)
Definition PS : list (Z * nat) := [((-89226600200800094098)%Z, 18%nat); ((-18591953644342993800)%Z, 17%nat); ((-11183429920482737611)%Z, 17%nat); ((-22300261666214198472)%Z, 18%nat); ((-12441026745835638459)%Z, 19%nat); ((-88033303048680751817)%Z, 22%nat)].
(** bessel.py:673-682 *)
Definition QS : list (Z * nat) := [(57105024128512061905%Z, 16%nat); (11951131543434613647%Z, 15%nat); (72642780169211018836%Z, 16%nat); (14887231232283756582%Z, 16%nat); (90593769594993125859%Z, 18%nat); (10%Z, 1%nat)].
(** bessel.py:684-690 *)
Definition x1 : R := dec (24048255576957727686%Z, 19%nat).
Definition x2 : R := dec (55200781102863106496%Z, 19%nat).
(** bessel.py:686 *)
Definition x11 : R := 616.
(** bessel.py:687 *)
Definition x12 : R := dec ((-142444230422723137837)%Z, 23%nat).
(** bessel.py:688 *)
Definition x21 : R := 1413.
(** bessel.py:689 *)
Definition x22 : R := dec (546860286310649596604%Z, 24%nat).
(** bessel.py:690 *)
Definition one_div_root_pi : R := dec (5641895835477562869480794515607725858%Z, 37%nat).
(** _evaluate_rational, bessel.py:568-580: polyval takes the highest coefficient first and gets the reversed lists *)
Definition evaluate_rational (z : R) (num denom : list (Z * nat)) : R := horner num z / horner denom z.
(** t1, t2, t3, bessel.py:692-712 *)
Definition t1 (x : R) : R := let y := x * x in (x + x1) * ((x - x11 / 256) - x12) * evaluate_rational y P1 Q1.
Definition t2 (x : R) : R := let y := 1 - x * x / 64 in (x + x2) * ((x - x21 / 256) - x22) * evaluate_rational y P2 Q2.
Definition t3 (x : R) : R :=
  let y := 8 / x in
  let rc := evaluate_rational (y * y) PC QC in
  let rs := evaluate_rational (y * y) PS QS in
  one_div_root_pi / sqrt x * (rc * (cos x + sin x) - y * rs * (sin x - cos x)).
(** bessel.py:714-718 *)
Definition j0 (x : R) : R :=
  let x := Rabs x in
  let x_ := if Req_EM_T x 0 then 1 else x in
  if Req_EM_T x 0 then 1 else if Rleb x 4 then t1 x_ else if Rleb x 8 then t2 x_ else t3 x_.
