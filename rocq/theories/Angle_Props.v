(** Properties C63 (wrapping and units), C64 (sexagesimal text), C89 (angle arithmetic). *)
From Coq Require Import ZArith Reals Bool Ascii String List Lra Lia.
From Verif Require Import Base Bounds_Model Bounds_Proofs FFT_Model Angle_Model Angle_Spec Angle_Proofs Angle_More.
Import ListNotations.
Open Scope R_scope.

(** * C63 *)
Theorem C63_wrap : forall r c, same_direction (wrap r c) r /\ centre c - PI <= wrap r c < centre c + PI.
Proof. exact wrap_ok. Qed.
Print Assumptions C63_wrap.
(** It is the only angle in that range that differs by whole turns: wrapping twice changes nothing, and
    angles that differ by whole turns are wrapped to the same one. *)
Theorem C63_wrap_is_the_only_one : forall r c y, same_direction y r -> centre c - PI <= y < centre c + PI -> wrap r c = y.
Proof. exact wrap_unique. Qed.
Print Assumptions C63_wrap_is_the_only_one.
Theorem C63_wrap_idempotent : forall r r' c, wrap (wrap r c) c = wrap r c /\ (same_direction r r' -> wrap r c = wrap r' c).
Proof.
  intros r r' c. destruct (wrap_ok r c) as [A B]. split.
  - apply wrap_unique; auto. exists 0%Z. lra.
  - intros H. destruct (wrap_ok r' c) as [A' B']. apply wrap_unique; auto. apply same_trans with r'; auto. apply same_sym; auto.
Qed.
Print Assumptions C63_wrap_idempotent.
Theorem C63_wrap_keeps_sin_cos : forall r c, cos (wrap r c) = cos r /\ sin (wrap r c) = sin r.
Proof. intros r c. apply cos_sin_period. apply wrap_ok. Qed.
Print Assumptions C63_wrap_keeps_sin_cos.
(** Units: (x * unit1) / unit2 = x * (unit1 / unit2), the identity promised in the code. *)
Theorem C63_units : forall x u u', u' <> 0 ->
  bind (a_mul (VNum x) (VUnit u)) (fun a => a_div a (VUnit u')) =
  bind (a_div (VUnit u) (VUnit u')) (fun k => a_mul (VNum x) k) /\
  bind (a_mul (VNum x) (VUnit u')) (fun a => a_div a (VUnit u')) = Ok (VNum x).
Proof. intros x u u' H. cbn. split; do 2 f_equal; field; auto. Qed.
Print Assumptions C63_units.
Theorem C63_unit_ratios : hours = 15 * degrees /\ degrees = 60 * arcmin /\ arcmin = 60 * arcsec /\ 2 * PI * radians = 360 * degrees /\ 0 < arcsec.
Proof. unfold hours, degrees, arcmin, arcsec, radians. pose proof PI_RGT_0. repeat split; try field. lra. Qed.
Print Assumptions C63_unit_ratios.
Example C63_witness : wrap (7 * PI / 2) None = - (PI / 2) /\ wrap PI None = - PI /\ wrap 0 (Some (3 * PI)) = 2 * PI.
Proof.
  pose proof PI_RGT_0. repeat split; apply wrap_unique; cbn [centre]; try lra.
  - exists (-2)%Z. lra. - exists (-1)%Z. lra. - exists 1%Z. lra.
Qed.

(** * C64 *)
(** The fields that are printed: whole minutes and seconds below 60, the fraction of a second to the
    requested precision (8 digits if none), together within half a unit of the last digit of the angle;
    trailing zeros and a trailing point go when no precision (or zero) was asked for. *)
Theorem C64_fields : forall x (s1 s2 : text) (s3 : option text) prec pad plus, exists d m s f D M S F,
  let p := precision prec in
  (0 <= d /\ 0 <= m < 60 /\ 0 <= s < 60 /\ 0 <= f < 10 ^ Z.of_nat p)%Z /\
  Rabs (IZR (((d * 60 + m) * 60 + s) * 10 ^ Z.of_nat p + f) - 3600 * IZR (10 ^ Z.of_nat p) * Rabs x) <= / 2 /\
  reads D d /\ reads M m /\ reads S s /\ reads F f /\ D <> [] /\ M <> [] /\ S <> [] /\
  (pad = true -> length M = 2%nat /\ length S = 2%nat /\ (2 <= length D)%nat) /\ ((0 < p)%nat -> length F = p) /\
  make_dms x (s1, s2, s3) prec pad plus =
    (let body := sign_of x plus ++ D ++ s1 ++ M ++ s2 ++ S ++ ["."%char] ++ F in
     match prec with None | Some O => trimmed body | Some _ => body end) ++ match s3 with None => [] | Some t => t end.
Proof. exact format_fields. Qed.
Print Assumptions C64_fields.
(** Parsing what was printed gives the angle back to half a unit of the last digit: dms and hms. *)
Theorem C64_dms_round_trip : forall rad sep prec pad plus, usable sep -> (forall p, prec = Some p -> (0 <= p)%Z) ->
  exists t r, dms rad sep prec pad plus = Ok t /\ from_dms t = Ok r /\
    Rabs (r - rad) <= arcsec / (2 * 10 ^ match prec with None => 8 | Some p => Z.to_nat p end).
Proof.
  intros rad sep prec pad plus U P. assert (D : 0 < degrees) by (unfold degrees; pose proof PI_RGT_0; lra).
  destruct (format_round_trip degrees rad sep prec pad plus D U P) as [t [x [A [B E]]]]. exists t, (x * degrees). unfold from_dms. rewrite B.
  split; [exact A|]. split; [reflexivity|]. eapply Rle_trans; [exact E|]. right.
  unfold degrees, arcsec. field. apply pow_nonzero. lra.
Qed.
Print Assumptions C64_dms_round_trip.
Theorem C64_hms_round_trip : forall rad sep prec pad plus, usable sep -> (forall p, prec = Some p -> (0 <= p)%Z) ->
  exists t r, hms rad sep prec pad plus = Ok t /\ from_hms t = Ok r /\
    Rabs (r - rad) <= 15 * arcsec / (2 * 10 ^ match prec with None => 8 | Some p => Z.to_nat p end).
Proof.
  intros rad sep prec pad plus U P. assert (D : 0 < hours) by (unfold hours; pose proof PI_RGT_0; lra).
  destruct (format_round_trip hours rad sep prec pad plus D U P) as [t [x [A [B E]]]]. exists t, (x * hours). unfold from_hms. rewrite B.
  split; [exact A|]. split; [reflexivity|]. eapply Rle_trans; [exact E|]. right.
  unfold hours, arcsec. field. apply pow_nonzero. lra.
Qed.
Print Assumptions C64_hms_round_trip.
(** Without separators nothing that is printed can be read. *)
Theorem C64_without_separators_unreadable : forall x prec pad plus, parse_dms (make_dms x ([], [], None) prec pad plus) = Err ValueError.
Proof. exact no_separator. Qed.
Print Assumptions C64_without_separators_unreadable.
(** Shorter texts: degrees and minutes, or degrees with a mark; a minus sign applies to the whole. *)
Theorem C64_degrees_and_minutes : forall sg D s M d m, sign_text sg -> reads D d -> D <> [] -> reads M m -> M <> [] -> s <> [] -> plain s ->
  parse_dms (sg ++ D ++ s ++ M) = Ok ((if text_eqb sg (txt "-") then -1 else 1) * (IZR d + IZR m / 60)).
Proof.
  intros sg D s M d m SG RD ND RM NM NS PS. pose proof (reads_dval _ _ RD) as VD. pose proof (reads_dval _ _ RM) as VM. apply reads_digits in RD, RM.
  assert (A : forall X, forallb is_digit X = true -> forall c, In c X -> is_num c = true) by (intros X H c I; rewrite forallb_forall in H; apply digit_num; auto).
  rewrite <- VD, <- VM. exact (parse_pair sg D s M _ _ SG ND (A D RD) NM (A M RM) NS PS (float_int D ND RD) (float_int M NM RM)).
Qed.
Print Assumptions C64_degrees_and_minutes.
Theorem C64_degrees_alone : forall sg D s d, sign_text sg -> reads D d -> D <> [] -> s <> [] -> plain s -> is_space (List.last s "0"%char) = false ->
  parse_dms (sg ++ D ++ s) = Ok ((if text_eqb sg (txt "-") then -1 else 1) * IZR d).
Proof.
  intros sg D s d SG RD ND NS PS SP. pose proof (reads_dval _ _ RD) as VD. apply reads_digits in RD.
  assert (A : forall X, forallb is_digit X = true -> forall c, In c X -> is_num c = true) by (intros X H c I; rewrite forallb_forall in H; apply digit_num; auto).
  rewrite <- VD. exact (parse_single sg D s _ SG ND (A D RD) NS PS SP (float_int D ND RD)).
Qed.
Print Assumptions C64_degrees_alone.
Example C64_witness : usable [txt ":"] /\ usable [txt "h"; txt "m"; txt "s"] /\ usable [txt "hours "; txt " minutes "; txt "seconds "].
Proof.
  assert (P : forall t, forallb (fun c => negb (is_num c)) t = true -> plain t).
  { intros t H c I N. rewrite forallb_forall in H. specialize (H c I). unfold numeric in N. cbn in N.
    repeat (destruct N as [<-|N]; [discriminate H|]). destruct N. }
  repeat split; try discriminate; apply P; reflexivity.
Qed.
(** Parsing: a leading text other than exactly a minus sign is taken as plus. *)
Example C64_prefixes : (exists y, parse_dms (txt "-12:30:00") = Ok y /\ y = - (25 / 2)) /\
  (exists y, parse_dms (txt "--12:30:00") = Ok y /\ 0 < y) /\ parse_dms (txt "12") = Err ValueError /\
  parse_dms (txt "1:2:3:4") = Err ValueError /\ parse_dms (txt "1.2.3:4:5") = Err ValueError.
Proof.
  repeat split; try reflexivity.
  - eexists. split; [reflexivity|]. change (-1 * (12 + 0 / 10 ^ 0 + (30 + 0 / 10 ^ 0) / 60 + (0 + 0 / 10 ^ 0) / 3600) = - (25 / 2)). cbn [pow]. lra.
  - eexists. split; [reflexivity|]. change (0 < 1 * (12 + 0 / 10 ^ 0 + (30 + 0 / 10 ^ 0) / 60 + (0 + 0 / 10 ^ 0) / 3600)). cbn [pow]. lra.
Qed.

(** * C89: arithmetic *)
(** The power of an angle an object stands for. *)
Definition dimension (a : aval) : option Z := match a with VNum _ => Some 0%Z | VUnit _ | VAng _ => Some 1%Z | VOther => None end.
Theorem C89_dimensions : forall a b c,
  (a_add a b = Ok c -> dimension a = dimension b /\ dimension c = dimension a) /\
  (a_sub a b = Ok c -> dimension a = dimension b /\ dimension c = dimension a) /\
  (a_mul a b = Ok c -> exists x y, dimension a = Some x /\ dimension b = Some y /\ dimension c = Some (x + y)%Z) /\
  (a_div a b = Ok c -> exists x y, dimension a = Some x /\ dimension b = Some y /\ dimension c = Some (x - y)%Z) /\
  (forall t, a_lt a b = Ok t -> dimension a = dimension b) /\ (forall t, a_le a b = Ok t -> dimension a = dimension b).
Proof.
  intros a b c. repeat split; destruct a, b; cbn; intros; try discriminate; try (injection H as <-); auto; do 2 eexists; repeat split; reflexivity.
Qed.
Print Assumptions C89_dimensions.
Theorem C89_vector_space : forall r s t x y,
  a_add (VAng r) (VAng s) = a_add (VAng s) (VAng r) /\
  bind (a_add (VAng r) (VAng s)) (fun u => a_add u (VAng t)) = bind (a_add (VAng s) (VAng t)) (fun u => a_add (VAng r) u) /\
  bind (a_add (VAng r) (VAng s)) (fun u => a_sub u (VAng s)) = Ok (VAng r) /\
  a_add (VAng r) (VAng (a_neg r)) = Ok (VAng 0) /\
  bind (a_add (VAng r) (VAng s)) (fun u => a_mul (VNum x) u) =
    bind (a_mul (VNum x) (VAng r)) (fun u => bind (a_mul (VNum x) (VAng s)) (fun v => a_add u v)) /\
  a_mul (VNum x) (VAng r) = a_mul (VAng r) (VNum x) /\
  (y <> 0 -> bind (a_div (VAng r) (VNum y)) (fun u => a_mul u (VNum y)) = Ok (VAng r)).
Proof. intros r s t x y. cbn. unfold a_neg. repeat split; try (do 2 f_equal; ring). intros H. do 2 f_equal. field; auto. Qed.
Print Assumptions C89_vector_space.
Theorem C89_order : forall r s t x,
  (a_lt (VAng r) (VAng s) = Ok true <-> r < s) /\ (a_le (VAng r) (VAng s) = Ok true <-> r <= s) /\
  (a_lt (VAng r) (VAng s) = Ok true -> a_lt (VAng (r + t)) (VAng (s + t)) = Ok true) /\
  (a_eq (VAng r) (VAng s) = true <-> r = s) /\ a_eq (VAng r) (VNum x) = false /\ a_eq (VAng r) (VUnit x) = false.
Proof.
  intros r s t x. cbn. destruct (Rltb_spec r s), (Rltb_spec s r), (Rltb_spec (r + t) (s + t)), (Reqb_spec r s); cbn;
    repeat split; intros; try reflexivity; try lra; try discriminate; try congruence.
Qed.
Print Assumptions C89_order.
(** An angle is made of a number and a unit, or copied without a unit; everything else is a TypeError. *)
Theorem C89_construction : forall theta unit a,
  (mkAngle theta unit = Ok a <-> (exists r, theta = VAng r /\ unit = None /\ a = VAng r) \/
                                 (exists x u, theta = VNum x /\ unit = Some (VUnit u) /\ a = VAng (x * u))) /\
  (forall e, mkAngle theta unit = Err e -> e = TypeError).
Proof.
  intros theta unit a. split.
  - split.
    + destruct theta, unit as [[]|]; cbn; intro H; try discriminate; injection H as <-; eauto 7.
    + intros [[r [-> [-> ->]]] | [x [u [-> [-> ->]]]]]; reflexivity.
  - intro e. destruct theta, unit as [[]|]; cbn; congruence.
Qed.
Print Assumptions C89_construction.
Theorem C89_equality : forall a b, a_eq a b = true <-> (exists r, (a = VAng r /\ b = VAng r) \/ (a = VUnit r /\ b = VUnit r)).
Proof.
  intros a b. split.
  - destruct a as [|x|x|], b as [|y|y|]; cbn; try discriminate; destruct (Reqb_spec x y) as [->|n]; try discriminate; eauto.
  - intros [r [[-> ->] | [-> ->]]]; cbn; destruct (Reqb_spec r r); congruence.
Qed.
Print Assumptions C89_equality.
Example C89_witness : a_add (VAng 1) (VNum 2) = Err TypeError /\ a_mul (VAng 1) (VAng 2) = Err TypeError /\
  a_div (VAng 1) (VAng 2) = Err TypeError /\ mkAngle (VAng 1) (Some (VUnit degrees)) = Err TypeError /\ mkAngle (VNum 3) (Some (VUnit 2)) = Ok (VAng (3 * 2)).
Proof. repeat split. Qed.
(** Unit names *)
(** Unit names: any text starting, after blanks and in either case, with one of the names. *)
Theorem C63_unit_names : forall blank w name t u, In (name, u) unit_names -> forallb is_space blank = true -> Forall2 writes w name ->
  from_name (blank ++ w ++ t) = Ok (match u with URad => radians | UDeg => degrees | UHour => hours | UMin => arcmin | USec => arcsec end).
Proof. exact unit_name_ok. Qed.
Print Assumptions C63_unit_names.
Theorem C63_other_names_refused : forall s u, from_name s = Ok u -> exists name k t, In (name, k) unit_names /\ map lower (strip s) = name ++ t /\
  u = match k with URad => radians | UDeg => degrees | UHour => hours | UMin => arcmin | USec => arcsec end.
Proof. exact from_name_only. Qed.
Print Assumptions C63_other_names_refused.
Example C63_names_witness : from_name (txt " Degrees") = Ok degrees /\ from_name (txt "rad") = Ok radians /\ from_name (txt "HR") = Ok hours /\
  from_name (txt "hour") = Ok hours /\ from_name (txt "arcmin") = Ok arcmin /\ from_name (txt "arcsec") = Ok arcsec /\ from_name (txt "furlong") = Err ValueError.
Proof. repeat split. Qed.
