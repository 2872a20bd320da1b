(** moffat.py: the Fourier side of the Moffat profile: maxk, a fitted rational function, and kValue, an Akima table of the
    analytic transform continued by an asymptotic form. Floats are reals; where a division by 0 decides the result it is a
    [fl] (number, infinity, nan). Simplifications: one position at a time; stop_gradient is the identity; jit, the reshapes
    to and from one-dimensional arrays are left out; lax.lgamma is the parameter [lgamma], Olver's expansion behind kv for
    orders of 50 and more the parameter [olver] of Bes_Model. *)
From Coq Require Import ZArith Reals Bool List.
From Verif Require Import Base Bounds_Model GSP_Model Akima_Model Bes_Model Size_Model.
Import ListNotations.
Open Scope R_scope.

(** * maxk *)
(** RATIONAL_POLY_VALS, moffat.py:474-567, after the reshape of line 465: rows of 21, in units of 10^-21 *)
Definition rational_poly_vals : list (list Z) :=
  ([
   [403775412351649990000; 98573979309710097000; (-88368998636191423000); (-144040588744654670000); (-187225171039655410000); (-239415759299004520000); 194770515205227980000; 2517489365938291100000; 6980256988462806500000; 2952898700593454600000; (-918321693467036290000); 492862383976461150000; 1000563630116439300000; 703923350188073390000; (-140545369402474310000); (-852186229315511690000); (-676211289054019280000); (-295376130035412910000); (-1285466724521910700000); 4018990994880637900000; 218505707247642900000];
   [(-42274342642823717000); (-224501153040110900000); (-368871800447876320000); (-436033642548420640000); (-492569057590917290000); (-663988732198475760000); (-595587126299926380000); 1183790992130822100000; (-4613852924853813600000); 1345046932460288500000; 494581875287544600000; 602732934913084000000; 639629894633965800000; 615822846947668090000; 567812125638652690000; 551254437023606210000; 596192662858829330000; 547458784703775510000; (-123511603882073730000); (-701079931830233980000); 9593563441437444400000];
   [(-872838335893760030000); (-1025551047521084700000); (-1092921154231964300000); (-910205296166514130000); (-600238703974443120000); (-655071955606189030000); (-1072214885155470500000); 738850754196173190000; (-4029475411068567300000); (-7829743102082941800000); (-664746408337342550000); 773806261624356060000; 675288381013276930000; (-178045644354401010000); (-623988484984661200000); 57643808537703685000; 1192383509248928300000; 492331033752119170000; (-2942694999149289400000); 2699862829263731400000; (-140934837119096820000)];
   [403728105905051150000; 246473189641527840000; 11417136722445211000; (-296796575678208440000); (-687043466907111380000); (-1293756999624318600000); (-1759719715887036800000); 1114393587896726600000; (-3578210784781954400000); 411996202281322500000; 119706016819854990000; 20114099603243733000; (-6543413638194339000); 85736126942115937000; 272613281534140830000; 489603926703074730000; 978344570646662910000; 2716818091511354400000; 5828045418453447400000; 4353742907002483300000; (-361759151011711520000)];
   [342587892954607450000; 156735189085991020000; 106666672333575300000; 274022424435744870000; 574509897227391540000; 658651112991179730000; 1061947125425616800000; 5028110712439056100000; 437693929318786420000; 1379775770539877400000; (-406420607824908190000); (-481071063790141030000); (-465453842165542750000); (-326685329267040190000); 18685658280818033000; 731388848604566990000; 2059037455708345300000; 4231910568751179500000; 6344345680982357300000; 3105092585480151900000; 245666838400457550000];
   [(-1427202704958499400000); (-1276955549984083900000); (-1170250592115799300000); (-1089753842228206500000); (-995707838249943580000); (-766630443604628290000); 24280904621074063000; (-628259779066548620000); 4774845931551288600000; (-34479672270932647000); 1581074564769288500000; 1059232425302277300000; 651927198483772340000; 347330389659472770000; 137102695378098160000; 17457176684719813000; (-10579281455920138000); 115773132568922350000; 634986195379277030000; (-3563671333930093600000); 27473701713859548000000];
   [(-814716289004806190000); (-621635184527593140000); (-630798952048623130000); (-872607516813156630000); (-797370425137193810000); 413697378068001050000; 2258414583732917700000; 691410611011503470000; 12238567163847529000000; (-1488124039701979700000); 2534600821014940700000; 3414421525606225600000; 3940407794158081100000; 4069763165727748000000; 4002016245883940100000; 3695651656783377700000; 1547175301094835700000; (-4509673324340926800000); 6219735665058789400000; 13720454142006250000000; 7178980887310680200000];
   [1287846938531868900000; 2515925737393237800000; 1982577294833458800000; (-201247952933984450000); 730721827948281440000; 4378877507963877300000; 2485171051949407200000; 3957144468029521400000; 79890557503685585000000; 3216301259095490900000; (-1305529919608615000000); 2404715255180692500000; 1186998262260865700000; (-2678259151938930500000); (-2135144717893065800000); 4706434571129691800000; 3718600784522939400000; (-6294872177502383300000); 1922239646469215700000; (-5292913539414822600000); 24064161945473813000000];
   [466996200001593250000; (-288244839586103920000); (-529870533117171920000); (-252662208382572810000); 333598029971666040000; 343687547310099480000; (-1725982421542934900000); 1187571256266276800000; (-6412548208718796300); (-309869913048259560000); 1701212854643831900000; 1404129400883834300000; 1194495656200592800000; 1038274409888644900000; 965415594329195210000; 1048475896946823700000; 1139406348156994000000; 342696116480678270000; (-1913324880429731400000); 10420905503308806000000; 2117996192544784300000];
   [(-117104206525762920000); 144354889434984530000; 312178162684833340000; 494271509250412080000; 989177104593917610000; 1600747995875371200000; 177413482662169280000; (-2396875259409678300000); 2754460432411132600000; 1389265717447383900000; 875784076665118370000; (-3507369223959056400); (-522243017807337730000); (-362629783878032350000); 437749168058503670000; 1225349994743053500000; 1150099812876062400000; 1126823952412099500000; 5879774225098564100000; (-661844666472120810000); 5672144174482526500000];
   [(-561574727431295660000); (-431960988856799840000); (-377156694359299660000); (-258833226196833800000); 415491696489990790000; 1962500939567704900000; 2448696079218084100000; (-1797561566666194200000); 1983514787596021500000; (-1278485185161486900000); 589843205598142850000; 742299582324060570000; 741620218761674390000; 409299571870213870000; (-201856747466498590000); (-594689031447478980000); 254984007358455170000; 3151551988501956700000; 4486471884064706700000; (-702400043327752190000); 4601090770284080200000];
   [(-715167601605707580000); (-60415971544731641000); 289081432406345100000; 296296157207738610000; 144932788764101290000; 148997061677537100000; (-256245657173647780000); (-543565033530581610000); 2187192527052471900000; 1254389809039812700000; (-1018571899782028600000); (-675961941021203880000); (-380411803693335100000); (-109788988352050550000); 150994657246649840000; 420166949731948960000; 733516643831899630000; 1055120540973904200000; 910244903731688200000; (-637631534141318460000); 6889380254371877400000];
   [(-459717181333572870000); (-692849774401485430000); (-867962684507468500000); (-1095038432034802300000); (-1196636091099795500000); (-677075488885387040000); (-132804693124102060000); (-3227839455345610000000); (-1434326313385159800000); (-2655577766772788500000); 87311541655505295000; 241775220018541260000; 459818993244227810000; 533465388198795740000; 522502630590442000000; 675010245306442820000; 706572192064556240000; (-394121095095890720000); (-1058788836093202100000); 4245744191190916600000; (-231404892728694110000)];
   [(-2286184425746834700000); (-1332976898339734800000); (-53454494370389308000); 1061243882651175600000; 1646454855559955600000; 2198196214762016400000; 2121891466060331400000; (-3757853460419011200000); 820815955762962510000; 432960947857530920000; (-1081611290619423500000); (-364843275460781270000); 609091040758578670000; 1635803145661568900000; 2322964681610896400000; 2211872790959914100000; 1346916386808686600000; 1299421405510253100000; 4381376365760850400000; 4997553225288556600000; 1390367924568986400000];
   [484143272858722270000; 702245307749248430000; 1080333953656839000000; 1337316622346637700000; 957605082451821520000; (-618639624661796230000); (-3301947039312036900000); (-5904924423158012000000); 9220710111569403000000; 534447491636455110000; 1610880035060551700000; 1316564201492642900000; 905879095068967470000; 435947523412246800000; 36916356990756842000; (-82038474944938655000); 321661157600073360000; 1456482764767320400000; 2854442205433902500000; 2655247371639619700000; 14919279500221457000000];
   [(-252711290853827650000); (-889925562141294590000); (-692464767001651050000); 184805389367987710000; 1264050372168527200000; 1445885640446387300000; (-312866507511200880000); (-3381351324486566900000); 3708190989500916000000; 95461952229348529000; 1831633772638780800000; 1908190976964189200000; 1788243707363388300000; 1488675321599749200000; 1053060975947899500000; 602161772998749510000; 461115556013697250000; 1236262662240877700000; 2658980476564092800000; 3021893915787412500000; 9695675860565442500000];
   [3008464942870015400000; (-1628570811891130600000); (-3363675084969735000000); (-1358316267032630500000); 2549401589355162900000; 3098087890574908500000; (-3008545243793262300000); 1512425994055170800000; 5551526121209915000000; (-152055507333514890000); (-554116861827484210000); 496133915703724120000; 1585171722245444700000; 2437867701939267800000; 2407427101931877400000; 1351441994923281900000; 1706394967797488600000; 7408747237261715100000; 1758507442900397100000; 13341690752552770000000; 7075041435131209900000]])%Z.
Definition unit21 (z : Z) : R := IZR z / 10 ^ 21.
(** jnp.polyval *)
Definition polyval (c : list R) (x : R) : R := fold_left (fun acc a => acc * x + a) c 0.
(** _pade_func, moffat.py:449-456. A denominator of 0 gives 0 here and an infinity in the code; C135_no_pole shows that
    there is none in the range of the fit. *)
Definition pade_func (coeffs : list R) (x : R) : R :=
  let order := ((length coeffs - 1) / 2)%nat in
  let p := polyval (firstn order coeffs) x in
  let q := polyval (skipn order coeffs ++ [1]) x in
  p / q.
(** moffat.py:443-446 *)
Definition log_beta_min : R := ln (1.1 + / 10 ^ 6).
(** moffat.py:445 *)
Definition log_beta_max : R := ln 100.
(** moffat.py:446 *)
Definition log_mkts_min : R := ln (/ 10 ^ 12).
(** moffat.py:447 *)
Definition log_mkts_max : R := ln 0.1.
(** _logmaxk_psuedo_pade_approx, moffat.py:459-467 *)
Definition pade2 (coeffs : list (list R)) (log_beta log_mkts : R) : R :=
  let pqvals := map (fun row => pade_func row log_beta) coeffs in
  pade_func pqvals log_mkts.
Definition logmaxk (log_beta log_mkts : R) (coeffs : list (list R)) : R :=
  let log_beta := (log_beta - log_beta_min) / (log_beta_max - log_beta_min) in
  let log_mkts := (log_mkts - log_mkts_min) / (log_mkts_max - log_mkts_min) in
  pade2 coeffs log_beta log_mkts.
(** _maxk, moffat.py:262-274 *)
Definition mo_maxk (p : moffat) : R :=
  exp (logmaxk (ln (mo_beta p)) (ln (g_maxk (mo_gs p))) (map (map unit21) rational_poly_vals)) / mo_r0 p.

(** * kValue *)
Section KValue.
  Variable lgamma : R -> R.
  Variable olver : R -> R -> R.
  (** _Knu, moffat.py:23-26, where it is used: the argument is positive, so that kv is a number *)
  Definition knu (nu x : R) : R := match kv olver nu x with Num r => r | _ => 0 end.
  (** moffat.py:202-213 *)
  Definition mo_knorm (p : moffat) : R := mo_flux p.
  (** moffat.py:208-213 *)
  Definition mo_knorm_bis (p : moffat) : R :=
    let x1 := mo_flux p * 4 in
    let x2 := jpow 2 (mo_beta p) in
    let x3 := exp (lgamma (mo_beta p - 1)) in
    x1 / (x2 * x3).
  (** _kValue_untrunc_func, moffat.py:318-329 *)
  Definition untrunc_func (beta k knorm_bis knorm r0 : R) : R :=
    let msk := Rltb 0 k in
    let kr0_msk := (if msk then k else 1) * r0 in
    if msk then knorm_bis * jpow kr0_msk (beta - 1) * knu (beta - 1) kr0_msk else knorm.
  (** _kValue_untrunc_asymp_func, moffat.py:331-340 *)
  Definition asymp_func (beta k knorm_bis r0 : R) : R :=
    let kr0 := k * r0 in
    knorm_bis * jpow kr0 (beta - 1) * exp (- kr0) * sqrt (PI / 2 / kr0).
  (** a / b of floats *)
  Definition fdiv (a b : R) : fl := if Reqb b 0 then (if Reqb a 0 then Nan else Inf) else Num (a / b).
  (** _kValue_untrunc_interp_coeffs, moffat.py:342-366 *)
  Definition n_pts : nat := Z.to_nat 700.
  Definition table_k (p : moffat) : list R := map (linspace 0 (mo_maxk p) n_pts) (seq 0 n_pts).
  Definition table_vals (p : moffat) : list R := map (fun k => untrunc_func (mo_beta p) k (mo_knorm_bis p) (mo_knorm p) (mo_r0 p)) (table_k p).
  Definition slp (p : moffat) : fl :=
    let k_last := last (table_k p) 0 in
    let aval := asymp_func (mo_beta p) k_last (mo_knorm_bis p) (mo_r0 p) in
    match fdiv (last (table_vals p) 0) aval with Num q => Num ((q - 1) * k_last * mo_r0 p) | o => o end.
  (** asymp * (1 + slp / k / r0) *)
  Definition tail (p : moffat) (k : R) : fl :=
    let a := asymp_func (mo_beta p) k (mo_knorm_bis p) (mo_r0 p) in
    match slp p with
    | Num s => Num (a * (1 + s / k / mo_r0 p))
    | Inf => if Reqb a 0 then Nan else Inf
    | Nan => Nan
    end.
  (** _kValue, moffat.py:368-392 *)
  Definition mo_kValue (p : moffat) (kpos : R * R) : fl :=
    let k := sqrt (norm2 kpos) in
    let k_ := table_k p in
    let res := akima_interp k k_ (akima_interp_coeffs k_ (table_vals p) true) true in
    let k_msk := if Rltb 0 k then k else nth 1 k_ 0 in
    if Rltb (last k_ 0) k then tail p k_msk else Num res.
End KValue.
