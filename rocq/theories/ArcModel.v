(** ac_arcsin_cordic.h and ac_arccos_cordic.h: the CORDIC inverse sine and cosine, ac_fixed overloads.  No proofs here. *)
From Coq Require Import List.
From Verif Require Import AcTypes.
Import ListNotations.

(** x2_asin_pi_pow2_table, ac_arcsin_cordic.h:104-235, and x2_acos_pi_pow2_table, ac_arccos_cordic.h:102-233, which are equal:
    2 atan(2^-i) / pi as ac_fixed<128,0,false>, in units of 2^-128.  Each entry is the sum of three doubles, each truncated
    to 128 fraction bits. *)
Definition arc_tab : list Z := [
  170141183460469231731687303715884105728; 100440205465688451065776737823964419775;
  53069846110495374870944062409867232071; 26939082528385408717150507000170849705;
  13521816955831263739947375483648898803; 6767500203898545548133300336084114664;
  3384575876844695867358380957914720547; 1692391216975359583531864845835725946; 846208520079618960894358081191867053;
  423105874044211783753059635312697609; 211553138774387813698708931676151818; 105776594606283261217356020568469321;
  52888300455529490976096159230674803; 26444150621813280879992595304029813; 13222075360162709015427677927919490;
  6611037686238363131250211030504003; 3305518843888807645179884838344002; 1652759422040607082584687735152197;
  826379711032328948793261966468207; 413189855517667650334294962295456; 206594927759021722159357016552267;
  103297463879534348203704748264884; 51648731939770109992355655633010; 25824365969885421982490738051013;
  12912182984942756864534482806286; 6456091492471384166428380625786; 3228045746235692799984332715725;
  1614022873117846489588434158216; 807011436558923255993750554152; 403505718279461629396816961456;
  201752859139730814873401191275; 100876429569865407458574684456; 50438214784932703732021603330;
  25219107392466351866352584303; 12609553696233175933219014981; 6304776848116587966614847844;
  3152388424058293983308091466; 1576194212029146991654129176; 788097106014573495827075018;
  394048553007286747913538813; 197024276503643373956769569; 98512138251821686978384805; 49256069125910843489192405;
  24628034562955421744596202; 12314017281477710872298101; 6157008640738855436149050; 3078504320369427718074525;
  1539252160184713859037262; 769626080092356929518631; 384813040046178464759315; 192406520023089232379657;
  96203260011544616189828; 48101630005772308094914; 24050815002886154047457; 12025407501443077023728;
  6012703750721538511864; 3006351875360769255932; 1503175937680384627966; 751587968840192313983;
  375793984420096156991; 187896992210048078495; 93948496105024039247; 46974248052512019623; 23487124026256009811;
  11743562013128004905; 5871781006564002452; 2935890503282001226; 1467945251641000613; 733972625820500306;
  366986312910250153; 183493156455125076; 91746578227562538; 45873289113781269; 22936644556890634; 11468322278445317;
  5734161139222658; 2867080569611329; 1433540284805664; 716770142402832; 358385071201416; 179192535600708;
  89596267800354; 44798133900177; 22399066950088; 11199533475044; 5599766737522; 2799883368761; 1399941684380;
  699970842190; 349985421095; 174992710547; 87496355273; 43748177636; 21874088818; 10937044409; 5468522204;
  2734261102; 1367130551; 683565275; 341782637; 170891318; 85445659; 42722829; 21361414; 10680707; 5340353; 2670176;
  1335088; 667544; 333772; 166886; 83443; 41721; 20860; 10430; 5215; 2607; 1303; 651; 325; 162; 81; 40; 20; 10; 5; 2;
  1; 0; 0].

(** x2_asin_pi_2mi<P_F> and x2_acos_pi_2mi<P_F>.  ac_arcsin_cordic.h:237-247, ac_arccos_cordic.h:235-243. *)
Definition arc_2mi (pf : Z) (i : nat) : Z := conv (dfmt pf 0 false) (if Nat.ltb 129 i then 0 else nth i arc_tab 0) 128.

(** dp_t, which has P_F + 2 fraction bits.  ac_arcsin_cordic.h:266, ac_arccos_cordic.h:262. *)
Definition arc_fx (pf : Z) : fmt := dfmt (pf + 5) 3 true.

(** What an iteration does once the direction is chosen: two rotations by atan(2^-i) at once.  [it] is the number of
    integer bits of dp_theta_t.  ac_arcsin_cordic.h:290-309, ac_arccos_cordic.h:279-294. *)
Definition arc_rot (pf it : Z) (sel : bool) (i : nat) (st : Z * Z * Z * Z) : Z * Z * Z * Z :=
  let '(x, y, tn, th) := st in
  let w := pf + 5 in
  let k := Z.of_nat i in
  let fx := arc_fx pf in
  let ft := dfmt (pf + it) it true in
  let xd := shr true w y (k - 1) in
  let yd := shr true w x (k - 1) in
  let d := conv ft (arc_2mi pf i) pf in
  let x1 := conv fx (x - shr true w x (2 * k)) (pf + 2) in
  let y1 := conv fx (y - shr true w y (2 * k)) (pf + 2) in
  let tn1 := conv fx (tn + shr true w tn (2 * k)) (pf + 2) in
  if sel
  then (conv fx (x1 - xd) (pf + 2), conv fx (y1 + yd) (pf + 2), tn1, conv ft (th + d) pf)
  else (conv fx (x1 + xd) (pf + 2), conv fx (y1 - yd) (pf + 2), tn1, conv ft (th - d) pf).

(** The choices of the direction.  ac_arcsin_cordic.h:282-288, ac_arccos_cordic.h:278. *)
Definition asin_sel (pf : Z) (st : Z * Z * Z * Z) : bool :=
  let '(x, y, tn, th) := st in
  let sel := ((y <=? tn) && (0 <=? x)) || ((tn <? y) && (x <? 0)) in
  if 20 <? pf then sel && (th <=? 2 ^ (pf - 1)) else sel.
Definition acos_sel (st : Z * Z * Z * Z) : bool :=
  let '(x, y, tn, th) := st in ((tn <=? x) && (0 <=? y)) || ((x <? tn) && (y <? 0)).

(** The iterations.  ac_arcsin_cordic.h:262-310, ac_arccos_cordic.h:258-295.  [a] is |t| with [AF] fraction bits. *)
Definition arc_start (pf AF a : Z) : Z * Z * Z * Z := (conv (arc_fx pf) 1 0, 0, conv (arc_fx pf) a AF, 0).
Definition asin_loop (pf AF a : Z) : Z * Z * Z * Z :=
  fold_left (fun st i => arc_rot pf 1 (asin_sel pf st) i st) (seq 0 (Z.to_nat (pf + 2))) (arc_start pf AF a).
Definition acos_loop (pf AF a : Z) : Z * Z * Z * Z :=
  fold_left (fun st i => arc_rot pf 2 (acos_sel st) i st) (seq 0 (Z.to_nat (pf + 2))) (arc_start pf AF a).

(** ac_arcsin_cordic.h:257-316: [t] has [AF] fraction bits, [fo] is the type of the result (signed). *)
Definition arcsin_cordic (AF : Z) (fo : fmt) (t : Z) : Z :=
  let pf := 2 * fF fo in
  let th := snd (asin_loop pf AF (Z.abs t)) in
  if negb (Bool.eqb (th <? 0) (t <? 0)) then conv fo (- th) pf else conv fo th pf.

(** ac_arccos_cordic.h:253-307: [fo] is unsigned. *)
Definition arccos_cordic (AF : Z) (fo : fmt) (t : Z) : Z :=
  let pf := 2 * fF fo in
  let ft := dfmt (pf + 2) 2 true in
  let th0 := snd (acos_loop pf AF (Z.abs t)) in
  let th := if th0 <? 0 then conv ft (- th0) pf else th0 in
  if t <? 0 then conv fo (2 ^ pf - th) pf else conv fo th pf.
