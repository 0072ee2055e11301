(** ac_sincos_cordic.h: the CORDIC sine and cosine.  No proofs here. *)
From Coq Require Import List.
From Verif Require Import AcTypes Spec.
Import ListNotations.

(** The tables hold values of table_st = ac_fixed<72,1,true,AC_RND>, ac_sincos_cordic.h:100, in units of 2^-71.  Every
    literal in the source is a multiple of 2^-71 (most are doubles), so AC_RND changes none of them. *)

(** atan_pi_pow2_table, ac_sincos_cordic.h:104-175: atan(2^-i) / pi. *)
Definition atan_tab : list Z := [
  590295810358705651712; 348471964706527510528; 184123015828705542144; 93463717766533627904;
  46913226622283481088; 23479482954761273344; 11742606459574562816; 5871661549248229376; 2935875570707412992;
  1467943385056360448; 733972392497019776; 366986283744802624; 183493152809443744; 91746577771852368;
  45873289056817496; 22936644549770164; 11468322277555258; 5734161139111401; 2867080569597422;
  1433540284803926; 716770142402615; 358385071201389; 179192535600705; 89596267800354; 44798133900177;
  22399066950089; 11199533475044; 5599766737522; 2799883368761; 1399941684381; 699970842190; 349985421095;
  174992710548; 87496355274; 43748177637; 21874088818; 10937044409; 5468522205; 2734261102; 1367130551;
  683565276; 341782638; 170891319; 85445659; 42722830; 21361415; 10680707; 5340354; 2670177; 1335088; 667544;
  333772; 166886; 83443; 41722; 20861; 10430; 5215; 2608; 1304; 652; 326; 163; 81; 41; 20; 10; 5; 3; 1].

(** K_table, ac_sincos_cordic.h:177-248: the product of the cosines of the first n angles.  K_table[0] is 1.0, which
    table_st cannot hold: it wraps to -1.  It is never read, since n >= 2. *)
Definition k_tab : list Z := [
  (-2361183241434822606848); 1669608681642595975168; 1493343403190660104192; 1448755902746925203456;
  1437568431054111899648; 1434768879359156813824; 1434068821313402437632; 1433893796131654336512;
  1433850039168732495872; 1433839099886275133440; 1433836365063052591104; 1433835681357083705344;
  1433835510430581653504; 1433835467698955091968; 1433835457016048648192; 1433835454345322168320;
  1433835453677640351744; 1433835453510719897600; 1433835453468989980672; 1433835453458557173760;
  1433835453455949103104; 1433835453455297150976; 1433835453455134359552; 1433835453455093465088;
  1433835453455083241472; 1433835453455080620032; 1433835453455080095744; 1433835453455079833600;
  1433835453455079833600; 1433835453455079833600; 1433835453455079833600; 1433835453455079833600;
  1433835453455079833600; 1433835453455079833600; 1433835453455079833600; 1433835453455079833600;
  1433835453455079833600; 1433835453455079833600; 1433835453455079833600; 1433835453455079833600;
  1433835453455079833600; 1433835453455079833600; 1433835453455079833600; 1433835453455079833600;
  1433835453455079833600; 1433835453455079833600; 1433835453455079833600; 1433835453455079833600;
  1433835453455079833600; 1433835453455079833600; 1433835453455079833600; 1433835453455079833600;
  1433835453455079833600; 1433835453455079833600; 1433835453455079833600; 1433835453455079833600;
  1433835453455079833600; 1433835453455079833600; 1433835453455079833600; 1433835453455079833600;
  1433835453455079833600; 1433835453455079833600; 1433835453455079833600; 1433835453455079833600;
  1433835453455079833600; 1433835453455079833600; 1433835453455079833600; 1433835453455079833600;
  1433835453455079833600; 1433835453455079833600].

(** atan_pi_2mi and K, ac_sincos_cordic.h:250-266; TE is 70. *)
Definition atan_pi_2mi (i : nat) : Z := if Nat.leb 70 i then 0 else nth i atan_tab 0.
Definition k_val (n : nat) : Z := if Nat.leb 70 n then 0 else nth n k_tab 0.

(** a * 2^-fa < b * 2^-fb: operator< of two ac_fixed. *)
Definition fx_ltb (a fa b fb : Z) : bool := let F := Z.max fa fb in a * 2 ^ (F - fa) <? b * 2 ^ (F - fb).

(** LOG_N_I and ICW, ac_sincos_cordic.h:294-301, with N = N_I = OW + 1. *)
Definition cd_log (N : Z) : Z := if N <? 16 then 4 else if N <? 32 then 5 else if N <? 64 then 6 else 7.
Definition cd_icw (N : Z) : Z := N + cd_log N.

(** One iteration, ac_sincos_cordic.h:332-345.  fx is fx_xy, t the target with AF fraction bits; x >> i is the
    arithmetic shift of ac_fixed. *)
Definition cd_step (icw : Z) (fx : fmt) (AF t : Z) (st : Z * Z * Z) (i : nat) : Z * Z * Z :=
  let '(x, y, acc) := st in
  let d := conv (dfmt (icw + 1) 1 true) (atan_pi_2mi i) 71 in
  let xs := Z.shiftr x (Z.of_nat i) in
  let ys := Z.shiftr y (Z.of_nat i) in
  let fa := dfmt (icw + 2) 2 true in
  if fx_ltb t AF acc icw
  then (conv fx (x + ys) (fF fx), conv fx (y - xs) (fF fx), conv fa (acc - d) icw)
  else (conv fx (x - ys) (fF fx), conv fx (y + xs) (fF fx), conv fa (acc + d) icw).

(** ac_sincos_cordic, ac_sincos_cordic.h:284-348, for an angle a of type ac_fixed<AW,AI,true> and C of the output type.
    The result is the pair (sin, cos). *)
Definition sincos_cordic (AW AI : Z) (fo : fmt) (a C : Z) : Z * Z :=
  let N := fW fo + 1 in
  let icw := cd_icw N in
  let fx := dfmt icw (fI fo) true in
  let AF := AW - AI in
  let t := conv (dfmt (AW - (AI - 1)) 1 true) a AF in
  let k := conv fx (k_val (Z.to_nat N)) 71 in
  let kx := conv fx (C * k) (fF fo + fF fx) in
  let half := 2 ^ (icw - 1) in
  let st := if fx_ltb 1 1 t AF then (0, kx, half)
            else if fx_ltb t AF (-1) 1 then (0, conv fx (- kx) (fF fx), - half)
            else (kx, 0, 0) in
  let '(x, y, _) := fold_left (cd_step icw fx AF t) (seq 0 (Z.to_nat N)) st in
  (conv fo y (fF fx), conv fo x (fF fx)).

(** ac_sin_cordic and ac_cos_cordic, ac_sincos_cordic.h:350-372: the scale is 1.0 in the output type. *)
Definition sin_cordic (AW AI : Z) (fo : fmt) (a : Z) : Z := fst (sincos_cordic AW AI fo a (conv fo 1 0)).
Definition cos_cordic (AW AI : Z) (fo : fmt) (a : Z) : Z := snd (sincos_cordic AW AI fo a (conv fo 1 0)).
