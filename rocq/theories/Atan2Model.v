(** ac_atan2_cordic.h: the CORDIC arctangent of two arguments.  No proofs here. *)
From Coq Require Import List.
From Verif Require Import AcTypes Spec CordicModel.
Import ListNotations.

(** atan_pow2_table, ac_atan2_cordic.h:98-169: atan(2^-i) in units of 2^-71.  table_t is ac_fixed<71,0,false,AC_RND>; every
    literal of the source is a double and a multiple of 2^-71, so AC_RND changes none of them. *)
Definition rad_tab : list Z := [
  1854468981267743375360; 1094756964304028565504; 578439513884258533376; 293624929112531861504;
  147382248112758882304; 73762971160764784640; 36890486187395493888; 18446368787483899904; 9223325124788149248;
  4611680154378795008; 2305842276206361600; 1152921412980891136; 576460740850177792; 288230374720056000;
  144115187896898896; 72057594015558312; 36028797016167764; 18014398509132458; 9007199254697301;
  4503599627365035; 2251799813684565; 1125899906842539; 562949953421301; 281474976710655; 140737488355328;
  70368744177664; 35184372088832; 17592186044416; 8796093022208; 4398046511104; 2199023255552; 1099511627776;
  549755813888; 274877906944; 137438953472; 68719476736; 34359738368; 17179869184; 8589934592; 4294967296;
  2147483648; 1073741824; 536870912; 268435456; 134217728; 67108864; 33554432; 16777216; 8388608; 4194304;
  2097152; 1048576; 524288; 262144; 131072; 65536; 32768; 16384; 8192; 4096; 2048; 1024; 512; 256; 128; 64; 32;
  16; 8; 4].
(** atan_2mi, ac_atan2_cordic.h:171-177; TE is 70. *)
Definition atan_2mi (i : nat) : Z := if Nat.leb 70 i then 0 else nth i rad_tab 0.
(** M_PI, ac_atan2_cordic.h:92: the nearest double, in units of 2^-48. *)
Definition m_pi : Z := 884279719003555.

(** The types of the loop, ac_atan2_cordic.h:197-212, with N = N_I = OW - OI + 3.  LOG_N_I is the one of the sine and cosine
    (cd_log).  F is the number of fraction bits of fx_xy, fx_xy_1 and fx_xy_2, m the larger of YI and XI. *)
Definition a2_F (N : Z) : Z := cd_icw N + 4.
Definition a2_fa (N : Z) : fmt := dfmt (cd_icw N + 4) 3 true.
Definition a2_xy (N m : Z) : fmt := dfmt (a2_F N + (m + 2)) (m + 2) true.
Definition a2_xy1 (N m : Z) : fmt := dfmt (a2_F N + (m + 2) - 1) (m + 2 - 1) false.
Definition a2_xy2 (N m : Z) : fmt := dfmt (a2_F N + (m + 2) - 2) (m + 2 - 2) false.

(** One iteration, ac_atan2_cordic.h:217-231.  The operator >> of ac_fixed keeps the type and is a floor; d_a has
    ICW fraction bits and acc_a one more. *)
Definition a2_step (N m : Z) (st : Z * Z * Z) (i : nat) : Z * Z * Z :=
  let '(x, y, acc) := st in
  let d := conv (dfmt (cd_icw N) 0 false) (atan_2mi i) 71 in
  let xs := conv (a2_xy2 N m) (Z.shiftr x (Z.of_nat i)) (a2_F N) in
  let ys := conv (a2_xy N m) (Z.shiftr y (Z.of_nat i)) (a2_F N) in
  if y <? 0
  then (conv (a2_xy1 N m) (x - ys) (a2_F N), conv (a2_xy N m) (y + xs) (a2_F N), conv (a2_fa N) (acc - 2 * d) (cd_icw N + 1))
  else (conv (a2_xy1 N m) (x + ys) (a2_F N), conv (a2_xy N m) (y - xs) (a2_F N), conv (a2_fa N) (acc + 2 * d) (cd_icw N + 1)).

(** ac_atan2_cordic, ac_atan2_cordic.h:187-239, for y of type ac_fixed<YW,YI,true> with YF = YW - YI, x likewise. *)
Definition atan2_cordic (YI YF XI XF : Z) (fo : fmt) (y x : Z) : Z :=
  let N := fF fo + 3 in
  let m := Z.max YI XI in
  let fa := a2_fa N in
  let x1 := conv (a2_xy1 N m) (if x <? 0 then - x else x) XF in
  let y1 := conv (a2_xy N m) y YF in
  let '(_, _, acc) := fold_left (a2_step N m) (seq 0 (Z.to_nat N)) (x1, y1, 0) in
  let acc :=
    if y =? 0 then (if x <? 0 then conv fa m_pi 48 else 0)
    else if x =? 0 then (if y <? 0 then conv fa (- m_pi) 49 else conv fa m_pi 49)
    else if x <? 0 then conv fa ((if y <? 0 then conv fa (- m_pi) 48 else conv fa m_pi 48) - acc) (cd_icw N + 1)
    else acc in
  conv fo acc (cd_icw N + 1).
