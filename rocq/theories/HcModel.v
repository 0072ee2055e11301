(** Model of include/ac_math/ac_hcordic.h, the ac_fixed overloads: hyperbolic CORDIC logarithms and exponentials.
    The tables and constants are sums of double literals converted to ac_fixed; the decimal literals below are those sums'
    mantissas (each double truncated to the fraction bits of the type, then added).  No proofs here. *)
From Verif Require Import AcTypes ShiftModel LeadingModel PwlModel.
Open Scope Z.

(** hcordic_table, 63 fraction bits: the inverse hyperbolic tangents of 2^-1, 2^-2, ...  ac_hcordic.h:142-200. *)
Definition hc_tab : list Z := [
  5066454931323234909; 2355767386976068430; 1158983235132127081; 577213116383417966; 288324256157907090;
  144126917918172051; 72059060107121069; 36028980272579670; 18014421416026658; 9007202118054161; 4503599985284488;
  2251799858424492; 1125899912435029; 562949954120362; 281474976798037; 140737488366250; 70368744179029;
  35184372089002; 17592186044437; 8796093022210; 4398046511104; 2199023255552; 1099511627776; 549755813888;
  274877906944; 137438953472; 68719476736; 34359738368; 17179869184; 8589934592; 4294967296; 2147483648; 1073741824;
  536870912; 268435456; 134217728; 67108864; 33554432; 16777216; 8388608; 4194304; 2097152; 1048575; 524288; 262144;
  131072; 65536; 32768; 16384; 8192; 4096; 2048; 1024; 512; 256; 128; 64].

(** hcordic_table_inv_ln2, 63 fraction bits: the same divided by ln 2.  ac_hcordic.h:203-261. *)
Definition hc_tab2 : list Z := [
  7309349404307464679; 3398653926678325526; 1672059365798567171; 832742500542421177; 415963974527011729;
  207931189739157500; 103959248667663302; 51978831167536983; 25989316441385597; 12994645828001305; 6497321364917540;
  3248660488823484; 1624330220207335; 812165107078116; 406082553160864; 203041276533158; 101520638260669;
  50760319129596; 25380159564705; 12690079782341; 6345039891169; 3172519945584; 1586259972792; 793129986396;
  396564993198; 198282496599; 99141248299; 49570624149; 24785312074; 12392656037; 6196328018; 3098164009; 1549082004;
  774541002; 387270501; 193635250; 96817625; 48408812; 24204406; 12102203; 6051101; 3025550; 1512775; 756387; 378193;
  189096; 94548; 47274; 23637; 11818; 5909; 2954; 1477; 738; 369; 184; 92].

(** shift_dist_table.  ac_hcordic.h:263-270. *)
Definition hc_dist : list Z := [
  1; 2; 3; 4; 4; 5; 6; 7; 8; 9; 10; 11; 12; 13; 13; 14; 15; 16; 17; 18; 19; 20; 21; 22; 23; 24; 25; 26; 27; 28; 29;
  30; 31; 32; 33; 34; 35; 36; 37; 38; 39; 40; 40; 41; 42; 43; 44; 45; 46; 47; 48; 49; 50; 51; 52; 53; 54; 55; 56; 57].

(** _ln2 with 159 fraction bits, _inv_ln2 and _inv_K with 158.  ac_hcordic.h:286-320. *)
Definition hc_ln2 : Z := 506517869649829535567849302923399275793268449683.
Definition hc_inv_ln2 : Z := 527125291107098488549442543258917378690764225876.
Definition hc_inv_K : Z := 441189735401998536987264342300758141900289763252.

(** XtraIters<J>: B0 + B1 + B2.  ac_hcordic.h:272-284. *)
Definition hc_extra (J : Z) : Z :=
  (if ((1 <=? J) && (J <=? 3)) || (14 <=? J) then 1 else 0) + (if (4 <=? J) && (J <=? 13) then 2 else 0) + (if 14 <=? J then 4 else 0).

(** The number of iterations L and the width LW of dp_t, where J = ZW - ZI.  ac_hcordic.h:362-366. *)
Definition hc_L (J : Z) : Z := J + hc_extra J.
Definition hc_LW (J : Z) : Z := hc_L J + nbits (hc_L J).
(** dp_t.  ac_hcordic.h:368.  [I] is the number of integer bits of x and y. *)
Definition hc_dp (I J : Z) : fmt := dfmt (hc_LW J) (I + 1) true.

(** One table entry: truncated to LW fraction bits, then copied into dp_t.  ac_hcordic.h:322-341, 375-382. *)
Definition hc_entry (tab : list Z) (I J s : Z) : Z :=
  conv (hc_dp I J) (conv (dfmt (hc_LW J) 0 false) (nth (Z.to_nat (s - 1)) tab 0) 63) (hc_LW J).

(** One iteration by [s] places; [dir] is the direction.  ac_hcordic.h:390-400. *)
Definition hc_step (tab : list Z) (I J : Z) (dir : bool) (s : Z) (st : Z * Z * Z) : Z * Z * Z :=
  let '(x, y, z) := st in
  let f := hc_dp I J in
  let w := hc_LW J in
  let t := hc_entry tab I J s in
  let xd := shr true w x s in
  let yd := shr true w y s in
  if dir
  then (conv f (x + yd) (fF f), conv f (y + xd) (fF f), conv f (z - t) (fF f))
  else (conv f (x - yd) (fF f), conv f (y - xd) (fF f), conv f (z + t) (fF f)).

(** ROT_Y and ROT_Z.  ac_hcordic.h:383-389. *)
Inductive hc_mode := ROT_Y | ROT_Z.
Definition hc_dir (m : hc_mode) (st : Z * Z * Z) : bool :=
  let '(x, y, z) := st in match m with ROT_Y => y <? 0 | ROT_Z => 0 <=? z end.

(** ac_hcordic.h:354-405 for x and y of type ac_fixed<XF+I,I,true> and z of type ac_fixed<J+I,I,true>; the registers
    at the end, before they are copied back. *)
Definition hc_start (I J x y XF z : Z) : Z * Z * Z := (conv (hc_dp I J) x XF, conv (hc_dp I J) y XF, conv (hc_dp I J) z J).
Definition hc_loop (m : hc_mode) (tab : list Z) (I J : Z) (st : Z * Z * Z) : Z * Z * Z :=
  fold_left (fun st s => hc_step tab I J (hc_dir m st) s st) (firstn (Z.to_nat (hc_L J)) hc_dist) st.

(** ac_ln_rr and ac_log2_rr: [x] has [AF] fraction bits and no integer bits, the result type is [fz].
    ac_hcordic.h:407-441. *)
Definition log_rr (tab : list Z) (AF : Z) (fz : fmt) (x : Z) : Z :=
  let EW := Z.max AF (fF fz) in
  let fx := dfmt (EW + 2) 2 true in
  let xc := conv fx (conv fx x AF + 2 ^ EW) EW in
  let yc := conv fx (conv fx x AF - 2 ^ EW) EW in
  let '(_, _, z) := hc_loop ROT_Y tab 2 (EW + 1) (hc_start 2 (EW + 1) xc yc EW 0) in
  let zc := conv (dfmt (EW + 3) 2 true) z (fF (hc_dp 2 (EW + 1))) in
  conv fz (2 * zc) (EW + 1).

(** ac_exp2_rr: [x] has [AW] fraction bits and no integer bits; [fz] has fW fz bits, one of them before the point.
    ac_hcordic.h:461-478. *)
Definition exp2_rr (AW : Z) (fz : fmt) (x : Z) : Z :=
  let EW := Z.max AW (fW fz) in
  let fx := dfmt (EW + 3) 3 true in
  let one := conv fx 1 0 in
  let ln2 := conv fx (conv (dfmt EW 0 false) hc_ln2 159) EW in
  let zc := conv fx (x * ln2) (AW + EW) in
  let '(_, y, _) := hc_loop ROT_Z hc_tab 3 EW (hc_start 3 EW one one EW zc) in
  let yc := conv fx y (fF (hc_dp 3 EW)) in
  let k := conv fx (conv (dfmt (EW + 1) 1 false) hc_inv_K 158) EW in
  conv fz (conv fx (yc * k) (EW + EW)) EW.

(** The internal precision and the two assertions on it; OR_TF is an option here.  ac_hcordic.h:505-513. *)
Definition hc_tf (ort : option Z) (d : Z) : Z := match ort with Some tf => tf | None => d end.

(** The types the sum of the reduced logarithm and the offset goes through: ZV is replaced by AC_WRAP for signed and
    AC_SAT for unsigned outputs, then the value is copied to the output.  ac_hcordic.h:529-530, 570. *)
Definition hc_out (f : fmt) (v F : Z) : Z :=
  let m := Fmt (fW f) (fI f) (fS f) (fQ f) (if fS f then WRAP else SAT) in conv f (conv m v F) (fF f).

(** ac_log_, base e.  ac_hcordic.h:487-537, 570.  [None] is a failed static assertion. *)
Definition log_cordic (ort : option Z) (TQ : qmode) (W I : Z) (XO : omode) (f : fmt) (x : Z) : option Z :=
  let '(e, n) := normalize W I false XO x in
  let nf := hc_tf ort W in
  let zf := hc_tf ort (fF f) in
  if (44 <? nf) || (44 <? zf) then None else
  let n2 := conv (Fmt nf 0 false TQ WRAP) n W in
  let OFW := nbits (Z.max (W - I) I) in
  let zc := log_rr hc_tab nf (dfmt (zf + 1) 1 true) n2 in
  let fo := dfmt (zf + 1 + OFW + 1) (OFW + 1) true in
  let off := conv fo (conv fo (conv (dfmt (zf + 1) 0 false) hc_ln2 159) (zf + 1) * e) (zf + 1) in
  Some (hc_out f (off + zc * 2) (zf + 1)).

(** ac_log_, base 2.  ac_hcordic.h:487-530, 550-570. *)
Definition log2_cordic (ort : option Z) (TQ : qmode) (W I : Z) (XO : omode) (f : fmt) (x : Z) : option Z :=
  let '(e, n) := normalize W I false XO x in
  let nf := hc_tf ort W in
  let zf := hc_tf ort (fF f) in
  if (44 <? nf) || (44 <? zf) then None else
  let n2 := conv (Fmt nf 0 false TQ WRAP) n W in
  let OFW := nbits (Z.max (W - I) I) in
  let zc := log_rr hc_tab2 nf (dfmt (zf + 2) 2 true) n2 in
  let off := conv (dfmt (OFW + 1) (OFW + 1) true) e 0 in
  Some (hc_out f (off * 2 ^ zf + zc) zf).

(** ac_exp2_cordic.  ac_hcordic.h:1268-1306. *)
Definition exp2_cordic (ort : option Z) (TQ : qmode) (W I : Z) (f : fmt) (x : Z) : option Z :=
  let TF := hc_tf ort (fF f) in
  if (45 <? W - I) || (44 <? TF) then None else
  let xF := if I <? W then slc (W - I) 0 x else 0 in
  let y := exp2_rr (Z.max (W - I) 1) (Fmt (TF + 1) 1 false TQ WRAP) xF in
  Some (shift_left_ui (TF + 1) 1 f y (fx_to_int W I x)).

(** ac_exp_cordic.  ac_hcordic.h:1369-1388. *)
Definition exp_cordic (ort : option Z) (TQ : qmode) (W I : Z) (S : bool) (f : fmt) (x : Z) : option Z :=
  let TF := hc_tf ort (fF f) in
  if 44 <? TF then None else
  let il := conv (dfmt (TF + 1) 1 false) (conv (dfmt (TF + 1) 1 false) hc_inv_ln2 158) TF in
  let x2 := conv (Fmt (TF + I + 1) (I + 1) S TQ WRAP) (x * il) (W - I + TF) in
  exp2_cordic ort TQ (TF + I + 1) (I + 1) f x2.
