(** Models of the higher-accuracy piecewise-linear functions ac_reciprocal_pwl_ha, ac_reciprocal_pwl_vha and
    ac_inverse_sqrt_pwl_vha, and of the arctangents ac_atan_pwl, ac_atan_pwl_ha and ac_atan_pwl_vha, ac_fixed overloads.
    No proofs here.  Conventions as in PwlModel.v: table values are integers, a read outside a table gives [None]. *)
From Verif Require Import AcTypes ShiftModel LeadingModel PwlModel.

(** The steps after normalisation, which the two reciprocals share: tables of 2^ib segments with nf fraction bits.
    [e] and [n] are the exponent and the normalised magnitude.  The assertion on a zero input is off.
    ac_reciprocal_pwl_ha.h:163, 199-228, ac_reciprocal_pwl_vha.h:159, 219-248. *)
Definition recip_steps (ms cs : list Z) (ib nf : Z) (pQ : qmode) (W : Z) (S : bool) (f : fmt) (x e n : Z) : option Z :=
  let fb := Z.max 1 (Z.min nf (W - (ib + 1) - b2z S)) in
  let outS := b2z (fS f) in
  match pwl_table ms cs ib fb (scale_half W ib fb (ib + 1) n) with
  | None => None
  | Some y =>
      let pt := Fmt (fb + nf + 1 + outS) (1 + outS) (fS f) pQ WRAP in
      let y := conv pt y (fb + nf) in
      Some (if negb (x =? 0)
            then let y := if S && fS f then if x <? 0 then conv pt (- y) (fb + nf) else y else y in
                 (if fS f then shift_right_si else shift_right_ui) (fW pt) (fI pt) f y e
            else imax (fS f) (fW f))
  end.

(** ac_reciprocal_pwl_ha.h:162-173. *)
Definition recip_ha_m : list Z :=
  [-3972; -3737; -3523; -3327; -3148; -2982; -2829; -2688; -2557; -2435; -2322; -2216; -2118; -2026; -1940; -1859; -1783;
   -1711; -1645; -1581; -1522; -1465; -1412; -1362; -1314; -1268; -1226; -1184; -1146; -1109; -1074; -1040].
Definition recip_ha_c : list Z :=
  [131057; 127085; 123348; 119824; 116497; 113349; 110366; 107537; 104849; 102292; 99857; 97535; 95319; 93201; 91175;
   89235; 87376; 85593; 83882; 82237; 80656; 79134; 77669; 76257; 74895; 73581; 72313; 71087; 69903; 68757; 67648; 66574].

(** ac_reciprocal_pwl_ha.h:136-228. *)
Definition reciprocal_pwl_ha (pQ : qmode) (W I : Z) (S : bool) (f : fmt) (x : Z) : option Z :=
  let '(e, n) := normalize W I false WRAP (abs_u W I S x) in
  recip_steps recip_ha_m recip_ha_c 5 16 pQ W S f x e n.

(** ac_reciprocal_pwl_vha.h:163-182. *)
Definition recip_vha_m : list Z :=
  [-2016; -1955; -1896; -1841; -1787; -1737; -1688; -1640; -1596; -1553; -1511; -1472; -1433; -1397; -1361; -1327; -1294;
   -1263; -1232; -1203; -1175; -1147; -1121; -1095; -1071; -1047; -1024; -1002; -980; -960; -939; -920; -901; -882; -865;
   -847; -831; -814; -798; -783; -768; -754; -740; -726; -712; -700; -687; -674; -663; -651; -640; -629; -618; -608; -597;
   -587; -577; -568; -559; -549; -541; -532; -524; -516].
Definition recip_vha_c : list Z :=
  [131068; 129052; 127096; 125200; 123358; 121571; 119834; 118146; 116506; 114910; 113357; 111846; 110374; 108941; 107544;
   106183; 104856; 103561; 102298; 101066; 99863; 98688; 97540; 96419; 95324; 94253; 93205; 92181; 91179; 90199; 89239;
   88300; 87380; 86479; 85597; 84732; 83885; 83054; 82240; 81442; 80659; 79891; 79137; 78397; 77671; 76959; 76259; 75572;
   74898; 74235; 73584; 72944; 72315; 71697; 71089; 70492; 69904; 69327; 68758; 68199; 67650; 67108; 66576; 66052].

(** ac_reciprocal_pwl_vha.h:201-219: the normalisation and its bypass; [cn] is the call_normalize argument. *)
Definition vha_norm (cn : bool) (W I : Z) (S : bool) (a : Z) : Z * Z :=
  if cn then normalize W I false WRAP a
  else if S && negb (Z.testbit a (W - 1)) then (I - 1, wrapu W (slc (W - 1) 0 a * 2))
  else (I, slc W 0 a).

(** ac_reciprocal_pwl_vha.h:136-248. *)
Definition reciprocal_pwl_vha (pQ : qmode) (W I : Z) (S : bool) (f : fmt) (cn : bool) (x : Z) : option Z :=
  let '(e, n) := vha_norm cn W I S (abs_u W I S x) in
  recip_steps recip_vha_m recip_vha_c 6 16 pQ W S f x e n.

(** ac_inverse_sqrt_pwl_vha.h:162-163. *)
Definition isqrt_vha_m : list Z :=
  [-1415; -1352; -1294; -1239; -1189; -1141; -1097; -1056; -1017; -980; -946; -914; -883; -854; -826; -801; -776; -753;
   -730; -709; -689; -670; -651; -634; -617; -601; -585; -571; -557; -543; -531; -518].
Definition isqrt_vha_c : list Z :=
  [92678; 91263; 89911; 88617; 87378; 86189; 85048; 83951; 82895; 81878; 80897; 79951; 79037; 78154; 77300; 76474; 75673;
   74897; 74144; 73414; 72704; 72015; 71345; 70694; 70060; 69443; 68841; 68256; 67684; 67127; 66584; 66053].

(** ac_inverse_sqrt_pwl_vha.h:121-199.  inverseroot2 = 370727 / 2^19.  The assertion on a zero input is off. *)
Definition inverse_sqrt_pwl_vha (pQ : qmode) (W I : Z) (XO : omode) (f : fmt) (cn : bool) (x : Z) : option Z :=
  let '(e, n) := pwl_norm cn W I XO x in
  let fb := Z.max 1 (Z.min 16 (W - 6)) in
  match pwl_table isqrt_vha_m isqrt_vha_c 5 fb (scale_half W 5 fb 6 n) with
  | None => None
  | Some y =>
      let y := conv (Fmt (fb + 16 + 1) 1 false pQ WRAP) y (fb + 16) in
      let yr := conv (Fmt 32 0 false pQ WRAP) (y * 370727) (fb + 16 + 19) in
      let m1 := if Z.rem e 2 =? 0 then conv (dfmt 33 1 false) y (fb + 16) else conv (dfmt 33 1 false) yr 32 in
      let r := shift_right_ui 33 1 f m1 (Z.shiftr e 1) in
      Some (if negb (x =? 0) then r else imax false (fW f))
  end.

(** The three arctangents.  The normalised input has nb fraction bits, the tables have 2^ib segments and nf fraction
    bits, pi/2 is p / 2^pf, and [recip] is the reciprocal called for inputs above 1.  The input is multiplied by 2^ib
    exactly; in ac_atan_pwl_ha.h the cast before the product drops nothing either.
    ac_atan_pwl.h:126-197, ac_atan_pwl_ha.h:121-174, ac_atan_pwl_vha.h:120-191. *)
Definition atan_steps (recip : fmt -> Z -> option Z) (ms cs : list Z) (nb ib nf p pf : Z) (pQ : qmode) (W I : Z) (f : fmt)
  (x : Z) : option Z :=
  let exceeds := (1 <=? I) && (pw (W - I) <? x * pw (- (W - I))) in
  let nt := Fmt nb 0 false pQ SAT in
  match (if exceeds then recip nt x else Some (conv nt x (W - I))) with
  | None => None
  | Some n =>
      let fb := nb - ib in
      let t := conv (dfmt nb ib false) (n * 2 ^ ib) nb in
      match pwl_table ms cs ib fb t with
      | None => None
      | Some y =>
          let pt := Fmt (fb + nf + 1) 1 false pQ WRAP in
          let y := conv pt y (fb + nf) in
          let y := if exceeds then conv pt (p * 2 ^ (fb + nf - pf) - y) (fb + nf) else y in
          Some (conv f y (fb + nf))
      end
  end.

(** ac_atan_pwl.h:161-162. *)
Definition atan_m : list Z :=
  [251; 225; 184; 142].
Definition atan_c : list Z :=
  [1; 252; 477; 662].
Definition atan_pwl (pQ : qmode) (W I : Z) (f : fmt) (x : Z) : option Z :=
  atan_steps (reciprocal_pwl pQ W I false) atan_m atan_c 14 2 10 1608 10 pQ W I f x.

(** ac_atan_pwl_ha.h:140-141. *)
Definition atan_ha_m : list Z :=
  [2047; 2044; 2036; 2024; 2008; 1989; 1967; 1941; 1913; 1882; 1849; 1814; 1777; 1738; 1699; 1659; 1618; 1577; 1535; 1493;
   1452; 1411; 1370; 1330; 1291; 1253; 1215; 1178; 1142; 1107; 1073; 1037].
Definition atan_ha_c : list Z :=
  [0; 2047; 4091; 6127; 8151; 10159; 12148; 14115; 16057; 17970; 19852; 21701; 23515; 25292; 27030; 28729; 30388; 32006;
   33583; 35118; 36611; 38063; 39474; 40845; 42175; 43466; 44719; 45934; 47112; 48254; 49361; 50434].
Definition atan_pwl_ha (pQ : qmode) (W I : Z) (f : fmt) (x : Z) : option Z :=
  atan_steps (reciprocal_pwl_ha pQ W I false) atan_ha_m atan_ha_c 32 5 16 3373259426 31 pQ W I f x.

(** ac_atan_pwl_vha.h:138-157. *)
Definition atan_vha_m : list Z :=
  [4096; 4094; 4089; 4084; 4076; 4066; 4054; 4041; 4025; 4008; 3988; 3968; 3946; 3921; 3896; 3869; 3841; 3811; 3780; 3748;
   3715; 3681; 3645; 3609; 3572; 3535; 3497; 3457; 3418; 3378; 3338; 3297; 3256; 3215; 3174; 3132; 3091; 3049; 3008; 2966;
   2925; 2883; 2843; 2802; 2761; 2720; 2681; 2641; 2602; 2563; 2524; 2486; 2448; 2411; 2374; 2338; 2302; 2266; 2231; 2197;
   2163; 2130; 2096; 2062].
Definition atan_vha_c : list Z :=
  [0; 4096; 8190; 12279; 16363; 20439; 24505; 28559; 32600; 36625; 40633; 44621; 48589; 52535; 56456; 60352; 64221; 68062;
   71873; 75653; 79401; 83116; 86797; 90442; 94052; 97624; 101159; 104656; 108113; 111532; 114910; 118248; 121545; 124801;
   128016; 131190; 134322; 137413; 140462; 143470; 146436; 149361; 152244; 155087; 157889; 160650; 163370; 166051; 168692;
   171294; 173857; 176381; 178868; 181316; 183727; 186101; 188439; 190741; 193008; 195239; 197436; 199599; 201729; 203825].
Definition atan_pwl_vha (pQ : qmode) (W I : Z) (f : fmt) (x : Z) : option Z :=
  atan_steps (fun g => reciprocal_pwl_vha pQ W I false g true) atan_vha_m atan_vha_c 15 6 18 51471 15 pQ W I f x.
