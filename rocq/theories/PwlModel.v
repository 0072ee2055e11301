(** Models of the piecewise-linear functions ac_reciprocal_pwl, ac_sqrt_pwl, ac_inverse_sqrt_pwl, ac_pow2_pwl, ac_log2_pwl,
    ac_sigmoid_pwl and ac_tanh_pwl, ac_fixed overloads.  No proofs here.
    Every table value is written as the integer the table's ac_fixed type stores, so 0.5 with 10 fraction bits is 512.
    A read outside a table is undefined behaviour: the result is then [None]. *)
From Coq Require Export List. Export ListNotations.
From Verif Require Import AcTypes ShiftModel LeadingModel.

(** t[i] for a C array. *)
Definition lut (t : list Z) (i : Z) : option Z := if i <? 0 then None else nth_error t (Z.to_nat i).

(** The table step shared by all functions.  [t] is the scaled input, ac_fixed<ib+fb, ib, false>.  Its low fb bits are
    sliced out, its integer part goes to an ac_int<ib,false> index, and m_lut[index]*frac + c_lut[index] is formed
    exactly, with fb + nf fraction bits when the tables have nf.
    ac_reciprocal_pwl.h:208-216, ac_sqrt_pwl.h:189-195, ac_inverse_sqrt_pwl.h:187-195, ac_pow_pwl.h:184-191,
    ac_log_pwl.h:172-179, ac_sigmoid_pwl.h:178-186, ac_tanh_pwl.h:176-184. *)
Definition pwl_table (ms cs : list Z) (ib fb t : Z) : option Z :=
  let frac := slc fb 0 t in
  let index := wrapu ib (Z.shiftr t fb) in
  match lut ms index, lut cs index with
  | Some m, Some c => Some (m * frac + c * 2 ^ fb)
  | _, _ => None
  end.

(** (normalized - 0.5) * 2^s stored in ac_fixed<ib+fb, ib, false>, for a normalized value of type ac_fixed<W,0,false>
    and the power-of-two scaling constants; the difference and the product are exact, with W + 1 fraction bits.
    ac_reciprocal_pwl.h:206, ac_sqrt_pwl.h:187, ac_inverse_sqrt_pwl.h:185, ac_log_pwl.h:170. *)
Definition scale_half (W ib fb s n : Z) : Z := conv (dfmt (ib + fb) ib false) ((2 * n - 2 ^ W) * 2 ^ s) (W + 1).

(** The magnitude of the input as ac_fixed<W,I,false>.
    ac_reciprocal_pwl.h:193-199, ac_sigmoid_pwl.h:162-168, ac_tanh_pwl.h:160-166. *)
Definition abs_u (W I : Z) (S : bool) (x : Z) : Z :=
  if S then if 0 <=? x then conv (dfmt W I false) x (W - I) else conv (dfmt W I false) (- x) (W - I) else x.

(** ac_reciprocal_pwl.h:180-181. *)
Definition recip_m : list Z := [-228; -181; -148; -124; -105; -90; -77; -68].
Definition recip_c : list Z := [2045; 1817; 1636; 1488; 1364; 1259; 1169; 1092].

(** ac_reciprocal_pwl.h:152-231.  [pQ] is the pwl_Q argument.  The assertion on a zero input is off. *)
Definition reciprocal_pwl (pQ : qmode) (W I : Z) (S : bool) (f : fmt) (x : Z) : option Z :=
  let fb := Z.max 1 (Z.min 10 (W - 4 - b2z S)) in
  let outS := b2z (fS f) in
  let '(e, n) := normalize W I false WRAP (abs_u W I S x) in
  match pwl_table recip_m recip_c 3 fb (scale_half W 3 fb 4 n) with
  | None => None
  | Some y =>
      let pt := Fmt (fb + 10 + 1 + outS) (1 + outS) (fS f) pQ WRAP in
      let y := conv pt y (fb + 10) in
      Some (if negb (x =? 0)
            then let y := if S && fS f then if x <? 0 then conv pt (- y) (fb + 10) else y else y in
                 (if fS f then shift_right_si else shift_right_ui) (fW pt) (fI pt) f y e
            else imax (fS f) (fW f))
  end.

(** The normalisation step with its bypass: [cn] is the call_normalize argument.
    ac_sqrt_pwl.h:162-167, ac_inverse_sqrt_pwl.h:160-165, ac_log_pwl.h:148-153. *)
Definition pwl_norm (cn : bool) (W I : Z) (O : omode) (x : Z) : Z * Z :=
  if cn then normalize W I false O x else (I, wrapu W x).

(** ac_sqrt_pwl.h:178-179. *)
Definition sqrt_m : list Z := [342; 308; 284; 264].
Definition sqrt_c : list Z := [2899; 3241; 3549; 3833].

(** ac_sqrt_pwl.h:146-206.  [XO] is the input's overflow mode, which the normalised value inherits.  root2 = 5793/4096. *)
Definition sqrt_pwl (pQ : qmode) (W I : Z) (XO : omode) (f : fmt) (cn : bool) (x : Z) : option Z :=
  let '(e, n) := pwl_norm cn W I XO x in
  let fb := Z.max 1 (Z.min 12 (W - 3)) in
  match pwl_table sqrt_m sqrt_c 2 fb (scale_half W 2 fb 3 n) with
  | None => None
  | Some y =>
      let nt := Fmt (fb + 12 + 1) 1 false pQ WRAP in
      let y := conv nt y (fb + 12) in
      let yr := conv nt (y * 5793) (fb + 12 + 12) in
      let m1 := if Z.rem e 2 =? 0 then y else yr in
      let r := shift_left_ui (fW nt) 1 f m1 (Z.shiftr e 1) in
      Some (if x =? 0 then 0 else r)
  end.

(** ac_inverse_sqrt_pwl.h:175-176. *)
Definition isqrt_m : list Z := [-331; -279; -240; -210; -185; -165; -148; -134].
Definition isqrt_c : list Z := [5789; 5458; 5178; 4938; 4728; 4543; 4378; 4229].

(** ac_inverse_sqrt_pwl.h:136-211.  inverseroot2 = 2896/4096.  The assertion on a zero input is off. *)
Definition inverse_sqrt_pwl (pQ : qmode) (W I : Z) (XO : omode) (f : fmt) (cn : bool) (x : Z) : option Z :=
  let '(e, n) := pwl_norm cn W I XO x in
  let fb := Z.max 1 (Z.min 12 (W - 4)) in
  match pwl_table isqrt_m isqrt_c 3 fb (scale_half W 3 fb 4 n) with
  | None => None
  | Some y =>
      let y := conv (Fmt (fb + 12 + 1) 1 false pQ WRAP) y (fb + 12) in
      let yr := conv (Fmt 24 0 false pQ WRAP) (y * 2896) (fb + 12 + 12) in
      let m1 := if Z.rem e 2 =? 0 then conv (dfmt 25 1 false) y (fb + 12) else conv (dfmt 25 1 false) yr 24 in
      let r := shift_right_ui 25 1 f m1 (Z.shiftr e 1) in
      Some (if negb (x =? 0) then r else imax false (fW f))
  end.

(** ac_pow_pwl.h:173-174. *)
Definition pow2_m : list Z := [194; 230; 273; 325].
Definition pow2_c : list Z := [1022; 1216; 1446; 1719].

(** input.to_int(): the floor of the value, kept modulo 2^32. *)
Definition fx_to_int (W I : Z) (x : Z) : Z := wraps 32 (Z.shiftl x (I - W)).

(** ac_pow_pwl.h:141-200. *)
Definition pow2_pwl (pQ : qmode) (W I : Z) (S : bool) (f : fmt) (x : Z) : option Z :=
  let frac := if I <? W then slc (W - I) 0 x else 0 in
  let FW := Z.max (W - I) 1 in
  let fb := Z.max 1 (Z.min 10 (W - I - 2)) in
  let t := conv (dfmt (2 + fb) 2 false) (frac * 2 ^ 2) FW in
  match pwl_table pow2_m pow2_c 2 fb t with
  | None => None
  | Some y =>
      let pt := Fmt (fb + 10 + 1) 1 false pQ WRAP in
      let y := conv pt y (fb + 10) in
      Some (if negb S && (I <=? 0) then conv f y (fb + 10) else shift_left_ui (fW pt) 1 f y (fx_to_int W I x))
  end.

(** ac_log_pwl.h:159-160. *)
Definition log2_m : list Z := [348; 310; 281; 256; 236; 218; 204; 191].
Definition log2_c : list Z := [-2045; -1697; -1387; -1105; -849; -612; -394; -190].

(** ac_log_pwl.h:128-187.  The assertion on a zero input is off. *)
Definition log2_pwl (pQ : qmode) (W I : Z) (XO : omode) (f : fmt) (cn : bool) (x : Z) : option Z :=
  let '(e, n) := pwl_norm cn W I XO x in
  match pwl_table log2_m log2_c 3 11 (scale_half W 3 11 4 n) with
  | None => None
  | Some y =>
      let t := conv (Fmt 23 1 true pQ WRAP) y 22 in
      Some (if x =? 0 then imin (fS f) (fW f) else conv f (t + e * 2 ^ 22) 22)
  end.

(** ac_sigmoid_pwl.h:142-143; the scaling constant 1.599609375 is 819/512. *)
Definition sigmoid_m : list Z := [155; 130; 92; 58; 34; 19; 10; 6].
Definition sigmoid_c : list Z := [513; 668; 798; 890; 948; 982; 1001; 1012].

(** ac_sigmoid_pwl.h:116-197. *)
Definition sigmoid_pwl (pQ : qmode) (W I : Z) (S : bool) (f : fmt) (x : Z) : option Z :=
  let neg := S && (x <? 0) in
  let a := abs_u W I S x in
  let t := conv (dfmt 14 4 false) (conv (dfmt 14 4 false) a (W - I) * 819) (10 + 9) in
  match pwl_table sigmoid_m sigmoid_c 3 10 t with
  | None => None
  | Some y =>
      let pt := Fmt 20 0 false pQ WRAP in
      let y := conv pt y 20 in
      let y := if 5 * pw (W - I) <=? a * pw (- (W - I)) then imax false 20 else y in
      let y := if neg then conv pt (2 ^ 20 - y) 20 else y in
      Some (conv f y 20)
  end.

(** ac_tanh_pwl.h:145-146. *)
Definition tanh_m : list Z := [251; 224; 177; 129; 88; 57; 37; 23; 14; 9; 5; 3].
Definition tanh_c : list Z := [1; 252; 476; 653; 783; 871; 928; 965; 988; 1002; 1011; 1016].

(** ac_tanh_pwl.h:117-195. *)
Definition tanh_pwl (pQ : qmode) (W I : Z) (S : bool) (f : fmt) (x : Z) : option Z :=
  let neg := S && (x <? 0) in
  let a := abs_u W I S x in
  let t := shift_left_ui W I (dfmt 14 4 false) a 2 in
  match pwl_table tanh_m tanh_c 4 10 t with
  | None => None
  | Some y =>
      let pt := Fmt 21 1 true pQ WRAP in
      let y := conv pt y 20 in
      let y := if 3 * pw (W - I) <=? a * pw (- (W - I)) then imax true 21 else y in
      let y := if neg then conv pt (- y) 20 else y in
      Some (conv f y 20)
  end.
