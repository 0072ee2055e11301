(** Models of the ac_float overloads of ac_div, ac_reciprocal_pwl, ac_sqrt_pwl, ac_inverse_sqrt_pwl, ac_log2_pwl,
    ac_log_pwl, ac_pow2_pwl, ac_exp_pwl, ac_sigmoid_pwl, ac_tanh_pwl and ac_tan_pwl, up to the constructor of the output
    (ac_types), which receives the results below.  An ac_float<W,I,E> is a mantissa [m] of W bits, W - I of them behind
    the point, and an exponent [e] of E bits.  No proofs here. *)
From Verif Require Import AcTypes ShiftModel LeadingModel DivModel PwlModel TanPwlModel.
Open Scope Z.

(** find_rt_sqrt_pwl<n_f_b, I>: the widths I1 and W1; C's / and % truncate.  ac_sqrt_pwl.h:230-243. *)
Definition rt_sqrt_I (I : Z) : Z := if Z.rem I 2 =? 0 then Z.quot I 2 + 1 else Z.quot (I + 1) 2.
Definition rt_sqrt_F (nfb : Z) : Z := if Z.rem nfb 2 =? 0 then Z.quot nfb 2 else Z.quot (nfb - 1) 2.
Definition rt_sqrt_W (nfb I : Z) : Z := rt_sqrt_I I + rt_sqrt_F nfb + 22.

(** ac_sqrt_pwl.h:290-325.  root2 = 1.414215087890625 is 46341 / 2^15.  The result is the mantissa m3, with
    rt_sqrt_F (W - I) + 22 fraction bits, and the exponent. *)
Definition sqrt_flt (pQ : qmode) (W I : Z) (m e : Z) : option (Z * Z) :=
  let mant := conv (dfmt (W - 1) (I - 1) false) m (W - I) in
  let W1 := rt_sqrt_W (W - I) (I - 1) in
  let I1 := rt_sqrt_I (I - 1) in
  match sqrt_pwl pQ (W - 1) (I - 1) WRAP (dfmt W1 I1 false) false mant with
  | None => None
  | Some m2 =>
      let x := if Z.rem I 2 =? 0 then 1 else 0 in
      let tp := dfmt (W1 + x) (I1 + x) false in
      Some (if Z.rem e 2 =? 0 then conv tp m2 (W1 - I1) else conv tp (m2 * 46341) (W1 - I1 + 15), Z.shiftr e 1)
  end.

(** find_rt_inv_sqrt_pwl<n_f_b, I>.  ac_inverse_sqrt_pwl.h:335-342. *)
Definition rt_isqrt_I (nfb : Z) : Z := if Z.rem nfb 2 =? 0 then Z.quot nfb 2 else Z.quot (nfb + 1) 2.
Definition rt_isqrt_F (I : Z) : Z := if Z.rem I 2 =? 0 then Z.quot I 2 else Z.quot (I - 1) 2.
Definition rt_isqrt_W (nfb I : Z) : Z := rt_isqrt_I nfb + rt_isqrt_F I + 24.

(** ac_inverse_sqrt_pwl.h:393-420.  inverseroot2 = 0.70703125 is 2896 / 2^12; [oQ] is the output's rounding mode.  The
    result is output2_mant, with rt_isqrt_F (I - 1) + 24 fraction bits, and the exponent.  The maximum stored for a zero
    mantissa (line 423) is the output type's and is not part of the result here. *)
Definition isqrt_flt (pQ oQ : qmode) (W I : Z) (m e : Z) : option (Z * Z) :=
  let m1 := conv (dfmt (W - 1) (I - 1) false) m (W - I) in
  let W2 := rt_isqrt_W (W - I) (I - 1) in
  let I2 := rt_isqrt_I (W - I) in
  match inverse_sqrt_pwl pQ (W - 1) (I - 1) WRAP (Fmt W2 I2 false pQ WRAP) false m1 with
  | None => None
  | Some o2 =>
      let tq := Fmt (W2 + 1) (I2 + 1) true oQ WRAP in
      let v := if Z.rem e 2 =? 0 then conv tq o2 (W2 - I2) else conv tq (o2 * 2896) (W2 - I2 + 12) in
      Some (conv (Fmt (W2 + 1) (I2 + 1) true pQ WRAP) v (W2 - I2), - Z.shiftr e 1)
  end.

(** ac_log_pwl.h:325-366: output_mant_norm + denorm_sum, with 22 fraction bits; times ln2 = 0.693145751953125 =
    22713 / 2^15 for the natural logarithm, with 37 fraction bits.  The minimum stored for a zero mantissa
    (lines 368-370) is the output type's and is not part of the result here. *)
Definition log2_flt (pQ : qmode) (W I : Z) (m e : Z) : option Z :=
  let mant := conv (dfmt (W - 1) (I - 1) false) m (W - I) in
  match log2_pwl pQ (W - 1) 0 WRAP (dfmt 23 1 true) false (slc (W - 1) 0 mant) with
  | None => None
  | Some v => Some (v + (I - 1 + e) * 2 ^ 22)
  end.
Definition log_flt (pQ : qmode) (W I : Z) (m e : Z) : option Z :=
  match log2_flt pQ W I m e with None => None | Some v => Some (v * 22713) end.

(** ac_pow_pwl.h:354-368: I_fxpt, for an output ac_float<outW,outI,outE>. *)
Definition pow_flt_I (oW oI oE : Z) : Z := nbits (2 ^ (oE - 1) + Z.max (oI - 1) (oW - oI)) + 1.

(** ac_pow_pwl.h:387-397: the fraction's power, with 20 fraction bits, and the exponent.  [x] is input_to_pow2_fxpt, with
    12 fraction bits. *)
Definition pow_flt_end (pQ : qmode) (TI x : Z) : option (Z * Z) :=
  match pow2_pwl pQ 12 0 false (dfmt 21 1 false) (slc 12 0 x) with
  | None => None
  | Some y => Some (y, wraps TI (fx_to_int (TI + 12) TI x))
  end.
(** ac_pow_pwl.h:352-397, base 2. *)
Definition pow2_flt (pQ : qmode) (W I oW oI oE : Z) (m e : Z) : option (Z * Z) :=
  let TI := pow_flt_I oW oI oE in
  pow_flt_end pQ TI (shift_left_si W I (Fmt (TI + 12) TI true pQ SAT) m e).
(** ac_pow_pwl.h:352-397, base e.  log2e = 1.44269504089 in ac_fixed<17,3,true> is 23637 / 2^14. *)
Definition exp_flt (pQ : qmode) (W I oW oI oE : Z) (m e : Z) : option (Z * Z) :=
  let TI := pow_flt_I oW oI oE in
  pow_flt_end pQ TI (shift_left_si (W + 17) (I + 3) (Fmt (TI + 12) TI true pQ SAT) (m * 23637) e).

(** ac_sigmoid_pwl.h:210-232: sigmoid_output_fi, with 20 fraction bits. *)
Definition sigmoid_flt (pQ : qmode) (W I : Z) (m e : Z) : option Z :=
  sigmoid_pwl pQ 14 4 true (dfmt 21 1 false) (shift_left_si W I (Fmt 14 4 true RND SAT) m e).

(** ac_tanh_pwl.h:207-231: tanh_output_fi, with 20 fraction bits. *)
Definition tanh_flt (pQ : qmode) (W I : Z) (m e : Z) : option Z :=
  tanh_pwl pQ 14 4 true (dfmt 21 1 true) (shift_left_si W I (Fmt 14 4 true RND SAT) m e).

(** ac_tan_pwl.h:281-307: tan_output_fi, with 29 fraction bits. *)
Definition tan_flt (pQ : qmode) (W I : Z) (m e : Z) : option Z :=
  let mant := conv (dfmt (W - 1) (I - 1) false) m (W - I) in
  tan_pwl pQ 22 1 RND WRAP (dfmt 36 7 false) (shift_left_ui (W - 1) (I - 1) (Fmt 22 1 false RND WRAP) mant e).

(** ac_float's normalising constructor (ac_types) with an exponent type wide enough for every shift: the mantissa of W
    bits is shifted left until its two leading bits differ; zero stays zero. *)
Definition flt_lead (W m : Z) : Z := W - 1 - nbits (if m <? 0 then - m - 1 else m).
Definition flt_full (W m e : Z) : Z * Z := if m =? 0 then (0, e) else (m * 2 ^ flt_lead W m, e - flt_lead W m).

(** ac_reciprocal_pwl.h:294-334: recip_mantissa, with fb + 9 + I fraction bits where fb is sc_input_frac_bits, and the
    exponent.  The maximum stored for a zero mantissa (line 337) is not part of the result here. *)
Definition recip_flt_fb (W : Z) : Z := Z.max 1 (Z.min 10 (W - 4 - 1)).
Definition recip_flt (pQ oQ : qmode) (W I : Z) (m e : Z) : option (Z * Z) :=
  let '(n, e') := flt_full W m e in
  match reciprocal_pwl pQ W I true (Fmt (recip_flt_fb W + 10 + 2) (- I + 3) true oQ WRAP) n with
  | None => None
  | Some r => Some (r, - e')
  end.

(** ac_div.h:470-489: tm, with QF = QW - QI fraction bits, and te; then the returned flag.  [junk] is the content of the
    uninitialised local quotient of the fixed-point overload, as in DivModel.v. *)
Definition div_flt (NW NI DW DI QF : Z) (NE DE : Z) (mn en md ed junk : Z) : Z * Z * bool :=
  let STI := NI + (DW - DI) in
  let '(tm, rem) := div_sfx NW NI DW DI (dfmt (STI + QF) STI true) mn md junk in
  (tm, wraps (Z.max NE DE + 1) (en - ed), rem).
