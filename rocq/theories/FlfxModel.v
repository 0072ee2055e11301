(** Model of include/ac_math/ac_flfx_mul.h.  No proofs here.

    ac_float<W,I,E> values are (mantissa, exponent) pairs; the mantissa is an ac_fixed<W,I,true>. *)
From Verif Require Import AcTypes ShiftModel AddTreeModel.

(** ac_float: MAX_EXP, MIN_EXP and is_norm (the two top mantissa bits differ). *)
Definition max_exp (E : Z) : Z := 2 ^ (E - 1) - 1.
Definition min_exp (E : Z) : Z := - 2 ^ (E - 1).
Definition is_norm (W m : Z) : bool := xorb (Z.testbit m (W - 1)) (Z.testbit m (W - 2)).

(** -int(b) as an all-ones or all-zero mask of w bits. *)
Definition bmask (w : Z) (b : bool) : Z := wrapu w (- b2z b).
(** m.set_slc(0, lsbs) where lsbs has all bits of m but the top one. *)
Definition set_lsbs (w m lsbs : Z) : Z := wraps w (b2z (Z.testbit m (w - 1)) * 2 ^ (w - 1) + lsbs).

(** ac_flfx_mul.h:156-177: final_omant_calc with subnormal support. *)
Definition final_subn (oW oE oexp m : Z) : Z :=
  let gt := max_exp oE <? oexp in
  let neg := Z.testbit m (oW - 1) in
  let lsbs := slc (oW - 1) 0 m in
  let lsbs := Z.land lsbs (bmask (oW - 1) (negb (neg && gt))) in
  let lsbs := Z.lor lsbs (bmask (oW - 1) (negb neg && gt)) in
  let m := set_lsbs oW m lsbs in
  let exp_dif := oexp - min_exp oE in
  if exp_dif <? 0 then shl true oW m exp_dif else m.
(** ac_flfx_mul.h:239-262: final_omant_calc without; [norm] is in1.is_norm(). *)
Definition final_flush (oW oE oexp : Z) (norm : bool) (m : Z) : Z :=
  let gt := max_exp oE <? oexp in
  let lt := oexp <? min_exp oE in
  let neg := Z.testbit m (oW - 1) in
  let lsbs := slc (oW - 1) 0 m in
  let lsbs := Z.land lsbs (bmask (oW - 1) (negb ((neg && gt) || lt || negb norm))) in
  let lsbs := Z.lor lsbs (bmask (oW - 1) (negb neg && gt)) in
  let m := set_bit true oW (oW - 1) (neg && negb lt && norm) m in
  set_lsbs oW m lsbs.

(** ac_flfx_mul.h:106-152 and 181-236 (helper constants and leading-sign functions) and 286-358: ac_float times
    ac_fixed<W2,I2,S>, ac_float<oW,oI,oE> result.  The int conversions at 337 and 349 are exact for the exponents
    ac_float supports and are left out. *)
Definition flfx_mul (subn : bool) (W1 I1 E1 W2 I2 : Z) (S : bool) (oW oI oE : Z) (in1 : Z * Z) (x2 : Z) : Z * Z :=
  let '(m1, e1) := in1 in
  let mW := W1 + W2 in
  let rshift := I1 + I2 - oI in
  let s := b2z S in
  let max_t := max_exp E1 + rshift in
  let min_t := if subn then min_exp E1 - (mW - 1) + rshift else min_exp E1 - (W2 - 1) - (1 + s) + rshift in
  let oz := if subn then max_exp E1 - (mW - 1) + rshift else max_exp E1 - (1 + s) + rshift in
  let tw := nbits (Z.max max_t (Z.abs min_t)) + 1 in
  let in2_ls := if subn then 0 else leading_sign S W2 x2 in
  let in2_mul := shl S W2 x2 in2_ls in
  let mprod := wraps mW (m1 * in2_mul) in
  let mprod_ls :=
    if subn then leading_sign true mW mprod
    else wrapu (1 + s) (leading_sign true (2 + s) (wraps (2 + s) (slc (2 + s) (mW - (2 + s)) mprod))) in
  let mprod_norm := shl true mW mprod mprod_ls in
  let out_mant := conv (dfmt oW oI true) mprod_norm (mW - oI) in
  let ls_sum := if subn then mprod_ls else wrapu (nbits (W2 - 1 + 1 + s)) (in2_ls + mprod_ls) in
  let oexp := wraps tw (e1 - ls_sum + rshift) in
  let oexp := if max_exp oE <? oz then wraps tw (Z.land (wrapu tw oexp) (bmask tw (nz out_mant))) else oexp in
  let out_exp := conv (Fmt oE oE true TRN SAT) oexp 0 in
  ((if subn then final_subn oW oE oexp out_mant else final_flush oW oE oexp (is_norm W1 m1) out_mant), out_exp).

(** ac_flfx_mul.h:444-479: ac_float times ac_fixed, ac_fixed result. *)
Definition flfx_mul_fx (subn : bool) (W1 I1 E1 W2 I2 : Z) (f : fmt) (in1 : Z * Z) (x2 : Z) : Z :=
  let '(m1, e1) := in1 in
  let r_zero := negb subn && negb (is_norm W1 m1) in
  let mW := W1 + W2 in let mI := I1 + I2 in
  let mprod := wraps mW (m1 * x2) in
  let t := dfmt (mW + 2 ^ E1 - 1) (mI + 2 ^ (E1 - 1) - 1) true in
  let tmp := conv f (shl true (fW t) (conv t mprod (mW - mI)) e1) (fF t) in
  if r_zero then conv f 0 0 else conv f tmp (fF f).

(** ac_flfx_mul.h:581-624: ac_float times ac_float, ac_fixed result. *)
Definition flfl_mul_fx (subn : bool) (W1 I1 E1 W2 I2 E2 : Z) (f : fmt) (in1 in2 : Z * Z) : Z :=
  let '(m1, e1) := in1 in let '(m2, e2) := in2 in
  let r_zero := negb subn && (negb (is_norm W1 m1) || negb (is_norm W2 m2)) in
  let E := Z.max E1 E2 + 1 in
  let esum := wraps E (e1 + e2) in
  let mW := W1 + W2 in let mI := I1 + I2 in
  let mprod := wraps mW (m1 * m2) in
  let t := dfmt (mW + 2 ^ E - 1) (mI + 2 ^ (E - 1) - 1) true in
  let tmp := conv f (shl true (fW t) (conv t mprod (mW - mI)) esum) (fF t) in
  if r_zero then conv f 0 0 else conv f tmp (fF f).
