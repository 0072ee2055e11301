(** Models of the ac_float overloads of ac_atan_pwl, ac_atan_pwl_ha and ac_atan_pwl_vha, and of the ac_complex overload of ac_abs.
    A number of ac_float is a mantissa [m] of W bits with W - I fraction bits and an exponent [e].  The assignment of the argument, or
    of its reciprocal, to the local atan_input_fl is ac_float's rounding and normalisation (ac_types): a parameter [st], given the
    fraction bits, the mantissa and the exponent of what is stored.  The output's constructor is not modelled: the result is
    atan_output_fi.  No proofs here. *)
From Verif Require Import AcTypes PwlModel PwlFloatModel PwlHaModel PwlHaFltModel PwlCplxModel ShiftModel.
Open Scope Z.

(** input >= 1 (ac_float's comparison). *)
Definition flt_ge1 (F m e : Z) : bool := pw (F - e) <=? m * pw (e - F).

(** ac_atan_pwl.h:266-294, ac_atan_pwl_ha.h:240-275, ac_atan_pwl_vha.h:257-290: mantVal, the shift into the gW-bit argument of the
    ac_fixed overload [at], and the subtraction from pi/2 = p / 2^pf.  The result has oW - 1 fraction bits. *)
Definition atan_fl_tail (at_fi : Z -> Z -> fmt -> Z -> option Z) (gW : Z) (gQ : qmode) (oW p pf : Z) (W2 I : Z) (big : bool)
  (n e : Z) : option Z :=
  let mantVal := conv (dfmt (W2 - 1) (I - 1) false) n (W2 - I) in
  let x := shift_left_ui (W2 - 1) (I - 1) (Fmt gW 0 false gQ SAT) mantVal e in
  match at_fi gW 0 (dfmt oW 1 false) x with
  | None => None
  | Some o => Some (if big then conv (dfmt oW 1 false) (p * 2 ^ (oW - 1 - pf) - o) (oW - 1) else o)
  end.
Definition atan_fl (recip : Z -> Z -> option (Z * Z)) (rF : Z) (at_fi : Z -> Z -> fmt -> Z -> option Z) (gW : Z) (gQ : qmode)
  (oW p pf : Z) (W2 : Z) (st : Z -> Z -> Z -> Z * Z) (W I m e : Z) : option Z :=
  let big := flt_ge1 (W - I) m e in
  match (if big then match recip m e with None => None | Some (v, k) => Some (st rF v k) end else Some (st (W - I) m e)) with
  | None => None
  | Some (n, e') => atan_fl_tail at_fi gW gQ oW p pf W2 I big n e'
  end.
(** ac_atan_pwl.h:252-297. *)
Definition atan_flt (pQ : qmode) (st : Z -> Z -> Z -> Z * Z) (W I m e : Z) : option Z :=
  atan_fl (recip_flt pQ TRN W I) (recip_flt_fb W + 9 + I) (atan_pwl pQ) 14 RND 23 1608 10 (Z.max 1 (Z.min 10 (W - 4)) + 10 + 2) st W I m e.
(** ac_atan_pwl_ha.h:225-275. *)
Definition atan_ha_flt (pQ : qmode) (st : Z -> Z -> Z -> Z * Z) (W I m e : Z) : option Z :=
  atan_fl (recip_ha_flt pQ TRN W I) (recip_ha_fb W + 15 + I) (atan_pwl_ha pQ) 32 RND 43 3373259426 31 (Z.max 34 W) st W I m e.
(** ac_atan_pwl_vha.h:246-293. *)
Definition atan_vha_flt (pQ : qmode) (st : Z -> Z -> Z -> Z * Z) (W I m e : Z) : option Z :=
  atan_fl (recip_vha_flt pQ TRN W I) (recip_vha_fb W + 15 + I) (atan_pwl_vha pQ) 15 TRN 28 51471 15 16 st W I m e.

(** One such [st]: ac_float's assignment of a number that is not negative to W2 bits, rounding mode AC_TRN, when the exponent type is
    wide enough for the normalised number: W2 - 1 significant bits are kept. *)
Definition flt_store (W2 I F v k : Z) : Z * Z :=
  let s := nbits v - (W2 - 1) in
  ((if s <=? 0 then v * 2 ^ (- s) else v / 2 ^ s), k + s + (W2 - I) - F).

(** ac_abs.h:309-318, the squared magnitude being of type ac_fixed<MW, MW - 2 (W - I), false>. *)
Definition abs_cplx (pQ : qmode) (MW W I : Z) (f : fmt) (a b : Z) : option Z :=
  sqrt_pwl pQ MW (MW - 2 * (W - I)) WRAP f true (mag_sqr MW a b).
