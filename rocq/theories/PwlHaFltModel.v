(** Models of the ac_float and ac_complex<ac_fixed> overloads of ac_reciprocal_pwl_ha, ac_reciprocal_pwl_vha and
    ac_inverse_sqrt_pwl_vha, with the conventions of PwlFloatModel.v and PwlCplxModel.v.  No proofs here. *)
From Verif Require Import AcTypes PwlModel PwlFloatModel PwlCplxModel PwlHaModel.
Open Scope Z.

(** ac_reciprocal_pwl_ha.h:285-316: recip_mantissa, with fb + 15 + I fraction bits, and the exponent.  The mantissa is not normalised
    before the call.  The maximum stored for a zero mantissa is not part of the result here nor below. *)
Definition recip_ha_fb (W : Z) : Z := Z.max 1 (Z.min 16 (W - 6 - 1)).
Definition recip_ha_flt (pQ oQ : qmode) (W I : Z) (m e : Z) : option (Z * Z) :=
  match reciprocal_pwl_ha pQ W I true (Fmt (W + 16 + recip_ha_fb W + 1) (W - I + 2) true oQ WRAP) m with
  | None => None
  | Some r => Some (r, - e)
  end.

(** ac_reciprocal_pwl_vha.h:313-357: recip_mantissa, with fb + 15 + I fraction bits, and the exponent. *)
Definition recip_vha_fb (W : Z) : Z := Z.max 1 (Z.min 16 (W - 7 - 1)).
Definition recip_vha_flt (pQ oQ : qmode) (W I : Z) (m e : Z) : option (Z * Z) :=
  let '(n, e') := flt_full W m e in
  match reciprocal_pwl_vha pQ W I true (Fmt (recip_vha_fb W + 16 + 2) (- I + 3) true oQ WRAP) false n with
  | None => None
  | Some r => Some (r, - e')
  end.

(** ac_inverse_sqrt_pwl_vha.h:374-421: W_2 and I_2 (C's / and % truncate), then output2_mant, with W_2 - I_2 fraction bits, and the
    exponent.  inverseroot2 is 370727 / 2^19; [xQ] and [oQ] are the rounding modes of the input and the output. *)
Definition isv_W (I : Z) : Z := 32 - (if Z.rem I 2 =? 0 then 3 else 5).
Definition isv_I (I : Z) : Z :=
  if Z.rem I 2 =? 0 then (if 0 <? I then Z.quot (- (I - 1)) 2 else Z.quot (- (I - 2)) 2)
  else (if 0 <? I then Z.quot (- I) 2 + 1 else Z.quot (- (I - 2)) 2 + 1).
Definition isqrt_vha_flt (pQ xQ oQ : qmode) (W I : Z) (m e : Z) : option (Z * Z) :=
  let '(n, e') := flt_full W m e in
  let m1 := conv (Fmt (W - 1) (I - 1) false xQ WRAP) n (W - I) in
  let W2 := isv_W I in
  let I2 := isv_I I in
  match inverse_sqrt_pwl_vha pQ (W - 1) (I - 1) WRAP (Fmt W2 I2 false pQ WRAP) false m1 with
  | None => None
  | Some o2 =>
      let tq := Fmt (W2 + 1) (I2 + 1) true oQ WRAP in
      let v := if Z.rem e' 2 =? 0 then conv tq o2 (W2 - I2) else conv tq (o2 * 370727) (W2 - I2 + 19) in
      Some (conv (Fmt (W2 + 1) (I2 + 1) true pQ WRAP) v (W2 - I2), - Z.shiftr e' 1)
  end.

(** ac_reciprocal_pwl_ha.h:391-431 and ac_reciprocal_pwl_vha.h:434-474.  The type of the reciprocal of mag_sqr has W2 bits, I2 of
    them before the point. *)
Definition rc_final (W I W2 I2 : Z) (f : fmt) (a b : Z) (r : option Z) : option (Z * Z) :=
  match r with
  | None => None
  | Some r =>
      Some (if negb (a =? 0) || negb (b =? 0)
            then (conv f (a * r) (W - I + (W2 - I2)), conv f (- b * r) (W - I + (W2 - I2)))
            else (imax (fS f) (fW f), imax (fS f) (fW f)))
  end.
Definition recip_ha_cplx (pQ : qmode) (MW W I : Z) (S : bool) (f : fmt) (a b : Z) : option (Z * Z) :=
  let W1 := if S then 2 * W - 1 else 2 * W + 1 in
  let I1 := if S then 2 * I - 1 else 2 * I + 1 in
  let fb := Z.max 1 (Z.min 16 (W1 - 6 - b2z S)) in
  let W2 := W1 + fb + 16 + b2z (negb S) in
  let I2 := W1 - I1 + 1 in
  rc_final W I W2 I2 f a b (reciprocal_pwl_ha pQ MW (MW - 2 * (W - I)) false (Fmt W2 I2 false (fQ f) (fO f)) (mag_sqr MW a b)).
Definition recip_vha_cplx (pQ : qmode) (MW W I : Z) (S : bool) (f : fmt) (a b : Z) : option (Z * Z) :=
  let W1 := if S then 2 * W - 1 else 2 * W + 1 in
  let I1 := if S then 2 * I - 1 else 2 * I + 1 in
  let fb := Z.max 1 (Z.min 16 (W1 - 7 - b2z S)) in
  let W2 := W1 + fb + 16 in
  let I2 := W1 - I1 in
  rc_final W I W2 I2 f a b (reciprocal_pwl_vha pQ MW (MW - 2 * (W - I)) false (Fmt W2 I2 false (fQ f) (fO f)) true (mag_sqr MW a b)).

(** ac_inverse_sqrt_pwl_vha.h:260-312; [k], [MC] and [MW] as in PwlCplxModel.v.  The square root is ac_sqrt_pwl's. *)
Definition isqrt_vha_cplx (pQ : qmode) (MW MC k W I : Z) (f : fmt) (a b : Z) : option (Z * Z) :=
  let QW := W + Z.max 1 (Z.min 16 (W - 6)) + 16 - 1 in
  match sqrt_cplx pQ MC (W + k) (I + k) (Fmt (cs_W2 W I + 1) (cs_I2 I + 1) true pQ WRAP) a (wraps (W + k) (- b)),
        inverse_sqrt_pwl_vha pQ MW (MW - 2 * (W - I)) WRAP (Fmt QW (W - I) false pQ WRAP) true (mag_sqr MW a b) with
  | Some (x, y), Some q => Some (isq_final pQ QW W I f a b x y q)
  | _, _ => None
  end.
