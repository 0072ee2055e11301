(** Models of the ac_complex<ac_fixed> overloads of ac_reciprocal_pwl, ac_sqrt_pwl and ac_inverse_sqrt_pwl.  The parts [a] and
    [b] are raw W-bit numbers with W - I fraction bits.  ac_complex::mag_sqr (ac_types) returns a^2 + b^2 with 2 (W - I) fraction
    bits in an unsigned type; its width [MW] is ac_types' choice and a parameter here.  No proofs here. *)
From Verif Require Import AcTypes PwlModel PwlFloatModel.
Open Scope Z.

(** ac_complex::mag_sqr (ac_types). *)
Definition mag_sqr (MW a b : Z) : Z := wrapu MW (a * a + b * b).

(** ac_reciprocal_pwl.h:413-455.  The widths W1 and I1 are the header's own account of mag_sqr's type and only serve to size
    the intermediate type. *)
Definition recip_cplx (pQ : qmode) (MW W I : Z) (S : bool) (f : fmt) (a b : Z) : option (Z * Z) :=
  let W1 := if S then 2 * W - 1 else 2 * W + 1 in
  let I1 := if S then 2 * I - 1 else 2 * I + 1 in
  let fb := Z.max 1 (Z.min 10 (W1 - 4 - b2z S)) in
  let W2 := W1 + fb + 10 + b2z (negb S) in
  let I2 := W1 - I1 + 1 in
  match reciprocal_pwl pQ MW (MW - 2 * (W - I)) false (Fmt W2 I2 false (fQ f) (fO f)) (mag_sqr MW a b) with
  | None => None
  | Some r =>
      Some (if negb (a =? 0) || negb (b =? 0)
            then (conv f (a * r) (W - I + (W2 - I2)), conv f (- b * r) (W - I + (W2 - I2)))
            else (imax (fS f) (fW f), imax (fS f) (fW f)))
  end.

(** ac_sqrt_pwl.h:503-533.  The types of the square root of mag_sqr (W1, I1), of the sum and difference with the real part
    (tW, tI) and of the results (W2, I2).  [part] is the computation of x from temp_real and of y from temp_imag. *)
Definition cs_I1 (I : Z) : Z := rt_sqrt_I (2 * I - 1).
Definition cs_W1 (W I : Z) : Z := rt_sqrt_W (2 * (W - I)) (2 * I - 1).
Definition cs_tF (W I : Z) : Z := if W - I >? cs_W1 W I - cs_I1 I then W - I else cs_W1 W I - cs_I1 I.
Definition cs_tW (W I : Z) : Z := I + 1 + cs_tF W I.
Definition cs_I2 (I : Z) : Z := rt_sqrt_I I.
Definition cs_W2 (W I : Z) : Z := rt_sqrt_W (cs_tW W I) I.
Definition cs_part (pQ : qmode) (W I : Z) (sum F : Z) : option Z :=
  let temp := conv (Fmt (cs_tW W I) (I + 1) false TRN SAT) sum F in
  let half := Z.shiftr (conv (dfmt (cs_tW W I + 1) (I + 1) false) temp (cs_tF W I)) 1 in
  sqrt_pwl pQ (cs_tW W I) I WRAP (dfmt (cs_W2 W I) (cs_I2 I) false) true (conv (dfmt (cs_tW W I) I false) half (cs_tF W I + 1)).
Definition sqrt_cplx (pQ : qmode) (MW W I : Z) (f : fmt) (a b : Z) : option (Z * Z) :=
  match sqrt_pwl pQ MW (MW - 2 * (W - I)) WRAP (dfmt (cs_W1 W I) (cs_I1 I) false) true (mag_sqr MW a b) with
  | None => None
  | Some sm =>
      let F := cs_tF W I in
      let s := sm * 2 ^ (F - (cs_W1 W I - cs_I1 I)) in
      let r := a * 2 ^ (F - (W - I)) in
      match cs_part pQ W I (s + r) F, cs_part pQ W I (s - r) F with
      | Some x, Some y => Some (conv f x (cs_W2 W I - cs_I2 I), conv f (if b <? 0 then - y else y) (cs_W2 W I - cs_I2 I))
      | _, _ => None
      end
  end.

(** ac_inverse_sqrt_pwl.h:275-316.  [isq_final] is lines 295-316, which ac_inverse_sqrt_pwl_vha.h:290-312 repeats: the products of
    the square root x + i y of the conjugate and the inverse square root q of mag_sqr, in a type of QW bits with W - I integer bits. *)
Definition isq_final (pQ : qmode) (QW W I : Z) (f : fmt) (a b x y q : Z) : Z * Z :=
  let sW := cs_W2 W I + 1 in
  let sI := cs_I2 I + 1 in
  let ot := Fmt (sW + QW) (sI + (W - I)) true pQ WRAP in
  let F := sW - sI + (QW - (W - I)) in
  let oi := conv ot (y * q) F in
  let or := conv ot (x * q) F in
  let oi := if (a <? 0) && (b =? 0) then conv ot (- oi) F else oi in
  if negb (a =? 0) || negb (b =? 0) then (conv f or F, conv f oi F) else (imax true (fW f), imax true (fW f)).
(** ac_complex::conj (ac_types) returns parts of [k] more bits than its argument's; [MC] is the width of mag_sqr for that type. *)
Definition isqrt_cplx (pQ : qmode) (MW MC k W I : Z) (f : fmt) (a b : Z) : option (Z * Z) :=
  match sqrt_cplx pQ MC (W + k) (I + k) (Fmt (cs_W2 W I + 1) (cs_I2 I + 1) true pQ WRAP) a (wraps (W + k) (- b)),
        inverse_sqrt_pwl pQ MW (MW - 2 * (W - I)) WRAP (Fmt (W + 23) (W - I) false pQ WRAP) true (mag_sqr MW a b) with
  | Some (x, y), Some q => Some (isq_final pQ (W + 23) W I f a b x y q)
  | _, _ => None
  end.
