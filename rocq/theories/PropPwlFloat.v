(** Properties C93-C101: the piecewise-linear functions and the division on ac_float numbers.  The argument is
    X = m 2^(I-W) 2^e with a [W]-bit mantissa; [pQ] is the rounding mode given to the function.  The results are the numbers
    handed to the output's ac_float constructor: a fixed-point number, or a mantissa and an exponent. *)
From Coq Require Import Reals ZArith Lra Lia.
From Verif Require Import AcTypes Spec SpecR PwlFloatModel PwlFloatThm.
Open Scope Z.

(** C93: the square root of a normalised number is accurate to 0.13 percent, for every exponent. *)
Theorem C93_sqrt_float_accuracy : forall pQ W I m e,
  let X := (fxval m (W - I) * bpow2 e)%R in
  2 <= W -> 2 ^ (W - 2) <= m < 2 ^ (W - 1) ->
  exists v n, sqrt_flt pQ W I m e = Some (v, n) /\ (Rabs (fxval v ((W - I) / 2 + 22) * bpow2 n - sqrt X) <= 0.0013 * sqrt X)%R.
Proof. exact sqrt_flt_accurate. Qed.
Print Assumptions C93_sqrt_float_accuracy.
(** sqrt 1 = 1.0010, sqrt 2 = 1.41562, sqrt (2^-5) = 1.41562 2^-3. *)
Example C93_case : map (sqrt_flt TRN 16 2 16384) [0; 1; -5] =
  [Some (537405024, 0); Some (760006293, 0); Some (760006293, -3)].
Proof. vm_compute. reflexivity. Qed.
(** A number whose exponent is the smallest one of its type need not be normalised, but the mantissa is used as if it were:
    sqrt (0.5 2^-32) = 1.2254 2^-16 instead of 0.7071 2^-16. *)
Theorem C93_sqrt_float_subnormal_refuted : ~ (forall pQ W I E m e,
  let X := (fxval m (W - I) * bpow2 e)%R in
  2 <= W -> 1 <= E -> 0 < m < 2 ^ (W - 1) -> in_range true E e -> (2 ^ (W - 2) <= m \/ e = - 2 ^ (E - 1)) ->
  exists v n, sqrt_flt pQ W I m e = Some (v, n) /\ (Rabs (fxval v ((W - I) / 2 + 22) * bpow2 n - sqrt X) <= 0.0013 * sqrt X)%R).
Proof. exact sqrt_flt_subnormal_bad. Qed.
Print Assumptions C93_sqrt_float_subnormal_refuted.

(** C94: the inverse square root of a normalised number is accurate to 0.09 percent. *)
Theorem C94_inverse_sqrt_float_accuracy : forall pQ oQ W I m e,
  let X := (fxval m (W - I) * bpow2 e)%R in
  3 <= W -> 2 ^ (W - 2) <= m < 2 ^ (W - 1) ->
  exists v n, isqrt_flt pQ oQ W I m e = Some (v, n) /\ (Rabs (fxval v ((I - 1) / 2 + 24) * bpow2 n - / sqrt X) <= 0.0009 * / sqrt X)%R.
Proof. exact isqrt_flt_accurate. Qed.
Print Assumptions C94_inverse_sqrt_float_accuracy.
(** 1/sqrt 1 = 0.99927, 1/sqrt 2 = 0.70651, 1/sqrt (2^-5) = 0.70651 2^3. *)
Example C94_case : map (isqrt_flt TRN TRN 16 2 16384) [0; 1; -5] =
  [Some (16764944, 0); Some (11853339, 0); Some (11853339, 3)].
Proof. vm_compute. reflexivity. Qed.
(** Again not for numbers that are not normalised: 1/sqrt (0.5 2^-32) = 0.8161 2^16 instead of 1.4142 2^16. *)
Theorem C94_inverse_sqrt_float_subnormal_refuted : ~ (forall pQ oQ W I E m e,
  let X := (fxval m (W - I) * bpow2 e)%R in
  3 <= W -> 1 <= E -> 0 < m < 2 ^ (W - 1) -> in_range true E e -> (2 ^ (W - 2) <= m \/ e = - 2 ^ (E - 1)) ->
  exists v n, isqrt_flt pQ oQ W I m e = Some (v, n) /\ (Rabs (fxval v ((I - 1) / 2 + 24) * bpow2 n - / sqrt X) <= 0.0009 * / sqrt X)%R).
Proof. exact isqrt_flt_subnormal_bad. Qed.
Print Assumptions C94_inverse_sqrt_float_subnormal_refuted.

(** C95: the base-two logarithm of a normalised number has an absolute error of at most 0.0015 ... *)
Theorem C95_log2_float_accuracy : forall pQ W I m e,
  let X := (fxval m (W - I) * bpow2 e)%R in
  2 <= W -> 2 ^ (W - 2) <= m < 2 ^ (W - 1) ->
  exists v, log2_flt pQ W I m e = Some v /\ (Rabs (fxval v 22 - ln X / ln 2) <= 0.0015)%R.
Proof. exact log2_flt_accurate. Qed.
Print Assumptions C95_log2_float_accuracy.
(** ... and the natural logarithm one of at most 0.00105 and 3.3e-6 of the result (the constant ln 2 has 15 fraction bits). *)
Theorem C95_log_float_accuracy : forall pQ W I m e,
  let X := (fxval m (W - I) * bpow2 e)%R in
  2 <= W -> 2 ^ (W - 2) <= m < 2 ^ (W - 1) ->
  exists v, log_flt pQ W I m e = Some v /\ (Rabs (fxval v 37 - ln X) <= 0.00105 + 0.0000033 * Rabs (ln X))%R.
Proof. exact log_flt_accurate. Qed.
Print Assumptions C95_log_float_accuracy.
(** log2 1.5 = 0.58545 (0.58496), log2 3 = 1.58545, log2 (1.5 2^-5) = -4.41455; ln 1.5 = 0.40580 (0.40547). *)
Example C95_case : (map (log2_flt TRN 16 2 24576) [0; 1; -5], log_flt TRN 16 2 24576 0) =
  ([Some 2455552; Some 6649856; Some (-18515968)], Some 55772952576).
Proof. vm_compute. reflexivity. Qed.
(** Not for numbers that are not normalised: log2 (2^-34) = -31.68. *)
Theorem C95_log2_float_subnormal_refuted : ~ (forall pQ W I E m e,
  let X := (fxval m (W - I) * bpow2 e)%R in
  2 <= W -> 1 <= E -> 0 < m < 2 ^ (W - 1) -> in_range true E e -> (2 ^ (W - 2) <= m \/ e = - 2 ^ (E - 1)) ->
  exists v, log2_flt pQ W I m e = Some v /\ (Rabs (fxval v 22 - ln X / ln 2) <= 0.0015)%R).
Proof. exact log2_flt_subnormal_bad. Qed.
Print Assumptions C95_log2_float_subnormal_refuted.
(** ln (2^-34) = -21.96 instead of -23.57. *)
Theorem C95_log_float_subnormal_refuted : ~ (forall pQ W I E m e,
  let X := (fxval m (W - I) * bpow2 e)%R in
  2 <= W -> 1 <= E -> 0 < m < 2 ^ (W - 1) -> in_range true E e -> (2 ^ (W - 2) <= m \/ e = - 2 ^ (E - 1)) ->
  exists v, log_flt pQ W I m e = Some v /\ (Rabs (fxval v 37 - ln X) <= 0.00105 + 0.0000033 * Rabs (ln X))%R).
Proof. exact log_flt_subnormal_bad. Qed.
Print Assumptions C95_log_float_subnormal_refuted.

(** C96: 2^X for an output ac_float<oW, oI, oE>: the exponent is limited to TI integer bits; its error is at most 2^-12 and the result's
    relative error 0.23 percent. *)
Theorem C96_pow2_float_accuracy : forall pQ W I oW oI oE m e,
  let TI := nbits (2 ^ (oE - 1) + Z.max (oI - 1) (oW - oI)) + 1 in
  let X := (fxval m (W - I) * bpow2 e)%R in
  1 <= W -> in_range true W m -> TI <= 32 ->
  exists y n eta eps, pow2_flt pQ W I oW oI oE m e = Some (y, n) /\
    (fxval y 20 * bpow2 n = Rpower 2 (Rmax (- bpow2 (TI - 1)) (Rmin (bpow2 (TI - 1) - bpow2 (- 12)) X) + eta) * (1 + eps) /\
     Rabs eta <= bpow2 (- 12) /\ Rabs eps <= 0.0023)%R.
Proof. exact pow2_flt_accurate. Qed.
Print Assumptions C96_pow2_float_accuracy.
(** The exponential; the error of the exponent grows with |X| up to the limit. *)
Theorem C96_exp_float_accuracy : forall pQ W I oW oI oE m e,
  let TI := nbits (2 ^ (oE - 1) + Z.max (oI - 1) (oW - oI)) + 1 in
  let X := (fxval m (W - I) * bpow2 e)%R in
  1 <= W -> in_range true W m -> TI <= 32 ->
  exists y n eta eps, exp_flt pQ W I oW oI oE m e = Some (y, n) /\
    (fxval y 20 * bpow2 n = Rpower 2 (Rmax (- bpow2 (TI - 1)) (Rmin (bpow2 (TI - 1) - bpow2 (- 12)) (X / ln 2)) + eta) * (1 + eps) /\
     Rabs eta <= bpow2 (- 12) + 0.00001 * Rmin (Rabs X) (1.4 * bpow2 (TI - 1)) /\ Rabs eps <= 0.0023)%R.
Proof. exact exp_flt_accurate. Qed.
Print Assumptions C96_exp_float_accuracy.
(** 2^1.5 = 1.41211 2 (2.8284), 2^-1.5 = 1.41211 2^-2, and both ends of the range. *)
Example C96_case : map (fun p => pow2_flt TRN 16 2 16 2 6 (fst p) (snd p)) [(24576, 0); (-24576, 0); (24576, 20); (-24576, 20)] =
  [Some (1480704, 1); Some (1480704, -2); Some (2092731, 63); Some (1046528, -64)].
Proof. vm_compute. reflexivity. Qed.
(** e^1.5 = 1.12219 4 = 4.4888 (4.4817), e^-1.5 = 1.7878 2^-3 = 0.22348 (0.22313), and both ends of the range. *)
Example C96_exp_case : map (fun p => exp_flt TRN 16 2 16 2 6 (fst p) (snd p)) [(24576, 0); (-24576, 0); (24576, 20); (-24576, 20)] =
  [Some (1176702, 2); Some (1874656, -3); Some (2092731, 63); Some (1046528, -64)].
Proof. vm_compute. reflexivity. Qed.
(** Where the limit acts the number handed on is, like 2^X itself, above every value of the output type or below its smallest positive one, so
    the limit does not change the result. *)
Theorem C96_pow2_float_saturation : forall pQ W I oW oI oE m e y n,
  let TI := nbits (2 ^ (oE - 1) + Z.max (oI - 1) (oW - oI)) + 1 in
  let X := (fxval m (W - I) * bpow2 e)%R in
  1 <= W -> in_range true W m -> 2 <= oW -> 1 <= oE -> TI <= 32 ->
  pow2_flt pQ W I oW oI oE m e = Some (y, n) ->
  ((bpow2 (TI - 1) <= X)%R -> forall mz ez, in_range true oW mz -> in_range true oE ez -> (fxval mz (oW - oI) * bpow2 ez < fxval y 20 * bpow2 n /\ fxval mz (oW - oI) * bpow2 ez < Rpower 2 X)%R) /\
  ((X <= - bpow2 (TI - 1))%R -> (0 <= fxval y 20 * bpow2 n < fxval 1 (oW - oI) * bpow2 (- 2 ^ (oE - 1)) /\ Rpower 2 X < fxval 1 (oW - oI) * bpow2 (- 2 ^ (oE - 1)))%R).
Proof. exact pow2_flt_saturates. Qed.
Print Assumptions C96_pow2_float_saturation.
(** The same for e^X, for outputs whose limit has at most twelve bits. *)
Theorem C96_exp_float_saturation : forall pQ W I oW oI oE m e y n,
  let TI := nbits (2 ^ (oE - 1) + Z.max (oI - 1) (oW - oI)) + 1 in
  let X := (fxval m (W - I) * bpow2 e)%R in
  1 <= W -> in_range true W m -> 2 <= oW -> 1 <= oE -> TI <= 12 ->
  exp_flt pQ W I oW oI oE m e = Some (y, n) ->
  ((bpow2 (TI - 1) * ln 2 <= X)%R -> forall mz ez, in_range true oW mz -> in_range true oE ez -> (fxval mz (oW - oI) * bpow2 ez < fxval y 20 * bpow2 n /\ fxval mz (oW - oI) * bpow2 ez < exp X)%R) /\
  ((X <= - bpow2 (TI - 1) * ln 2)%R -> (0 <= fxval y 20 * bpow2 n < fxval 1 (oW - oI) * bpow2 (- 2 ^ (oE - 1)) /\ exp X < fxval 1 (oW - oI) * bpow2 (- 2 ^ (oE - 1)))%R).
Proof. exact exp_flt_saturates. Qed.
Print Assumptions C96_exp_float_saturation.

(** C97: the sigmoid function is defined for every number, lies between zero and one and has an absolute error of at most 0.0072. *)
Theorem C97_sigmoid_float_accuracy : forall pQ W I m e,
  let X := (fxval m (W - I) * bpow2 e)%R in
  1 <= W -> in_range true W m ->
  exists v, sigmoid_flt pQ W I m e = Some v /\ 0 <= v <= 2 ^ 20 /\ (Rabs (fxval v 20 - / (1 + exp (- X))) <= 0.0072)%R.
Proof. exact sigmoid_flt_accurate. Qed.
Print Assumptions C97_sigmoid_float_accuracy.
(** sigmoid 1.5 = 0.81518 (0.81757), sigmoid (-1.5) = 0.18482 (0.18243), and large arguments. *)
Example C97_case : map (fun p => sigmoid_flt TRN 16 2 (fst p) (snd p)) [(24576, 0); (-24576, 0); (24576, 20); (-24576, 20)] =
  [Some 854780; Some 193796; Some 1048575; Some 1].
Proof. vm_compute. reflexivity. Qed.

(** C98: where the hyperbolic tangent is defined it is accurate to 0.0055 and lies strictly between minus one and one. *)
Theorem C98_tanh_float_accuracy : forall pQ W I m e v,
  let X := (fxval m (W - I) * bpow2 e)%R in
  1 <= W -> in_range true W m -> tanh_flt pQ W I m e = Some v ->
  - 2 ^ 20 < v < 2 ^ 20 /\ (Rabs (fxval v 20 - tanh X) <= 0.0055)%R.
Proof. exact tanh_flt_accurate. Qed.
Print Assumptions C98_tanh_float_accuracy.
(** It is defined unless the argument, rounded to ten fraction bits, lies in [3, 4), in (-4, -3], in (-8, -7], or is at least 7; there the
    table is read outside its bounds. *)
Theorem C98_tanh_float_defined : forall pQ W I m e z,
  let X := (fxval m (W - I) * bpow2 e)%R in
  1 <= W -> in_range true W m -> is_roundR RND (X * 1024)%R z ->
  ((exists v, tanh_flt pQ W I m e = Some v) <-> Z.abs z < 3072 \/ 4096 <= z < 7168 \/ -7168 < z <= -4096 \/ z <= -8192).
Proof. exact tanh_flt_defined. Qed.
Print Assumptions C98_tanh_float_defined.
(** tanh 1.5 = 0.90625 (0.90515), tanh (-1.5), tanh of a large negative number and of 3. *)
Example C98_case : map (fun p => tanh_flt TRN 16 2 (fst p) (snd p)) [(24576, 0); (-24576, 0); (-24576, 20); (24576, 1)] =
  [Some 950272; Some (-950272); Some (-1048575); None].
Proof. vm_compute. reflexivity. Qed.
(** No argument of seven or more has a defined result. *)
Theorem C98_tanh_float_large_refuted : forall pQ W I m e,
  1 <= W -> in_range true W m -> (7 <= fxval m (W - I) * bpow2 e)%R -> tanh_flt pQ W I m e = None.
Proof. exact tanh_flt_large_bad. Qed.
Print Assumptions C98_tanh_float_large_refuted.
(** So it is not defined everywhere: tanh 3 is not. *)
Theorem C98_tanh_float_undefined_refuted : ~ (forall pQ W I m e, 1 <= W -> in_range true W m -> exists v, tanh_flt pQ W I m e = Some v).
Proof. exact tanh_flt_undefined_bad. Qed.
Print Assumptions C98_tanh_float_undefined_refuted.

(** C99: the tangent of a number below 1594/1024 (89.2 degrees) is accurate, relative to the argument rounded to 21 fraction bits. *)
Theorem C99_tan_float_accuracy : forall pQ W I m e,
  let X := (fxval m (W - I) * bpow2 e)%R in
  2 <= W -> 0 <= m < 2 ^ (W - 1) -> (X < 1594 / 1024 - bpow2 (-21))%R ->
  exists v P, tan_flt pQ W I m e = Some v /\ (0 <= P /\ Rabs (P - X) <= bpow2 (-21) /\
    Rabs (fxval v 29 - tan P) <= (if Rlt_dec P (804 / 1024) then 0.00276 else (if Rle_dec P 1.4 then 0.0121 else 0.0501) * tan P))%R.
Proof. exact tan_flt_accurate. Qed.
Print Assumptions C99_tan_float_accuracy.
(** From there up to two the result is the largest number of the intermediate type. *)
Theorem C99_tan_float_saturation : forall pQ W I m e,
  2 <= W -> 0 <= m < 2 ^ (W - 1) -> (1594 / 1024 <= fxval m (W - I) * bpow2 e <= 2 - bpow2 (-21))%R ->
  tan_flt pQ W I m e = Some (2 ^ 36 - 1).
Proof. exact tan_flt_saturates. Qed.
Print Assumptions C99_tan_float_saturation.
(** tan 1 = 1.55875 (1.55741), tan 1.5625 (the maximum), tan 0.125 = 0.12587 (0.12566). *)
Example C99_case : map (fun p => tan_flt TRN 16 2 (fst p) (snd p)) [(16384, 0); (25600, 0); (8192, -2)] =
  [Some 836848640; Some 68719476735; Some 67575808].
Proof. vm_compute. reflexivity. Qed.
(** Numbers of two and more are not saturated but wrap: tan 3 is computed as tan 1. *)
Theorem C99_tan_float_wrap_refuted : ~ (forall pQ W I m e,
  2 <= W -> 0 <= m < 2 ^ (W - 1) -> (1594 / 1024 <= fxval m (W - I) * bpow2 e)%R ->
  tan_flt pQ W I m e = Some (2 ^ 36 - 1)).
Proof. exact tan_flt_wraps_bad. Qed.
Print Assumptions C99_tan_float_wrap_refuted.

(** C100: the reciprocal of every non-zero number, normalised or not, is accurate to 0.25 percent. *)
Theorem C100_reciprocal_float_accuracy : forall pQ oQ W I m e,
  let X := (fxval m (W - I) * bpow2 e)%R in
  2 <= W -> in_range true W m -> m <> 0 ->
  exists v n, recip_flt pQ oQ W I m e = Some (v, n) /\
    (Rabs (fxval v (Z.max 1 (Z.min 10 (W - 5)) + 9 + I) * bpow2 n - / X) <= 0.0025 * / Rabs X)%R.
Proof. exact recip_flt_accurate. Qed.
Print Assumptions C100_reciprocal_float_accuracy.
(** 1/1.5 = 0.66602 and 1/(-3 2^-10) = -0.66602 2^9. *)
Example C100_case : map (fun p => recip_flt TRN TRN 16 2 (fst p) (snd p)) [(24576, 0); (-3, 4)] =
  [Some (1396736, 0); Some (-1396736, 9)].
Proof. vm_compute. reflexivity. Qed.

(** C101: the quotient mantissa is N/D rounded down to QF = QW - QI fraction bits (relative to the difference of the exponents), and the
    returned flag says whether anything was lost; one pair of mantissas is excluded. *)
Theorem C101_div_float_correct : forall NW NI DW DI QF NE DE mn en md ed junk tm te r,
  let N := (fxval mn (NW - NI) * bpow2 en)%R in
  let D := (fxval md (DW - DI) * bpow2 ed)%R in
  1 <= NW -> 1 <= DW -> 1 <= NE -> 1 <= DE -> in_range true NW mn -> in_range true DW md -> in_range true NE en -> in_range true DE ed -> md <> 0 ->
  1 <= NI + (DW - DI) + QF -> ~ (mn = - 2 ^ (NW - 1) /\ md = -1) ->
  div_flt NW NI DW DI QF NE DE mn en md ed junk = (tm, te, r) ->
  te = en - ed /\ (fxval tm QF * bpow2 te <= N / D < fxval tm QF * bpow2 te + bpow2 (te - QF))%R /\ (r = false <-> (fxval tm QF * bpow2 te = N / D)%R).
Proof. exact div_flt_correct. Qed.
Print Assumptions C101_div_float_correct.
(** 12 / (-1.2207 2^-4) and 12 / 2^-4. *)
Example C101_case : map (fun md => div_flt 16 2 16 2 14 6 6 24576 3 md (-4) 0) [-20000; 16384] =
  [(-20133, 7, true); (24576, 7, false)].
Proof. vm_compute. reflexivity. Qed.
(** The excluded pair: the smallest mantissa divided by minus one unit wraps to a negative result which is reported as exact. *)
Theorem C101_div_float_min_refuted : ~ (forall NW NI DW DI QF NE DE mn en md ed junk tm te r,
  1 <= NW -> 1 <= DW -> 1 <= NE -> 1 <= DE -> in_range true NW mn -> in_range true DW md -> in_range true NE en -> in_range true DE ed -> md <> 0 ->
  1 <= NI + (DW - DI) + QF -> div_flt NW NI DW DI QF NE DE mn en md ed junk = (tm, te, r) ->
  r = false -> (fxval tm QF * bpow2 te = (fxval mn (NW - NI) * bpow2 en) / (fxval md (DW - DI) * bpow2 ed))%R).
Proof. exact div_flt_wrap_bad. Qed.
Print Assumptions C101_div_float_min_refuted.
(** The number of correct bits depends on the integer widths: even for normalised operands all of them can be lost. *)
Theorem C101_div_float_precision_refuted : ~ (forall NW NI DW DI QF NE DE mn en md ed junk tm te r,
  let Q := ((fxval mn (NW - NI) * bpow2 en) / (fxval md (DW - DI) * bpow2 ed))%R in
  1 <= NE -> 1 <= DE -> 2 ^ (NW - 2) <= mn < 2 ^ (NW - 1) -> 2 ^ (DW - 2) <= md < 2 ^ (DW - 1) -> in_range true NE en -> in_range true DE ed ->
  1 <= QF -> 1 <= NI + (DW - DI) + QF -> div_flt NW NI DW DI QF NE DE mn en md ed junk = (tm, te, r) ->
  (Rabs (fxval tm QF * bpow2 te - Q) <= / 2 * Q)%R).
Proof. exact div_flt_precision_bad. Qed.
Print Assumptions C101_div_float_precision_refuted.
