(** Property C32: ac_flfx_mul. *)
From Coq Require Import Lia.
From Verif Require Import AcTypes Spec SpecFloat FlfxModel FlfxProofs.

(** C32, ac_fixed result: the exact product, converted once.  Without subnormal support the float operands have to be
    normalised or zero. *)
Theorem C32_fixed_result : forall subn W1 I1 E1 W2 I2 S f m1 e1 x2, 2 <= W1 -> 1 <= E1 -> 1 <= W2 -> 1 <= fW f ->
  valid_flt W1 E1 (m1, e1) -> in_range S W2 x2 -> (subn = true \/ normal_mant W1 m1 \/ m1 = 0) ->
  converts2 f (m1 * x2) (e1 - (W1 - I1) - (W2 - I2)) (flfx_mul_fx subn W1 I1 E1 W2 I2 f (m1, e1) x2).
Proof. exact flfx_mul_fx_ok. Qed.
Print Assumptions C32_fixed_result.
Example C32_fixed_case : valid_flt 8 4 (-100, 3) /\ normal_mant 8 (-100) /\ in_range true 4 5 /\
  flfx_mul_fx false 8 2 4 4 2 (Fmt 10 8 true RND SAT) (-100, 3) 5 = -62.
Proof. vm_compute. intuition congruence. Qed.

(** C32, two floats and an ac_fixed result. *)
Theorem C32_float_float : forall subn W1 I1 E1 W2 I2 E2 f m1 e1 m2 e2, 2 <= W1 -> 1 <= E1 -> 2 <= W2 -> 1 <= E2 -> 1 <= fW f ->
  valid_flt W1 E1 (m1, e1) -> valid_flt W2 E2 (m2, e2) ->
  (subn = true \/ ((normal_mant W1 m1 \/ m1 = 0) /\ (normal_mant W2 m2 \/ m2 = 0))) ->
  converts2 f (m1 * m2) (e1 + e2 - (W1 - I1) - (W2 - I2)) (flfl_mul_fx subn W1 I1 E1 W2 I2 E2 f (m1, e1) (m2, e2)).
Proof. exact flfl_mul_fx_ok. Qed.
Print Assumptions C32_float_float.
Example C32_float_float_case : flfl_mul_fx false 8 2 4 6 1 3 (Fmt 12 8 true RND SAT) (-100, 3) (17, 2) = -425.
Proof. reflexivity. Qed.

(** C32, ac_fixed result without subnormal support: a float that is not normalised counts as zero. *)
Theorem C32_fixed_result_flush : forall W1 I1 E1 W2 I2 f m1 e1 x2, 2 <= W1 -> 1 <= fW f -> valid_flt W1 E1 (m1, e1) -> ~ normal_mant W1 m1 ->
  flfx_mul_fx false W1 I1 E1 W2 I2 f (m1, e1) x2 = 0.
Proof. exact flfx_mul_fx_flush. Qed.
Print Assumptions C32_fixed_result_flush.

(** C32, ac_float result with subnormal support: the exact product truncated to the output's mantissa, saturated beyond
    its largest exponent and gradually underflowing below its smallest. *)
Theorem C32_float_result : forall W1 I1 E1 W2 I2 S oW oI oE m1 e1 x2, 2 <= W1 -> 1 <= E1 -> 1 <= W2 -> 2 <= oW -> 1 <= oE ->
  valid_flt W1 E1 (m1, e1) -> in_range S W2 x2 ->
  truncates true oW oE (m1 * x2) (e1 - (W1 - I1) - (W2 - I2) + (oW - oI)) (flfx_mul true W1 I1 E1 W2 I2 S oW oI oE (m1, e1) x2).
Proof. exact flfx_mul_subn_ok. Qed.
Print Assumptions C32_float_result.
Example C32_float_case : valid_flt 8 4 (100, -8) /\ in_range false 3 1 /\
  flfx_mul true 8 2 4 3 1 false 8 2 4 (100, -8) 1 = (25, -8) /\ flfx_mul true 8 2 4 4 2 true 8 2 4 (-100, 3) 5 = (-125, 3) /\
  flfx_mul true 8 2 4 4 2 true 6 2 3 (-100, 7) 5 = (-32, 3).
Proof. vm_compute. intuition congruence. Qed.

(** C32, ac_float result without subnormal support, normalised float and non-zero ac_fixed: the same, except that a
    product too small for a normalised result gives zero. *)
Theorem C32_float_result_flush : forall W1 I1 E1 W2 I2 S oW oI oE, 2 <= W1 -> 1 <= E1 -> 1 <= W2 -> 2 <= oW -> 1 <= oE ->
  forall m1 e1 x2, valid_flt W1 E1 (m1, e1) -> normal_mant W1 m1 -> in_range S W2 x2 -> x2 <> 0 ->
  truncates false oW oE (m1 * x2) (e1 - (W1 - I1) - (W2 - I2) + (oW - oI)) (flfx_mul false W1 I1 E1 W2 I2 S oW oI oE (m1, e1) x2).
Proof. exact flfx_mul_flush_ok. Qed.
Print Assumptions C32_float_result_flush.
(** A zero product gives zero, unless the ac_fixed operand is an unsigned zero whose width is one less than a power of
    two. *)
Theorem C32_float_result_zero : forall W1 I1 E1 W2 I2 S oW oI oE, 2 <= W1 -> 1 <= E1 -> 1 <= W2 -> 2 <= oW -> 1 <= oE ->
  forall m1 e1 x2, valid_flt W1 E1 (m1, e1) -> in_range S W2 x2 -> m1 * x2 = 0 -> (x2 <> 0 \/ S = true \/ nbits (W2 + 1) = nbits W2) ->
  fst (flfx_mul false W1 I1 E1 W2 I2 S oW oI oE (m1, e1) x2) = 0.
Proof. exact flfx_mul_flush_zero. Qed.
Print Assumptions C32_float_result_zero.
(** A subnormal float counts as zero when its exponent is in the output's range. *)
Theorem C32_float_result_subnormal : forall W1 I1 E1 W2 I2 S oW oI oE, 2 <= W1 -> 1 <= E1 -> 1 <= W2 -> 2 <= oW -> 1 <= oE ->
  forall m1 e1 x2, valid_flt W1 E1 (m1, e1) -> in_range S W2 x2 -> ~ normal_mant W1 m1 -> e1 + (I1 + I2 - oI) < 2 ^ (oE - 1) ->
  fst (flfx_mul false W1 I1 E1 W2 I2 S oW oI oE (m1, e1) x2) = 0.
Proof. exact flfx_mul_flush_subn. Qed.
Print Assumptions C32_float_result_subnormal.
Example C32_flush_case : normal_mant 8 (-100) /\ flfx_mul false 8 2 4 4 2 true 8 2 4 (-100, 3) 5 = (-125, 3) /\
  flfx_mul false 8 2 4 3 1 false 8 2 4 (100, -8) 1 = (0, -8) /\ fst (flfx_mul false 8 2 4 4 1 false 8 2 4 (100, 7) 0) = 0.
Proof. vm_compute. intuition congruence. Qed.

(** C32 fails: for every width 2^k - 1 an unsigned zero times a float at the largest exponent is the largest float. *)
Theorem C32_zero_refuted : forall k W1 I1 E oW m1, 1 <= k -> 2 <= W1 -> 1 <= E -> 2 <= oW -> - 2 ^ (W1 - 1) <= m1 < 2 ^ (W1 - 1) ->
  flfx_mul false W1 I1 E (2 ^ k - 1) 1 false oW I1 E (m1, 2 ^ (E - 1) - 1) 0 = (2 ^ (oW - 1) - 1, 2 ^ (E - 1) - 1).
Proof. exact flfx_mul_zero_saturates. Qed.
Print Assumptions C32_zero_refuted.
Example C32_zero_witness : normal_mant 8 64 /\ flfx_mul false 8 2 4 3 1 false 8 2 4 (64, 7) 0 = (127, 7).
Proof. vm_compute. intuition congruence. Qed.
