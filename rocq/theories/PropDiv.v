(** Properties C01-C06, C49-C51: ac_div. *)
From Coq Require Import Lia.
From Verif Require Import AcTypes Spec DivModel DivProofs DivSpecs DivCplx.

(** C01: the outputs are the Euclidean quotient and remainder, reduced to the output widths. *)
Theorem C01_div_unsigned_int : forall NW DW QW RW N D q r,
  1 <= NW -> 1 <= DW -> 1 <= QW -> 0 <= N < 2 ^ NW -> 0 < D < 2 ^ DW ->
  N = q * D + r -> 0 <= r < D ->
  div_uint NW DW QW RW N D = (q mod 2 ^ QW, r mod 2 ^ RW, negb (r =? 0)).
Proof. exact div_uint_spec. Qed.
Print Assumptions C01_div_unsigned_int.
Example C01_case : div_uint 8 5 8 5 200 7 = (28, 4, true) /\ 200 = 28 * 7 + 4.
Proof. vm_compute; split; reflexivity. Qed.
Example C01_case_wrap : div_uint 8 5 3 2 200 7 = (4, 0, true).
Proof. vm_compute; reflexivity. Qed.

(** C01, three-argument form. *)
Theorem C01_div_unsigned_int_3arg : forall NW DW QW N D q r,
  1 <= NW -> 1 <= DW -> 1 <= QW -> 0 <= N < 2 ^ NW -> 0 < D < 2 ^ DW ->
  N = q * D + r -> 0 <= r < D ->
  div_uint3 NW DW QW N D = (q mod 2 ^ QW, negb (r =? 0)).
Proof. exact div_uint3_spec. Qed.
Print Assumptions C01_div_unsigned_int_3arg.
Example C01_case_3arg : div_uint3 8 5 8 203 7 = (29, false).
Proof. vm_compute; reflexivity. Qed.

(** C02: division by zero saturates. *)
Theorem C02_div_zero_unsigned : forall NW DW QW RW N,
  1 <= NW -> 1 <= DW -> 0 <= N < 2 ^ NW ->
  fst (fst (div_uint NW DW QW RW N 0)) = 2 ^ QW - 1.
Proof. exact div_uint_zero. Qed.
Print Assumptions C02_div_zero_unsigned.
Theorem C02_div_zero_unsigned_3arg : forall NW DW QW N,
  1 <= NW -> 1 <= DW -> 0 <= N < 2 ^ NW -> fst (div_uint3 NW DW QW N 0) = 2 ^ QW - 1.
Proof. exact div_uint3_zero. Qed.
Print Assumptions C02_div_zero_unsigned_3arg.
Theorem C02_div_zero_signed : forall NW DW QW RW N,
  1 <= NW -> 1 <= DW -> - 2 ^ (NW - 1) <= N < 2 ^ (NW - 1) ->
  fst (fst (div_sint NW DW QW RW N 0)) = if N <? 0 then - 2 ^ (QW - 1) else 2 ^ (QW - 1) - 1.
Proof. exact div_sint_zero. Qed.
Print Assumptions C02_div_zero_signed.
Theorem C02_div_zero_signed_3arg : forall NW DW QW N,
  1 <= NW -> 1 <= DW -> - 2 ^ (NW - 1) <= N < 2 ^ (NW - 1) ->
  fst (div_sint3 NW DW QW N 0) = if N <? 0 then - 2 ^ (QW - 1) else 2 ^ (QW - 1) - 1.
Proof. exact div_sint3_zero. Qed.
Print Assumptions C02_div_zero_signed_3arg.
Example C02_case : fst (fst (div_uint 8 5 6 5 9 0)) = 63 /\ fst (fst (div_sint 8 5 6 5 (-9) 0)) = -32 /\
  fst (div_sint3 8 5 6 0 0) = 31.
Proof. vm_compute; repeat split. Qed.

(** C03: truncated division; quotient and remainder wrap into their output types. *)
Theorem C03_div_signed_int : forall NW DW QW RW N D q r,
  1 <= NW -> 1 <= DW -> 1 <= QW -> 1 <= RW ->
  - 2 ^ (NW - 1) <= N < 2 ^ (NW - 1) -> - 2 ^ (DW - 1) <= D < 2 ^ (DW - 1) -> D <> 0 ->
  N = q * D + r -> Z.abs r < Z.abs D -> (r <> 0 -> (r < 0 <-> N < 0)) ->
  is_limited WRAP true QW q (fst (fst (div_sint NW DW QW RW N D))) /\
  is_limited WRAP true RW r (snd (fst (div_sint NW DW QW RW N D))).
Proof. exact div_sint_limited. Qed.
Print Assumptions C03_div_signed_int.
Theorem C03_div_signed_int_3arg : forall NW DW QW N D q r,
  1 <= NW -> 1 <= DW -> 1 <= QW ->
  - 2 ^ (NW - 1) <= N < 2 ^ (NW - 1) -> - 2 ^ (DW - 1) <= D < 2 ^ (DW - 1) -> D <> 0 ->
  N = q * D + r -> Z.abs r < Z.abs D -> (r <> 0 -> (r < 0 <-> N < 0)) ->
  is_limited WRAP true QW q (fst (div_sint3 NW DW QW N D)) /\
  (snd (div_sint3 NW DW QW N D) = true <-> r <> 0).
Proof. exact div_sint3_limited. Qed.
Print Assumptions C03_div_signed_int_3arg.
Example C03_case : div_sint 8 4 9 4 (-128) 7 = (-18, -2, true) /\ -128 = -18 * 7 + -2.
Proof. vm_compute; split; reflexivity. Qed.
Example C03_case_min : div_sint 8 4 9 4 (-128) (-8) = (16, 0, false) /\ div_sint 8 1 9 4 (-128) (-1) = (128, 0, false).
Proof. vm_compute; split; reflexivity. Qed.

(** C04: exact quotient converted to the output type, whenever the output can resolve any quotient
    ([guard] is 0 for the truncating modes and 1 for the rounding modes; see C05 for the other case). *)
Theorem C04_div_unsigned_fixed : forall NW NI DW DI f n d old,
  1 <= NW -> 1 <= DW -> 1 <= fW f -> fS f = false -> 0 <= n < 2 ^ NW -> 0 < d < 2 ^ DW ->
  0 < NI + (DW - DI) + fF f + guard (fQ f) ->
  let e := (DW - DI) - (NW - NI) in
  converts f (n * 2 ^ Z.max 0 e) (d * 2 ^ Z.max 0 (- e)) (fst (div_ufx NW NI DW DI f n d old)).
Proof. exact div_ufx_converts. Qed.
Print Assumptions C04_div_unsigned_fixed.
Example C04_case : fst (div_ufx 8 4 6 3 (Fmt 10 5 false RND_CONV SAT) 150 13 0) = 185. (* 9.375/1.625 = 5.769.. *)
Proof. vm_compute; reflexivity. Qed.
Example C04_case_tie : fst (div_ufx 8 4 6 3 (Fmt 8 8 false RND_CONV SAT) 80 16 0) = 2. (* 5/2 *)
Proof. vm_compute; reflexivity. Qed.

(** C05 is false: for formats in which every quotient is below the resolution of the output, the output
    argument is left as it was, although the correct quotient is zero. *)
Theorem C05_div_output_written_refuted : forall NW NI DW DI f n d old,
  1 <= NW -> 1 <= DW -> 1 <= fW f -> fS f = false -> 0 <= n < 2 ^ NW -> 0 < d < 2 ^ DW ->
  NI + (DW - DI) + fF f + guard (fQ f) <= 0 ->
  fst (div_ufx NW NI DW DI f n d old) = old /\
  let e := (DW - DI) - (NW - NI) in
  converts f (n * 2 ^ Z.max 0 e) (d * 2 ^ Z.max 0 (- e)) 0.
Proof. intros NW NI DW DI f n d old A B C D E F G. split; [rewrite div_ufx_early by assumption; reflexivity|exact (early_zero NW NI DW DI f n d A B C D E F G)]. Qed.
Print Assumptions C05_div_output_written_refuted.
Example C05_case_stale : fst (div_ufx 8 0 8 8 (dfmt 4 4 false) 200 3 7) = 7 /\
  fst (div_ufx 8 0 8 8 (dfmt 4 4 false) 200 3 9) = 9.
Proof. vm_compute; split; reflexivity. Qed.
(** C05 holds for exactly the other formats. *)
Theorem C05_div_output_written_iff : forall NW NI DW DI f,
  1 <= NW -> 1 <= DW -> 1 <= fW f -> fS f = false ->
  ((forall n d old old', 0 <= n < 2 ^ NW -> 0 <= d < 2 ^ DW ->
     fst (div_ufx NW NI DW DI f n d old) = fst (div_ufx NW NI DW DI f n d old'))
   <-> 0 < NI + (DW - DI) + fF f + guard (fQ f)).
Proof. exact div_writes_iff. Qed.
Print Assumptions C05_div_output_written_iff.

(** C06, for every mode.  The first format condition only says that the intermediate ac_fixed type has a
    positive width (otherwise the code does not compile); the second excludes the stale value of C05. *)
Theorem C06_div_signed_fixed : forall NW NI DW DI f n d junk,
  1 <= NW -> 1 <= DW -> 1 <= fW f -> fS f = true ->
  - 2 ^ (NW - 1) <= n < 2 ^ (NW - 1) -> - 2 ^ (DW - 1) <= d < 2 ^ (DW - 1) -> d <> 0 ->
  (fO f <> WRAP -> 1 <= NI + (DW - DI) + fF f) ->
  (fO f = WRAP -> 0 < NI + (DW - DI) + fF f + guard (fQ f)) ->
  let e := (DW - DI) - (NW - NI) in
  converts f (Z.sgn d * n * 2 ^ Z.max 0 e) (Z.abs d * 2 ^ Z.max 0 (- e)) (fst (div_sfx NW NI DW DI f n d junk)).
Proof. exact div_sfx_converts. Qed.
Print Assumptions C06_div_signed_fixed.
Example C06_case_min_inf : fst (div_sfx 8 4 6 3 (Fmt 8 8 true RND_MIN_INF SAT) (-80) 16 0) = -3. (* -5/2 *)
Proof. vm_compute; reflexivity. Qed.
Example C06_case_conv : fst (div_sfx 8 4 6 3 (Fmt 9 4 true RND_CONV SAT_SYM) (-80) (-13) 0) = 98. (* 3.0769.. *)
Proof. vm_compute; reflexivity. Qed.
(** Without the second condition the result is whatever the uninitialised local holds. *)
Theorem C06_div_signed_stale_refuted : exists NW NI DW DI f n d j1 j2,
  1 <= NW /\ 1 <= DW /\ 1 <= fW f /\ fS f = true /\
  - 2 ^ (NW - 1) <= n < 2 ^ (NW - 1) /\ - 2 ^ (DW - 1) <= d < 2 ^ (DW - 1) /\ d <> 0 /\
  0 <= j1 < 2 ^ fW f /\ 0 <= j2 < 2 ^ fW f /\
  fst (div_sfx NW NI DW DI f n d j1) <> fst (div_sfx NW NI DW DI f n d j2).
Proof. exists 8, 0, 8, 8, (dfmt 4 4 true), 100, 3, 1, 2. vm_compute. repeat split; discriminate. Qed.
Print Assumptions C06_div_signed_stale_refuted.

(** C49: the returned flag of the fixed-point overloads is false exactly when the quotient is a multiple
    of the output's least significant bit (early return included). *)
Theorem C49_flag_unsigned_fixed : forall NW NI DW DI f n d old,
  1 <= NW -> 1 <= DW -> 0 <= n < 2 ^ NW -> 0 < d < 2 ^ DW ->
  let e := (DW - DI) - (NW - NI) in
  (snd (div_ufx NW NI DW DI f n d old) = false <->
   exists z, n * 2 ^ Z.max 0 e * 2 ^ Z.max 0 (fF f) = z * (d * 2 ^ Z.max 0 (- e) * 2 ^ Z.max 0 (- fF f))).
Proof. exact div_ufx_flag_iff. Qed.
Print Assumptions C49_flag_unsigned_fixed.
Theorem C49_flag_signed_fixed : forall NW NI DW DI f n d junk,
  1 <= NW -> 1 <= DW -> 1 <= fW f -> fS f = true ->
  - 2 ^ (NW - 1) <= n < 2 ^ (NW - 1) -> - 2 ^ (DW - 1) <= d < 2 ^ (DW - 1) -> d <> 0 ->
  (fO f <> WRAP -> 1 <= NI + (DW - DI) + fF f) ->
  (fO f = WRAP -> 0 < NI + (DW - DI) + fF f + guard (fQ f)) ->
  let e := (DW - DI) - (NW - NI) in
  (snd (div_sfx NW NI DW DI f n d junk) = false <->
   exists z, n * 2 ^ Z.max 0 e * 2 ^ Z.max 0 (fF f) = z * (d * 2 ^ Z.max 0 (- e) * 2 ^ Z.max 0 (- fF f))).
Proof. exact div_sfx_flag_iff. Qed.
Print Assumptions C49_flag_signed_fixed.
(** Signed integers: correct when the remainder output is as wide as the divisor ... *)
Theorem C49_flag_signed_int_partial : forall NW DW QW RW N D q r,
  1 <= NW -> 1 <= DW -> 1 <= QW -> DW <= RW ->
  - 2 ^ (NW - 1) <= N < 2 ^ (NW - 1) -> - 2 ^ (DW - 1) <= D < 2 ^ (DW - 1) -> D <> 0 ->
  N = q * D + r -> Z.abs r < Z.abs D -> (r <> 0 -> (r < 0 <-> N < 0)) ->
  (snd (div_sint NW DW QW RW N D) = true <-> r <> 0).
Proof. exact div_sint_flag_ok. Qed.
Print Assumptions C49_flag_signed_int_partial.
(** ... and wrong otherwise: 6/4 with a one-bit remainder is reported as exact. *)
Theorem C49_flag_signed_int_refuted : exists NW DW QW RW N D q r,
  1 <= NW /\ 1 <= DW /\ 1 <= QW /\ 1 <= RW /\
  - 2 ^ (NW - 1) <= N < 2 ^ (NW - 1) /\ - 2 ^ (DW - 1) <= D < 2 ^ (DW - 1) /\ D <> 0 /\
  N = q * D + r /\ 0 < r < D /\ snd (div_sint NW DW QW RW N D) = false.
Proof. exists 5, 5, 5, 1, 6, 4, 1, 2. vm_compute. repeat split; discriminate. Qed.
Print Assumptions C49_flag_signed_int_refuted.
Example C49_case : snd (div_ufx 8 4 6 3 (dfmt 10 5 false) 48 12 0) = false /\
  snd (div_ufx 8 4 6 3 (dfmt 10 5 false) 48 13 0) = true /\ snd (div_sfx 8 4 6 3 (dfmt 10 5 true) (-48) 12 0) = false /\
  snd (div_sint 8 4 8 4 (-50) 7) = true.
Proof. vm_compute; repeat split. Qed.

(** C50: complex division, if the product with the conjugate fits the intermediate type. *)
Theorem C50_div_complex_partial : forall NF DW DI ds f xr xi dr di j1 j2,
  1 <= DW -> 1 <= fW f -> fS f = true -> NF <= fF f -> 1 <= fW f + 2 * DW - DI + 2 ->
  lowest ds DW <= dr <= highest ds DW -> lowest ds DW <= di <= highest ds DW -> 0 < dr * dr + di * di ->
  - 2 ^ (fW f + DW + 1) <= (xr * dr + xi * di) * 2 ^ (fF f - NF) < 2 ^ (fW f + DW + 1) ->
  - 2 ^ (fW f + DW + 1) <= (xi * dr - xr * di) * 2 ^ (fF f - NF) < 2 ^ (fW f + DW + 1) ->
  let s := dr * dr + di * di in
  let e := (DW - DI) - NF in
  let '(qr, qi, _) := div_cplx NF DW DI f xr xi dr di j1 j2 in
  converts f ((xr * dr + xi * di) * 2 ^ Z.max 0 e) (s * 2 ^ Z.max 0 (- e)) qr /\
  converts f ((xi * dr - xr * di) * 2 ^ Z.max 0 e) (s * 2 ^ Z.max 0 (- e)) qi.
Proof. exact div_cplx_ok. Qed.
Print Assumptions C50_div_complex_partial.
Example C50_case : div_cplx 0 5 5 (Fmt 12 8 true RND SAT) 7 9 3 (-4) 0 0 = (-10, 35, true). (* (-15+55j)/25 *)
Proof. vm_compute; reflexivity. Qed.
(** The product is kept in a type derived from the quotient's type, not the dividend's: 45/15 in a 3-bit
    signed integer quotient should be 3. *)
Theorem C50_div_complex_overflow_refuted : exists DW f xr xi dr di qr,
  fS f = true /\ lowest true DW <= dr <= highest true DW /\ lowest true DW <= di <= highest true DW /\
  converts f (xr * dr + xi * di) (dr * dr + di * di) qr /\
  fst (fst (div_cplx 0 DW DW f xr xi dr di 0 0)) <> qr.
Proof.
  exists 5, (Fmt 3 3 true TRN WRAP), 45, 0, 15, 0, 3. repeat split; try (cbn; lia).
  - exists 3. split; [cbn; lia|]. split; [cbn; lia|]. exists 0; reflexivity.
  - vm_compute. discriminate.
Qed.
Print Assumptions C50_div_complex_overflow_refuted.

(** C51: fixed-point division by zero. *)
Theorem C51_div_zero_unsigned_fixed : forall NW NI DW DI f n old,
  0 < NI + (DW - DI) + fF f + guard (fQ f) ->
  fst (div_ufx NW NI DW DI f n 0 old) = highest (fS f) (fW f).
Proof. exact div_ufx_zero. Qed.
Print Assumptions C51_div_zero_unsigned_fixed.
Theorem C51_div_zero_signed_fixed : forall NW NI DW DI f n junk,
  fst (div_sfx NW NI DW DI f n 0 junk) = if n <? 0 then lowest (fS f) (fW f) else highest (fS f) (fW f).
Proof. exact div_sfx_zero. Qed.
Print Assumptions C51_div_zero_signed_fixed.
Example C51_case : fst (div_ufx 8 4 6 3 (dfmt 7 4 false) 9 0 0) = 127 /\ fst (div_sfx 8 4 6 3 (dfmt 7 4 true) (-9) 0 0) = -64.
Proof. vm_compute; split; reflexivity. Qed.
