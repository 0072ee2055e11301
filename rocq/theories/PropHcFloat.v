(** Properties C88-C92: the hyperbolic CORDIC functions on ac_float numbers.  The argument is m 2^(AI-AW) 2^e with an [AW]-bit
    mantissa and an [AE]-bit exponent; the results are the numbers handed to the output's ac_float constructor: a fixed-point
    number for the logarithms, a pair of mantissa (with TF fraction bits) and exponent for the others. *)
From Coq Require Import Reals ZArith Lra Lia.
From Verif Require Import AcTypes Spec SpecR LeadingModel HcModel HcFloatModel HcFloatThm.
Open Scope Z.

(** C88: the natural logarithm of X, where 2^(x-1) <= X < 2^x, with zf + 1 fraction bits. *)
Theorem C88_log_float_accuracy : forall ort TQ AW AI AE ZF m e x,
  let nf := match ort with Some tf => tf | None => AW - 1 end in
  let zf := match ort with Some tf => tf | None => ZF end in
  let X := (fxval m (AW - AI) * bpow2 e)%R in
  2 <= AW -> 0 < m < 2 ^ (AW - 1) -> 1 <= AE -> in_range true AE e -> 1 <= nf <= 44 -> 0 <= zf <= 44 -> AW - 1 <= nf \/ TQ = TRN \/ TQ = TRN_ZERO ->
  (bpow2 (x - 1) <= X < bpow2 x)%R ->
  exists v, log_float ort TQ AW AI AE ZF m e = Some v /\
    (Rabs (fxval v (zf + 1) - ln X) <= ((if zf <? 13 then 8 else 3) + 51 / 100 * IZR (Z.abs x) + (if AW - 1 <=? nf then 0 else 2)) * bpow2 (- zf))%R.
Proof. exact log_float_accurate. Qed.
Print Assumptions C88_log_float_accuracy.
(** ln 24 = 3.17805 (416552 / 2^17 = 3.17804), ln(1.5 2^-20) = -13.4575. *)
Example C88_case : map (log_float None TRN 18 2 6 16 (2 ^ 15 * 3)) [4; -20] =
  [Some 416552; Some (-1763896)].
Proof. vm_compute. reflexivity. Qed.
(** With an overridden precision and AC_RND the normalised mantissa rounds up to one and wraps to zero: ln(0.99998) = -0.23. *)
Theorem C88_log_float_rounding_refuted : ~ (forall ort TQ AW AI AE ZF m e x,
  let nf := match ort with Some tf => tf | None => AW - 1 end in
  let zf := match ort with Some tf => tf | None => ZF end in
  let X := (fxval m (AW - AI) * bpow2 e)%R in
  2 <= AW -> 0 < m < 2 ^ (AW - 1) -> 1 <= AE -> in_range true AE e -> 1 <= nf <= 44 -> 0 <= zf <= 44 ->
  (bpow2 (x - 1) <= X < bpow2 x)%R ->
  exists v, log_float ort TQ AW AI AE ZF m e = Some v /\
    (Rabs (fxval v (zf + 1) - ln X) <= ((if zf <? 13 then 8 else 3) + 51 / 100 * IZR (Z.abs x) + (if AW - 1 <=? nf then 0 else 2)) * bpow2 (- zf))%R).
Proof. exact log_float_rounding_bad. Qed.
Print Assumptions C88_log_float_rounding_refuted.

(** C89: the base-two logarithm. *)
Theorem C89_log2_float_accuracy : forall ort TQ AW AI AE ZF m e,
  let nf := match ort with Some tf => tf | None => AW - 1 end in
  let zf := match ort with Some tf => tf | None => ZF end in
  let X := (fxval m (AW - AI) * bpow2 e)%R in
  2 <= AW -> 0 < m < 2 ^ (AW - 1) -> 1 <= AE -> in_range true AE e -> 1 <= nf <= 44 -> 0 <= zf <= 44 -> AW - 1 <= nf \/ TQ = TRN \/ TQ = TRN_ZERO ->
  exists v, log2_float ort TQ AW AI AE ZF m e = Some v /\
    (Rabs (fxval v zf - ln X / ln 2) <= ((if zf <? 13 then 11 else 7 / 2) + (if AW - 1 <=? nf then 0 else 3)) * bpow2 (- zf))%R.
Proof. exact log2_float_accurate. Qed.
Print Assumptions C89_log2_float_accuracy.
(** log2 24 = 4.58496 (300480 / 2^16 = 4.58496), log2(1.5 2^-20) = -19.41504. *)
Example C89_case : map (log2_float None TRN 18 2 6 16 (2 ^ 15 * 3)) [4; -20] =
  [Some 300480; Some (-1272384)].
Proof. vm_compute. reflexivity. Qed.
(** With AC_RND log2(0.99998) = 0.78. *)
Theorem C89_log2_float_rounding_refuted : ~ (forall ort TQ AW AI AE ZF m e,
  let nf := match ort with Some tf => tf | None => AW - 1 end in
  let zf := match ort with Some tf => tf | None => ZF end in
  let X := (fxval m (AW - AI) * bpow2 e)%R in
  2 <= AW -> 0 < m < 2 ^ (AW - 1) -> 1 <= AE -> in_range true AE e -> 1 <= nf <= 44 -> 0 <= zf <= 44 ->
  exists v, log2_float ort TQ AW AI AE ZF m e = Some v /\
    (Rabs (fxval v zf - ln X / ln 2) <= ((if zf <? 13 then 11 else 7 / 2) + (if AW - 1 <=? nf then 0 else 3)) * bpow2 (- zf))%R).
Proof. exact log2_float_rounding_bad. Qed.
Print Assumptions C89_log2_float_rounding_refuted.

(** C90: two to the power X, for an output ac_float<ZW, ZI, ZE>; the argument is first limited to what TI integer bits hold. *)
Theorem C90_exp2_float_accuracy : forall ort TQ AW AI ZW ZI ZE m e,
  let TF := match ort with Some tf => tf | None => ZW - ZI end in
  let TI := nbits (2 ^ (ZE - 1) + Z.max (ZI - 1) (ZW - ZI)) + 1 in
  let X := (fxval m (AW - AI) * bpow2 e)%R in
  1 <= AW -> in_range true AW m -> 1 <= TF <= 44 -> TI <= 32 ->
  exists y n eta eps, exp2_float ort TQ AW AI ZW ZI ZE m e = Some (y, n) /\
    (fxval y TF * bpow2 n = Rpower 2 (Rmax (- bpow2 (TI - 1)) (Rmin (bpow2 (TI - 1) - bpow2 (- TF)) X) + eta) * (1 + eps))%R /\
    (Rabs eta <= bpow2 (- TF))%R /\ (Rabs eps <= (if TF <? 13 then 10 else 6) * bpow2 (- TF))%R.
Proof. exact exp2_float_accurate. Qed.
Print Assumptions C90_exp2_float_accuracy.
(** 2^3 (65535/65536 2^3), 2^1.5 = 2.8284 (92681/65536 2), and both ends of the range. *)
Example C90_case : map (fun p => exp2_float None TRN 18 2 18 2 6 (fst p) (snd p)) [(2 ^ 15 * 3, 1); (2 ^ 15 * 3, 0); (- 2 ^ 15 * 3, 20); (2 ^ 15 * 3, 20)] =
  [Some (65535, 3); Some (92681, 1); Some (65535, -64); Some (131069, 63)].
Proof. vm_compute. reflexivity. Qed.
(** Where the limit acts the number handed on is, like 2^X itself, above every value of the output type or below its smallest positive one, so
    the limit does not change the result. *)
Theorem C90_exp2_float_saturation : forall ort TQ AW AI ZW ZI ZE m e y n,
  let TF := match ort with Some tf => tf | None => ZW - ZI end in
  let TI := nbits (2 ^ (ZE - 1) + Z.max (ZI - 1) (ZW - ZI)) + 1 in
  let X := (fxval m (AW - AI) * bpow2 e)%R in
  1 <= AW -> in_range true AW m -> 2 <= ZW -> 1 <= ZE -> 5 <= TF <= 44 -> TI <= 32 ->
  exp2_float ort TQ AW AI ZW ZI ZE m e = Some (y, n) ->
  ((bpow2 (TI - 1) <= X)%R -> forall mz ez, in_range true ZW mz -> in_range true ZE ez -> (fxval mz (ZW - ZI) * bpow2 ez < fxval y TF * bpow2 n /\ fxval mz (ZW - ZI) * bpow2 ez < Rpower 2 X)%R) /\
  ((X <= - bpow2 (TI - 1))%R -> (0 <= fxval y TF * bpow2 n < fxval 1 (ZW - ZI) * bpow2 (- 2 ^ (ZE - 1)) /\ Rpower 2 X < fxval 1 (ZW - ZI) * bpow2 (- 2 ^ (ZE - 1)))%R).
Proof. exact exp2_float_saturates. Qed.
Print Assumptions C90_exp2_float_saturation.

(** C91: the exponential; the error of the exponent grows with |X|. *)
Theorem C91_exp_float_accuracy : forall ort TQ AW AI ZW ZI ZE m e,
  let TF := match ort with Some tf => tf | None => ZW - ZI end in
  let TI := nbits (2 ^ (ZE - 1) + Z.max (ZI - 1) (ZW - ZI)) + 1 in
  let X := (fxval m (AW - AI) * bpow2 e)%R in
  1 <= AW -> in_range true AW m -> 1 <= TF <= 44 -> TI <= 32 ->
  exists y n eta eps, exp_float ort TQ AW AI ZW ZI ZE m e = Some (y, n) /\
    (fxval y TF * bpow2 n = Rpower 2 (Rmax (- bpow2 (TI - 1)) (Rmin (bpow2 (TI - 1) - bpow2 (- TF)) (X / ln 2)) + eta) * (1 + eps))%R /\
    (Rabs eta <= (1 + 101 / 100 * Rabs X) * bpow2 (- TF))%R /\ (Rabs eps <= (if TF <? 13 then 10 else 6) * bpow2 (- TF))%R.
Proof. exact exp_float_accurate. Qed.
Print Assumptions C91_exp_float_accuracy.
(** e^1.5 = 4.48169 (73426/65536 4 = 4.48157), e^-1.5 = 0.22313. *)
Example C91_case : map (fun m => exp_float None TRN 18 2 18 2 6 m 0) [2 ^ 15 * 3; - 2 ^ 15 * 3] =
  [Some (73426, 2); Some (116984, -3)].
Proof. vm_compute. reflexivity. Qed.

(** C92: the power A^B of a base other than one (for which the result is exactly one). *)
Theorem C92_pow_float_accuracy : forall ort TQ AW AI AE BW BI ZW ZI ZE mA eA mB eB,
  let nf := match ort with Some tf => tf | None => AW - 1 end in
  let lF := match ort with Some tf => tf | None => ZW end in
  let TF := match ort with Some tf => tf | None => ZW - ZI end in
  let TI := nbits (2 ^ (ZE - 1) + Z.max (ZI - 1) (ZW - ZI)) + 1 in
  let A := (fxval mA (AW - AI) * bpow2 eA)%R in let B := (fxval mB (BW - BI) * bpow2 eB)%R in
  2 <= AW -> 0 < mA < 2 ^ (AW - 1) -> 1 <= AE -> in_range true AE eA -> 1 <= BW -> in_range true BW mB -> 1 <= nf <= 44 -> 4 <= lF <= 44 -> 1 <= TF <= 44 -> TI <= 32 ->
  AW - 1 <= nf \/ TQ = TRN \/ TQ = TRN_ZERO -> A <> 1%R ->
  exists y n eta eps, pow_float ort TQ AW AI AE BW BI ZW ZI ZE mA eA mB eB = Some (PNum y n) /\
    (fxval y TF * bpow2 n = Rpower 2 (Rmax (- bpow2 (TI - 1)) (Rmin (bpow2 (TI - 1) - bpow2 (- TF)) (B * (ln A / ln 2))) + eta) * (1 + eps))%R /\
    (Rabs eta <= Rabs B * (((if lF <? 13 then 11 else 7 / 2) + (if AW - 1 <=? nf then 0 else 3)) * bpow2 (- lF)) + bpow2 (- TF))%R /\ (Rabs eps <= (if TF <? 13 then 10 else 6) * bpow2 (- TF))%R.
Proof. exact pow_float_accurate. Qed.
Print Assumptions C92_pow_float_accuracy.
(** 1.5^2 = 2.25 (73726/65536 2 = 2.24994), 1^2 = 1, 0^2 = 0, 1.5^0 = 0.99998. *)
Example C92_case : map (fun p => pow_float None TRN 18 2 6 18 2 18 2 6 (fst p) 0 (snd p) 1) [(2 ^ 15 * 3, 2 ^ 16); (2 ^ 16, 2 ^ 16); (0, 2 ^ 16); (2 ^ 15 * 3, 0)] =
  [Some (PNum 73726 1); Some (PInt 1); Some (PInt 0); Some (PNum 65535 0)].
Proof. vm_compute. reflexivity. Qed.
(** 1^B = 1, 0^B = 0 for B <> 0, and 0^0 = 1, exactly. *)
Theorem C92_pow_float_special : forall ort TQ AW AI AE BW BI ZW ZI ZE mA eA mB eB,
  let nf := match ort with Some tf => tf | None => AW - 1 end in
  let lF := match ort with Some tf => tf | None => ZW end in
  let TF := match ort with Some tf => tf | None => ZW - ZI end in
  nf <= 44 -> lF <= 44 -> 1 <= TF <= 44 ->
  ((fxval mA (AW - AI) * bpow2 eA = 1)%R -> pow_float ort TQ AW AI AE BW BI ZW ZI ZE mA eA mB eB = Some (PInt 1)) /\
  ((fxval mA (AW - AI) * bpow2 eA = 0)%R -> (fxval mB (BW - BI) * bpow2 eB <> 0)%R -> pow_float ort TQ AW AI AE BW BI ZW ZI ZE mA eA mB eB = Some (PInt 0)) /\
  ((fxval mA (AW - AI) * bpow2 eA = 0)%R -> (fxval mB (BW - BI) * bpow2 eB = 0)%R -> pow_float ort TQ AW AI AE BW BI ZW ZI ZE mA eA mB eB = Some (PInt 1)).
Proof. exact pow_float_special. Qed.
Print Assumptions C92_pow_float_special.
(** A^0 is not exactly one: 1.5^0 = 65535/65536. *)
Theorem C92_pow_float_zero_exponent_refuted : ~ (forall ort TQ AW AI AE BW BI ZW ZI ZE mA eA eB y n,
  let nf := match ort with Some tf => tf | None => AW - 1 end in
  let lF := match ort with Some tf => tf | None => ZW end in
  let TF := match ort with Some tf => tf | None => ZW - ZI end in
  let TI := nbits (2 ^ (ZE - 1) + Z.max (ZI - 1) (ZW - ZI)) + 1 in
  2 <= AW -> 0 < mA < 2 ^ (AW - 1) -> 1 <= AE -> in_range true AE eA -> 1 <= BW -> 1 <= nf <= 44 -> 4 <= lF <= 44 -> 1 <= TF <= 44 -> TI <= 32 ->
  pow_float ort TQ AW AI AE BW BI ZW ZI ZE mA eA 0 eB = Some (PNum y n) -> (fxval y TF * bpow2 n = 1)%R).
Proof. exact pow_float_zero_exponent_bad. Qed.
Print Assumptions C92_pow_float_zero_exponent_refuted.
