(** Properties C85-C87: the CORDIC power function on fixed-point numbers.  [a] and [b] are the raw base (unsigned, [AW] bits
    of which [AI] integer bits) and exponent ([BW], [BI], signed or not), [f] is the output type. *)
From Coq Require Import Reals ZArith Lra Lia.
From Verif Require Import AcTypes Spec SpecR HcModel HcPowModel HcPowThm.
Open Scope Z.

(** C85: the stored number is the conversion of A^B times 2^eta (1 + eps); eta grows with |B| and with the number L of integer bits of the
    intermediate logarithm, which are taken from its fraction. *)
Theorem C85_pow_cordic_accuracy : forall ort TQ AW AI AO BW BI BS f a b,
  let nf := match ort with Some tf => tf | None => AW end in
  let lF := match ort with Some tf => tf | None => fW f end in
  let TF := match ort with Some tf => tf | None => fF f end in
  let L := Z.max (nbits (AW - AI)) (nbits AI) + 1 in
  let A := fxval a (AW - AI) in let B := fxval b (BW - BI) in
  1 <= AW -> 0 <= AI <= AW -> 0 < a < 2 ^ AW -> 1 <= BW -> in_range BS BW b -> 1 <= nf <= 44 -> 4 <= lF <= 44 -> 0 <= TF <= 44 ->
  TQ = TRN \/ TQ = TRN_ZERO -> 1 <= fW f -> fS f = false -> -44 <= L + BI <= 32 ->
  exists out eta eps, pow_cordic ort TQ AW AI AO BW BI f a b = Some out /\
    convertsR f (Rpower A B * Rpower 2 eta * (1 + eps)) out /\
    (Rabs eta <= Rabs B * (((if lF <? 13 then 11 else 7 / 2) + (if AW <=? nf then 0 else 3)) * bpow2 (- lF) + bpow2 (L - lF)) + bpow2 (-45))%R /\
    (Rabs eps <= (if TF <? 13 then 10 else 6) * bpow2 (- TF))%R.
Proof. exact pow_cordic_accurate. Qed.
Print Assumptions C85_pow_cordic_accuracy.
(** 2^2, 2^-1 and 1.5^2.5 with 12 fraction bits: 3.9990 for 4, 0.49976 for 0.5, 2.7554 for 2.7557. *)
Example C85_case : map (fun p => pow_cordic None TRN 12 4 WRAP 8 4 (Fmt 24 12 false TRN SAT) (fst p) (snd p)) [(512, 32); (512, -16); (384, 40)] =
  [Some 16380; Some 2047; Some 11286].
Proof. vm_compute. reflexivity. Qed.

(** C86: the header says that the intermediate logarithm has log2_a_F = TF_ (or the output's width) fraction bits; it has log2_a_I fewer, since
    the type is declared log2_a_F bits wide.  With the promised precision the error of the exponent would be the one of ac_log2_cordic
    plus one unit of that last place; 11^3 = 1331 with TF_ = 16 comes out as 1329.7. *)
Theorem C86_pow_log2_fraction_bits_refuted : ~ (forall ort TQ AW AI AO BW BI BS f a b,
  let nf := match ort with Some tf => tf | None => AW end in
  let lF := match ort with Some tf => tf | None => fW f end in
  let TF := match ort with Some tf => tf | None => fF f end in
  let L := Z.max (nbits (AW - AI)) (nbits AI) + 1 in
  let A := fxval a (AW - AI) in let B := fxval b (BW - BI) in
  1 <= AW -> 0 <= AI <= AW -> 0 < a < 2 ^ AW -> 1 <= BW -> in_range BS BW b -> 1 <= nf <= 44 -> 4 <= lF <= 44 -> 0 <= TF <= 44 ->
  TQ = TRN \/ TQ = TRN_ZERO -> 1 <= fW f -> fS f = false -> -44 <= L + BI <= 32 ->
  exists out eta eps, pow_cordic ort TQ AW AI AO BW BI f a b = Some out /\
    convertsR f (Rpower A B * Rpower 2 eta * (1 + eps)) out /\
    (Rabs eta <= Rabs B * (((if lF <? 13 then 11 else 7 / 2) + (if AW <=? nf then 0 else 3) + 1) * bpow2 (- lF)) + bpow2 (-45))%R /\
    (Rabs eps <= (if TF <? 13 then 10 else 6) * bpow2 (- TF))%R).
Proof. exact pow_log2_bits_bad. Qed.
Print Assumptions C86_pow_log2_fraction_bits_refuted.

(** C87: x^0 is exactly one if the output type rounds to nearest and the internal precision is at least five bits more than the output's. *)
Theorem C87_pow_zero_exponent_ok : forall tf TQ AW AI AO BW BI f a,
  1 <= AW -> 0 <= AI <= AW -> 0 < a < 2 ^ AW -> 1 <= BW -> 4 <= tf <= 44 -> fF f + 5 <= tf -> 0 <= fF f -> 1 <= fI f ->
  TQ = TRN \/ TQ = TRN_ZERO -> fQ f <> TRN -> fQ f <> TRN_ZERO -> fS f = false ->
  -44 <= Z.max (nbits (AW - AI)) (nbits AI) + 1 + BI <= 32 ->
  pow_cordic (Some tf) TQ AW AI AO BW BI f a 0 = Some (2 ^ fF f).
Proof. exact pow_zero_exponent_ok. Qed.
Print Assumptions C87_pow_zero_exponent_ok.
(** 768/256 = 3 and 1/256 to the power zero. *)
Example C87_zero_case : map (fun a => pow_cordic (Some 17) TRN 12 4 WRAP 8 4 (Fmt 24 12 false RND SAT) a 0) [768; 1] =
  [Some 4096; Some 4096].
Proof. vm_compute. reflexivity. Qed.
(** With the default precision 3^0 = 0.99976, even with a rounding output. *)
Theorem C87_pow_zero_exponent_refuted : ~ (forall ort TQ AW AI AO BW BI f a,
  let L := Z.max (nbits (AW - AI)) (nbits AI) + 1 in
  1 <= AW -> 0 <= AI <= AW -> 0 < a < 2 ^ AW -> 1 <= BW -> 1 <= match ort with Some tf => tf | None => AW end <= 44 -> 4 <= match ort with Some tf => tf | None => fW f end <= 44 ->
  0 <= fF f <= 44 -> 1 <= fI f -> TQ = TRN \/ TQ = TRN_ZERO -> fS f = false -> -44 <= L + BI <= 32 ->
  pow_cordic ort TQ AW AI AO BW BI f a 0 = Some (2 ^ fF f)).
Proof. exact pow_zero_exponent_bad. Qed.
Print Assumptions C87_pow_zero_exponent_refuted.
(** 1^3 = 0.99976. *)
Theorem C87_pow_base_one_refuted : ~ (forall ort TQ AW AI AO BW BI BS f b,
  let L := Z.max (nbits (AW - AI)) (nbits AI) + 1 in
  1 <= AW -> 1 <= AI <= AW -> 1 <= BW -> in_range BS BW b -> 1 <= match ort with Some tf => tf | None => AW end <= 44 -> 4 <= match ort with Some tf => tf | None => fW f end <= 44 ->
  0 <= fF f <= 44 -> 1 <= fI f -> TQ = TRN \/ TQ = TRN_ZERO -> fS f = false -> -44 <= L + BI <= 32 ->
  pow_cordic ort TQ AW AI AO BW BI f (2 ^ (AW - AI)) b = Some (2 ^ fF f)).
Proof. exact pow_base_one_bad. Qed.
Print Assumptions C87_pow_base_one_refuted.
(** 0^1 = 1.7095 (the floating-point overload treats the zero base separately, the fixed-point one does not). *)
Theorem C87_pow_base_zero_refuted : ~ (forall ort TQ AW AI AO BW BI BS f b,
  let L := Z.max (nbits (AW - AI)) (nbits AI) + 1 in
  1 <= AW -> 0 <= AI <= AW -> 1 <= BW -> in_range BS BW b -> 0 < b -> 1 <= match ort with Some tf => tf | None => AW end <= 44 -> 4 <= match ort with Some tf => tf | None => fW f end <= 44 ->
  0 <= fF f <= 44 -> 1 <= fI f -> TQ = TRN \/ TQ = TRN_ZERO -> fS f = false -> -44 <= L + BI <= 32 ->
  pow_cordic ort TQ AW AI AO BW BI f 0 b = Some 0).
Proof. exact pow_base_zero_bad. Qed.
Print Assumptions C87_pow_base_zero_refuted.
