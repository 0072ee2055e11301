(** Properties C78-C84: the hyperbolic CORDIC logarithms and exponentials on fixed-point numbers.  [ort] is the internal
    precision when it is overridden (OR_TF, TF_), [TQ] the rounding mode of the internal values, [W] and [I] the argument's
    widths, [f] the output type and [x] the raw argument. *)
From Coq Require Import Reals ZArith Lra Lia.
From Verif Require Import AcTypes Spec SpecR HcModel HcThm.
Open Scope Z.

(** C78: the natural logarithm of X = x 2^(I-W), where 2^(e-1) <= X < 2^e, before the conversion to the output type.  The
    conversion wraps for signed and saturates for unsigned output types. *)
Theorem C78_log_cordic_accuracy : forall ort TQ W I XO f x e,
  let nf := match ort with Some tf => tf | None => W end in
  let zf := match ort with Some tf => tf | None => fF f end in
  1 <= W -> 0 < x < 2 ^ W -> 1 <= nf <= 44 -> 0 <= zf <= 44 -> W <= nf \/ TQ = TRN \/ TQ = TRN_ZERO -> 1 <= fW f -> fO f <> SAT_SYM ->
  (bpow2 (e - 1) <= fxval x (W - I) < bpow2 e)%R ->
  exists out V, log_cordic ort TQ W I XO f x = Some out /\
    (Rabs (V - ln (fxval x (W - I))) <= ((if zf <? 13 then 8 else 3) + 51 / 100 * IZR (Z.abs e) + (if W <=? nf then 0 else 2)) * bpow2 (- zf))%R /\
    convertsR (Fmt (fW f) (fI f) (fS f) (fQ f) (if fS f then WRAP else SAT)) V out.
Proof. exact log_cordic_accurate. Qed.
Print Assumptions C78_log_cordic_accuracy.
(** ln of 0.5, 1, 2, 3, 1/256 and 15.996, with 12 fraction bits. *)
Example C78_case : map (log_cordic None TRN 12 4 WRAP (Fmt 16 4 true TRN WRAP)) [128; 256; 512; 768; 1; 4095] =
  [Some (-2840); Some (-1); Some 2838; Some 4499; Some (-22713); Some 11355].
Proof. vm_compute. reflexivity. Qed.
(** With an overridden precision and AC_RND the normalised argument rounds up to one and wraps to zero: ln(15.996) = 2.77 becomes 2.53. *)
Theorem C78_log_cordic_rounding_refuted : ~ (forall ort TQ W I XO f x,
  let nf := match ort with Some tf => tf | None => W end in
  let zf := match ort with Some tf => tf | None => fF f end in
  1 <= W -> 0 < x < 2 ^ W -> 1 <= nf <= 44 -> 0 <= zf <= 44 -> 1 <= fW f ->
  exists out V, log_cordic ort TQ W I XO f x = Some out /\ (Rabs (V - ln (fxval x (W - I))) <= / 10)%R /\
    convertsR (Fmt (fW f) (fI f) (fS f) (fQ f) (if fS f then WRAP else SAT)) V out).
Proof. exact log_cordic_rounding_bad. Qed.
Print Assumptions C78_log_cordic_rounding_refuted.

(** C79: the base-two logarithm. *)
Theorem C79_log2_cordic_accuracy : forall ort TQ W I XO f x,
  let nf := match ort with Some tf => tf | None => W end in
  let zf := match ort with Some tf => tf | None => fF f end in
  1 <= W -> 0 < x < 2 ^ W -> 1 <= nf <= 44 -> 0 <= zf <= 44 -> W <= nf \/ TQ = TRN \/ TQ = TRN_ZERO -> 1 <= fW f -> fO f <> SAT_SYM ->
  exists out V, log2_cordic ort TQ W I XO f x = Some out /\
    (Rabs (V - ln (fxval x (W - I)) / ln 2) <= ((if zf <? 13 then 11 else 7 / 2) + (if W <=? nf then 0 else 3)) * bpow2 (- zf))%R /\
    convertsR (Fmt (fW f) (fI f) (fS f) (fQ f) (if fS f then WRAP else SAT)) V out.
Proof. exact log2_cordic_accurate. Qed.
Print Assumptions C79_log2_cordic_accuracy.
Example C79_case : map (log2_cordic None TRN 12 4 WRAP (Fmt 16 4 true TRN WRAP)) [128; 256; 512; 768; 1024; 4095] =
  [Some (-4097); Some (-1); Some 4095; Some 6492; Some 8191; Some 16382].
Proof. vm_compute. reflexivity. Qed.
Theorem C79_log2_cordic_rounding_refuted : ~ (forall ort TQ W I XO f x,
  let nf := match ort with Some tf => tf | None => W end in
  let zf := match ort with Some tf => tf | None => fF f end in
  1 <= W -> 0 < x < 2 ^ W -> 1 <= nf <= 44 -> 0 <= zf <= 44 -> 1 <= fW f ->
  exists out V, log2_cordic ort TQ W I XO f x = Some out /\ (Rabs (V - ln (fxval x (W - I)) / ln 2) <= / 10)%R /\
    convertsR (Fmt (fW f) (fI f) (fS f) (fQ f) (if fS f then WRAP else SAT)) V out).
Proof. exact log2_cordic_rounding_bad. Qed.
Print Assumptions C79_log2_cordic_rounding_refuted.

(** C80: the output type's own overflow mode is honoured.  True for signed types that wrap and unsigned types that saturate. *)
Theorem C80_log2_overflow : forall TQ W I XO f x,
  1 <= W <= 44 -> 0 < x < 2 ^ W -> 0 <= fF f <= 44 -> 1 <= fW f -> fO f = (if fS f then WRAP else SAT) ->
  exists out V, log2_cordic None TQ W I XO f x = Some out /\ (Rabs (V - ln (fxval x (W - I)) / ln 2) <= 11 * bpow2 (- fF f))%R /\ convertsR f V out.
Proof. exact log2_overflow_ok. Qed.
Print Assumptions C80_log2_overflow.
(** 2^10 is the largest value of a saturating unsigned output with two integer bits. *)
Example C80_case : log2_cordic None TRN 12 11 WRAP (Fmt 8 2 false TRN SAT) 2048 = Some 255.
Proof. vm_compute. reflexivity. Qed.
(** False for signed types that saturate: log2(512) = 9 becomes 63/64 and not the largest value 127/64. *)
Theorem C80_log2_overflow_refuted : ~ (forall TQ W I XO f x,
  1 <= W <= 44 -> 0 < x < 2 ^ W -> 0 <= fF f <= 44 -> 1 <= fW f ->
  exists out V, log2_cordic None TQ W I XO f x = Some out /\ (Rabs (V - ln (fxval x (W - I)) / ln 2) <= 11 * bpow2 (- fF f))%R /\ convertsR f V out).
Proof. exact log2_overflow_bad. Qed.
Print Assumptions C80_log2_overflow_refuted.

(** C81: the base-two logarithm of a power of two, when representable, is returned exactly.  False: one unit too small, and
    at the lower end of the range this wraps: log2(2^-8) = -8 becomes 7.9998. *)
Theorem C81_log2_exact_refuted : ~ (forall W I XO f x k,
  1 <= W <= 44 -> 0 < x < 2 ^ W -> 0 <= fF f <= 44 -> 1 <= fW f -> in_range (fS f) (fW f) (k * 2 ^ fF f) ->
  fxval x (W - I) = bpow2 k -> log2_cordic None TRN W I XO f x = Some (k * 2 ^ fF f)).
Proof. exact log2_exact_bad. Qed.
Print Assumptions C81_log2_exact_refuted.
Example C81_case : log2_cordic None TRN 12 4 WRAP (Fmt 16 4 true TRN WRAP) 1 = Some 32767 /\ log2_cordic None TRN 12 4 WRAP (Fmt 16 4 true TRN WRAP) 256 = Some (-1).
Proof. vm_compute. auto. Qed.

(** C82: two to the power X = x 2^(I-W), before the conversion to the output type. *)
Theorem C82_exp2_cordic_accuracy : forall ort TQ W I f x,
  let TF := match ort with Some tf => tf | None => fF f end in
  W - I <= 45 -> 0 <= TF <= 44 -> TQ = TRN \/ TQ = TRN_ZERO \/ Z.max (W - I) 1 <= TF -> 1 <= fW f -> fS f = false ->
  (- bpow2 31 <= fxval x (W - I) < bpow2 31)%R ->
  exists out V, exp2_cordic ort TQ W I f x = Some out /\ convertsR f V out /\
    (Rabs (V - Rpower 2 (fxval x (W - I))) <= (if (TF <? 13)%Z then 10 else 6) * bpow2 (- TF) * Rpower 2 (fxval x (W - I)))%R.
Proof. exact exp2_cordic_accurate. Qed.
Print Assumptions C82_exp2_cordic_accuracy.
(** Exponents 0, 1, 2, -1, 0.5 and 2.734, with 12 fraction bits. *)
Example C82_case : map (exp2_cordic None TRN 12 4 (Fmt 20 8 false TRN WRAP)) [0; 256; 512; -256; 128; 700] =
  [Some 4094; Some 8188; Some 16376; Some 2047; Some 5791; Some 27252].
Proof. vm_compute. reflexivity. Qed.
(** With AC_RND the power of the fraction 4095/4096 rounds up to two and wraps to zero. *)
Theorem C82_exp2_cordic_rounding_refuted : ~ (forall ort TQ W I f x,
  let TF := match ort with Some tf => tf | None => fF f end in
  W - I <= 45 -> 0 <= TF <= 44 -> 1 <= fW f -> fS f = false ->
  (- bpow2 31 <= fxval x (W - I) < bpow2 31)%R ->
  exists out V, exp2_cordic ort TQ W I f x = Some out /\ convertsR f V out /\
    (Rabs (V - Rpower 2 (fxval x (W - I))) <= (if (TF <? 13)%Z then 10 else 6) * bpow2 (- TF) * Rpower 2 (fxval x (W - I)))%R).
Proof. exact exp2_cordic_rounding_bad. Qed.
Print Assumptions C82_exp2_cordic_rounding_refuted.

(** C83: the exponential. *)
Theorem C83_exp_cordic_accuracy : forall ort TQ W I S f x,
  let TF := match ort with Some tf => tf | None => fF f end in
  1 <= W -> in_range S W x -> 0 <= TF <= 44 -> 0 <= TF + I -> TQ = TRN \/ TQ = TRN_ZERO \/ 1 <= TF /\ 2 <= TF + I -> 1 <= fW f -> fS f = false ->
  (Rabs (fxval x (W - I)) + 1 <= bpow2 TF)%R -> (Rabs (fxval x (W - I)) <= bpow2 30)%R ->
  exists out V, exp_cordic ort TQ W I S f x = Some out /\ convertsR f V out /\
    (Rabs (V - exp (fxval x (W - I))) <= ((if (TF <? 13)%Z then 24 else 15) + 5 / 4 * Rabs (fxval x (W - I))) * bpow2 (- TF) * exp (fxval x (W - I)))%R.
Proof. exact exp_cordic_accurate. Qed.
Print Assumptions C83_exp_cordic_accuracy.
Example C83_case : map (exp_cordic None TRN 12 4 true (Fmt 20 8 false TRN WRAP)) [0; 256; 512; -256; 128; 700] =
  [Some 4094; Some 11132; Some 30252; Some 1506; Some 6751; Some 63048].
Proof. vm_compute. reflexivity. Qed.

(** C84: the logarithm is monotone.  False at the largest internal precision: ln(1 - 2^-44) > ln(1). *)
Theorem C84_log_monotone_refuted : ~ (forall ort W I XO f x y a b,
  1 <= W -> 0 <= I <= W -> 0 < x <= y -> y < 2 ^ W -> log_cordic ort TRN W I XO f x = Some a -> log_cordic ort TRN W I XO f y = Some b ->
  fS f = true -> fO f = WRAP -> 0 <= fF f <= 44 -> 2 + nbits W < fI f -> a <= b).
Proof. exact log_monotone_bad. Qed.
Print Assumptions C84_log_monotone_refuted.
Example C84_case : log_cordic (Some 44) TRN 45 1 WRAP (Fmt 64 20 true TRN WRAP) (2 ^ 44) = Some (-2) /\
  log_cordic (Some 44) TRN 45 1 WRAP (Fmt 64 20 true TRN WRAP) (2 ^ 44 - 1) = Some (-1).
Proof. vm_compute. auto. Qed.
