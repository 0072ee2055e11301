(** C41: the CORDIC sine and cosine. *)
From Coq Require Import Reals.
From Verif Require Import AcTypes Spec SpecR SpecTrig CordicModel CordicThm.

(** ** C41 *)
(** The angle counts only modulo 2, whatever the number of its integer bits. *)
Theorem C41_cordic_periodic : forall AW AI AW' AI' fo a a' C, AI <= AW -> AW - AI = AW' - AI' ->
  (a - a') mod (2 ^ (AW - AI + 1)) = 0 -> sincos_cordic AW AI fo a C = sincos_cordic AW' AI' fo a' C.
Proof. exact sincos_period. Qed.
Print Assumptions C41_cordic_periodic.
(** -1.75 and 0.25 and 2.25 (times pi). *)
Example C41_case_periodic : sincos_cordic 10 4 (dfmt 16 2 true) (-112) 16384 = (11585, 11585) /\
  sincos_cordic 10 4 (dfmt 16 2 true) 16 16384 = (11585, 11585) /\ sincos_cordic 10 4 (dfmt 16 2 true) 144 16384 = (11585, 11585) /\
  sincos_cordic 10 4 (dfmt 16 2 true) 80 16384 = (-11586, -11586).
Proof. vm_compute; repeat split; reflexivity. Qed.

(** The results are C sin(pi a) and C cos(pi a), up to cordic_err, converted to the output type. *)
Theorem C41_cordic_accuracy_partial : forall AW AI fo a C, AI <= AW -> 1 <= fW fo <= 68 -> 1 <= fI fo ->
  (Rabs (fxval C (fF fo)) * (1 + bpow2 (-51)) + 31 / 32 * bpow2 (- fF fo) <= bpow2 (fI fo - 1))%R ->
  exists S X, convertsR fo S (fst (sincos_cordic AW AI fo a C)) /\ convertsR fo X (snd (sincos_cordic AW AI fo a C)) /\
    (Rabs (S - fxval C (fF fo) * sin (PI * fxval a (AW - AI))) <= cordic_err fo (fxval C (fF fo)))%R /\
    (Rabs (X - fxval C (fF fo) * cos (PI * fxval a (AW - AI))) <= cordic_err fo (fxval C (fF fo)))%R.
Proof. exact sincos_near. Qed.
Print Assumptions C41_cordic_accuracy_partial.
(** C = 0.75 in ac_fixed<16,2>, angle 0.3 pi (19661 / 65536). *)
Example C41_case_accuracy : sincos_cordic 18 2 (dfmt 16 2 true) 19661 12288 = (9941, 7222).
Proof. vm_compute; reflexivity. Qed.

(** With two or more integer bits ac_sin_cordic and ac_cos_cordic are within 4 units in the last place. *)
Theorem C41_sin_cos_cordic_partial : forall AW AI fo a, AI <= AW -> 2 <= fI fo -> 3 <= fF fo <= 46 -> fW fo <= 68 -> fS fo = true -> fO fo <> SAT_SYM ->
  (Rabs (fxval (sin_cordic AW AI fo a) (fF fo) - sin (PI * fxval a (AW - AI))) <= 4 * bpow2 (- fF fo))%R /\
  (Rabs (fxval (cos_cordic AW AI fo a) (fF fo) - cos (PI * fxval a (AW - AI))) <= 4 * bpow2 (- fF fo))%R.
Proof. exact sincos_one. Qed.
Print Assumptions C41_sin_cos_cordic_partial.
Example C41_case_sin_cos : sin_cordic 8 2 (dfmt 16 2 true) 32 = 16384 /\ cos_cordic 8 2 (dfmt 16 2 true) 16 = 11585 /\ cos_cordic 8 2 (dfmt 16 2 true) 64 = -16385.
Proof. vm_compute; repeat split; reflexivity. Qed.

(** For outputs of 69 bits or more K is not in the table and both results are zero. *)
Theorem C41_cordic_wide_zero : forall AW AI fo a C, 69 <= fW fo -> sincos_cordic AW AI fo a C = (0, 0).
Proof. exact sincos_wide. Qed.
Print Assumptions C41_cordic_wide_zero.
Example C41_case_wide : sincos_cordic 2 1 (dfmt 68 2 true) 1 (2 ^ 66) = (73786976294838202406, -2453) /\ sincos_cordic 2 1 (dfmt 69 2 true) 1 (2 ^ 67) = (0, 0).
Proof. vm_compute; split; reflexivity. Qed.
Theorem C41_cordic_accuracy_refuted : ~ (forall AW AI fo a, AI <= AW -> 1 <= fW fo -> 2 <= fI fo -> 3 <= fF fo -> fS fo = true -> in_range true AW a ->
  (Rabs (fxval (sin_cordic AW AI fo a) (fF fo) - sin (PI * fxval a (AW - AI))) <= / 2)%R).
Proof. exact cordic_wide_false. Qed.
Print Assumptions C41_cordic_accuracy_refuted.

(** The constant K has no more fraction bits than the sums, so that the error grows with C. *)
Theorem C41_cordic_scale_refuted : ~ (forall AW AI fo a C, AI <= AW -> 1 <= fW fo <= 68 -> 1 <= fI fo -> fS fo = true ->
  in_range true AW a -> in_range true (fW fo) C -> (0 <= fxval C (fF fo))%R ->
  (Rabs (fxval (fst (sincos_cordic AW AI fo a C)) (fF fo) - fxval C (fF fo) * sin (PI * fxval a (AW - AI))) <= 30 * bpow2 (- fF fo))%R).
Proof. exact cordic_scale_false. Qed.
Print Assumptions C41_cordic_scale_refuted.

(** The most negative C overflows. *)
Theorem C41_cordic_min_refuted : ~ (forall AW AI fo a C, AI <= AW -> 1 <= fW fo <= 68 -> 1 <= fI fo -> fS fo = true ->
  in_range true AW a -> in_range true (fW fo) C ->
  (Rabs (fxval (snd (sincos_cordic AW AI fo a C)) (fF fo) - fxval C (fF fo) * cos (PI * fxval a (AW - AI))) <= 1)%R).
Proof. exact cordic_min_false. Qed.
Print Assumptions C41_cordic_min_refuted.

(** With one integer bit and AC_WRAP the scale 1.0 of ac_sin_cordic wraps to -1. *)
Theorem C41_sin_cordic_one_bit_refuted : ~ (forall AW AI fo a, AI <= AW -> 1 <= fW fo <= 68 -> 1 <= fI fo -> fS fo = true -> in_range true AW a ->
  (Rabs (fxval (sin_cordic AW AI fo a) (fF fo) - sin (PI * fxval a (AW - AI))) <= / 2)%R).
Proof. exact cordic_one_int_false. Qed.
Print Assumptions C41_sin_cordic_one_bit_refuted.

(** Without integer bits K itself wraps, even for a small C. *)
Theorem C41_cordic_no_integer_refuted : ~ (forall AW AI fo a C, AI <= AW -> 1 <= fW fo <= 68 -> fS fo = true -> in_range true AW a -> in_range true (fW fo) C ->
  (Rabs (fxval C (fF fo)) <= bpow2 (fI fo - 2))%R ->
  (Rabs (fxval (snd (sincos_cordic AW AI fo a C)) (fF fo) - fxval C (fF fo) * cos (PI * fxval a (AW - AI))) <= Rabs (fxval C (fF fo)))%R).
Proof. exact cordic_no_int_false. Qed.
Print Assumptions C41_cordic_no_integer_refuted.
