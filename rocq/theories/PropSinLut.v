(** C47, C63: the sine and cosine from a table. *)
From Coq Require Import Reals.
From Verif Require Import AcTypes Spec SpecR SinLutModel SinLutThm.

(** ** C47 *)
(** Only the fraction of the angle counts, whatever the integer bits and the sign of its type. *)
Theorem C47_lut_periodic : forall fi fi' fo a a', 1 <= fF fi -> fF fi = fF fi' -> (a - a') mod 2 ^ fF fi = 0 -> sincos_lut fi fo a = sincos_lut fi' fo a'.
Proof. exact lut_period. Qed.
Print Assumptions C47_lut_periodic.
(** -1/12 turn and 11/12 turn, to 12 bits. *)
Example C47_case_periodic : sincos_lut (dfmt 14 2 true) (dfmt 16 2 true) (-341) = Some (-8185, 14193) /\ sincos_lut (dfmt 12 0 false) (dfmt 16 2 true) 3755 = Some (-8185, 14193).
Proof. vm_compute; split; reflexivity. Qed.

(** A quarter turn later the sine is what the cosine was. *)
Theorem C47_lut_quarter_turn : forall fi fo a, 2 <= fF fi <= 42 ->
  exists s c c', sincos_lut fi fo a = Some (s, c) /\ sincos_lut fi fo (a + 2 ^ (fF fi - 2)) = Some (c, c').
Proof. exact lut_quarter. Qed.
Print Assumptions C47_lut_quarter_turn.
Example C47_case_quarter : sincos_lut (dfmt 12 0 false) (dfmt 16 2 true) 341 = Some (8185, 14193) /\ sincos_lut (dfmt 12 0 false) (dfmt 16 2 true) (341 + 1024) = Some (14193, -8185).
Proof. vm_compute; split; reflexivity. Qed.

(** Half a turn later both change sign, except at the odd eighths of a turn. *)
Theorem C47_lut_half_turn_partial : forall fi fo a, fS fo = true -> 2 <= fI fo -> 0 <= fF fo -> 3 <= fF fi <= 42 -> a mod 2 ^ (fF fi - 2) <> 2 ^ (fF fi - 3) ->
  exists s c, sincos_lut fi fo a = Some (s, c) /\ sincos_lut fi fo (a + 2 ^ (fF fi - 1)) = Some (- s, - c).
Proof. exact lut_half_turn. Qed.
Print Assumptions C47_lut_half_turn_partial.
Example C47_case_half : sincos_lut (dfmt 12 0 false) (dfmt 16 2 true) (341 + 2048) = Some (-8185, -14193).
Proof. vm_compute; reflexivity. Qed.
Theorem C47_lut_half_turn_refuted : ~ (forall fi fo a, fS fo = true -> 2 <= fI fo -> 0 <= fF fo -> 3 <= fF fi <= 12 ->
  exists s c, sincos_lut fi fo a = Some (s, c) /\ sincos_lut fi fo (a + 2 ^ (fF fi - 1)) = Some (- s, - c)).
Proof. exact lut_half_turn_false. Qed.
Print Assumptions C47_lut_half_turn_refuted.

(** The opposite angle has the opposite sine and the same cosine, except at the odd eighths and, for angles of more than
    12 fraction bits, half way between two entries. *)
Theorem C47_lut_opposite_partial : forall fi fo a, fS fo = true -> 2 <= fI fo -> 0 <= fF fo -> 3 <= fF fi <= 42 -> a mod 2 ^ (fF fi - 2) <> 2 ^ (fF fi - 3) ->
  (13 <= fF fi -> a mod 2 ^ (fF fi - 12) <> 2 ^ (fF fi - 13)) ->
  exists s c, sincos_lut fi fo a = Some (s, c) /\ sincos_lut fi fo (- a) = Some (- s, c).
Proof. exact lut_opp. Qed.
Print Assumptions C47_lut_opposite_partial.
Example C47_case_opposite : sincos_lut (dfmt 18 2 true) (dfmt 16 2 true) 12345 = Some (15175, 6177) /\ sincos_lut (dfmt 18 2 true) (dfmt 16 2 true) (-12345) = Some (-15175, 6177).
Proof. vm_compute; split; reflexivity. Qed.
Theorem C47_lut_opposite_refuted : ~ (forall fi fo a, fS fo = true -> 2 <= fI fo -> 0 <= fF fo -> 3 <= fF fi <= 42 -> a mod 2 ^ (fF fi - 2) <> 2 ^ (fF fi - 3) ->
  exists s c, sincos_lut fi fo a = Some (s, c) /\ sincos_lut fi fo (- a) = Some (- s, c)).
Proof. exact lut_opp_false. Qed.
Print Assumptions C47_lut_opposite_refuted.

(** ** C63 *)
(** Accuracy: one unit in the last place for angles of at most 12 fraction bits; beyond, one step of the table more. *)
Theorem C63_lut_accuracy_partial : forall fi fo a, fS fo = true -> 2 <= fI fo -> 0 <= fF fo -> 1 <= fF fi <= 42 -> exists s c, sincos_lut fi fo a = Some (s, c) /\
  (Rabs (fxval s (fF fo) - sin (2 * PI * fxval a (fF fi))) <= bpow2 (- fF fo) + bpow2 (-46) + (if (fF fi <=? 12)%Z then 0 else PI / 2048))%R /\
  (Rabs (fxval c (fF fo) - cos (2 * PI * fxval a (fF fi))) <= bpow2 (- fF fo) + bpow2 (-46) + (if (fF fi <=? 12)%Z then 0 else PI / 2048))%R.
Proof. exact lut_acc_2. Qed.
Print Assumptions C63_lut_accuracy_partial.
(** 341 / 4096 of a turn is just below 30 degrees: 0.49955 and 0.86628. *)
Example C63_case_accuracy : sincos_lut (dfmt 12 0 false) (dfmt 24 2 true) 341 = Some (2095294, 3633446).
Proof. vm_compute; reflexivity. Qed.
(** With one integer bit the output must saturate: then 1 is one unit short. *)
Theorem C63_lut_accuracy_saturating_partial : forall fi fo a, fS fo = true -> fI fo = 1 -> 0 <= fF fo -> fO fo = SAT \/ fO fo = SAT_SYM -> 1 <= fF fi <= 42 -> exists s c, sincos_lut fi fo a = Some (s, c) /\
  (Rabs (fxval s (fF fo) - sin (2 * PI * fxval a (fF fi))) <= 2 * bpow2 (- fF fo) + bpow2 (-46) + (if (fF fi <=? 12)%Z then 0 else PI / 2048))%R /\
  (Rabs (fxval c (fF fo) - cos (2 * PI * fxval a (fF fi))) <= 2 * bpow2 (- fF fo) + bpow2 (-46) + (if (fF fi <=? 12)%Z then 0 else PI / 2048))%R.
Proof. exact lut_acc_1. Qed.
Print Assumptions C63_lut_accuracy_saturating_partial.
Example C63_case_saturating : sincos_lut (dfmt 12 0 false) (Fmt 16 1 true RND SAT) 2048 = Some (0, -32768) /\ sincos_lut (dfmt 12 0 false) (Fmt 16 1 true RND SAT) 0 = Some (0, 32767).
Proof. vm_compute; split; reflexivity. Qed.
Theorem C63_lut_one_integer_bit_refuted : ~ (forall fi fo a, fS fo = true -> 1 <= fI fo -> 0 <= fF fo -> 1 <= fF fi <= 12 ->
  exists s c, sincos_lut fi fo a = Some (s, c) /\ (Rabs (fxval c (fF fo) - cos (2 * PI * fxval a (fF fi))) <= 1)%R).
Proof. exact lut_one_int_false. Qed.
Print Assumptions C63_lut_one_integer_bit_refuted.
Theorem C63_lut_fine_angle_refuted : ~ (forall fi fo a, fS fo = true -> 2 <= fI fo -> 20 <= fF fo -> 1 <= fF fi <= 42 ->
  exists s c, sincos_lut fi fo a = Some (s, c) /\ (Rabs (fxval s (fF fo) - sin (2 * PI * fxval a (fF fi))) <= / 1024)%R).
Proof. exact lut_fine_false. Qed.
Print Assumptions C63_lut_fine_angle_refuted.
(** With 43 or more fraction bits in the angle, 1 << (F - 12) does not fit an int: undefined behaviour. *)
Theorem C63_lut_wide_undefined : forall fi fo a, 43 <= fF fi -> sincos_lut fi fo a = None.
Proof. exact lut_wide_undefined. Qed.
Print Assumptions C63_lut_wide_undefined.
Example C63_case_wide : sincos_lut (dfmt 42 0 false) (dfmt 16 2 true) 1 = Some (25, 16384) /\ sincos_lut (dfmt 43 0 false) (dfmt 16 2 true) 1 = None.
Proof. vm_compute; split; reflexivity. Qed.
