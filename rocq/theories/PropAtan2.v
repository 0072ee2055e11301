(** C64: the CORDIC arctangent of two arguments. *)
From Coq Require Import Reals.
From Verif Require Import AcTypes Spec SpecR SpecTrig Atan2Model Atan2Thm.

(** ** C64 *)
(** For every point at a distance of at least 2^-(F+3) from the origin, F the fraction bits of the output, the result is the
    angle of the point within atan2_err, converted to the output type by its own rounding and overflow modes. *)
Theorem C64_atan2_accuracy_partial : forall YI YF XI XF fo y x, 1 <= YI + YF -> 1 <= XI + XF -> 0 <= fF fo <= 67 -> 1 <= fW fo -> in_range true (YI + YF) y -> in_range true (XI + XF) x ->
  let r := sqrt (fxval x XF * fxval x XF + fxval y YF * fxval y YF) in (bpow2 (- (fF fo + 3)) <= r)%R -> forall th, is_atan2 (fxval y YF) (fxval x XF) th ->
  exists V, convertsR fo V (atan2_cordic YI YF XI XF fo y x) /\ (Rabs (V - th) <= atan2_err fo r)%R.
Proof. exact atan2_near. Qed.
Print Assumptions C64_atan2_accuracy_partial.
(** The point (-0.5, 0.75), to 20 fraction bits: 2.158799, where the angle is 2.1587989... *)
Example C64_case_accuracy : atan2_cordic 2 14 2 14 (dfmt 24 4 true) (12288) (-8192) = 2263664.
Proof. vm_compute; reflexivity. Qed.

(** With three integer bits nothing overflows. *)
Theorem C64_atan2_accuracy_output_partial : forall YI YF XI XF fo y x th, 1 <= YI + YF -> 1 <= XI + XF -> fS fo = true -> 3 <= fI fo -> 2 <= fF fo <= 67 -> fO fo <> SAT_SYM -> in_range true (YI + YF) y -> in_range true (XI + XF) x ->
  let r := sqrt (fxval x XF * fxval x XF + fxval y YF * fxval y YF) in (bpow2 (- (fF fo + 3)) <= r)%R -> is_atan2 (fxval y YF) (fxval x XF) th ->
  (Rabs (fxval (atan2_cordic YI YF XI XF fo y x) (fF fo) - th) <= bpow2 (- fF fo) + atan2_err fo r)%R.
Proof. exact atan2_acc. Qed.
Print Assumptions C64_atan2_accuracy_output_partial.
(** The four axes and the diagonal: 0, pi/2, pi, -pi/2, pi/4. *)
Example C64_case_axes : let f := atan2_cordic 2 6 2 6 (dfmt 16 3 true) in
  f 0 64 = 0 /\ f 64 0 = 12867 /\ f 0 (-64) = 25735 /\ f (-64) 0 = -12868 /\ f 64 64 = 6434.
Proof. vm_compute; repeat split; reflexivity. Qed.
(** The angle of which these theorems speak exists. *)
Theorem C64_angle_exists : forall y x, (0 < x * x + y * y)%R -> exists th, is_atan2 y x th.
Proof. exact atan2_exists. Qed.
Print Assumptions C64_angle_exists.
Theorem C64_atan2_origin : forall YI YF XI XF fo, 1 <= fW fo -> atan2_cordic YI YF XI XF fo 0 0 = 0.
Proof. exact atan2_origin. Qed.
Print Assumptions C64_atan2_origin.

(** Nearer to the origin the claim fails: the point (2^-30, 2^-30) gets the angle 1.72. *)
Theorem C64_atan2_near_origin_refuted : ~ (forall YI YF XI XF fo y x th, 1 <= YI + YF -> 1 <= XI + XF -> fS fo = true -> 3 <= fI fo -> 2 <= fF fo <= 67 -> fO fo <> SAT_SYM -> in_range true (YI + YF) y -> in_range true (XI + XF) x ->
  0 < x -> is_atan2 (fxval y YF) (fxval x XF) th -> (Rabs (fxval (atan2_cordic YI YF XI XF fo y x) (fF fo) - th) <= 1 / 2)%R).
Proof. exact atan2_small_false. Qed.
Print Assumptions C64_atan2_near_origin_refuted.
(** Two wrapping integer bits do not hold pi. *)
Theorem C64_atan2_two_integer_bits_refuted : ~ (forall YI YF XI XF fo y x th, 1 <= YI + YF -> 1 <= XI + XF -> fS fo = true -> 2 <= fI fo -> 2 <= fF fo <= 67 -> in_range true (YI + YF) y -> in_range true (XI + XF) x ->
  (1 <= sqrt (fxval x XF * fxval x XF + fxval y YF * fxval y YF))%R -> is_atan2 (fxval y YF) (fxval x XF) th -> (Rabs (fxval (atan2_cordic YI YF XI XF fo y x) (fF fo) - th) <= 3)%R).
Proof. exact atan2_two_int_false. Qed.
Print Assumptions C64_atan2_two_integer_bits_refuted.
(** pi is a double: wide outputs are not accurate to their last bits. *)
Theorem C64_atan2_wide_output_refuted : ~ (forall YI YF XI XF fo y x th, 1 <= YI + YF -> 1 <= XI + XF -> fS fo = true -> 3 <= fI fo -> 2 <= fF fo <= 67 -> in_range true (YI + YF) y -> in_range true (XI + XF) x ->
  (1 <= sqrt (fxval x XF * fxval x XF + fxval y YF * fxval y YF))%R -> is_atan2 (fxval y YF) (fxval x XF) th -> (Rabs (fxval (atan2_cordic YI YF XI XF fo y x) (fF fo) - th) <= 100 * bpow2 (- fF fo))%R).
Proof. exact atan2_wide_false. Qed.
Print Assumptions C64_atan2_wide_output_refuted.
