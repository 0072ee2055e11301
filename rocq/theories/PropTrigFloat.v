(** Properties C105, C106: the CORDIC sine, cosine, arc sine and arc cosine of ac_float numbers.  The argument is
    X = m 2^(I-W) 2^e, angles are in units of pi; the results are the numbers handed to the constructor of the output's type. *)
From Coq Require Import Reals ZArith Lra Lia List.
From Verif Require Import AcTypes Spec SpecR TrigFloatModel TrigFloatThm.
Import ListNotations.
Open Scope Z.

(** C105: the error is below 4.15 2^-26, whatever the magnitude of the argument. *)
Theorem C105_sincos_float_accuracy : forall W I m e,
  let X := (fxval m (W - I) * bpow2 e)%R in
  1 <= W -> in_range true W m ->
  (Rabs (fxval (sin_flt W I m e) 28 - sin (PI * X)) <= 4.15 * bpow2 (-26) /\ Rabs (fxval (cos_flt W I m e) 28 - cos (PI * X)) <= 4.15 * bpow2 (-26))%R.
Proof. exact sincos_flt_accurate. Qed.
Print Assumptions C105_sincos_float_accuracy.
(** sin (pi/2), sin pi, sin (8 pi), sin (3 pi/16). *)
Example C105_case : map (fun p => sin_flt 16 2 (fst p) (snd p)) [(8192, 0); (8192, 1); (8192, 4); (24576, -3)] =
  [268435456; 0; 0; 149134748].
Proof. vm_compute. reflexivity. Qed.

(** C106: the arc sine is the one of a number within 2^-19 of the argument ... *)
Theorem C106_arcsin_float_accuracy : forall W I m e,
  let X := (fxval m (W - I) * bpow2 e)%R in
  1 <= W -> in_range true W m -> (Rabs X <= 1)%R ->
  (exists P, Rabs P <= 1 /\ Rabs (P - X) <= bpow2 (-19) /\ Rabs (fxval (asin_flt W I m e) 30 - asin P / PI) <= 5 * bpow2 (-30))%R.
Proof. exact asin_flt_accurate. Qed.
Print Assumptions C106_arcsin_float_accuracy.
(** ... and so is the arc cosine ... *)
Theorem C106_arccos_float_accuracy : forall W I m e,
  let X := (fxval m (W - I) * bpow2 e)%R in
  1 <= W -> in_range true W m -> (Rabs X <= 1)%R ->
  (exists P, Rabs P <= 1 /\ Rabs (P - X) <= bpow2 (-19) /\ Rabs (fxval (acos_flt W I m e) 30 - acos P / PI) <= 5 * bpow2 (-30))%R.
Proof. exact acos_flt_accurate. Qed.
Print Assumptions C106_arccos_float_accuracy.
(** ... so that the error is below 2^-10 + 5 2^-30 on the whole domain. *)
Theorem C106_arc_float_absolute_error : forall W I m e,
  let X := (fxval m (W - I) * bpow2 e)%R in
  1 <= W -> in_range true W m -> (Rabs X <= 1)%R ->
  (Rabs (fxval (asin_flt W I m e) 30 - asin X / PI) <= bpow2 (-10) + 5 * bpow2 (-30) /\ Rabs (fxval (acos_flt W I m e) 30 - acos X / PI) <= bpow2 (-10) + 5 * bpow2 (-30))%R.
Proof. exact arc_flt_close. Qed.
Print Assumptions C106_arc_float_absolute_error.
(** arc sine of 1/2 is pi/6. *)
Example C106_case : asin_flt 16 2 8192 0 =
  178956970.
Proof. vm_compute. reflexivity. Qed.
(** It is not the arc sine of the argument to 24 bits. *)
Theorem C106_arcsin_float_precision_refuted : ~ (forall W I m e,
  let X := (fxval m (W - I) * bpow2 e)%R in
  1 <= W -> in_range true W m -> (Rabs X <= 1)%R -> (Rabs (fxval (asin_flt W I m e) 30 - asin X / PI) <= bpow2 (-24))%R).
Proof. exact asin_flt_precision_bad. Qed.
Print Assumptions C106_arcsin_float_precision_refuted.
