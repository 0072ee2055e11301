(** Properties C113, C114: the magnitude of a complex number and the arctangents on ac_float. *)
From Coq Require Import ZArith Reals Lia.
From Verif Require Import AcTypes Spec SpecR PwlCplxModel AtanFloatModel AtanFloatThm.
Local Open Scope Z_scope.

(** C113: within 0.12 percent of the magnitude, up to the output conversion, ... *)
Theorem C113_complex_abs_accuracy : forall pQ MW W I f a b, let A := fxval a (W - I) in let B := fxval b (W - I) in
  1 <= MW -> 1 <= fW f -> fS f = false -> a * a + b * b < 2 ^ MW -> a <> 0 \/ b <> 0 ->
  exists out V, abs_cplx pQ MW W I f a b = Some out /\ convertsR f V out /\ (Rabs (V - sqrt (A * A + B * B)) <= 0.0012 * sqrt (A * A + B * B))%R.
Proof. exact abs_cplx_accurate. Qed.
Print Assumptions C113_complex_abs_accuracy.
(** ... zero at zero, ... *)
Theorem C113_complex_abs_zero : forall pQ MW W I f, 1 <= MW -> abs_cplx pQ MW W I f 0 0 = Some 0.
Proof. exact abs_cplx_0. Qed.
Print Assumptions C113_complex_abs_zero.
(** ... and, into a saturating type, never smaller for a number of larger magnitude. *)
Theorem C113_complex_abs_increasing : forall pQ MW W I f a b a' b' x y, 1 <= MW -> 1 <= fW f -> fS f = false -> fO f = SAT \/ fO f = SAT_SYM ->
  a * a + b * b <= a' * a' + b' * b' < 2 ^ MW -> abs_cplx pQ MW W I f a b = Some x -> abs_cplx pQ MW W I f a' b' = Some y -> x <= y.
Proof. exact abs_cplx_increasing. Qed.
Print Assumptions C113_complex_abs_increasing.
(** |3 - 4i|. *)
Example C113_case : abs_cplx TRN 33 16 8 (Fmt 24 9 false RND SAT) 768 (-1024) = Some (5 * 2 ^ 15 - 7).
Proof. vm_compute. reflexivity. Qed.

(** C114: [st] stores numbers up to 1.01 into the local ac_float with an error of at most d. *)
Theorem C114_atan_float_accuracy : forall pQ st W I m e d, let X := (fxval m (W - I) * bpow2 e)%R in
  let W2 := Z.max 1 (Z.min 10 (W - 4)) + 12 in 2 <= W -> 0 <= m < 2 ^ (W - 1) ->
  (forall F v k, 0 <= v -> (fxval v F * bpow2 k <= 1.01)%R -> let '(n, j) := st F v k in
    0 <= n < 2 ^ (W2 - 1) /\ (Rabs (fxval n (W2 - I) * bpow2 j - fxval v F * bpow2 k) <= d)%R) ->
  exists o, atan_flt pQ st W I m e = Some o /\ 0 <= o < 2 ^ 23 /\ (Rabs (fxval o 22 - atan X) <= 0.0079 + d)%R.
Proof. exact atan_flt_accurate. Qed.
Print Assumptions C114_atan_float_accuracy.
Theorem C114_atan_ha_float_accuracy : forall pQ st W I m e d, let X := (fxval m (W - I) * bpow2 e)%R in
  let W2 := Z.max 34 W in 2 <= W -> 0 <= m < 2 ^ (W - 1) ->
  (forall F v k, 0 <= v -> (fxval v F * bpow2 k <= 1.01)%R -> let '(n, j) := st F v k in
    0 <= n < 2 ^ (W2 - 1) /\ (Rabs (fxval n (W2 - I) * bpow2 j - fxval v F * bpow2 k) <= d)%R) ->
  exists o, atan_ha_flt pQ st W I m e = Some o /\ 0 <= o < 2 ^ 43 /\ (Rabs (fxval o 42 - atan X) <= 0.00029 + d)%R.
Proof. exact atan_ha_flt_accurate. Qed.
Print Assumptions C114_atan_ha_float_accuracy.
Theorem C114_atan_vha_float_accuracy : forall pQ st W I m e d, let X := (fxval m (W - I) * bpow2 e)%R in
  2 <= W -> 0 <= m < 2 ^ (W - 1) ->
  (forall F v k, 0 <= v -> (fxval v F * bpow2 k <= 1.01)%R -> let '(n, j) := st F v k in
    0 <= n < 2 ^ (16 - 1) /\ (Rabs (fxval n (16 - I) * bpow2 j - fxval v F * bpow2 k) <= d)%R) ->
  exists o, atan_vha_flt pQ st W I m e = Some o /\ 0 <= o < 2 ^ 28 /\ (Rabs (fxval o 27 - atan X) <= 0.00021 + d)%R.
Proof. exact atan_vha_flt_accurate. Qed.
Print Assumptions C114_atan_vha_float_accuracy.
(** With exponents wide enough for the normalised numbers, there is no condition on the storing. *)
Theorem C114_atan_float_wide : forall pQ W I m e, let X := (fxval m (W - I) * bpow2 e)%R in 2 <= W -> 0 <= m < 2 ^ (W - 1) ->
  (exists o, atan_flt pQ (flt_store (Z.max 1 (Z.min 10 (W - 4)) + 12) I) W I m e = Some o /\ 0 <= o < 2 ^ 23 /\ (Rabs (fxval o 22 - atan X) <= 0.0084)%R) /\
  (exists o, atan_ha_flt pQ (flt_store (Z.max 34 W) I) W I m e = Some o /\ 0 <= o < 2 ^ 43 /\ (Rabs (fxval o 42 - atan X) <= 0.0003)%R) /\
  (exists o, atan_vha_flt pQ (flt_store 16 I) W I m e = Some o /\ 0 <= o < 2 ^ 28 /\ (Rabs (fxval o 27 - atan X) <= 0.00028)%R).
Proof. exact atan_flt_wide. Qed.
Print Assumptions C114_atan_float_wide.
(** atan(3/8) = 1504793 / 2^22 and atan(3) = 5238878 / 2^22. *)
Example C114_case : (atan_flt TRN (flt_store 22 2) 16 2 24576 (-2), atan_flt TRN (flt_store 22 2) 16 2 24576 1) = (Some 1492992, Some 5248176) /\
  (atan_ha_flt TRN (flt_store 34 2) 16 2 24576 (-2), atan_ha_flt TRN (flt_store 34 2) 16 2 24576 1) = (Some 1578064936960, Some 5493548060672) /\
  (atan_vha_flt TRN (flt_store 16 2) 16 2 24576 (-2), atan_vha_flt TRN (flt_store 16 2) 16 2 24576 1) = (Some 48154624, Some 167644054).
Proof. vm_compute. repeat split. Qed.
