(** Properties C107-C110: the ac_float and ac_complex overloads of the reciprocals of higher accuracy (_ha, _vha) and of the inverse
    square root of higher accuracy (_vha).  A float is m 2^(I-W) 2^e; a complex number is A + i B with A = a 2^(I-W), B = b 2^(I-W). *)
From Coq Require Import Reals ZArith Lra Lia List.
From Verif Require Import AcTypes Spec SpecR PwlHaFltModel PwlHaFltThm.
Import ListNotations.
Open Scope Z.

(** C107: the mantissa and the exponent handed to the constructor of the output are the reciprocal to 0.015 percent, for subnormal
    arguments too ... *)
Theorem C107_reciprocal_ha_float_accuracy : forall pQ oQ W I m e,
  let X := (fxval m (W - I) * bpow2 e)%R in
  1 <= W -> in_range true W m -> m <> 0 ->
  exists v n, recip_ha_flt pQ oQ W I m e = Some (v, n) /\ (Rabs (fxval v (Z.max 1 (Z.min 16 (W - 7)) + 15 + I) * bpow2 n - / X) <= 0.00015 * / Rabs X)%R.
Proof. exact recip_ha_flt_accurate. Qed.
Print Assumptions C107_reciprocal_ha_float_accuracy.
(** ... and to 0.005 percent. *)
Theorem C107_reciprocal_vha_float_accuracy : forall pQ oQ W I m e,
  let X := (fxval m (W - I) * bpow2 e)%R in
  2 <= W -> in_range true W m -> m <> 0 ->
  exists v n, recip_vha_flt pQ oQ W I m e = Some (v, n) /\ (Rabs (fxval v (Z.max 1 (Z.min 16 (W - 8)) + 15 + I) * bpow2 n - / X) <= 0.00005 * / Rabs X)%R.
Proof. exact recip_vha_flt_accurate. Qed.
Print Assumptions C107_reciprocal_vha_float_accuracy.
(** 1, -3/4 2^3 and 2^-14 2^-5; the last is subnormal. *)
Example C107_case : map (fun p => (recip_ha_flt TRN TRN 16 2 (fst p) (snd p), recip_vha_flt TRN TRN 16 2 (fst p) (snd p))) [(16384, 0); (-12288, 3); (1, -5)] =
  [(Some (67101184, 0), Some (33553408, 0)); (Some (-89473024, -3), Some (-22369280, -2));
   (Some (1099385798656, 5), Some (33553408, 19))].
Proof. vm_compute. reflexivity. Qed.

(** C108: the inverse square root is accurate to 0.006 percent for every positive argument, normalised or not. *)
Theorem C108_inverse_sqrt_vha_float_accuracy : forall pQ xQ oQ W I m e,
  let X := (fxval m (W - I) * bpow2 e)%R in
  2 <= W -> 0 < m < 2 ^ (W - 1) ->
  exists v n, isqrt_vha_flt pQ xQ oQ W I m e = Some (v, n) /\ (Rabs (fxval v ((if Z.even I then 29 else 27) - (3 - I) / 2) * bpow2 n - / sqrt X) <= 0.00006 * / sqrt X)%R.
Proof. exact isqrt_vha_flt_accurate. Qed.
Print Assumptions C108_inverse_sqrt_vha_float_accuracy.
(** 1/sqrt 1, 1/sqrt 2, 1/sqrt 6 and 1/sqrt (2^-19), the last subnormal; 29 fraction bits. *)
Example C108_case : map (fun p => isqrt_vha_flt TRN TRN TRN 16 2 (fst p) (snd p)) [(16384, 0); (16384, 1); (12288, 3); (1, -5)] =
  [Some (536847451, 0); Some (379607858, 0); Some (438344129, -1); Some (379607858, 10)].
Proof. vm_compute. reflexivity. Qed.

(** C109: the reciprocal of a complex number has relative errors of 0.016 percent in both parts ... *)
Theorem C109_reciprocal_ha_complex_accuracy : forall pQ MW W I (S : bool) f a b,
  let A := fxval a (W - I) in let B := fxval b (W - I) in
  1 <= W -> 1 <= fW f -> 1 <= MW -> in_range S W a -> in_range S W b -> a * a + b * b < 2 ^ MW -> a <> 0 \/ b <> 0 ->
  exists r i rho, recip_ha_cplx pQ MW W I S f a b = Some (r, i) /\ convertsR f (A * rho) r /\ convertsR f (- B * rho) i /\
    (Rabs (rho - / (A * A + B * B)) <= 0.00016 * / (A * A + B * B))%R.
Proof. exact recip_ha_cplx_accurate. Qed.
Print Assumptions C109_reciprocal_ha_complex_accuracy.
(** ... and of 0.005 percent; the narrower intermediate type of this version never overflows. *)
Theorem C109_reciprocal_vha_complex_accuracy : forall pQ MW W I (S : bool) f a b,
  let A := fxval a (W - I) in let B := fxval b (W - I) in
  1 <= W -> 1 <= fW f -> 1 <= MW -> in_range S W a -> in_range S W b -> a * a + b * b < 2 ^ MW -> a <> 0 \/ b <> 0 ->
  exists r i rho, recip_vha_cplx pQ MW W I S f a b = Some (r, i) /\ convertsR f (A * rho) r /\ convertsR f (- B * rho) i /\
    (Rabs (rho - / (A * A + B * B)) <= 0.00005 * / (A * A + B * B))%R.
Proof. exact recip_vha_cplx_accurate. Qed.
Print Assumptions C109_reciprocal_vha_complex_accuracy.
(** For zero both parts are the largest number of the type. *)
Theorem C109_reciprocal_complex_zero : forall pQ MW W I S f, 1 <= MW ->
  recip_ha_cplx pQ MW W I S f 0 0 = Some (imax (fS f) (fW f), imax (fS f) (fW f)) /\ recip_vha_cplx pQ MW W I S f 0 0 = Some (imax (fS f) (fW f), imax (fS f) (fW f)).
Proof. exact recip_hva_cplx_zero. Qed.
Print Assumptions C109_reciprocal_complex_zero.
(** 1/(1 + 2i). *)
Example C109_case : (recip_ha_cplx TRN 31 16 4 true (Fmt 24 4 true TRN SAT) 4096 8192, recip_vha_cplx TRN 31 16 4 true (Fmt 24 4 true TRN SAT) 4096 8192) =
  (Some (209698, -419396), Some (209712, -419424)).
Proof. vm_compute. reflexivity. Qed.

(** C110: each part of the inverse square root of a complex number is within 2.59 percent of its modulus, the larger part within 0.22
    percent, on the principal branch, up to two units of the intermediate type. *)
Theorem C110_inverse_sqrt_vha_complex_accuracy : forall pQ MW MC k W I f a b P Q,
  let A := fxval a (W - I) in let B := fxval b (W - I) in let F := (W + 23) / 2 + 22 in let N := (P * P + Q * Q)%R in let M := sqrt N in
  1 <= W -> -50 <= W + I -> 0 <= k -> 1 <= MW -> 1 <= MC -> 1 <= fW f -> in_range true W a -> in_range true W b -> in_range true (W + k) (- b) ->
  a * a + b * b < 2 ^ MW -> a * a + b * b < 2 ^ MC -> a <> 0 \/ b <> 0 ->
  (P * P - Q * Q = A -> 2 * P * Q = B -> 0 < P \/ P = 0 /\ 0 <= Q ->
  exists r i X Y, isqrt_vha_cplx pQ MW MC k W I f a b = Some (r, i) /\ convertsR f X r /\ convertsR f Y i /\
    Rabs (X - P / N) <= 0.0259 / M + 2.002 * bpow2 (- F) / N /\ Rabs (Y - - Q / N) <= 0.0259 / M + 2.002 * bpow2 (- F) / N /\
    (0 <= A -> Rabs (X - P / N) <= 0.0022 / M + 2.002 * bpow2 (- F) / N) /\ (A <= 0 -> Rabs (Y - - Q / N) <= 0.0022 / M + 2.002 * bpow2 (- F) / N))%R.
Proof. exact isqrt_vha_cplx_accurate. Qed.
Print Assumptions C110_inverse_sqrt_vha_complex_accuracy.
(** For zero both parts are the largest number of the type. *)
Theorem C110_inverse_sqrt_vha_complex_zero : forall pQ MW MC k W I f, 1 <= W -> -50 <= W + I -> 0 <= k -> 1 <= MW -> 1 <= MC -> 1 <= fW f ->
  isqrt_vha_cplx pQ MW MC k W I f 0 0 = Some (imax true (fW f), imax true (fW f)).
Proof. exact isqrt_vha_cplx_zero. Qed.
Print Assumptions C110_inverse_sqrt_vha_complex_zero.
(** 1/sqrt 1 = 1.00118 + 0.02231 i, 1/sqrt (3 + 4i) = 0.40008 - 0.20003 i, 1/sqrt (-1) = 0.02231 - 1.00118 i. *)
Example C110_case : map (fun p => isqrt_vha_cplx TRN 31 33 1 16 4 (Fmt 24 4 true TRN SAT) (fst p) (snd p)) [(4096, 0); (12288, 16384); (-4096, 0)] =
  [Some (1049815, 23396); Some (419516, -209749); Some (23396, -1049816)].
Proof. vm_compute. reflexivity. Qed.
(** The parts are not accurate to one percent of the modulus, let alone to the 0.005 percent of the real version. *)
Theorem C110_inverse_sqrt_vha_complex_refuted : ~ (forall pQ MW MC k W I f a b P Q r i,
  let A := fxval a (W - I) in let B := fxval b (W - I) in let N := (P * P + Q * Q)%R in let M := sqrt N in
  1 <= W -> -50 <= W + I -> 0 <= k -> 1 <= MW -> 1 <= MC -> 1 <= fW f -> in_range true W a -> in_range true W b -> in_range true (W + k) (- b) ->
  a * a + b * b < 2 ^ MW -> a * a + b * b < 2 ^ MC -> a <> 0 \/ b <> 0 ->
  (P * P - Q * Q = A -> 2 * P * Q = B -> 0 < P \/ P = 0 /\ 0 <= Q -> isqrt_vha_cplx pQ MW MC k W I f a b = Some (r, i) ->
  Rabs (fxval i (fF f) - - Q / N) <= 0.01 / M + bpow2 (- fF f))%R).
Proof. exact isqrt_vha_cplx_bad. Qed.
Print Assumptions C110_inverse_sqrt_vha_complex_refuted.
