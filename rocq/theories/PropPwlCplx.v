(** Properties C102-C104: the piecewise-linear reciprocal, square root and inverse square root of ac_complex numbers.  The
    argument is A + i B with A = a 2^(I-W), B = b 2^(I-W); [MW] is the width of ac_types' result of mag_sqr.  The square root meant
    is the principal one P + i Q: its square is A + i B, and P > 0, or P = 0 and Q >= 0. *)
From Coq Require Import Reals ZArith Lra Lia List.
From Verif Require Import AcTypes Spec SpecR PwlCplxModel PwlCplxThm.
Import ListNotations.
Open Scope Z.

(** C102: 1/(A + i B) is (A - i B) times a number within 0.3 percent of 1/(A^2 + B^2), so each part has a relative error of 0.3 percent
    before it is converted to the type of the result ... *)
Theorem C102_reciprocal_complex_accuracy : forall pQ MW W I (S : bool) f a b,
  let A := fxval a (W - I) in let B := fxval b (W - I) in
  1 <= W -> 1 <= fW f -> 1 <= MW -> in_range S W a -> in_range S W b -> a * a + b * b < 2 ^ MW -> a <> 0 \/ b <> 0 ->
  exists r i rho, recip_cplx pQ MW W I S f a b = Some (r, i) /\ convertsR f (A * rho) r /\ convertsR f (- B * rho) i /\
    (Rabs (rho - / (A * A + B * B)) <= 0.003 * / (A * A + B * B))%R.
Proof. exact recip_cplx_accurate. Qed.
Print Assumptions C102_reciprocal_complex_accuracy.
(** ... and for zero both parts are the largest number of that type. *)
Theorem C102_reciprocal_complex_zero : forall pQ MW W I S f, 1 <= MW -> recip_cplx pQ MW W I S f 0 0 = Some (imax (fS f) (fW f), imax (fS f) (fW f)).
Proof. exact recip_cplx_zero. Qed.
Print Assumptions C102_reciprocal_complex_zero.
(** 1/(1 + 2i) = 0.19971 - 0.39941 i. *)
Example C102_case : recip_cplx TRN 31 16 4 true (Fmt 24 4 true TRN SAT) 4096 8192 =
  Some (209408, -418816).
Proof. vm_compute. reflexivity. Qed.

(** C103: each part of the square root is within 2.58 percent of the modulus of the root, and the larger of the two parts within 0.21
    percent; the signs are those of the principal root. *)
Theorem C103_sqrt_complex_accuracy : forall pQ MW W I f a b P Q,
  let A := fxval a (W - I) in let B := fxval b (W - I) in let F := (W + 23) / 2 + 22 in let M := sqrt (P * P + Q * Q) in
  1 <= W -> -60 <= W + I -> 1 <= fW f -> 1 <= MW -> in_range true W a -> in_range true W b -> a * a + b * b < 2 ^ MW -> a <> 0 \/ b <> 0 ->
  (P * P - Q * Q = A -> 2 * P * Q = B -> 0 < P \/ P = 0 /\ 0 <= Q ->
  exists r i X Y, sqrt_cplx pQ MW W I f a b = Some (r, i) /\ convertsR f X r /\ convertsR f Y i /\
    0 <= X /\ (if (b <? 0)%Z then Y <= 0 else 0 <= Y) /\
    Rabs (X - P) <= 0.0258 * M + bpow2 (- F) /\ Rabs (Y - Q) <= 0.0258 * M + bpow2 (- F) /\
    (0 <= A -> Rabs (X - P) <= 0.0021 * M + bpow2 (- F)) /\ (A <= 0 -> Rabs (Y - Q) <= 0.0021 * M + bpow2 (- F)))%R.
Proof. exact sqrt_cplx_accurate. Qed.
Print Assumptions C103_sqrt_complex_accuracy.
(** The square root of zero is zero. *)
Theorem C103_sqrt_complex_zero : forall pQ MW W I f, 1 <= W -> 1 <= fW f -> 1 <= MW -> sqrt_cplx pQ MW W I f 0 0 = Some (0, 0).
Proof. exact sqrt_cplx_zero. Qed.
Print Assumptions C103_sqrt_complex_zero.
(** sqrt 1 = 1.00123 + 0.02231 i, sqrt (3 + 4i) = 2.00046 + 1.00018 i, sqrt (-3 - 4i) = 1.00018 - 2.00046 i, sqrt (-1) = 0.02231 + 1.00123 i. *)
Example C103_case : map (fun p => sqrt_cplx TRN 31 16 4 (Fmt 24 4 true TRN SAT) (fst p) (snd p)) [(4096, 0); (12288, 16384); (-12288, -16384); (-4096, 0)] =
  [Some (1049861, 23397); Some (2097631, 1048766); Some (1048766, -2097631); Some (23397, 1049861)].
Proof. vm_compute. reflexivity. Qed.
(** The square root of a positive real number is not real. *)
Theorem C103_sqrt_complex_of_real_refuted : ~ (forall pQ MW W I f a,
  1 <= W -> 1 <= fW f -> 1 <= MW -> in_range true W a -> 0 < a -> a * a < 2 ^ MW -> exists r, sqrt_cplx pQ MW W I f a 0 = Some (r, 0)).
Proof. exact sqrt_cplx_real_bad. Qed.
Print Assumptions C103_sqrt_complex_of_real_refuted.

(** C104: 1/sqrt (A + i B) = (P - i Q)/(P^2 + Q^2): each part is within 2.66 percent of the modulus of the result, the larger part within
    0.29 percent, up to two units of the intermediate type.  [k] is the number of bits ac_types adds in conj(); the negated imaginary part
    must fit. *)
Theorem C104_inverse_sqrt_complex_accuracy : forall pQ MW MC k W I f a b P Q,
  let A := fxval a (W - I) in let B := fxval b (W - I) in let F := (W + 23) / 2 + 22 in let N := (P * P + Q * Q)%R in let M := sqrt N in
  1 <= W -> -50 <= W + I -> 0 <= k -> 1 <= MW -> 1 <= MC -> 1 <= fW f -> in_range true W a -> in_range true W b -> in_range true (W + k) (- b) ->
  a * a + b * b < 2 ^ MW -> a * a + b * b < 2 ^ MC -> a <> 0 \/ b <> 0 ->
  (P * P - Q * Q = A -> 2 * P * Q = B -> 0 < P \/ P = 0 /\ 0 <= Q ->
  exists r i X Y, isqrt_cplx pQ MW MC k W I f a b = Some (r, i) /\ convertsR f X r /\ convertsR f Y i /\
    Rabs (X - P / N) <= 0.0266 / M + 2.002 * bpow2 (- F) / N /\ Rabs (Y - - Q / N) <= 0.0266 / M + 2.002 * bpow2 (- F) / N /\
    (0 <= A -> Rabs (X - P / N) <= 0.0029 / M + 2.002 * bpow2 (- F) / N) /\ (A <= 0 -> Rabs (Y - - Q / N) <= 0.0029 / M + 2.002 * bpow2 (- F) / N))%R.
Proof. exact isqrt_cplx_accurate. Qed.
Print Assumptions C104_inverse_sqrt_complex_accuracy.
(** For zero both parts are the largest number of the type ... *)
Theorem C104_inverse_sqrt_complex_zero : forall pQ MW MC k W I f, 1 <= W -> -50 <= W + I -> 0 <= k -> 1 <= MW -> 1 <= MC -> 1 <= fW f ->
  isqrt_cplx pQ MW MC k W I f 0 0 = Some (imax true (fW f), imax true (fW f)).
Proof. exact isqrt_cplx_zero. Qed.
Print Assumptions C104_inverse_sqrt_complex_zero.
(** 1/sqrt 1 = 1.00049 + 0.02230 i, 1/sqrt (3 + 4i) = 0.40017 - 0.20008 i, 1/sqrt (-3 - 4i) = 0.20007 + 0.40017 i, 1/sqrt (-1) = 0.02230 - 1.00049 i. *)
Example C104_case : map (fun p => isqrt_cplx TRN 31 33 1 16 4 (Fmt 24 4 true TRN SAT) (fst p) (snd p)) [(4096, 0); (12288, 16384); (-12288, -16384); (-4096, 0)] =
  [Some (1049093, 23379); Some (419608, -209795); Some (209794, 419608); Some (23379, -1049094)].
Proof. vm_compute. reflexivity. Qed.
(** ... and not a real number, as the comment in the code has it. *)
Theorem C104_inverse_sqrt_complex_zero_refuted : ~ (forall pQ MW MC k W I f, 1 <= W -> -50 <= W + I -> 0 <= k -> 1 <= MW -> 1 <= MC -> 1 <= fW f ->
  isqrt_cplx pQ MW MC k W I f 0 0 = Some (imax true (fW f), 0)).
Proof. exact isqrt_cplx_zero_bad. Qed.
Print Assumptions C104_inverse_sqrt_complex_zero_refuted.
