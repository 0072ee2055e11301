(** Properties C33-C40: the piecewise-linear approximations.  In every accuracy statement V is the value the
    code holds before its final conversion to the output type; [convertsR f V out] says that the output is V
    rounded and limited as that type asks. *)
From Coq Require Import Reals Lia Lra.
From Verif Require Import AcTypes AcFacts Spec SpecR PwlModel PwlFacts PwlProofs PwlSqrt PwlReal PwlAct PwlExp PwlExpReal ActReal.

(** C33: the reciprocal is within 0.2 % of 1/x, and zero gives the largest output.  With a signed input and an
    unsigned output the code drops the sign and approximates 1/|x|. *)
Theorem C33_reciprocal_accuracy : forall pQ W I S f x,
  1 <= W -> 1 <= fW f -> in_range S W x -> x <> 0 ->
  let X := fxval x (W - I) in
  exists out V, reciprocal_pwl pQ W I S f x = Some out /\ convertsR f V out /\
    (Rabs (V - (if S && fS f then / X else / Rabs X)) <= 0.002 * / Rabs X)%R.
Proof. exact recip_real. Qed.
Print Assumptions C33_reciprocal_accuracy.
(** 1/3 = 21845.3 / 65536; 21824 is 0.1 % below. *)
Example C33_case : reciprocal_pwl TRN 16 8 true (Fmt 20 4 true RND SAT) 768 = Some 21824.
Proof. vm_compute; reflexivity. Qed.

Theorem C33_reciprocal_zero : forall pQ W I S f, 1 <= W -> reciprocal_pwl pQ W I S f 0 = Some (imax (fS f) (fW f)).
Proof. exact recip_zero. Qed.
Print Assumptions C33_reciprocal_zero.
Example C33_case_zero : reciprocal_pwl TRN 16 8 true (Fmt 20 4 true RND SAT) 0 = Some 524287.
Proof. vm_compute; reflexivity. Qed.

(** C34: x and -x give opposite values before the output conversion. *)
Theorem C34_reciprocal_odd : forall pQ W I f x, 1 <= W -> 1 <= fW f -> fS f = true -> 0 < x < 2 ^ (W - 1) ->
  exists Y e out1 out2, reciprocal_pwl pQ W I true f x = Some out1 /\ reciprocal_pwl pQ W I true f (- x) = Some out2 /\
    converts2 f Y e out1 /\ converts2 f (- Y) e out2.
Proof. exact recip_odd. Qed.
Print Assumptions C34_reciprocal_odd.
Example C34_case_odd : reciprocal_pwl TRN 16 8 true (Fmt 20 4 true RND SAT) 768 = Some 21824 /\
  reciprocal_pwl TRN 16 8 true (Fmt 20 4 true RND SAT) (-768) = Some (-21824).
Proof. vm_compute; split; reflexivity. Qed.

Theorem C34_reciprocal_decreasing : forall pQ W I S f x y a b,
  1 <= W -> 1 <= fW f -> fO f = SAT \/ fO f = SAT_SYM -> in_range S W y -> 0 < x <= y ->
  reciprocal_pwl pQ W I S f x = Some a -> reciprocal_pwl pQ W I S f y = Some b -> b <= a.
Proof. exact recip_decreasing. Qed.
Print Assumptions C34_reciprocal_decreasing.
Example C34_case_decreasing : reciprocal_pwl TRN 16 8 true (Fmt 20 4 true RND SAT) 768 = Some 21824 /\
  reciprocal_pwl TRN 16 8 true (Fmt 20 4 true RND SAT) 769 = Some 21798.
Proof. vm_compute; split; reflexivity. Qed.

(** C35: the square root is within 0.12 % and monotone.  [cn] is the template flag asking for normalisation;
    without it the caller must hand in a value whose top bit is set. *)
Theorem C35_sqrt_accuracy : forall pQ W I XO f cn x,
  1 <= W -> 1 <= fW f -> fS f = false -> 0 < x < 2 ^ W -> cn = true \/ 2 ^ (W - 1) <= x ->
  let X := fxval x (W - I) in
  exists out V, sqrt_pwl pQ W I XO f cn x = Some out /\ convertsR f V out /\ (Rabs (V - sqrt X) <= 0.0012 * sqrt X)%R.
Proof. exact sqrt_real. Qed.
Print Assumptions C35_sqrt_accuracy.
(** sqrt 3 = 113512 / 65536. *)
Example C35_case : sqrt_pwl TRN 16 8 WRAP (Fmt 20 4 false RND SAT) true 768 = Some 113568.
Proof. vm_compute; reflexivity. Qed.

Theorem C35_sqrt_zero : forall pQ W I XO f cn, sqrt_pwl pQ W I XO f cn 0 = Some 0.
Proof. exact sqrt_zero. Qed.
Print Assumptions C35_sqrt_zero.

Theorem C35_sqrt_increasing : forall pQ W I XO f cn x y a b,
  1 <= W -> 1 <= fW f -> fS f = false -> fO f = SAT \/ fO f = SAT_SYM ->
  0 <= x <= y -> y < 2 ^ W -> cn = true \/ 2 ^ (W - 1) <= x ->
  sqrt_pwl pQ W I XO f cn x = Some a -> sqrt_pwl pQ W I XO f cn y = Some b -> a <= b.
Proof. exact sqrt_increasing. Qed.
Print Assumptions C35_sqrt_increasing.
Example C35_case_increasing : sqrt_pwl TRN 16 8 WRAP (Fmt 20 4 false RND SAT) true 512 = Some 92768.
Proof. vm_compute; reflexivity. Qed.

(** C36: the inverse square root is within 0.075 %; zero gives the largest output; it never increases. *)
Theorem C36_inverse_sqrt_accuracy : forall pQ W I XO f cn x,
  1 <= W -> 1 <= fW f -> fS f = false -> 0 < x < 2 ^ W -> cn = true \/ 2 ^ (W - 1) <= x ->
  let X := fxval x (W - I) in
  exists out V, inverse_sqrt_pwl pQ W I XO f cn x = Some out /\ convertsR f V out /\ (Rabs (V - / sqrt X) <= 0.00075 * / sqrt X)%R.
Proof. exact isqrt_real. Qed.
Print Assumptions C36_inverse_sqrt_accuracy.
(** 1 / sqrt 2 = 46341 / 65536. *)
Example C36_case : inverse_sqrt_pwl TRN 16 8 WRAP (Fmt 20 4 false RND SAT) true 512 = Some 46312.
Proof. vm_compute; reflexivity. Qed.

Theorem C36_inverse_sqrt_zero : forall pQ W I XO f cn, inverse_sqrt_pwl pQ W I XO f cn 0 = Some (imax false (fW f)).
Proof. exact isqrt_zero. Qed.
Print Assumptions C36_inverse_sqrt_zero.
Example C36_case_zero : inverse_sqrt_pwl TRN 16 8 WRAP (Fmt 20 4 false RND SAT) true 0 = Some 1048575.
Proof. vm_compute; reflexivity. Qed.

Theorem C36_inverse_sqrt_decreasing : forall pQ W I XO f cn x y a b,
  1 <= W -> 1 <= fW f -> fS f = false -> fO f = SAT \/ fO f = SAT_SYM ->
  0 < x <= y -> y < 2 ^ W -> cn = true \/ 2 ^ (W - 1) <= x ->
  inverse_sqrt_pwl pQ W I XO f cn x = Some a -> inverse_sqrt_pwl pQ W I XO f cn y = Some b -> b <= a.
Proof. exact isqrt_decreasing. Qed.
Print Assumptions C36_inverse_sqrt_decreasing.

(** C37: pow2 is within 0.23 % of 2^x, provided the integer part of x fits the int it is copied to. *)
Theorem C37_pow2_accuracy : forall pQ W I S f x,
  1 <= W -> 1 <= fW f -> fS f = false -> in_range S W x ->
  let X := fxval x (W - I) in (- bpow2 31 <= X < bpow2 31)%R ->
  exists out V, pow2_pwl pQ W I S f x = Some out /\ convertsR f V out /\ (Rabs (V - Rpower 2 X) <= 0.0023 * Rpower 2 X)%R.
Proof. exact pow2_real. Qed.
Print Assumptions C37_pow2_accuracy.
(** 2^1.5 = 185364 / 65536 and 2^-1.5 = 23170 / 65536. *)
Example C37_case : pow2_pwl TRN 16 8 true (Fmt 20 4 false RND SAT) 384 = Some 185088 /\
  pow2_pwl TRN 16 8 true (Fmt 20 4 false RND SAT) (-384) = Some 23136.
Proof. vm_compute; split; reflexivity. Qed.

Theorem C37_pow2_increasing : forall pQ W I S f x y a b,
  1 <= W -> 1 <= fW f -> fS f = false -> fO f = SAT \/ fO f = SAT_SYM ->
  in_range S W x -> in_range S W y -> x <= y -> (- bpow2 31 <= fxval x (W - I))%R -> (fxval y (W - I) < bpow2 31)%R ->
  pow2_pwl pQ W I S f x = Some a -> pow2_pwl pQ W I S f y = Some b -> a <= b.
Proof. exact pow2_increasing. Qed.
Print Assumptions C37_pow2_increasing.
Example C37_case_increasing : pow2_pwl TRN 16 8 true (Fmt 20 4 false RND SAT) (-383) = Some 23204.
Proof. vm_compute; reflexivity. Qed.

(** C38: log2 is within 0.0015 of the logarithm; zero gives the smallest output; it never decreases. *)
Theorem C38_log2_accuracy : forall pQ W I XO f cn x,
  1 <= W -> 1 <= fW f -> 0 < x < 2 ^ W -> cn = true \/ 2 ^ (W - 1) <= x ->
  let X := fxval x (W - I) in
  exists out V, log2_pwl pQ W I XO f cn x = Some out /\ convertsR f V out /\ (Rabs (V - ln X / ln 2) <= 0.0015)%R.
Proof. exact log2_real. Qed.
Print Assumptions C38_log2_accuracy.
(** log2 3 = 103872 / 65536. *)
Example C38_case : log2_pwl TRN 16 8 WRAP (Fmt 20 4 true RND SAT) true 768 = Some 103904.
Proof. vm_compute; reflexivity. Qed.

Theorem C38_log2_zero : forall pQ W I XO f cn, log2_pwl pQ W I XO f cn 0 = Some (imin (fS f) (fW f)).
Proof. exact log2_zero. Qed.
Print Assumptions C38_log2_zero.
Example C38_case_zero : log2_pwl TRN 16 8 WRAP (Fmt 20 4 true RND SAT) true 0 = Some (-524288).
Proof. vm_compute; reflexivity. Qed.

Theorem C38_log2_increasing : forall pQ W I XO f cn x y a b,
  1 <= W -> 1 <= fW f -> fO f = SAT \/ fO f = SAT_SYM -> 0 <= x <= y -> y < 2 ^ W -> cn = true \/ 2 ^ (W - 1) <= x ->
  log2_pwl pQ W I XO f cn x = Some a -> log2_pwl pQ W I XO f cn y = Some b -> a <= b.
Proof. exact log2_mono. Qed.
Print Assumptions C38_log2_increasing.
Example C38_case_increasing : log2_pwl TRN 16 8 WRAP (Fmt 20 4 true RND SAT) true 64 = Some (-130976).
Proof. vm_compute; reflexivity. Qed.

(** C39: the sigmoid is defined everywhere, lies in [0, 1], satisfies s(-x) = 1 - s(x) for x <> 0 before the
    output conversion, and is monotone. *)
Theorem C39_sigmoid_total : forall pQ W I S f x, 1 <= W -> in_range S W x -> exists out, sigmoid_pwl pQ W I S f x = Some out.
Proof. exact sigmoid_total. Qed.
Print Assumptions C39_sigmoid_total.

Theorem C39_sigmoid_range : forall pQ W I S f x out, 1 <= W -> 1 <= fW f -> fS f = false -> 0 <= fF f -> in_range S W x ->
  sigmoid_pwl pQ W I S f x = Some out -> 0 <= out <= 2 ^ fF f.
Proof. exact sigmoid_range. Qed.
Print Assumptions C39_sigmoid_range.
Example C39_case_range : sigmoid_pwl TRN 16 8 true (Fmt 20 4 false RND SAT) 20000 = Some 65536.
Proof. vm_compute; reflexivity. Qed.

Theorem C39_sigmoid_symmetric : forall pQ W I f x, 1 <= W -> 1 <= fW f -> 0 < x < 2 ^ (W - 1) ->
  exists Y out1 out2, sigmoid_pwl pQ W I true f x = Some out1 /\ sigmoid_pwl pQ W I true f (- x) = Some out2 /\
    converts2 f Y (- 20) out1 /\ converts2 f (2 ^ 20 - Y) (- 20) out2 /\ 2 ^ 19 <= Y <= 2 ^ 20.
Proof. exact sigmoid_sym. Qed.
Print Assumptions C39_sigmoid_symmetric.
Example C39_case : sigmoid_pwl TRN 16 8 true (Fmt 20 4 false RND SAT) 384 = Some 53424 /\
  sigmoid_pwl TRN 16 8 true (Fmt 20 4 false RND SAT) (-384) = Some 12112 /\ 53424 + 12112 = 2 ^ 16.
Proof. vm_compute; repeat split; reflexivity. Qed.

Theorem C39_sigmoid_increasing : forall pQ W I S f x y a b,
  1 <= W -> 1 <= fW f -> fO f = SAT \/ fO f = SAT_SYM -> in_range S W x -> in_range S W y -> x <= y ->
  sigmoid_pwl pQ W I S f x = Some a -> sigmoid_pwl pQ W I S f y = Some b -> a <= b.
Proof. exact sigmoid_mono. Qed.
Print Assumptions C39_sigmoid_increasing.

(** The value before the output conversion is within 0.007 of 1 / (1 + e^-x), and within 0.004 where the table is used. *)
Theorem C39_sigmoid_accuracy : forall pQ W I S f x, (1 <= W)%Z -> (1 <= fW f)%Z -> in_range S W x -> let X := fxval x (W - I) in
  exists out V, sigmoid_pwl pQ W I S f x = Some out /\ convertsR f V out /\ (Rabs (V - / (1 + exp (- X))) <= 0.007)%R /\
    ((Rabs X < 5)%R -> (Rabs (V - / (1 + exp (- X))) <= 0.004)%R).
Proof. exact sigmoid_real. Qed.
Print Assumptions C39_sigmoid_accuracy.
(** 1 / (1 + e^-1) = 47911 / 65536. *)
Example C39_case_accuracy : sigmoid_pwl TRN 16 8 true (Fmt 20 4 false RND SAT) 256 = Some 47741.
Proof. vm_compute; reflexivity. Qed.

(** C40: the tables of tanh are read out of range exactly when |x| lies in [3 + 4j, 4 + 4j) for some j >= 0. *)
Theorem C40_tanh_out_of_table_iff : forall pQ W I S f x, 1 <= W -> in_range S W x ->
  (tanh_pwl pQ W I S f x = None <->
   exists j, 0 <= j /\ (3 + 4 * j) * pw (W - I) <= Z.abs x * pw (- (W - I)) < (4 + 4 * j) * pw (W - I)).
Proof. exact tanh_oob_iff. Qed.
Print Assumptions C40_tanh_out_of_table_iff.

(** So the property as stated is false: x = 3.0 in an ac_fixed<16,8,true>. *)
Theorem C40_tanh_in_table_refuted : ~ (forall pQ W I S f x, 1 <= W -> in_range S W x -> tanh_pwl pQ W I S f x <> None).
Proof. exact tanh_in_table_false. Qed.
Print Assumptions C40_tanh_in_table_refuted.
Example C40_case_out : tanh_pwl TRN 16 8 true (Fmt 20 4 true RND SAT) 768 = None /\
  tanh_pwl TRN 16 8 true (Fmt 20 4 true RND SAT) 767 = Some 65213 /\ tanh_pwl TRN 16 8 true (Fmt 20 4 true RND SAT) 1024 = Some 65536.
Proof. vm_compute; repeat split; reflexivity. Qed.

Theorem C40_tanh_in_table_partial : forall pQ W I S f x, 1 <= W -> in_range S W x ->
  Z.abs x * pw (- (W - I)) < 3 * pw (W - I) -> exists out, tanh_pwl pQ W I S f x = Some out.
Proof. exact tanh_small. Qed.
Print Assumptions C40_tanh_in_table_partial.

(** Where the table reads are in range, the value before conversion is inside (-1, 1) with the sign of x, the
    function is odd away from zero, and monotone. *)
Theorem C40_tanh_range : forall pQ W I S f x out, 1 <= W -> 1 <= fW f -> in_range S W x -> tanh_pwl pQ W I S f x = Some out ->
  exists Y, - 2 ^ 20 < Y < 2 ^ 20 /\ (0 < x -> 0 < Y) /\ (x < 0 -> Y < 0) /\ converts2 f Y (- 20) out.
Proof. exact tanh_spec. Qed.
Print Assumptions C40_tanh_range.

Theorem C40_tanh_odd : forall pQ W I f x a b, 1 <= W -> 1 <= fW f -> 0 < x < 2 ^ (W - 1) ->
  tanh_pwl pQ W I true f x = Some a -> tanh_pwl pQ W I true f (- x) = Some b ->
  exists Y, converts2 f Y (- 20) a /\ converts2 f (- Y) (- 20) b.
Proof. exact tanh_odd. Qed.
Print Assumptions C40_tanh_odd.
Example C40_case : tanh_pwl TRN 16 8 true (Fmt 20 4 true RND SAT) 384 = Some 59392 /\
  tanh_pwl TRN 16 8 true (Fmt 20 4 true RND SAT) (-384) = Some (-59392).
Proof. vm_compute; split; reflexivity. Qed.

Theorem C40_tanh_increasing : forall pQ W I S f x y a b,
  1 <= W -> 1 <= fW f -> fO f = SAT \/ fO f = SAT_SYM -> in_range S W x -> in_range S W y -> x <= y ->
  tanh_pwl pQ W I S f x = Some a -> tanh_pwl pQ W I S f y = Some b -> a <= b.
Proof. exact tanh_mono. Qed.
Print Assumptions C40_tanh_increasing.

(** Where the table reads are in range, the value before conversion is within 0.005 of tanh x, and within 0.004 for |x| < 3. *)
Theorem C40_tanh_accuracy : forall pQ W I S f x out, (1 <= W)%Z -> (1 <= fW f)%Z -> in_range S W x -> tanh_pwl pQ W I S f x = Some out ->
  let X := fxval x (W - I) in
  exists V, convertsR f V out /\ (Rabs (V - tanh X) <= 0.005)%R /\ ((Rabs X < 3)%R -> (Rabs (V - tanh X) <= 0.004)%R).
Proof. exact tanh_real. Qed.
Print Assumptions C40_tanh_accuracy.
(** tanh 1 = 49912 / 65536. *)
Example C40_case_accuracy : tanh_pwl TRN 16 8 true (Fmt 20 4 true RND SAT) 256 = Some 50112.
Proof. vm_compute; reflexivity. Qed.
