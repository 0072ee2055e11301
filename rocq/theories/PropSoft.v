(** Properties C45, C46 and C54-C59: exponential, logarithm, and the activation functions built on them.  In every
    accuracy statement V is the value the code holds before its final conversion to the output type;
    [convertsR f V out] says that the output is V rounded and limited as that type asks. *)
From Coq Require Import Reals Lia Lra.
From Verif Require Import AcTypes AcFacts Spec SpecR PwlModel SoftModel SoftFacts SoftReal SoftAct SoftmaxProofs.

(** C45: softmax.  [v x] is the value of the output for input x before conversion.  The outputs are non-negative and
    ordered like the inputs; either they are all zero or they sum to one within 0.21 %, the latter whenever some input
    is at least -6; and when some input is non-negative they approximate e^x / sum e^x. *)
Theorem C45_softmax_partial : forall pQ W I S f, 1 <= W -> 1 <= fW f -> 0 <= I - b2z S <= 5 ->
  forall xs, xs <> [] -> (forall x, In x xs -> in_range S W x) ->
  exists outs (v : Z -> R), softmax_pwl pQ W I S f xs = Some outs /\
    Forall2 (fun x out => convertsR f (v x) out) xs outs /\
    (forall x, In x xs -> (0 <= v x)%R) /\
    (forall x y, In x xs -> In y xs -> x <= y -> (v x <= v y)%R) /\
    ((forall x, In x xs -> v x = 0%R) \/ (Rabs (fold_right Rplus 0 (map v xs) - 1) <= 0.0021)%R) /\
    ((exists x, In x xs /\ (-6 <= fxval x (W - I))%R) -> (Rabs (fold_right Rplus 0 (map v xs) - 1) <= 0.0021)%R) /\
    ((exists x, In x xs /\ 0 <= x) -> forall x, In x xs ->
       (Rabs (v x - exp (fxval x (W - I)) / fold_right Rplus 0 (map (fun x => exp (fxval x (W - I))) xs))
        <= 0.0085 + 1.05 * (INR (length xs) + 1) * bpow2 (- (Z.max 1 (Z.min 10 (W - I - 2)) + 10)))%R).
Proof. exact softmax_old. Qed.
Print Assumptions C45_softmax_partial.
(** softmax [1; 0; -1] = [43598; 16039; 5900] / 65536. *)
Example C45_case : softmax_pwl TRN 16 6 true (Fmt 20 4 false TRN WRAP) [1024; 0; -1024] = Some [43650; 16009; 5907].
Proof. vm_compute; reflexivity. Qed.

(** In general the outputs need not sum to one: two inputs of about -29.3 both give zero. *)
Theorem C45_softmax_sum_refuted : ~ (forall pQ W I S f xs, 1 <= W -> 1 <= fW f -> 0 <= I - b2z S <= 5 -> xs <> [] ->
  (forall x, In x xs -> in_range S W x) ->
  exists outs (v : Z -> R), softmax_pwl pQ W I S f xs = Some outs /\
    Forall2 (fun x out => convertsR f (v x) out) xs outs /\ (Rabs (fold_right Rplus 0 (map v xs) - 1) <= 0.5)%R).
Proof. exact softmax_old_false. Qed.
Print Assumptions C45_softmax_sum_refuted.
Example C45_case_zero : softmax_pwl TRN 16 6 true (Fmt 20 4 false TRN WRAP) [-30000; -30000] = Some [0; 0].
Proof. vm_compute; reflexivity. Qed.

(** With a saturating output type the outputs themselves are ordered like the inputs. *)
Theorem C45_softmax_order : forall pQ W I S f xs outs i j x y a b,
  1 <= W -> 1 <= fW f -> 0 <= I - b2z S <= 5 -> fO f = SAT \/ fO f = SAT_SYM ->
  (forall x, In x xs -> in_range S W x) -> softmax_pwl pQ W I S f xs = Some outs ->
  nth_error xs i = Some x -> nth_error xs j = Some y -> nth_error outs i = Some a -> nth_error outs j = Some b ->
  x <= y -> a <= b.
Proof. exact softmax_old_order. Qed.
Print Assumptions C45_softmax_order.

(** ac_softmax_pwl_new subtracts the largest exponent first, so it has no such failure: the outputs always sum to one
    within 0.21 %. *)
Theorem C45_softmax_new : forall pQ l fw W I S f,
  1 <= W -> 1 <= fW f -> 0 <= I -> 1 <= l <= 32 -> 1 <= fw -> 0 < W - I + l ->
  forall xs, xs <> [] -> (forall x, In x xs -> in_range S W x) ->
  exists outs (v : Z -> R), softmax_new pQ l fw W I S f xs = Some outs /\
    Forall2 (fun x out => convertsR f (v x) out) xs outs /\
    (forall x, In x xs -> (0 <= v x)%R) /\
    (forall x y, In x xs -> In y xs -> x <= y -> (v x <= v y)%R) /\
    (Rabs (fold_right Rplus 0 (map v xs) - 1) <= 0.0021)%R /\
    (16 <= l -> 7 <= fw -> I - b2z S <= 6 -> forall x, In x xs ->
       (Rabs (v x - exp (fxval x (W - I)) / fold_right Rplus 0 (map (fun x => exp (fxval x (W - I))) xs))
        <= 0.009 + 1.05 * (INR (length xs) + 1) * bpow2 (- fw))%R).
Proof. exact softmax_new_ok. Qed.
Print Assumptions C45_softmax_new.
Example C45_case_new : softmax_new TRN 16 19 16 6 true (Fmt 20 4 false TRN WRAP) [1024; 0; -1024] = Some [43650; 16009; 5907] /\
  softmax_new TRN 16 19 16 6 true (Fmt 20 4 false TRN WRAP) [-30000; -30000] = Some [32770; 32770].
Proof. vm_compute; split; reflexivity. Qed.

Theorem C45_softmax_new_order : forall pQ l fw W I S f xs outs i j x y a b,
  1 <= W -> 1 <= fW f -> 0 <= I -> 1 <= l <= 32 -> 1 <= fw -> 0 < W - I + l -> fO f = SAT \/ fO f = SAT_SYM ->
  (forall x, In x xs -> in_range S W x) -> softmax_new pQ l fw W I S f xs = Some outs ->
  nth_error xs i = Some x -> nth_error xs j = Some y -> nth_error outs i = Some a -> nth_error outs j = Some b ->
  x <= y -> a <= b.
Proof. exact softmax_new_order. Qed.
Print Assumptions C45_softmax_new_order.

(** C46: softplus, for inputs with at most 6 (signed) or 4 (unsigned) integer bits. *)
Theorem C46_softplus_partial : forall pQ W I S f x, 1 <= W -> 1 <= fW f -> in_range S W x -> I <= (if S then 6 else 4) ->
  let X := fxval x (W - I) in
  exists out V, softplus_pwl pQ W I S f x = Some out /\ convertsR f V out /\
    (Rabs (V - ln (1 + exp X)) <= 0.005 + 0.0001 * ln (1 + exp X))%R.
Proof. exact softplus_real. Qed.
Print Assumptions C46_softplus_partial.
(** ln (1 + e) = 86065 / 65536. *)
Example C46_case : softplus_pwl TRN 16 6 true (Fmt 24 8 true RND SAT) 1024 = Some 86110.
Proof. vm_compute; reflexivity. Qed.

(** With 7 integer bits e^x overflows its intermediate type: softplus(63.998) comes out as 0.001. *)
Theorem C46_softplus_refuted : ~ (forall pQ W I S f x, 1 <= W -> 1 <= fW f -> in_range S W x ->
  let X := fxval x (W - I) in
  exists out V, softplus_pwl pQ W I S f x = Some out /\ convertsR f V out /\ (Rabs (V - ln (1 + exp X)) <= 1)%R).
Proof. exact softplus_false. Qed.
Print Assumptions C46_softplus_refuted.
Example C46_case_wrap : softplus_pwl TRN 16 7 true (Fmt 40 10 false TRN WRAP) 32767 = Some 1090176.
Proof. vm_compute; reflexivity. Qed.

(** C54: the exponential. *)
Theorem C54_exp_accuracy : forall pQ W I S f x, 1 <= W -> 1 <= fW f -> fS f = false -> in_range S W x ->
  let X := fxval x (W - I) in (Rabs X <= 1024)%R ->
  exists out V, exp_pwl pQ W I S f x = Some out /\ convertsR f V out /\
    (Rabs (V - exp X) <= (0.0025 + 0.00001 * Rabs X) * exp X)%R.
Proof. exact exp_real. Qed.
Print Assumptions C54_exp_accuracy.
(** e = 178145 / 65536, 1/e = 24109 / 65536. *)
Example C54_case : exp_pwl TRN 16 6 true (Fmt 24 8 false RND SAT) 1024 = Some 178332 /\
  exp_pwl TRN 16 6 true (Fmt 24 8 false RND SAT) (-1024) = Some 24134.
Proof. vm_compute; split; reflexivity. Qed.

Theorem C54_exp_increasing : forall pQ W I S f x y a b,
  1 <= W -> 1 <= fW f -> fS f = false -> fO f = SAT \/ fO f = SAT_SYM -> in_range S W x -> in_range S W y ->
  (Rabs (fxval x (W - I)) <= 1024)%R -> (Rabs (fxval y (W - I)) <= 1024)%R -> x <= y ->
  exp_pwl pQ W I S f x = Some a -> exp_pwl pQ W I S f y = Some b -> a <= b.
Proof. exact exp_mono. Qed.
Print Assumptions C54_exp_increasing.

(** C55: the natural logarithm; zero gives the smallest output. *)
Theorem C55_ln_accuracy : forall pQ W I XO f x, 1 <= W -> 1 <= fW f -> 0 < x < 2 ^ W ->
  let X := fxval x (W - I) in
  exists out V, ln_pwl pQ W I XO f x = Some out /\ convertsR f V out /\
    (Rabs (V - ln X) <= 0.00104 + 0.00005 * Rabs (ln X))%R.
Proof. exact ln_real. Qed.
Print Assumptions C55_ln_accuracy.
(** ln 2 = 45426 / 65536. *)
Example C55_case : ln_pwl TRN 16 6 SAT (Fmt 24 8 true RND SAT) 2048 = Some 45491.
Proof. vm_compute; reflexivity. Qed.

Theorem C55_ln_zero : forall pQ W I XO f, exists t, ln_pwl pQ W I XO f 0 = Some t /\ t = imin (fS f) (fW f).
Proof. exact ln_zero. Qed.
Print Assumptions C55_ln_zero.
Example C55_case_zero : ln_pwl TRN 16 6 SAT (Fmt 24 8 true RND SAT) 0 = Some (-8388608).
Proof. vm_compute; reflexivity. Qed.

(** C56: softsign.  The reciprocal of 1 + |x| is kept with at most 20 fraction bits, so the absolute error grows with |x|. *)
Theorem C56_softsign_partial : forall pQ W I S f x, 1 <= W -> 0 <= I -> 1 <= fW f -> in_range S W x ->
  let X := fxval x (W - I) in
  exists out V, softsign_pwl pQ W I S f x = Some out /\ convertsR f V out /\
    (Rabs (V - X / (1 + Rabs X)) <= 0.002 * (Rabs X / (1 + Rabs X)) + Rabs X * bpow2 (- (Z.max 1 (Z.min 10 (W - 4)) + 10)))%R.
Proof. exact softsign_real. Qed.
Print Assumptions C56_softsign_partial.
(** softsign (-3) = -49152 / 65536. *)
Example C56_case : softsign_pwl TRN 16 6 true (Fmt 24 8 true RND SAT) (-3072) = Some (-49080).
Proof. vm_compute; reflexivity. Qed.

(** For large inputs the result collapses: softsign (2^22) comes out as 0. *)
Theorem C56_softsign_refuted : ~ (forall pQ W I S f x, 1 <= W -> 0 <= I -> 1 <= fW f -> in_range S W x ->
  let X := fxval x (W - I) in
  exists out V, softsign_pwl pQ W I S f x = Some out /\ convertsR f V out /\ (Rabs (V - X / (1 + Rabs X)) <= 0.9)%R).
Proof. exact softsign_false. Qed.
Print Assumptions C56_softsign_refuted.
Example C56_case_zero : softsign_pwl TRN 32 24 true (Fmt 24 8 true RND SAT) (2 ^ 30) = Some 0.
Proof. vm_compute; reflexivity. Qed.

(** C57: ELU copies non-negative inputs and approximates alpha (e^x - 1) on the others. *)
Theorem C57_elu_identity : forall W I S f x alpha aF, 1 <= fW f -> 0 <= x ->
  exists out, elu_pwl W I S f x alpha aF = Some out /\ convertsR f (fxval x (W - I)) out.
Proof. exact elu_pos. Qed.
Print Assumptions C57_elu_identity.

Theorem C57_elu_accuracy : forall W I S f x alpha aF, 1 <= W -> 1 <= fW f -> in_range S W x -> x < 0 ->
  let X := fxval x (W - I) in let A := fxval alpha aF in (- bpow2 30 <= X)%R ->
  exists out V, elu_pwl W I S f x alpha aF = Some out /\ convertsR f V out /\
    (Rabs (V - A * (exp X - 1)) <= 0.0026 * Rabs A)%R.
Proof. exact elu_neg. Qed.
Print Assumptions C57_elu_accuracy.
(** alpha = 1.5: 1.5 (1/e - 1) = -62141 / 65536. *)
Example C57_case : elu_pwl 16 6 true (Fmt 24 8 true RND SAT) (-1024) 3 1 = Some (-62103) /\
  elu_pwl 16 6 true (Fmt 24 8 true RND SAT) 1024 3 1 = Some 65536.
Proof. vm_compute; split; reflexivity. Qed.

(** C58: SELU; a negative input is converted twice, before and after the multiplication by lambda. *)
Theorem C58_selu_scaled_identity : forall W I S f x, 1 <= fW f -> 0 <= x ->
  exists out, selu_pwl W I S f x = Some out /\ convertsR f (fxval 1101739 20 * fxval x (W - I)) out.
Proof. exact selu_pos. Qed.
Print Assumptions C58_selu_scaled_identity.

Theorem C58_selu_accuracy : forall W I S f x, 1 <= W -> 1 <= fW f -> in_range S W x -> x < 0 ->
  let X := fxval x (W - I) in (- bpow2 30 <= X)%R ->
  exists out e V, selu_pwl W I S f x = Some out /\ convertsR f V e /\
    convertsR f (fxval 1101739 20 * fxval e (fF f)) out /\ (Rabs (V - fxval 1754543 20 * (exp X - 1)) <= 0.0044)%R.
Proof. exact selu_neg. Qed.
Print Assumptions C58_selu_accuracy.
(** selu (-1) = -72812 / 65536, selu 1 = 68859 / 65536. *)
Example C58_case : selu_pwl 16 6 true (Fmt 24 8 true RND SAT) (-1024) = Some (-72788) /\
  selu_pwl 16 6 true (Fmt 24 8 true RND SAT) 1024 = Some 68859.
Proof. vm_compute; split; reflexivity. Qed.

(** C59: GELU for signed input and output, where it is defined. *)
Theorem C59_gelu_accuracy_partial : forall pQ W I f x out, 0 <= I <= W -> 2 <= W -> 1 <= fW f -> fS f = true -> in_range true W x ->
  gelu_pwl pQ W I true f x = Some out ->
  let X := fxval x (W - I) in
  exists V, convertsR f V out /\
    (Rabs (V - X / 2 * (1 + tanh (418321 / 524288 * (X + 23443 / 524288 * (X * X * X))))) <= 0.003 * Rabs X)%R.
Proof. exact gelu_real. Qed.
Print Assumptions C59_gelu_accuracy_partial.
(** gelu 1 = 55127 / 65536, gelu (-1) = -10409 / 65536 (tanh form). *)
Example C59_case : gelu_pwl TRN 16 6 true (Fmt 24 8 true RND SAT) 1024 = Some 55043 /\
  gelu_pwl TRN 16 6 true (Fmt 24 8 true RND SAT) (-1024) = Some (-10493).
Proof. vm_compute; split; reflexivity. Qed.

Theorem C59_gelu_defined_partial : forall pQ W I f x, 0 <= I <= W -> 2 <= W -> fS f = true -> in_range true W x ->
  (Rabs (fxval x (W - I)) <= 2.75)%R -> exists out, gelu_pwl pQ W I true f x = Some out.
Proof. exact gelu_small. Qed.
Print Assumptions C59_gelu_defined_partial.

(** It reads the tanh table out of range for x = 3.0 in an ac_fixed<16,6,true>. *)
Theorem C59_gelu_defined_refuted : ~ (forall pQ W I f x, 0 <= I <= W -> 2 <= W -> 1 <= fW f -> fS f = true -> in_range true W x ->
  gelu_pwl pQ W I true f x <> None).
Proof. exact gelu_undefined. Qed.
Print Assumptions C59_gelu_defined_refuted.

(** With an unsigned input and a signed output the argument of tanh wraps. *)
Theorem C59_gelu_unsigned_refuted : ~ (forall pQ W I f x out, 0 <= I <= W -> 2 <= W -> 1 <= fW f -> fS f = true -> in_range false W x ->
  gelu_pwl pQ W I false f x = Some out ->
  let X := fxval x (W - I) in
  exists V, convertsR f V out /\
    (Rabs (V - X / 2 * (1 + tanh (418321 / 524288 * (X + 23443 / 524288 * (X * X * X))))) <= 0.1 * Rabs X)%R).
Proof. exact gelu_unsigned. Qed.
Print Assumptions C59_gelu_unsigned_refuted.
