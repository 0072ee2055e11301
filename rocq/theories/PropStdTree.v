(** Properties C65, C66 and C67: the adder tree on IEEE-style floating-point patterns. *)
From Coq Require Import Lia.
From Verif Require Import AcTypes Spec SpecStd StdTreeModel StdTreeProofs StdTreePack StdTreeThm StdTreeExc.

(** C65: the result is a NaN exactly when some operand is one or infinities of both signs are added; otherwise an infinite
    operand gives the infinity of its sign. *)
Theorem C65_nan : forall q W E X nosub xs, 2 <= E -> 1 <= W - E - 1 -> Forall (sf_word W) xs ->
  sf_nan W E (fadd_tree q W E X nosub xs) <->
  Exists (sf_nan W E) xs \/ (Exists (sf_inf W E true) xs /\ Exists (sf_inf W E false) xs).
Proof. exact tree_nan. Qed.
Print Assumptions C65_nan.
Theorem C65_infinity : forall q W E X nosub xs, 2 <= E -> 1 <= W - E - 1 -> Forall (sf_word W) xs -> forall s,
  ~ (Exists (sf_nan W E) xs \/ (Exists (sf_inf W E true) xs /\ Exists (sf_inf W E false) xs)) ->
  Exists (sf_inf W E s) xs -> sf_inf W E s (fadd_tree q W E X nosub xs).
Proof. exact tree_inf. Qed.
Print Assumptions C65_infinity.
(** 0xff800000 is the negative infinity of the 32-bit format, 0x7f800000 the positive one. *)
Example C65_case : fadd_tree RND_CONV 32 8 3 false [1065353216; 4286578688; 5] = 4286578688 /\
  sf_nan 32 8 (fadd_tree RND_CONV 32 8 3 false [4286578688; 7; 2139095040]) /\ sf_inf 32 8 true 4286578688 /\ sf_inf 32 8 false 2139095040.
Proof. vm_compute. repeat split; congruence. Qed.

(** C66: the sum of two finite operands is correctly rounded, subnormal numbers, cancellation and overflow included, unless
    the sum carries into the next binade.  The hypothesis on W - E + X says that the saturated exponent difference still
    shifts a mantissa out; it holds for the usual formats with the default AccExtraLSBs = 3. *)
Theorem C66_two_operands : forall q W E X a b, 2 <= E -> 1 <= W - E - 1 -> 3 <= X -> W - E + X <= 2 ^ nbits (W - E + 1) - 1 ->
  sf_finite W E a -> sf_finite W E b -> let S := sf_sum false W E [a; b] in
  S <> 0 -> Z.abs S < 2 ^ (W - E - 1 + sf_maxexp W E [a; b]) -> float_rounds q W E S 1 (fadd_tree q W E X false [a; b]).
Proof. intros q W E X a b H1 H2 H3 H4 H5 H6 S H7 H8. apply two_rounds; auto. destruct (is_tz q); [lia|split; assumption]. Qed.
Print Assumptions C66_two_operands.
(** When truncating, carries are no exception. *)
Theorem C66_truncating : forall W E X a b, 2 <= E -> 1 <= W - E - 1 -> 2 <= X -> W - E + X <= 2 ^ nbits (W - E + 1) - 1 ->
  sf_finite W E a -> sf_finite W E b -> let S := sf_sum false W E [a; b] in
  S <> 0 -> float_rounds TRN_ZERO W E S 1 (fadd_tree TRN_ZERO W E X false [a; b]).
Proof. intros W E X a b H1 H2 H3 H4 H5 H6 S H7. apply two_rounds; auto. Qed.
Print Assumptions C66_truncating.
Theorem C66_zero : forall q W E X a b, 2 <= E -> 1 <= W - E - 1 -> 1 <= X -> W - E + X <= 2 ^ nbits (W - E + 1) - 1 ->
  sf_finite W E a -> sf_finite W E b -> sf_sum false W E [a; b] = 0 -> fadd_tree q W E X false [a; b] = 0.
Proof. exact two_zero. Qed.
Print Assumptions C66_zero.
(** The specification determines the pattern. *)
Theorem C66_rounds_unique : forall q W E n d r r', 1 <= E -> 1 <= W - E - 1 -> 0 < d ->
  float_rounds q W E n d r -> float_rounds q W E n d r' -> r = r'.
Proof. exact float_rounds_unique. Qed.
Print Assumptions C66_rounds_unique.
(** 1.0 + 2^-24 ties to even, 1.0 + (2^-24 + 2^-47) rounds up, two subnormal numbers add exactly. *)
Example C66_case : fadd_tree RND_CONV 32 8 3 false [1065353216; 864026624] = 1065353216 /\
  fadd_tree RND_CONV 32 8 3 false [1065353216; 864026625] = 1065353217 /\ fadd_tree RND_CONV 32 8 3 false [5; 8388600] = 8388605 /\
  fadd_tree RND_CONV 32 8 3 false [2139095039; 2139095039] = 2139095040 /\ fadd_tree TRN_ZERO 32 8 3 false [2139095039; 2139095039] = 2139095039 /\
  sf_sum false 32 8 [1065353216; 864026625] < 2 ^ (23 + sf_maxexp 32 8 [1065353216; 864026625]) /\ sf_finite 32 8 864026625 /\
  sf_finite 32 8 1065353216 /\ 32 - 8 + 3 <= 2 ^ nbits (32 - 8 + 1) - 1.
Proof. vm_compute. repeat split; congruence. Qed.
(** On a carry the last accumulator bit, which may be the sticky bit, is shifted out before rounding: the sum of
    0x4b7ffffe and 0x40400001 is just above a midpoint and is rounded down. *)
Theorem C66_two_operands_refuted : ~ (forall a b, sf_finite 32 8 a -> sf_finite 32 8 b -> sf_sum false 32 8 [a; b] <> 0 ->
  float_rounds RND_CONV 32 8 (sf_sum false 32 8 [a; b]) 1 (fadd_tree RND_CONV 32 8 3 false [a; b])).
Proof.
  intros H. specialize (H (150 * 2 ^ 23 + 2 ^ 23 - 2) (128 * 2 ^ 23 + 2 ^ 22 + 1)).
  assert (K : float_rounds RND_CONV 32 8 (sf_sum false 32 8 [150 * 2 ^ 23 + 2 ^ 23 - 2; 128 * 2 ^ 23 + 2 ^ 22 + 1]) 1 (151 * 2 ^ 23 + 1)).
  { split; [vm_compute; split; congruence|]. split; [vm_compute; reflexivity|]. exists 150, (2 ^ 23 + 1).
    split; [lia|]. split; [vm_compute; reflexivity|]. split; [right; vm_compute; congruence|]. split.
    - split; [vm_compute; congruence|]. intros C. vm_compute in C. discriminate C.
    - vm_compute. repeat split; congruence. }
  assert (J := float_rounds_unique RND_CONV 32 8 _ 1 _ _ ltac:(lia) ltac:(lia) ltac:(lia)
                 (H ltac:(vm_compute; repeat split; congruence) ltac:(vm_compute; repeat split; congruence) ltac:(vm_compute; congruence)) K).
  vm_compute in J. discriminate J.
Qed.
Print Assumptions C66_two_operands_refuted.
(** A format whose exponent difference saturates too early: 2^7 minus a tiny number. *)
Theorem C66_saturation_refuted : ~ (forall a b, sf_finite 10 4 a -> sf_finite 10 4 b -> let S := sf_sum false 10 4 [a; b] in S <> 0 ->
  Z.abs S < 2 ^ (5 + sf_maxexp 10 4 [a; b]) -> float_rounds RND_CONV 10 4 S 1 (fadd_tree RND_CONV 10 4 3 false [a; b])).
Proof.
  intros H. specialize (H 448 (512 + 63)). cbv zeta in H.
  assert (K : float_rounds RND_CONV 10 4 (sf_sum false 10 4 [448; 512 + 63]) 1 448).
  { split; [vm_compute; split; congruence|]. split; [vm_compute; reflexivity|]. exists 12, (2 ^ 6).
    split; [lia|]. split; [vm_compute; reflexivity|]. split; [right; vm_compute; congruence|]. split.
    - split; [vm_compute; congruence|]. intros C. vm_compute in C. discriminate C.
    - vm_compute. repeat split; congruence. }
  assert (J := float_rounds_unique RND_CONV 10 4 _ 1 _ _ ltac:(lia) ltac:(lia) ltac:(lia)
                 (H ltac:(vm_compute; repeat split; congruence) ltac:(vm_compute; repeat split; congruence) ltac:(vm_compute; congruence) ltac:(vm_compute; congruence)) K).
  vm_compute in J. discriminate J.
Qed.
Print Assumptions C66_saturation_refuted.

(** C67: any number of operands.  The result is the rounding of a value t (in units of the smallest subnormal number divided
    by 2^(X+1)) that differs from the exact sum by at most one last accumulator bit per operand, provided that t is in the
    normal range; without subnormal numbers, smaller sums become zero. *)
Theorem C67_accuracy : forall q W E X nosub xs, 2 <= E -> 1 <= W - E - 1 -> 1 <= X -> W - E + X <= 2 ^ nbits (W - E + 1) - 1 ->
  xs <> [] -> Forall (sf_finite W E) xs ->
  let r := fadd_tree q W E X nosub xs in
  exists t, Z.abs (t - 2 ^ (X + 1) * sf_sum nosub W E xs) <= Z.of_nat (length xs) * 2 ^ sf_maxexp W E xs /\ (t = 0 -> r = 0) /\
    (2 ^ (X + 1) * 2 ^ (W - E - 1) <= Z.abs t < 2 ^ (X + 1) * 2 ^ (W - E - 1 + 2 ^ E - 2) -> float_rounds q W E t (2 ^ (X + 1)) r) /\
    (nosub = true -> (2 <= length xs)%nat -> t <> 0 -> Z.abs t < 2 ^ (X + 1) * 2 ^ (W - E - 1) -> r = b2z (t <? 0) * 2 ^ (W - 1)).
Proof. exact many_accuracy. Qed.
Print Assumptions C67_accuracy.
(** Operands that fit the accumulator give the correctly rounded sum. *)
Theorem C67_exact : forall q W E X nosub xs, 2 <= E -> 1 <= W - E - 1 -> 1 <= X -> W - E + X <= 2 ^ nbits (W - E + 1) - 1 ->
  xs <> [] -> Forall (sf_finite W E) xs ->
  let S := sf_sum nosub W E xs in
  let emax := sf_maxexp W E xs in
  Forall (fun d => (2 ^ emax | 2 ^ (X + 1) * sf_val_flush nosub W E d)) xs ->
  Z.abs S < 2 ^ (W - E - 1 + emax + nbits (Z.of_nat (length xs) - 1) - 1) \/ (2 ^ emax | 2 ^ X * S) ->
  2 ^ (W - E - 1) <= Z.abs S < 2 ^ (W - E - 1 + 2 ^ E - 2) -> float_rounds q W E S 1 (fadd_tree q W E X nosub xs).
Proof. exact many_exact. Qed.
Print Assumptions C67_exact.
(** 1.5 + 2.5 - 0.125 + 100.0 + 0 in the 32-bit format is 103.875; 1.0 + 2^-30 + 2^-30 - 1.0 becomes 2^-25. *)
Example C67_case : fadd_tree RND_CONV 32 8 3 false [1069547520; 1075838976; 3187671040; 1120403456; 0] = 1120911360 /\
  fadd_tree RND_CONV 32 8 3 false [1065353216; 813694976; 813694976; 3212836864] = 855638016 /\
  fadd_tree RND_CONV 32 8 3 true [8388609; 2155872256; 0] = 0 /\ Forall (sf_finite 32 8) [1065353216; 813694976; 813694976; 3212836864].
Proof. split; [reflexivity|]. split; [reflexivity|]. split; [reflexivity|]. repeat (constructor; [vm_compute; repeat split; congruence|]). constructor. Qed.
(** With three or more operands an overflowing exponent wraps: four times the largest finite number gives a subnormal one. *)
Theorem C67_overflow_refuted : ~ (forall xs, xs <> [] -> Forall (sf_finite 32 8) xs -> 2 ^ (23 + 2 ^ 8 - 2) <= sf_sum false 32 8 xs ->
  sf_inf 32 8 false (fadd_tree RND_CONV 32 8 3 false xs)).
Proof.
  intros H. specialize (H [2139095039; 2139095039; 2139095039; 2139095039] ltac:(discriminate)).
  assert (F : Forall (sf_finite 32 8) [2139095039; 2139095039; 2139095039; 2139095039]).
  { repeat (constructor; [vm_compute; repeat split; congruence|]). constructor. }
  specialize (H F ltac:(vm_compute; congruence)). destruct H as (_ & H & _). vm_compute in H. discriminate H.
Qed.
Print Assumptions C67_overflow_refuted.
(** Subnormal results are shifted wrongly unless there are exactly two operands: adding zeros changes the operand. *)
Theorem C67_subnormal_refuted :
  ~ (forall x, sf_finite 32 8 x -> sf_val 32 8 (fadd_tree RND_CONV 32 8 3 false [x]) = sf_val 32 8 x) /\
  ~ (forall x, sf_finite 32 8 x -> sf_val 32 8 (fadd_tree RND_CONV 32 8 3 false [x; 0; 0; 0]) = sf_val 32 8 x).
Proof.
  split; intros H; specialize (H 6 ltac:(vm_compute; repeat split; congruence)); vm_compute in H; discriminate H.
Qed.
Print Assumptions C67_subnormal_refuted.
(** Without extra accumulator bits the sticky bit replaces the last bit of every operand: x + 0 is not x. *)
Theorem C67_no_extra_bits_refuted : ~ (forall x, sf_finite 32 8 x -> sf_val 32 8 (fadd_tree RND_CONV 32 8 0 false [x; 0]) = sf_val 32 8 x).
Proof.
  intros H; specialize (H 1065353217 ltac:(vm_compute; repeat split; congruence)); vm_compute in H; discriminate H.
Qed.
Print Assumptions C67_no_extra_bits_refuted.
