(** Properties C48 and C124: ac_random.  R is the largest value rand() can return. *)
From Coq Require Import Lia.
From Verif Require Import AcTypes SpecFloat RandomModel RandomProofs RandomFloat.

Theorem C48_reachable : forall s w v R, 1 <= w -> in_range s w v -> 65535 <= R ->
  exists rs, (forall n, 0 <= rs n <= R) /\ forall old, random_ac s w old rs = v.
Proof. exact random_reach. Qed.
Print Assumptions C48_reachable.
Theorem C48_independent : forall s w old old' rs, 1 <= w -> random_ac s w old rs = random_ac s w old' rs.
Proof. exact random_independent. Qed.
Print Assumptions C48_independent.
Theorem C48_in_range : forall s w old rs, 1 <= w -> in_range s w (random_ac s w old rs).
Proof. exact random_range. Qed.
Print Assumptions C48_in_range.
(** The C standard only promises RAND_MAX >= 32767.  There the claim holds up to 15 bits ... *)
Theorem C48_rand_max_32767 : forall s w v, 1 <= w <= 15 -> in_range s w v ->
  exists rs, (forall n, 0 <= rs n <= 32767) /\ forall old, random_ac s w old rs = v.
Proof. exact random_15. Qed.
Print Assumptions C48_rand_max_32767.
(** ... and fails for every larger width: bit 15 is never set. *)
Theorem C48_rand_max_32767_refuted : forall s w old rs, 16 <= w -> (forall n, 0 <= rs n <= 32767) ->
  Z.testbit (random_ac s w old rs) 15 = false.
Proof. exact random_15_missing. Qed.
Print Assumptions C48_rand_max_32767_refuted.
Theorem C48_builtin_reachable : forall size v R, (2 <= size)%nat -> 0 <= v < 2 ^ (16 * Z.of_nat size) -> 65535 <= R ->
  exists rs, (forall n, 0 <= rs n <= R) /\ random_builtin size rs = v.
Proof. exact builtin_reach. Qed.
Print Assumptions C48_builtin_reachable.
Example C48_case : let rs := fun n => match n with O => 65536 + 10 | 1%nat => 3 | _ => 40000 end in
  random_ac true 36 77 rs = (10 * 65536 + 3) * 65536 + 40000 - 2 ^ 36 * 1 /\
  random_ac false 20 5 rs = 10 * 65536 + 3 /\ random_ac true 4 1 rs = -6 /\ random_builtin 2 rs = 10 * 65536 + 3.
Proof. vm_compute; repeat split; reflexivity. Qed.

(** C124, ac_float with W mantissa bits and E exponent bits: the result is zero, with exponent zero, or normalised, or has the smallest exponent ... *)
Theorem C124_random_float_stored : forall W E oldm olde rs, 2 <= W -> 1 <= E -> let r := random_flt W E oldm olde rs in
  valid_flt W E r /\ (r = (0, 0) \/ fst r <> 0 /\ (normal_mant W (fst r) \/ snd r = - 2 ^ (E - 1))).
Proof. exact random_flt_stored. Qed.
Print Assumptions C124_random_float_stored.
(** ... and every such number is reached, whatever was left over from the previous calls. *)
Theorem C124_random_float_reachable : forall W E R x, 2 <= W -> 1 <= E -> valid_flt W E x ->
  x = (0, 0) \/ fst x <> 0 /\ (normal_mant W (fst x) \/ snd x = - 2 ^ (E - 1)) -> 65535 <= R ->
  exists rs, (forall n, 0 <= rs n <= R) /\ forall oldm olde, random_flt W E oldm olde rs = x.
Proof. exact random_flt_reach. Qed.
Print Assumptions C124_random_float_reachable.
(** Its value is that of a random mantissa and a random exponent, drawn one after the other: the mantissa takes one result for each 16 bits or part of them ... *)
Theorem C124_random_float_value : forall W E oldm olde rs, 2 <= W -> 1 <= E ->
  let m := random_ac true W 0 rs in let e := random_ac true E 0 (fun n => rs (Z.to_nat ((W + 15) / 16) + n)%nat) in let r := random_flt W E oldm olde rs in
  fst r * 2 ^ (snd r + 2 ^ (E - 1)) = m * 2 ^ (e + 2 ^ (E - 1)).
Proof. exact random_flt_value. Qed.
Print Assumptions C124_random_float_value.
(** ... and depends on no other, for any type. *)
Theorem C124_random_reads : forall s w old rs rs', 1 <= w -> (forall n, Z.of_nat n < (w + 15) / 16 -> rs n = rs' n) ->
  random_ac s w old rs = random_ac s w old rs'.
Proof. exact random_reads. Qed.
Print Assumptions C124_random_reads.
Example C124_case : let rs := fun n => match n with O => 1 | 1%nat => 65535 | 2%nat => 7 | _ => 100 end in
  random_flt 20 8 0 0 rs = (131071 * 4, 5) /\ random_flt 20 2 0 0 rs = (131071 * 2, -2) /\ random_flt 16 8 0 0 rs = (16384, -15).
Proof. vm_compute; repeat split; reflexivity. Qed.
