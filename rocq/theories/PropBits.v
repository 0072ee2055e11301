(** Properties C16-C20, C22: bit searches, normalisation, barrel shift. *)
From Coq Require Import Lia.
From Verif Require Import AcTypes SpecBits LeadingModel LeadingProofs.

(** C16: unsigned searches. *)
Theorem C16_leading1 : forall W din, 1 <= W -> 0 <= din < 2 ^ W -> is_highest (Z.testbit din) W (leading1_u W din).
Proof. exact leading1_u_ok. Qed.
Print Assumptions C16_leading1.
Theorem C16_trailing1 : forall W din, 1 <= W -> is_lowest (Z.testbit din) W (trailing1_u W din).
Proof. exact trailing1_u_ok. Qed.
Print Assumptions C16_trailing1.
Theorem C16_leading0 : forall W din, 1 <= W ->
  is_highest (fun j => negb (Z.testbit din j)) W (leading0_u W din).
Proof. exact leading0_u_ok. Qed.
Print Assumptions C16_leading0.
Theorem C16_trailing0 : forall W din, 1 <= W ->
  is_lowest (fun j => negb (Z.testbit din j)) W (trailing0_u W din).
Proof. exact trailing0_u_ok. Qed.
Print Assumptions C16_trailing0.
Example C16_case : leading1_u 8 44 = (5, true) /\ trailing1_u 8 44 = (2, true) /\ leading0_u 8 236 = (4, true) /\
  trailing0_u 8 239 = (4, true) /\ leading1_u 8 0 = (0, false) /\ trailing0_u 8 255 = (0, false).
Proof. vm_compute; repeat split; reflexivity. Qed.

(** C17: signed searches look at the W-1 bits below the sign bit. *)
Theorem C17_leading1 : forall W din, 2 <= W -> is_highest (Z.testbit din) (W - 1) (leading1_s W din).
Proof. exact leading1_s_ok. Qed.
Print Assumptions C17_leading1.
Theorem C17_trailing1 : forall W din, 2 <= W -> is_lowest (Z.testbit din) (W - 1) (trailing1_s W din).
Proof. exact trailing1_s_ok. Qed.
Print Assumptions C17_trailing1.
Theorem C17_leading0 : forall W din, 2 <= W -> is_highest (fun j => negb (Z.testbit din j)) (W - 1) (leading0_s W din).
Proof. exact leading0_s_ok. Qed.
Print Assumptions C17_leading0.
Theorem C17_trailing0 : forall W din, 2 <= W -> is_lowest (fun j => negb (Z.testbit din j)) (W - 1) (trailing0_s W din).
Proof. exact trailing0_s_ok. Qed.
Print Assumptions C17_trailing0.
(** -20 = ...11101100. *)
Example C17_case : leading1_s 8 (-20) = (6, true) /\ trailing1_s 8 (-20) = (2, true) /\ leading0_s 8 (-20) = (4, true) /\
  trailing0_s 8 (-20) = (0, true) /\ leading1_s 8 (-128) = (0, false) /\ leading0_s 8 (-1) = (0, false).
Proof. vm_compute; repeat split; reflexivity. Qed.

(** C18: right up to four bits, wrong at some index for every larger width. *)
Theorem C18_leading_ones_up_to_4 : forall N din i, 1 <= N <= 4 -> 0 < din < 2 ^ N ->
  2 ^ i <= din < 2 ^ (i + 1) -> 0 <= i -> leading_ones N din = (true, i).
Proof. exact ones_small. Qed.
Print Assumptions C18_leading_ones_up_to_4.
Theorem C18_leading_ones_refuted : forall N, 5 <= N -> exists i, 0 <= i < N /\ snd (leading_ones N (2 ^ i)) <> i.
Proof. exact ones_wrong. Qed.
Print Assumptions C18_leading_ones_refuted.
Example C18_case : leading_ones 4 11 = (true, 3) /\ leading_ones 5 16 = (true, 2) /\ leading_ones 8 128 = (true, 3).
Proof. vm_compute; repeat split; reflexivity. Qed.

(** C19: x * 2^-(W-I) = m * 2^-W * 2^e (unsigned) and m is normalised. *)
Theorem C19_normalize_unsigned : forall W I O x, 1 <= W -> 0 < x < 2 ^ W ->
  let '(e, m) := normalize W I false O x in
  e <= I /\ m = x * 2 ^ (I - e) /\ normal_u W m.
Proof. exact normalize_u_ok. Qed.
Print Assumptions C19_normalize_unsigned.
(** Signed: x * 2^-(W-I) = m * 2^-(W-1) * 2^e. *)
Theorem C19_normalize_signed : forall W I O x, 2 <= W -> - 2 ^ (W - 1) <= x < 2 ^ (W - 1) -> x <> 0 ->
  (O = SAT_SYM -> forall k, 0 <= k -> x <> - 2 ^ k) ->
  let '(e, m) := normalize W I true O x in
  e <= I - 1 /\ m = x * 2 ^ (I - 1 - e) /\ normal_s W m.
Proof. exact normalize_s_ok. Qed.
Print Assumptions C19_normalize_signed.
Theorem C19_normalize_zero : forall W I S O, 1 <= W -> normalize W I S O 0 = (0, 0).
Proof. exact normalize_0. Qed.
Print Assumptions C19_normalize_zero.
Example C19_case : normalize 8 4 false WRAP 5 = (-1, 160) /\ normalize 8 4 true WRAP (-4) = (-2, -128).
Proof. vm_compute; split; reflexivity. Qed.
(** With AC_SAT_SYM every negative power of two is changed by the final assignment. *)
Theorem C19_sat_sym_refuted :
  exists W I x, 2 <= W /\ - 2 ^ (W - 1) < x < 2 ^ (W - 1) /\ x <> 0 /\
    let '(e, m) := normalize W I true SAT_SYM x in m <> x * 2 ^ (I - 1 - e).
Proof. exists 8, 4, (-4). vm_compute. repeat split; congruence. Qed.
Print Assumptions C19_sat_sym_refuted.

(** C20: both parts of a complex value are scaled alike, exactly, and one of them is normalised. *)
Theorem C20_normalize_complex_unsigned : forall W I O x y, 1 <= W ->
  0 <= x < 2 ^ W -> 0 <= y < 2 ^ W -> x <> 0 \/ y <> 0 ->
  let '(e, (mx, my)) := normalize_cplx W I false O x y in
  e <= I /\ mx = x * 2 ^ (I - e) /\ my = y * 2 ^ (I - e) /\ (normal_u W mx \/ normal_u W my).
Proof. exact normalize_cplx_u_ok. Qed.
Print Assumptions C20_normalize_complex_unsigned.
Theorem C20_normalize_complex_signed : forall W I O x y, 2 <= W ->
  - 2 ^ (W - 1) <= x < 2 ^ (W - 1) -> - 2 ^ (W - 1) <= y < 2 ^ (W - 1) -> x <> 0 \/ y <> 0 ->
  (O = SAT_SYM -> forall k, 0 <= k -> x <> - 2 ^ k /\ y <> - 2 ^ k) ->
  let '(e, (mx, my)) := normalize_cplx W I true O x y in
  e <= I - 1 /\ mx = x * 2 ^ (I - 1 - e) /\ my = y * 2 ^ (I - 1 - e) /\ (normal_s W mx \/ normal_s W my).
Proof. exact normalize_cplx_s_ok. Qed.
Print Assumptions C20_normalize_complex_signed.
Theorem C20_normalize_complex_zero : forall W I S O, 1 <= W -> normalize_cplx W I S O 0 0 = (0, (0, 0)).
Proof. exact normalize_cplx_0. Qed.
Print Assumptions C20_normalize_complex_zero.
Example C20_case : normalize_cplx 8 4 true WRAP 5 (-8) = (-1, (80, -128)) /\ normalize_cplx 8 4 true WRAP 0 (-8) = (-1, (0, -128)).
Proof. vm_compute; split; reflexivity. Qed.
Theorem C20_sat_sym_refuted :
  exists W I x y, 2 <= W /\ - 2 ^ (W - 1) < x < 2 ^ (W - 1) /\ - 2 ^ (W - 1) < y < 2 ^ (W - 1) /\ y <> 0 /\
    let '(e, (mx, my)) := normalize_cplx W I true SAT_SYM x y in my <> y * 2 ^ (I - 1 - e).
Proof. exists 8, 4, 0, (-8). vm_compute. repeat split; congruence. Qed.
Print Assumptions C20_sat_sym_refuted.

(** C22: rotation to the right by s, for every N and every s the count type can hold. *)
Theorem C22_barrel_shift : forall N din s, 2 <= N -> 0 <= din < 2 ^ N -> 0 <= s < 2 ^ nbits (N - 1) ->
  0 <= barrel_shift N din s < 2 ^ N /\
  forall j, 0 <= j < N -> Z.testbit (barrel_shift N din s) j = Z.testbit din ((j + s) mod N).
Proof. exact barrel_shift_ok. Qed.
Print Assumptions C22_barrel_shift.
(** 1101001 rotated right by 3 is 0011101; by 7 is itself. *)
Example C22_case : barrel_shift 7 105 3 = 29 /\ barrel_shift 7 105 7 = 105 /\ barrel_shift 5 19 7 = 28.
Proof. vm_compute; repeat split; reflexivity. Qed.
