(** Properties C07-C08: ac_div_v2. *)
From Coq Require Import Lia.
From Verif Require Import AcTypes Spec DivV2Model DivV2Proofs.

(** C07: Euclidean division for divisors in the supported range. *)
Theorem C07_div_v2_unsigned : forall NW DW QW RW PW N D q r,
  1 <= NW -> 1 <= DW -> 1 <= PW <= DW -> DW < NW + PW -> 0 <= N < 2 ^ NW -> 2 ^ (DW - PW) <= D < 2 ^ DW ->
  N = q * D + r -> 0 <= r < D ->
  div_v2_u NW DW QW RW PW N D = Some (q mod 2 ^ QW, r mod 2 ^ RW).
Proof. exact div_v2_u_spec. Qed.
Print Assumptions C07_div_v2_unsigned.
Example C07_case : div_v2_u 8 5 8 5 3 200 13 = Some (15, 5) /\ 2 ^ (5 - 3) <= 13.
Proof. vm_compute; split; [reflexivity|discriminate]. Qed.
(** C07: exactly the divisors below the supported range are rejected. *)
Theorem C07_div_v2_rejects : forall NW DW QW RW PW N D, 1 <= PW <= DW ->
  (div_v2_u NW DW QW RW PW N D = None <-> D = 0 \/ D < 2 ^ (DW - PW)).
Proof. exact div_v2_u_reject. Qed.
Print Assumptions C07_div_v2_rejects.
Example C07_case_reject : div_v2_u 8 5 8 5 3 200 3 = None.
Proof. vm_compute; reflexivity. Qed.
(** C07: below that bound the computation behind the assertion is wrong, so the bound is needed. *)
Theorem C07_bound_needed : exists NW DW QW RW PW N D q r,
  1 <= NW /\ 1 <= PW <= DW /\ DW < NW + PW /\ 0 <= N < 2 ^ NW /\ 0 < D < 2 ^ (DW - PW) /\
  N = q * D + r /\ 0 <= r < D /\ 0 <= q < 2 ^ QW /\ 0 <= r < 2 ^ RW /\ v2_core NW DW QW RW PW N D <> (q, r).
Proof. exists 8, 5, 8, 5, 3, 200, 3, 66, 2. vm_compute. repeat split; discriminate. Qed.
Print Assumptions C07_bound_needed.

(** C08: truncating division of signed operands. *)
Theorem C08_div_v2_signed : forall NW DW QW RW PW N D q r,
  1 <= NW -> 1 <= DW -> 1 <= PW <= DW -> DW < NW + PW -> 1 <= QW -> 1 <= RW ->
  - 2 ^ (NW - 1) <= N < 2 ^ (NW - 1) -> - 2 ^ (DW - 1) <= D < 2 ^ (DW - 1) -> 2 ^ (DW - PW) <= Z.abs D ->
  N = q * D + r -> Z.abs r < Z.abs D -> (r <> 0 -> (r < 0 <-> N < 0)) ->
  exists q' r', div_v2_s NW DW QW RW PW N D = Some (q', r') /\
    is_limited WRAP true QW q q' /\ is_limited WRAP true RW r r'.
Proof. exact div_v2_s_limited. Qed.
Print Assumptions C08_div_v2_signed.
Example C08_case : div_v2_s 8 5 8 5 3 (-128) (-16) = Some (8, 0) /\ div_v2_s 8 5 8 5 3 (-100) 7 = Some (-14, -2).
Proof. vm_compute; split; reflexivity. Qed.
Theorem C08_div_v2_signed_rejects : forall NW DW QW RW PW N D,
  1 <= PW <= DW -> - 2 ^ (DW - 1) <= D < 2 ^ (DW - 1) ->
  (div_v2_s NW DW QW RW PW N D = None <-> Z.abs D < 2 ^ (DW - PW)).
Proof. exact div_v2_s_reject. Qed.
Print Assumptions C08_div_v2_signed_rejects.
Example C08_case_reject : div_v2_s 8 5 8 5 3 (-128) (-3) = None /\ div_v2_s 8 5 8 5 3 (-128) (-4) = Some (32, 0).
Proof. vm_compute; split; reflexivity. Qed.
