(** Model of include/ac_math/ac_div_v2.h.  No proofs here. *)
From Verif Require Import AcTypes.

(** One iteration, ac_div_v2.h:143-147.  State: (temp_numer, rem, quot). *)
Definition v2_step (NW DW PW D : Z) (st : Z * Z * Z) : Z * Z * Z :=
  let '(T, _, Q) := st in
  let iw := NW + PW + 1 in
  let qw := NW + PW - DW in
  let T2 := shl false iw T 1 in
  let rem := wraps (DW + 1) (wraps iw (shr false iw T2 qw) - wraps iw D) in
  let Q' := if rem <? 0 then wrapu qw (Z.lor (shl false qw Q 1) 0)
            else wrapu qw (Z.lor (shl false qw Q 1) 1) in
  let T' := if rem <? 0 then T2
            else wrapu iw (Z.lor (shl false iw (wrapu iw rem) qw)
                                 (Z.land T2 (shr false iw (imax false iw) (DW + 1)))) in
  (T', rem, Q').

(** ac_div_v2.h:139-149, the body after the assertions: result (quotient, remainder).
    The loop counter has int_qw bits, which is enough to count to int_qw. *)
Definition v2_core (NW DW QW RW PW N D : Z) : Z * Z :=
  let iw := NW + PW + 1 in
  let qw := NW + PW - DW in
  let '(T, rem, Q) := Nat.iter (Z.to_nat qw) (v2_step NW DW PW D) (wrapu iw N, 0, 0) in
  (wrapu QW Q, wrapu RW (if 0 <? rem then wrapu iw rem else shr false iw T qw)).

(** ac_div_v2.h:116-150: unsigned operands.  [None]: an AC_ASSERT of lines 136-137 fails. *)
Definition div_v2_u (NW DW QW RW PW N D : Z) : option (Z * Z) :=
  let min_div := set_bit false DW (DW - PW) true 0 in
  if (D =? 0) || (D <? min_div) then None else Some (v2_core NW DW QW RW PW N D).

(** ac_div_v2.h:220-246: signed operands. *)
Definition div_v2_s (NW DW QW RW PW N D : Z) : option (Z * Z) :=
  if D =? 0 then None else
  let negN := N <? 0 in
  let uN := if negN then wrapu NW (- N) else wrapu NW N in
  let negD := D <? 0 in
  let uD := if negD then wrapu DW (- D) else wrapu DW D in
  match div_v2_u NW DW QW RW PW uN uD with
  | None => None
  | Some (uQ, uR) =>
      let q := if eqb negN negD then wraps QW uQ else wraps QW (- uQ) in
      let rem := wraps RW (if negN then wraps DW (- uR) else wraps DW uR) in
      Some (q, rem)
  end.
