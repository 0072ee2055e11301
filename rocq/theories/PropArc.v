(** Properties C75-C77: the CORDIC arc sine and arc cosine.  [AF] is the number of fraction bits of the argument [t], [fo]
    the output type.  The results are in units of pi. *)
From Coq Require Import Reals ZArith.
From Verif Require Import AcTypes Spec SpecR ArcModel ArcThm ArcSin.
Open Scope Z.

(** C75: the arc sine is within four units of the output's last place, before the conversion to the output type. *)
Theorem C75_arcsin_accuracy : forall AF fo t, 1 <= fW fo -> 1 <= fF fo <= 64 -> (Rabs (fxval t AF) <= 1)%R ->
  exists V, (Rabs (V - asin (fxval t AF) / PI) <= 4 * bpow2 (- fF fo))%R /\ convertsR fo V (arcsin_cordic AF fo t).
Proof. exact arcsin_accurate. Qed.
Print Assumptions C75_arcsin_accuracy.
(** Arguments 0.5, 1, -0.5, 0, 0.9766 and -1. *)
Example C75_case : map (arcsin_cordic 12 (Fmt 16 4 true TRN WRAP)) [2048; 4096; -2048; 0; 4000; -4096] = [682; 2047; -683; 0; 1765; -2048].
Proof. vm_compute. reflexivity. Qed.

(** C76: the same for the arc cosine; the number converted is not negative, so that an unsigned output does not wrap, for
    non-negative arguments (for the others this follows from the accuracy, with three or more fraction bits). *)
Theorem C76_arccos_accuracy : forall AF fo t, 1 <= fW fo -> 1 <= fF fo <= 64 -> (Rabs (fxval t AF) <= 1)%R ->
  exists V, (Rabs (V - acos (fxval t AF) / PI) <= 4 * bpow2 (- fF fo))%R /\ convertsR fo V (arccos_cordic AF fo t) /\ (0 <= t -> (0 <= V)%R).
Proof. exact arccos_accurate. Qed.
Print Assumptions C76_arccos_accuracy.
Example C76_case : map (arccos_cordic 12 (Fmt 16 4 false TRN WRAP)) [2048; 4096; -2048; 0; 4000; -4096] = [1365; 0; 2730; 2047; 282; 4095].
Proof. vm_compute. reflexivity. Qed.

(** C77: arcsin(-t) and -arcsin(t) are conversions of the same number, and so are arccos(-t) and 1 - arccos(t). *)
Theorem C77_arcsin_odd : forall AF fo t, 1 <= fW fo -> 0 < t ->
  exists V, (0 <= V)%R /\ convertsR fo V (arcsin_cordic AF fo t) /\ convertsR fo (- V) (arcsin_cordic AF fo (- t)).
Proof. exact arcsin_odd. Qed.
Print Assumptions C77_arcsin_odd.
Theorem C77_arccos_reflection : forall AF fo t, 1 <= fW fo -> 0 <= fF fo -> 0 < t ->
  exists V, convertsR fo V (arccos_cordic AF fo t) /\ convertsR fo (1 - V) (arccos_cordic AF fo (- t)).
Proof. exact arccos_refl. Qed.
Print Assumptions C77_arccos_reflection.
(** Rounding down makes the two results differ by one unit in the last place in magnitude. *)
Example C77_case : arcsin_cordic 12 (Fmt 16 4 true TRN WRAP) 1000 = 321 /\ arcsin_cordic 12 (Fmt 16 4 true TRN WRAP) (-1000) = -322 /\
  arccos_cordic 12 (Fmt 16 4 false TRN WRAP) 1000 = 1726 /\ arccos_cordic 12 (Fmt 16 4 false TRN WRAP) (-1000) = 2369.
Proof. vm_compute. auto. Qed.
