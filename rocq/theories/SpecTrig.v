(** Error bounds in the statements about the CORDIC functions. *)
From Coq Require Import Reals.
From Verif Require Import AcTypes SpecR.
Local Open Scope R_scope.

(** The error of C sin(pi a) and C cos(pi a) for a result of type fo, before it is converted to fo: c is C. *)
Definition cordic_err (fo : fmt) (c : R) : R :=
  (9 / 10 + Rabs c / 16) * bpow2 (- fF fo) + Rabs c * (7 * bpow2 (- fW fo) + bpow2 (-48)).

(** th is the angle of the point (x, y), in (-pi, pi]. *)
Definition is_atan2 (y x th : R) : Prop :=
  - PI < th <= PI /\ x = sqrt (x * x + y * y) * cos th /\ y = sqrt (x * x + y * y) * sin th.
(** The error of the arctangent of a point at distance r from the origin, before it is converted to fo. *)
Definition atan2_err (fo : fmt) (r : R) : R := (3 / 8 + / (100 * r)) * bpow2 (- fF fo) + bpow2 (-50).
