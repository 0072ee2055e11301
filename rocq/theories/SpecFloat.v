(** Exact sums of floating-point values: what the adder trees are compared with. *)
From Coq Require Export ZArith Bool List. Export ListNotations.
Local Open Scope Z_scope.

(** The sum of m * 2^e over the list, in units of 2^e0; meant for e0 no larger than any exponent. *)
Definition fsum (e0 : Z) (xs : list (Z * Z)) : Z := fold_right (fun x s => fst x * 2 ^ (snd x - e0) + s) 0 xs.

(** A W-bit signed mantissa and an E-bit signed exponent. *)
Definition valid_flt (W E : Z) (x : Z * Z) : Prop :=
  - 2 ^ (W - 1) <= fst x < 2 ^ (W - 1) /\ - 2 ^ (E - 1) <= snd x < 2 ^ (E - 1).

(** Order of dyadic numbers: a * 2^i against b * 2^j, for exponents of either sign. *)
Definition dle (a i b j : Z) : Prop := a * 2 ^ (i - Z.min i j) <= b * 2 ^ (j - Z.min i j).
Definition dlt (a i b j : Z) : Prop := a * 2 ^ (i - Z.min i j) < b * 2 ^ (j - Z.min i j).

(** A W-bit mantissa whose two top bits differ. *)
Definition normal_mant (W m : Z) : Prop :=
  2 ^ (W - 2) <= m < 2 ^ (W - 1) \/ - 2 ^ (W - 1) <= m < - 2 ^ (W - 2).

(** The float (m, e), W mantissa bits and E exponent bits, is p * 2^k truncated towards minus infinity and limited to the
    float's range.  Mantissas are integers here, so p * 2^k is counted in units of the mantissa's last bit at exponent 0.
    With [gradual] small results are subnormal (exponent at its minimum); without it they are zero. *)
Definition truncates (gradual : bool) (W E p k : Z) (r : Z * Z) : Prop :=
  let '(m, e) := r in
  let top := 2 ^ (E - 1) - 1 in let bot := - 2 ^ (E - 1) in
  valid_flt W E r /\
  (dle (2 ^ (W - 1)) top p k -> m = 2 ^ (W - 1) - 1 /\ e = top) /\
  (dlt p k (- 2 ^ (W - 1)) top -> m = - 2 ^ (W - 1) /\ e = top) /\
  (dle (- 2 ^ (W - 1)) top p k -> dlt p k (2 ^ (W - 1)) top ->
   if gradual || negb (Z.eqb m 0) then dle m e p k /\ dlt p k (m + 1) e /\ (p = 0 \/ e = bot \/ normal_mant W m)
   else dle (- 2 ^ (W - 2)) bot p k /\ dlt p k (2 ^ (W - 2)) bot).
