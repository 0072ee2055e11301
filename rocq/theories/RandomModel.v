(** Model of include/ac_math/ac_random.h for ac_int, ac_fixed (mantissa) and ac_float and for unsigned C integers.
    Successive results of rand() are a stream of integers.  No proofs here. *)
From Verif Require Import AcTypes.

(** v.set_slc(0, x) for an n-bit x: replaces the n low bits of a w-bit value. *)
Definition set_low (s : bool) (w n x v : Z) : Z := wrap s w (Z.shiftl (Z.shiftr v n) n + wrapu n x).

(** ac_random.h:208-216: the loop over i = 16, 32, ... < SIZE, k iterations from here. *)
Fixpoint rnd_loop (s : bool) (w : Z) (k : nat) (rs : nat -> Z) (v : Z) : Z :=
  match k with
  | O => v
  | S k =>
      let v := shl s w v 16 in
      let rv := wraps 16 (rs O) in
      rnd_loop s w k (fun n => rs (S n)) (set_low s w 16 rv v)
  end.
(** ac_random.h:205-217 (SMALL = false); i takes the values 16, 32, ... below W. *)
Definition random_large (s : bool) (w v : Z) (rs : nat -> Z) : Z :=
  let rv := wraps 16 (rs O) in
  let v := 0 in
  let v := set_low s w 16 rv v in
  rnd_loop s w (Z.to_nat ((w - 1) / 16)) (fun n => rs (S n)) v.
(** ac_random.h:219-222 (SMALL = true). *)
Definition random_small (s : bool) (w v : Z) (rs : nat -> Z) : Z := set_low s w w (wraps w (rs O)) v.
(** ac_random.h:224-234, 247-257: [old] is what the static v_temp was left with by the previous call. *)
Definition random_ac (s : bool) (w old : Z) (rs : nat -> Z) : Z :=
  if w <=? 16 then random_small s w old rs else random_large s w old rs.

(** ac_random.h:107-116: unsigned C integers of 16*size bits, size >= 2; the loop for i = 1 .. size-1. *)
Fixpoint builtin_loop (bits : Z) (k : nat) (rs : nat -> Z) (v : Z) : Z :=
  match k with
  | O => v
  | S k => builtin_loop bits k (fun n => rs (S n)) (Z.lor (wrapu bits (Z.shiftl v 16)) (Z.land (rs O) 65535))
  end.
Definition random_builtin (size : nat) (rs : nat -> Z) : Z :=
  let bits := 16 * Z.of_nat size in
  builtin_loop bits (size - 1) (fun n => rs (S n)) (wrapu bits (Z.land (rs O) 65535)).

(** The number of calls of rand() for w bits. *)
Definition random_calls (w : Z) : nat := if w <=? 16 then 1%nat else S (Z.to_nat ((w - 1) / 16)).
(** ac_float's normalising constructor (ac_types): zero gets the exponent 0; any other mantissa is shifted left until its
    two top bits differ or the exponent is the smallest one. *)
Definition flt_norm (W E m e : Z) : Z * Z :=
  if m =? 0 then (0, 0)
  else let l := Z.min (leading_sign_s W m) (e - - 2 ^ (E - 1)) in (shl true W m l, e - l).
(** ac_random.h:268-280; the mantissa takes the first results of rand(), the exponent the following ones. *)
Definition random_flt (W E oldm olde : Z) (rs : nat -> Z) : Z * Z :=
  flt_norm W E (random_ac true W oldm rs) (random_ac true E olde (fun n => rs (random_calls W + n)%nat)).
