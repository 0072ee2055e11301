(** Models of include/ac_math/ac_abs.h (ac_int, ac_fixed, ac_float) and of ac_relu.h, ac_leakyrelu.h, ac_prelu.h.
    No proofs here. *)
From Verif Require Import AcTypes.

(** ac_abs.h:127-128: the unsigned XW-bit absolute value.  [xltz] is a signed one-bit value, 0 or -1. *)
Definition abs_core (XW x : Z) : Z :=
  let xltz := wraps 1 (b2z (x <? 0)) in
  wrapu XW (slc XW 0 (Z.lxor xltz x) + wrapu 1 xltz).
(** ac_abs.h:121-141: both output signs. *)
Definition abs_int (XW YW : Z) (YS : bool) (x : Z) : Z := wrap YS YW (abs_core XW x).
(** ac_abs.h:183-208: both output signs; [x] is the mantissa. *)
Definition abs_fx (XW XI : Z) (f : fmt) (x : Z) : Z :=
  let xi := wraps XW (slc XW 0 x) in
  let xiabs := wrapu XW (abs_core XW xi) in
  let xabs := slc XW 0 xiabs in
  conv f xabs (XW - XI).
(** ac_abs.h:250-267: mantissa and exponent of the intermediate [xabs]; its conversion to the output ac_float type
    belongs to ac_types and is not modelled. *)
Definition abs_float (XW XE m e : Z) : Z * Z :=
  let xabs_m := slc XW 0 (wrapu XW (abs_core XW (wraps XW (slc XW 0 m)))) in
  let ismax := Z.testbit xabs_m (XW - 1) in
  (wraps XW (slc (XW - 1) (b2z ismax) xabs_m), wraps (XE + 1) (e + b2z ismax)).

(** ac_relu.h: [output = (input>0)?input:0]; [x] has F fraction bits. *)
Definition relu (F : Z) (f : fmt) (x : Z) : Z := if 0 <? x then conv f x F else conv f 0 F.
(** ac_leakyrelu.h and ac_prelu.h: the product alpha*input is exact, with FA+F fraction bits. *)
Definition leakyrelu (F FA : Z) (f : fmt) (x a : Z) : Z := if 0 <? x then conv f x F else conv f (a * x) (FA + F).
Definition prelu (F FA : Z) (f : fmt) (x a : Z) : Z := if 0 <? x then conv f x F else conv f (a * x) (FA + F).
