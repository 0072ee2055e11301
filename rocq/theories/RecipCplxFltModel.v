(** Model of the ac_complex<ac_float> overloads of ac_reciprocal_pwl.h, ac_reciprocal_pwl_ha.h and ac_reciprocal_pwl_vha.h.  No proofs here.
    The three differ in the widths of the temporaries and in the function called for the real reciprocal.  The arithmetic of ac_float belongs to ac_types:
    here it is a parameter, with the types of the parts of the input (Tin), of the squared modulus (Ts), of its reciprocal (Tr) and of the output (To). *)
From Verif Require Import AcTypes.

(** The operations of ac_reciprocal_pwl.h:540-570, ac_reciprocal_pwl_ha.h:522-552 and ac_reciprocal_pwl_vha.h:565-591. *)
Record recip_arith (Tin Ts Tr To : Type) := {
  ra_mag : Tin -> Tin -> Ts;    (** input_mag_sqr.add(x * x, y * y), lines 557, 539 and 578 *)
  ra_zero : Ts -> bool;         (** mantissa() == 0, lines 562, 544 and 583 *)
  ra_recip : Ts -> Tr;          (** the real reciprocal, lines 558, 540 and 579 *)
  ra_neg : Tin -> Tin;          (** the unary minus, lines 565, 547 and 586 *)
  ra_mul : Tin -> Tr -> To;     (** the product assigned to a part of the output, lines 564-565, 546-547 and 585-586 *)
  ra_max : To }.                (** set_val<AC_VAL_MAX>(), lines 569-570, 551-552 and 590-591 *)
Arguments ra_mag {Tin Ts Tr To} _ _ _. Arguments ra_zero {Tin Ts Tr To} _ _. Arguments ra_recip {Tin Ts Tr To} _ _.
Arguments ra_neg {Tin Ts Tr To} _ _. Arguments ra_mul {Tin Ts Tr To} _ _ _. Arguments ra_max {Tin Ts Tr To} _.

(** ac_reciprocal_pwl.h:524-573, ac_reciprocal_pwl_ha.h:506-555, ac_reciprocal_pwl_vha.h:549-594. *)
Definition recip_cflt {Tin Ts Tr To} (ar : recip_arith Tin Ts Tr To) (a b : Tin) : To * To :=
  let s := ra_mag ar a b in
  let r := ra_recip ar s in
  if negb (ra_zero ar s) then (ra_mul ar a r, ra_mul ar (ra_neg ar b) r) else (ra_max ar, ra_max ar).
