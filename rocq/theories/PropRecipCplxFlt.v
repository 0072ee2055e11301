(** C128: the reciprocals of ac_complex<ac_float> numbers, for every arithmetic of ac_float. *)
From Coq Require Import Reals QArith.
From Verif Require Import AcTypes SpecFlt RecipCplxFltModel RecipCplxFlt.

(** u bounds the relative errors of the squared modulus and of the products, e that of the real reciprocal.  Both parts have a small relative error, and the
    product of the argument and the result is within k of one. *)
Theorem C128_reciprocal_complex_float_accuracy : forall (Tin Ts Tr To : Type) (ar : recip_arith Tin Ts Tr To) vin vs vr vo u e a b x y,
  (0 <= u < 1)%R -> (0 <= e)%R -> recip_accurate ar vin vs vr vo u e a b -> vin a <> 0%R \/ vin b <> 0%R -> recip_cflt ar a b = (x, y) ->
  (let n := vin a * vin a + vin b * vin b in let k := (1 + u) * (1 + e) / (1 - u) - 1 in
   Rabs (vo x - vin a / n) <= k * Rabs (vin a / n) /\ Rabs (vo y - - vin b / n) <= k * Rabs (vin b / n) /\
   (vin a * vo x - vin b * vo y - 1) * (vin a * vo x - vin b * vo y - 1) + (vin a * vo y + vin b * vo x) * (vin a * vo y + vin b * vo x) <= k * k)%R.
Proof. exact @recip_cflt_err. Qed.
Print Assumptions C128_reciprocal_complex_float_accuracy.
(** For zero both parts are the largest number. *)
Theorem C128_reciprocal_complex_float_zero : forall (Tin Ts Tr To : Type) (ar : recip_arith Tin Ts Tr To) vin vs vr vo u e a b,
  (0 <= u < 1)%R -> recip_accurate ar vin vs vr vo u e a b -> vin a = 0%R -> vin b = 0%R -> recip_cflt ar a b = (ra_max ar, ra_max ar).
Proof. exact @recip_cflt_zero. Qed.
Print Assumptions C128_reciprocal_complex_float_zero.
(** An arithmetic whose results are too small by the factors 1 - u and 1 - e is accurate in this sense. *)
Example C128_accurate : forall u e m a b, (0 <= u)%R -> (0 <= e)%R -> recip_accurate (low_recip u e m) (fun x => x) (fun x => x) (fun x => x) (fun x => x) u e a b.
Proof. exact low_recip_accurate. Qed.
(** 1/(1 + 2i) and 1/0 in rational arithmetic. *)
Definition rat_recip : recip_arith Q Q Q Q :=
  Build_recip_arith Q Q Q Q (fun x y => Qred (x * x + y * y)) (fun s => (Qnum s =? 0)%Z) Qinv Qopp (fun x r => Qred (x * r)) 1000%Q.
Example C128_case : recip_cflt rat_recip 1%Q 2%Q = (1 # 5, -2 # 5)%Q /\ recip_cflt rat_recip 0%Q 0%Q = (1000, 1000)%Q.
Proof. vm_compute; split; reflexivity. Qed.
