(** Accuracy of a run of a Cholesky decomposition and of a complex reciprocal in floating-point arithmetic. *)
From Coq Require Import Reals.
From Verif Require Import SpecLin CholFloatModel RecipCplxFltModel.
Local Open Scope R_scope.

(** The values vin, vo, vi of the numbers; u bounds the relative errors of the arithmetic, e those of the roots and their reciprocals.  Only the operations
    that the run performs count: s i j k is the sum for the element (i, j) after k subtractions and L the factor. *)
Record accurate {Tin To Ti} (ar : flt_arith Tin To Ti) (vin : Tin -> R) (vo : To -> R) (vi : Ti -> R) (u e : R) (M : nat)
    (A : nat -> nat -> Tin) (L : nat -> nat -> To) (s : nat -> nat -> nat -> Ti) : Prop := {
  ac_in : forall i j, (j <= i < M)%nat -> Rabs (vi (fa_in ar (A i j)) - vin (A i j)) <= u * Rabs (vin (A i j));
  ac_sub : forall i j k, (k < j <= i)%nat -> (i < M)%nat -> let xy := vo (L i k) * vo (L j k) in
    Rabs (vi (fa_sub ar (s i j k) (L i k) (L j k)) - (vi (s i j k) - xy)) <= u * (Rabs (vi (s i j k)) + Rabs xy);
  ac_pos : forall j, (j < M)%nat -> (fa_pos ar (s j j j) = true <-> 0 < vi (s j j j));
  ac_root : forall j, (j < M)%nat -> fa_pos ar (s j j j) = true -> let z := sqrt (vi (s j j j)) in
    Rabs (vo (fa_root ar (s j j j)) - z) <= e * z /\ Rabs (vi (fa_recip ar (s j j j) (L j j)) - / z) <= e * / z;
  ac_mul : forall i j, (j < i < M)%nat -> let r := fa_recip ar (s j j j) (L j j) in
    Rabs (vo (fa_mul ar r (s i j j)) - vi r * vi (s i j j)) <= u * Rabs (vi r * vi (s i j j)) }.

(** Accuracy of the operations of a complex reciprocal at a + i b: u bounds the relative errors of the squared modulus and of the products, e that of the real
    reciprocal, which need only be accurate for numbers other than zero. *)
Record recip_accurate {Tin Ts Tr To} (ar : recip_arith Tin Ts Tr To) (vin : Tin -> R) (vs : Ts -> R) (vr : Tr -> R) (vo : To -> R) (u e : R) (a b : Tin) : Prop := {
  rc_mag : let n := vin a * vin a + vin b * vin b in Rabs (vs (ra_mag ar a b) - n) <= u * n;
  rc_zero : ra_zero ar (ra_mag ar a b) = true <-> vs (ra_mag ar a b) = 0;
  rc_recip : let s := ra_mag ar a b in vs s <> 0 -> Rabs (vr (ra_recip ar s) - / vs s) <= e * Rabs (/ vs s);
  rc_neg : vin (ra_neg ar b) = - vin b;
  rc_mul : forall x, x = a \/ x = ra_neg ar b -> let r := ra_recip ar (ra_mag ar a b) in Rabs (vo (ra_mul ar x r) - vin x * vr r) <= u * Rabs (vin x * vr r) }.
