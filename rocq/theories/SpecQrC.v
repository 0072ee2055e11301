(** The QR decomposition of a complex matrix, for the statements about the complex overload of ac_qrd.  A complex matrix is given by
    its real and imaginary parts. *)
From Coq Require Import Reals.
From Verif Require Import AcTypes SpecR SpecCplx SpecLin.
Local Open Scope R_scope.

(** The parts of row i of A times column j of B. *)
Definition mulCr (M : nat) (Ar Ai Br Bi : nat -> nat -> R) (i j : nat) : R := sumR (fun k => Ar i k * Br k j - Ai i k * Bi k j) M.
Definition mulCi (M : nat) (Ar Ai Br Bi : nat -> nat -> R) (i j : nat) : R := sumR (fun k => Ar i k * Bi k j + Ai i k * Br k j) M.

(** Q U is within err of A, Q Q^H within errq of the identity, U is upper triangular up to errt, and the diagonal of U is real up to
    errt, but for its last element unless rd is set. *)
Definition qr_factorsC (rd : bool) (M : nat) (P N Qr Qi Ur Ui : nat -> nat -> R) (err errq errt : R) : Prop :=
  forall i j, (i < M)%nat -> (j < M)%nat ->
    (Rabs (mulCr M Qr Qi Ur Ui i j - P i j) <= err /\ Rabs (mulCi M Qr Qi Ur Ui i j - N i j) <= err) /\
    (Rabs (mulCr M Qr Qi (fun k j => Qr j k) (fun k j => - Qi j k) i j - (if Nat.eqb i j then 1 else 0)) <= errq /\
     Rabs (mulCi M Qr Qi (fun k j => Qr j k) (fun k j => - Qi j k) i j) <= errq) /\
    ((j < i)%nat -> Rabs (Ur i j) <= errt /\ Rabs (Ui i j) <= errt) /\
    ((S i < M)%nat \/ rd = true -> Rabs (Ui i i) <= errt).

(** The error of one rotation, with the piecewise-linear functions or with the exact ones; M x M matrices with columns of length at most lam, whose rotations turn pairs of length at least nu, in
    types fa and fo; [mI] is the number of integer bits of ac_types' mag_sqr of the intermediate type. *)
Definition cqr_eps (pwl : bool) (lam nu : R) : R := pwl_err pwl + 7 * (bpow2 (-32) / (nu * nu)) + 14 * (lam * bpow2 (-32)) + 4 * bpow2 (-32).
Record cqr_types (pwl : bool) (M : nat) (fa fo : fmt) (mI : Z) (lam nu : R) : Prop := {
  ct_m : (2 <= M)%nat; ct_fa : (fF fa <= 32)%Z; ct_wo : (1 <= fW fo)%Z; ct_so : fS fo = true; ct_oo : fO fo <> SAT_SYM;
  ct_l1 : 1 <= lam;
  ct_l2 : 2 * lam <= bpow2 (fI fa + Z.log2_up (Z.of_nat M * (Z.of_nat M - 1) + 1) - 1) - bpow2 (-32);
  ct_mI : (2 * (fI fa + Z.log2_up (Z.of_nat M * (Z.of_nat M - 1) + 1)) - 1 <= mI <= 2 * (fI fa + Z.log2_up (Z.of_nat M * (Z.of_nat M - 1) + 1)))%Z;
  ct_l3 : 2 * lam <= bpow2 (fI fo - 1) - bpow2 (- fF fo);
  ct_nu : bpow2 (-14) <= nu <= 1;
  ct_n : qr_rots M * cqr_eps pwl lam nu <= 3 / 10 }.
