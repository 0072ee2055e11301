(** Real sums and quadratic forms, for the statements about linear algebra. *)
From Coq Require Import Reals.
From Verif Require Import AcTypes SpecR.
Local Open Scope R_scope.

(** The sum of f k for k < n. *)
Fixpoint sumR (f : nat -> R) (n : nat) : R := match n with O => 0 | S n => sumR f n + f n end.

(** The value x^T A x of the quadratic form of the n x n matrix A, and the square of the 1-norm of x. *)
Definition quadR (A : nat -> nat -> R) (x : nat -> R) (n : nat) : R := sumR (fun i => sumR (fun j => x i * A i j * x j) n) n.
Definition norm1sq (x : nat -> R) (n : nat) : R := sumR (fun i => Rabs (x i)) n * sumR (fun i => Rabs (x i)) n.

(** The types for which the Cholesky factorisation is accurate: fo is the output type, fi that of the sums. *)
Record chol_types (fo fi : fmt) : Prop := {
  tk_wo : (3 <= fW fo)%Z; tk_wi : (1 <= fW fi)%Z; tk_so : fS fo = true; tk_si : fS fi = true;
  tk_oo : fO fo = SAT; tk_oi : fO fi = SAT;
  tk_int : (fI fi <= 2 * fI fo - 2)%Z;              (* the square root of a pivot fits *)
  tk_fra : (0 <= fF fi <= 2 * fF fo - 2)%Z;         (* the square root of the least pivot is not rounded to zero *)
  tk_rec : (fF fi <= 2 * fI fi - 4)%Z }.            (* its reciprocal fits *)

(** The error bound for a matrix of size M with entries up to b: about 2 sqrt(b) u + 2 b sqrt(b) ui + M ui, where u and
    ui are the units in the last place of fo and fi. *)
Definition chol_room (M : nat) (fi : fmt) (b : R) : R := b + INR (M + 1) * bpow2 (- fF fi).
Definition chol_err (M : nat) (fo fi : fmt) (b : R) : R :=
  let B := chol_room M fi b in
  INR M * bpow2 (- fF fi) + 2 * (sqrt B + bpow2 (- fF fo)) * (bpow2 (- fF fo) + B * bpow2 (- fF fi)).

(** The same with the piecewise-linear square root and inverse square root: 0.4 per cent more. *)
Definition chol_err_pwl (M : nat) (fo fi : fmt) (b : R) : R :=
  let B := chol_room M fi b in
  INR M * bpow2 (- fF fi) + (4 / 1000 * B + 201 / 100 * (sqrt B + bpow2 (- fF fo)) * (bpow2 (- fF fo) + 2 * B * bpow2 (- fF fi))).

(** The output is all zeros. *)
Definition zero_out (M : nat) (out : nat -> nat -> option Z) : Prop := forall i j, (i < M)%nat -> (j < M)%nat -> out i j = Some 0%Z.

(** The output is a lower triangular L with a positive diagonal, and L L^T is within err of A. *)
Definition chol_factors (M : nat) (A : nat -> nat -> R) (F : Z) (err : R) (out : nat -> nat -> option Z) (L : nat -> nat -> Z) : Prop :=
  (forall i j, (i < M)%nat -> (j < M)%nat -> out i j = Some (L i j)) /\
  (forall i j, (i < j < M)%nat -> L i j = 0%Z) /\ (forall j, (j < M)%nat -> (0 < L j j)%Z) /\
  (forall i j, (j <= i < M)%nat -> Rabs (A i j - sumR (fun k => fxval (L i k) F * fxval (L j k) F) M) <= err).

(** The conditions and bounds for ac_cholinv: ft is the type of its sums, fo that of its output; be bounds the entries of
    the factor L and ga those of its inverse. [top] is the largest value of a signed type. *)
Definition top (f : fmt) : R := bpow2 (fI f - 1) - bpow2 (- fF f).
Definition inv_res (M : nat) (ft : fmt) (be ga : R) : R :=
  INR M * bpow2 (- fF ft) + be * bpow2 (- fF ft) * (1 + INR M * (be * ga) + INR M * bpow2 (- fF ft)).
Record inv_room (M : nat) (ft fo : fmt) (be ga : R) : Prop := {
  ir_m : (1 <= M)%nat; ir_w : (1 <= fW fo)%Z; ir_s : fS fo = true; ir_o : fO fo = SAT; ir_b : 0 <= be; ir_g : 0 <= ga;
  ir_1 : ga < top ft;
  ir_2 : INR M * (be * ga) + INR M * bpow2 (- fF ft) <= top ft;
  ir_3 : INR M * (ga * ga) + INR M * bpow2 (- fF ft) <= top ft;
  ir_4 : INR M * (ga * ga) + INR M * bpow2 (- fF ft) <= top fo;
  ir_5 : INR M * inv_res M ft be ga <= 1 / 2 }.
Definition inv_err (M : nat) (ft fo : fmt) (e1 be ga : R) : R :=
  let m := INR M in let e2 := inv_res M ft be ga in let e3 := m * bpow2 (- fF ft) + bpow2 (- fF fo) in
  e2 + 2 * (m * m * (be * ga)) * (m * m * (be * ga)) * e2 + m * m * (be * be) * e3 + m * m * (ga * ga) * e1 + m * e1 * e3.

(** The conditions and bounds for ac_qrd: lam bounds the length of every column, nu from below that of every pair of
    elements that a rotation turns. The internal type has I = fI fa + ceil(log2(n + 1)) integer bits, n = M (M-1) / 2
    being the number of rotations, and 32 fraction bits. *)
Definition qr_rots (M : nat) : R := INR (M * (M - 1) / 2).
(** The error of one rotation, with the piecewise-linear inverse square root ([pwl]) or with ac_sqrt and ac_div. *)
Definition pwl_err (pwl : bool) : R := if pwl then / 600 else 0.
Definition qr_eps (pwl : bool) (lam nu : R) : R := pwl_err pwl + 7 * (bpow2 (-32) / (nu * nu)) + 10 * (lam * bpow2 (-32)) + 2 * bpow2 (-32).
Record qr_types (pwl : bool) (M : nat) (fa fo : fmt) (lam nu : R) : Prop := {
  qt_m : (2 <= M)%nat; qt_fa : (fF fa <= 32)%Z; qt_wo : (1 <= fW fo)%Z; qt_so : fS fo = true; qt_oo : fO fo <> SAT_SYM;
  qt_l1 : 1 <= lam;
  qt_l2 : 2 * lam <= bpow2 (fI fa + Z.log2_up (Z.of_nat M * (Z.of_nat M - 1) / 2 + 1) - 1) - bpow2 (-32);
  qt_l3 : 2 * lam <= bpow2 (fI fo - 1) - bpow2 (- fF fo);
  qt_nu : bpow2 (-14) <= nu <= 1;
  qt_n : qr_rots M * qr_eps pwl lam nu <= 3 / 10 }.

(** Sum of products of row i of A and column j of B. *)
Definition mulR (M : nat) (A B : nat -> nat -> R) (i j : nat) : R := sumR (fun k => A i k * B k j) M.

(** Q U is within err of A, Q Q^T within errq of the identity, and U is upper triangular up to errt. *)
Definition qr_factors (M : nat) (A Q U : nat -> nat -> R) (err errq errt : R) : Prop :=
  forall i j, (i < M)%nat -> (j < M)%nat ->
    Rabs (mulR M Q U i j - A i j) <= err /\
    Rabs (mulR M Q (fun k j => Q j k) i j - (if Nat.eqb i j then 1 else 0)) <= errq /\
    ((j < i)%nat -> Rabs (U i j) <= errt).
