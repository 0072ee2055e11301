(** Models of ac_matrixmul and ac_determinant for ac_complex<ac_fixed> elements.  A complex number is the pair of the mantissas of
    its parts, which share a format.  No proofs here. *)
From Verif Require Import AcTypes RtTypes SpecMat SpecCplx MatrixModel DetModel.

(** ac_complex (ac_types): conversion of both parts, the product, the sum and the difference, all exact. *)
Definition c_conv (f : fmt) (x : gi) (e : Z) : gi := (conv f (fst x) e, conv f (snd x) e).
Definition c_mul (x y : gi) : gi := (fst x * fst y - snd x * snd y, fst x * snd y + snd x * fst y).
Definition c_add (x y : gi) : gi := (fst x + fst y, snd x + snd y).
Definition c_sub (x y : gi) : gi := (fst x - fst y, snd x - snd y).
Definition c_align (k : Z) (x : gi) : gi := (fst x * 2 ^ k, snd x * 2 ^ k).

(** ac_matrixmul.h:88-105, called by 130-139 and, through m_data, by 180-189, for one element of the result; the loops over i and j
    are those of MatrixModel.matrixmul.  [tp] is the type of the parts of T = rt_T::mult, which is ac_types' choice. *)
Definition cmatrixmul (N : nat) (tp tc : fmt) (F : Z) (a b : nat -> nat -> gi) (i j : nat) : gi :=
  let tadd := rt_sum tp (Z.of_nat N) in
  c_conv tc (fold_left (fun add k =>
               let multiply := c_conv tp (c_mul (a i k) (b k j)) F in
               c_conv tadd (c_add add multiply) F) (seq 0 N) (c_conv tadd (0, 0) 0)) F.

(** ac_determinant.h:312-342 without and with override: as DetModel.det_default and det_override, but the base type takes its
    rounding and overflow mode from the input. *)
Definition cdet_default (M L : Z) (tin tout : fmt) : det_types :=
  let T := det_default M L tin tout in
  DT tin tout (t_c T) (t_temp T) (t_d T) (Fmt (2 * fW tin + 1) (2 * fI tin + 1) true (fQ tin) (fO tin)).
Definition cdet_override (tin tout tint : fmt) : det_types :=
  DT tin tout tint tint tint (Fmt (2 * fW tin + 1) (2 * fI tin + 1) true (fQ tin) (fO tin)).

(** ac_determinant.h:221-229. *)
Definition cdet_minor (j : nat) (A : nat -> nat -> gi) : nat -> nat -> gi := fun p q => A (S p) (S q - (if Nat.leb (S q) j then 1 else 0))%nat.
(** ac_determinant.h:239-241. *)
Definition cdet_acc (T : det_types) (d x : gi) : gi :=
  let Fp := fF (t_in T) + fF (t_c T) in
  let F := Z.max (fF (t_d T)) Fp in
  c_conv (t_d T) (c_add (c_align (F - fF (t_d T)) d) (c_align (F - Fp) x)) F.
(** ac_determinant.h:205-244, 250-260, 267-275. *)
Fixpoint cdet_compute (T : det_types) (M : nat) (A : nat -> nat -> gi) : gi :=
  match M with
  | O => (0, 0)
  | 1%nat => c_conv (t_base T) (A O O) (fF (t_in T))
  | 2%nat =>
      let temp1 := c_conv (t_base T) (c_mul (A O O) (A 1%nat 1%nat)) (2 * fF (t_in T)) in
      let temp2 := c_conv (t_base T) (c_mul (A O 1%nat) (A 1%nat O)) (2 * fF (t_in T)) in
      c_conv (t_base T) (c_sub temp1 temp2) (fF (t_base T))
  | S m =>
      let c j :=
        let pr := Nat.iter (S j) (fun pr => -1 * pr) (-1) in
        let temp := c_conv (t_temp T) (cdet_compute T m (cdet_minor j A)) (fF (ret_type T m)) in
        c_conv (t_c T) (pr * fst temp, pr * snd temp) (fF (t_temp T)) in
      let d := fold_left (fun d j => cdet_acc T d (c_mul (A O j) (c j))) (seq 0 M) (c_conv (t_d T) (0, 0) 0) in
      c_conv (t_out T) d (fF (t_d T))
  end.
(** ac_determinant.h:361-374. *)
Definition cdeterminant (T : det_types) (M : nat) (A : nat -> nat -> gi) : gi :=
  let result1 := c_conv (t_d T) (cdet_compute T M A) (fF (ret_type T M)) in
  c_conv (t_out T) result1 (fF (t_d T)).
