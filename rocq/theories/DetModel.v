(** Model of include/ac_math/ac_determinant.h for ac_fixed elements.  No proofs here. *)
From Verif Require Import AcTypes MatrixModel.

(** The element, output and internal types of one instantiation. *)
Record det_types := DT { t_in : fmt; t_out : fmt; t_c : fmt; t_temp : fmt; t_d : fmt; t_base : fmt }.

(** ac_determinant.h:281-308 without override; L is log2_floor of Factorial<M>::value. *)
Definition det_default (M L : Z) (tin tout : fmt) : det_types :=
  DT tin tout
     (Fmt (M * fW tin + L) (M * fI tin + L) true RND SAT)
     (Fmt (M * fW tin) (M * fI tin) true RND SAT)
     (Fmt (M * fW tin) (M * fI tin) true RND SAT)
     (Fmt (2 * fW tin + 1) (2 * fI tin + 1) true RND SAT).
(** ac_determinant.h:281-308 with override: the caller's internal type everywhere but in the base case. *)
Definition det_override (tin tout tint : fmt) : det_types :=
  DT tin tout tint tint tint (Fmt (2 * fW tin + 1) (2 * fI tin + 1) true RND SAT).

(** Return type of determinant_matrix<M>::determinant_compute: 208 for M >= 3, 253 and 270 for M = 2 and 1. *)
Definition ret_type (T : det_types) (M : nat) : fmt := if Nat.leb M 2 then t_base T else t_out T.

(** ac_determinant.h:221-229: the minor of A without row 0 and column j.  The loops write every element of b. *)
Definition det_minor (j : nat) (A : mat) : mat := fun p q => A (S p) (S q - (if Nat.leb (S q) j then 1 else 0))%nat.
(** ac_determinant.h:239-241: d = d + A(0,j)*c[j]. *)
Definition det_acc (T : det_types) (d x : Z) : Z :=
  let Fp := fF (t_in T) + fF (t_c T) in
  let F := Z.max (fF (t_d T)) Fp in
  conv (t_d T) (d * 2 ^ (F - fF (t_d T)) + x * 2 ^ (F - Fp)) F.
(** ac_determinant.h:205-244, 250-260, 267-275. *)
Fixpoint det_compute (T : det_types) (M : nat) (A : mat) : Z :=
  match M with
  | O => 0
  | 1%nat => conv (t_base T) (A O O) (fF (t_in T))
  | 2%nat =>
      let temp1 := conv (t_base T) (A O O * A 1%nat 1%nat) (2 * fF (t_in T)) in
      let temp2 := conv (t_base T) (A O 1%nat * A 1%nat O) (2 * fF (t_in T)) in
      conv (t_base T) (temp1 - temp2) (fF (t_base T))
  | S m =>
      let c j :=
        let pr := Nat.iter (S j) (fun pr => -1 * pr) (-1) in
        let temp := conv (t_temp T) (det_compute T m (det_minor j A)) (fF (ret_type T m)) in
        conv (t_c T) (pr * temp) (fF (t_temp T)) in
      let d := fold_left (fun d j => det_acc T d (A O j * c j)) (seq 0 M) (conv (t_d T) 0 0) in
      conv (t_out T) d (fF (t_d T))
  end.
(** ac_determinant.h:361-374. *)
Definition determinant (T : det_types) (M : nat) (A : mat) : Z :=
  let result1 := conv (t_d T) (det_compute T M A) (fF (ret_type T M)) in
  conv (t_out T) result1 (fF (t_d T)).
