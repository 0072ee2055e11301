(** Result types of ac_types operators (ac_fixed::rt and rt_unary), used by the matrix code.
    As with AcTypes.v this is the trusted reading of the external library.  No proofs here. *)
From Verif Require Import AcTypes.

(** rt_T<T2>::mult: the exact product. *)
Definition rt_mult (a b : fmt) : fmt := dfmt (fW a + fW b) (fI a + fI b) (fS a || fS b).
(** rt_T<T2>::plus and ::minus: one more integer bit than the larger operand, counting the extra bit an unsigned
    operand needs next to a signed one. *)
Definition rt_i (a b : fmt) : Z :=
  Z.max (fI a + b2z (fS b && negb (fS a))) (fI b + b2z (fS a && negb (fS b))) + 1.
Definition rt_f (a b : fmt) : Z := Z.max (fF a) (fF b).
Definition rt_plus (a b : fmt) : fmt := dfmt (rt_i a b + rt_f a b) (rt_i a b) (fS a || fS b).
Definition rt_minus (a b : fmt) : fmt := dfmt (rt_i a b + rt_f a b) (rt_i a b) true.
(** rt_unary::set<n>::sum: log2_ceil<n> more integer bits. *)
Definition rt_sum (a : fmt) (n : Z) : fmt := dfmt (fW a + Z.log2_up n) (fI a + Z.log2_up n) (fS a).

(** Mantissas of the operators, before any conversion. *)
Definition fx_mul (x y : Z) : Z := x * y.                                   (* fraction bits F1 + F2 *)
Definition fx_align (F x fx : Z) : Z := x * 2 ^ (F - fx).                   (* x with fx <= F fraction bits, at F *)
Definition fx_add (a b : fmt) (x y : Z) : Z := fx_align (rt_f a b) x (fF a) + fx_align (rt_f a b) y (fF b).
Definition fx_sub (a b : fmt) (x y : Z) : Z := fx_align (rt_f a b) x (fF a) - fx_align (rt_f a b) y (fF b).

(** Mantissa x of format a is in range. *)
Definition fits (a : fmt) (x : Z) : Prop := in_range (fS a) (fW a) x.
(** Every element of an M x N matrix is a value of its type. *)
Definition fits_mat (M N : nat) (t : fmt) (a : nat -> nat -> Z) : Prop :=
  forall i j, (i < M)%nat -> (j < N)%nat -> fits t (a i j).
