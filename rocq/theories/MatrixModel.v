(** Models of include/ac_array.h, include/ac_matrix.h and include/ac_math/ac_matrixmul.h.  No proofs here.
    An out-of-range access is undefined behaviour and is the distinct outcome [None]. *)
From Verif Require Import AcTypes RtTypes SpecMat.

(** *** ac_array.h *)

(** d[i] = v on the storage of an array; None outside it. *)
Fixpoint upd {A} (d : list A) (i : nat) (v : A) : option (list A) :=
  match d, i with
  | [], _ => None
  | _ :: t, O => Some (v :: t)
  | x :: t, S i => match upd t i v with Some t => Some (x :: t) | None => None end
  end.

Definition obind {A B} (o : option A) (g : A -> option B) : option B := match o with Some a => g a | None => None end.

(** ac_array_b<T,Td,D>.  [assign t v] is the element assignment [t = v] of a Td to a T. *)
Section ArrayB.
  Context {T Td : Type} (assign : T -> Td -> T) (neq : T -> T -> bool).
  (** ac_array.h:149-152: set(i, ival). *)
  Definition arr_set_i (d : list T) (i : nat) (v : Td) : option (list T) :=
    obind (nth_error d i) (fun t => upd d i (assign t v)).
  (** ac_array.h:143-147: set(ival), the loop over all indices; D is the length of d. *)
  Definition arr_set (d : list T) (v : Td) : option (list T) :=
    fold_left (fun o i => obind o (fun d => arr_set_i d i v)) (seq 0 (length d)) (Some d).
  (** ac_array.h:160-168, 154-158 with dc = false: clear(i) assigns 0. *)
  Definition arr_clear (zero : Td) (d : list T) (i : nat) : option (list T) := arr_set_i d i zero.
  Definition arr_clear_all (zero : Td) (d : list T) : option (list T) :=
    fold_left (fun o i => obind o (fun d => arr_clear zero d i)) (seq 0 (length d)) (Some d).
  (** ac_array.h:172-185: element-wise comparison with early exit. *)
  Fixpoint arr_eq (d other : list T) : bool :=
    match d, other with
    | x :: d, y :: other => if neq x y then false else arr_eq d other
    | _, _ => true
    end.
  Definition arr_ne (d other : list T) : bool := negb (arr_eq d other).
End ArrayB.

(** ac_array<T,D1>, ac_array<T,D1,D2>, ac_array<T,D1,D2,D3> (ac_array.h:196-224): assignment of a scalar to a
    sub-array is its own set(v).  The loops cannot leave the storage, so the option is discharged with the old value. *)
Definition oget {A} (o : option A) (d : A) : A := match o with Some a => a | None => d end.
Section Nested.
  Context {T : Type}.
  Definition asg1 (_ v : T) : T := v.
  Definition set1 (d : list T) (v : T) : list T := oget (arr_set asg1 d v) d.
  Definition set2 (d : list (list T)) (v : T) : list (list T) := oget (arr_set set1 d v) d.
  Definition set3 (d : list (list (list T))) (v : T) : list (list (list T)) := oget (arr_set set2 d v) d.
  Definition set1_i (d : list T) (i : nat) (v : T) := arr_set_i asg1 d i v.
  Definition set2_i (d : list (list T)) (i : nat) (v : T) := arr_set_i set1 d i v.
  Definition set3_i (d : list (list (list T))) (i : nat) (v : T) := arr_set_i set2 d i v.
  (** A history of set / clear / clearAll calls on a one-dimensional array. *)
  Definition run_op (zero : T) (d : list T) (op : arr_op T) : option (list T) :=
    match op with
    | SetI i v => set1_i d i v
    | SetAll v => arr_set asg1 d v
    | ClearI i => arr_clear asg1 zero d i
    | ClearAll => arr_clear_all asg1 zero d
    end.
  Definition run (zero : T) (d : list T) (ops : list (arr_op T)) : option (list T) :=
    fold_left (fun o op => obind o (fun d => run_op zero d op)) ops (Some d).
  Variable neq : T -> T -> bool.
  Definition eq1 := arr_eq neq.
  Definition eq2 := arr_eq (arr_ne neq).
  Definition eq3 := arr_eq (arr_ne (arr_ne neq)).
End Nested.

(** *** ac_matrix.h *)

(** m_data as rows of the row-major storage, with checked access. *)
Definition mget {A} (m : list (list A)) (r c : nat) : option A := obind (nth_error m r) (fun row => nth_error row c).
Definition mset {A} (m : list (list A)) (r c : nat) (v : A) : option (list (list A)) :=
  obind (nth_error m r) (fun row => obind (upd row c v) (fun row => upd m r row)).

(** ac_matrix.h:131-149: construction of an ac_matrix<T,M,N> from an initializer list. *)
Definition init_list {A} (M N : nat) (m : list (list A)) (vs : list A) : option (list (list A)) :=
  fst (fold_left (fun '(o, index) v => (obind o (fun m => mset m (index / M) (index mod N) v), S index))
                 vs (Some m, O)).

(** A matrix of mantissas; all entries share the format of the element type. *)
Definition mat := nat -> nat -> Z.
Definition put (m : mat) (r c : nat) (v : Z) : mat := fun i j => if Nat.eqb i r && Nat.eqb j c then v else m i j.
(** [for i < M, for j < N: result(i,j) = g(i,j)] on an uninitialised result; the body may read the current contents. *)
Definition loop2 (M N : nat) (body : nat -> nat -> mat -> Z) (m : mat) : mat :=
  fold_left (fun m i => fold_left (fun m j => put m i j (body i j m)) (seq 0 N) m) (seq 0 M) m.
Definition uninit : mat := fun _ _ => 0.

(** ac_matrix.h:198-209: submatrix of R x S elements. *)
Definition mat_sub (R S : nat) (a : mat) (row col : nat) : mat := loop2 R S (fun i j _ => a (i + row)%nat (j + col)%nat) uninit.
(** ac_matrix.h:215-234: != with early exit, == as its negation. *)
Definition mat_ne (M N M2 N2 : nat) (neq : Z -> Z -> bool) (a b : mat) : bool :=
  if negb (Nat.eqb M2 M) then true else if negb (Nat.eqb N2 N) then true
  else existsb (fun i => existsb (fun j => neq (a i j) (b i j)) (seq 0 N)) (seq 0 M).
Definition mat_eq (M N M2 N2 : nat) (neq : Z -> Z -> bool) (a b : mat) : bool := negb (mat_ne M N M2 N2 neq a b).
(** ac_matrix.h:241-249 and 265-273: the result element type is rt::plus / rt::minus. *)
Definition mat_add (M N : nat) (ta tb : fmt) (a b : mat) : mat :=
  loop2 M N (fun i j _ => conv (rt_plus ta tb) (fx_add ta tb (a i j) (b i j)) (rt_f ta tb)) uninit.
Definition mat_minus (M N : nat) (ta tb : fmt) (a b : mat) : mat :=
  loop2 M N (fun i j _ => conv (rt_minus ta tb) (fx_sub ta tb (a i j) (b i j)) (rt_f ta tb)) uninit.
(** ac_matrix.h:253-260 and 277-284: in place, converted to the element type. *)
Definition mat_add_to (M N : nat) (t : fmt) (a b : mat) : mat :=
  loop2 M N (fun i j m => conv t (m i j + b i j) (fF t)) a.
Definition mat_sub_to (M N : nat) (t : fmt) (a b : mat) : mat :=
  loop2 M N (fun i j m => conv t (m i j - b i j) (fF t)) a.
(** ac_matrix.h:293-301. *)
Definition mat_pwise (M N : nat) (ta tb : fmt) (a b : mat) : mat :=
  loop2 M N (fun i j _ => conv (rt_mult ta tb) (fx_mul (a i j) (b i j)) (fF ta + fF tb)) uninit.
(** ac_matrix.h:311-325: the running sum has the type set<N-1>::sum of the product type. *)
Definition mat_mul (M N Q : nat) (ta tb : fmt) (a b : mat) : mat :=
  let tsum := rt_sum (rt_mult ta tb) (Z.of_nat N - 1) in
  loop2 M Q (fun i j _ =>
    conv tsum (fold_left (fun s k => conv tsum (s + fx_mul (a i k) (b k j)) (fF ta + fF tb)) (seq 0 N) (conv tsum 0 0))
         (fF ta + fF tb)) uninit.
(** ac_matrix.h:331-339. *)
Definition mat_transpose (M N : nat) (a : mat) : mat :=
  fold_left (fun m i => fold_left (fun m j => put m j i (a i j)) (seq 0 N) m) (seq 0 M) uninit.
(** ac_matrix.h:345-353: accumulated in the element type. *)
Definition mat_sum (M N : nat) (t : fmt) (a : mat) : Z :=
  fold_left (fun s i => fold_left (fun s j => conv t (s + a i j) (fF t)) (seq 0 N) s) (seq 0 M) (conv t 0 0).
(** ac_matrix.h:360-368: the scale factor has fs fraction bits. *)
Definition mat_scale (M N : nat) (t : fmt) (fs s : Z) (a : mat) : mat :=
  loop2 M N (fun i j _ => conv t (fx_mul s (a i j)) (fs + fF t)) uninit.
(** ac_matrix.h:439-450: determinants of 2x2 and 3x3 matrices, exact until the conversion to T on return. *)
Definition mat_det2 (t : fmt) (a : mat) : Z := conv t (a 0%nat 0%nat * a 1%nat 1%nat - a 0%nat 1%nat * a 1%nat 0%nat) (2 * fF t).
Definition mat_det3 (t : fmt) (m : mat) : Z :=
  conv t (m 0%nat 0%nat * (m 1%nat 1%nat * m 2%nat 2%nat - m 1%nat 2%nat * m 2%nat 1%nat) - m 0%nat 1%nat * (m 1%nat 0%nat * m 2%nat 2%nat - m 1%nat 2%nat * m 2%nat 0%nat)
          + m 0%nat 2%nat * (m 1%nat 0%nat * m 2%nat 1%nat - m 1%nat 1%nat * m 2%nat 0%nat)) (3 * fF t).

(** *** ac_matrixmul.h:88-105 (ac_fixed elements), called by 113-122 and, through m_data, by 162-172. *)
Definition matrixmul (M N P : nat) (ta tb tc : fmt) (a b : mat) : mat :=
  let t := rt_mult ta tb in
  let tadd := rt_sum t (Z.of_nat N) in
  loop2 M P (fun i j _ =>
    conv tc (fold_left (fun add k =>
               let multiply := conv t (fx_mul (a i k) (b k j)) (fF ta + fF tb) in
               conv tadd (add + multiply) (fF ta + fF tb)) (seq 0 N) (conv tadd 0 0))
         (fF ta + fF tb)) uninit.
