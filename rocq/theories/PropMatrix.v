(** Properties C24-C27 and C29: ac_array, ac_matrix and ac_matrixmul. *)
From Coq Require Import Lia.
From Verif Require Import AcTypes Spec RtTypes SpecMat MatrixModel ArrayProofs MatrixProofs.

(** C24: any history of in-range set / clear / clearAll calls leaves in each element what the last call that
    touched it wrote, and the calls never leave the storage. *)
Theorem C24_history : forall T (zero : T) ops d, Forall (op_in_range (length d)) ops ->
  exists d', run zero d ops = Some d' /\ length d' = length d /\
    forall j x, at1 d j = Some x -> at1 d' j = Some (last_write zero ops j x).
Proof. exact @run_ok. Qed.
Print Assumptions C24_history.
Theorem C24_out_of_range : forall T (d : list T) i v, (length d <= i)%nat -> set1_i d i v = None.
Proof. exact @set_i_out. Qed.
Print Assumptions C24_out_of_range.
Theorem C24_set_1 : forall T (d : list T) i v, (i < length d)%nat -> exists d', set1_i d i v = Some d' /\
  forall j, at1 d' j = if Nat.eqb j i then Some v else at1 d j.
Proof. exact @set_i_1. Qed.
Print Assumptions C24_set_1.
Theorem C24_set_2 : forall T (d : list (list T)) i v, (i < length d)%nat -> exists d', set2_i d i v = Some d' /\
  forall j k, at2 d' j k = if Nat.eqb j i then if at2 d j k then Some v else None else at2 d j k.
Proof. exact @set_i_2. Qed.
Print Assumptions C24_set_2.
Theorem C24_set_3 : forall T (d : list (list (list T))) i v, (i < length d)%nat -> exists d', set3_i d i v = Some d' /\
  forall j k l, at3 d' j k l = if Nat.eqb j i then if at3 d j k l then Some v else None else at3 d j k l.
Proof. exact @set_i_3. Qed.
Print Assumptions C24_set_3.
(** Filling writes every element of every dimension and changes no shape. *)
Theorem C24_fill : forall T (d1 : list T) (d2 : list (list T)) (d3 : list (list (list T))) v,
  (forall i, at1 (set1 d1 v) i = if at1 d1 i then Some v else None) /\
  (forall i j, at2 (set2 d2 v) i j = if at2 d2 i j then Some v else None) /\
  (forall i j k, at3 (set3 d3 v) i j k = if at3 d3 i j k then Some v else None).
Proof. exact @fill_ok. Qed.
Print Assumptions C24_fill.
Theorem C24_equal_1 : forall T (neq : T -> T -> bool), (forall x y, neq x y = false <-> x = y) -> forall a b,
  length a = length b -> eq1 neq a b = true <-> a = b.
Proof. exact @eq1_ok. Qed.
Print Assumptions C24_equal_1.
Theorem C24_equal_2 : forall T (neq : T -> T -> bool), (forall x y, neq x y = false <-> x = y) -> forall D1 D2 a b,
  shape2 D1 D2 a -> shape2 D1 D2 b -> eq2 neq a b = true <-> a = b.
Proof. exact @eq2_ok. Qed.
Print Assumptions C24_equal_2.
Theorem C24_equal_3 : forall T (neq : T -> T -> bool), (forall x y, neq x y = false <-> x = y) -> forall D1 D2 D3 a b,
  shape3 D1 D2 D3 a -> shape3 D1 D2 D3 b -> eq3 neq a b = true <-> a = b.
Proof. exact @eq3_ok. Qed.
Print Assumptions C24_equal_3.
Theorem C24_not_equal : forall T (neq : T -> T -> bool), (forall x y, neq x y = false <-> x = y) -> forall a b,
  length a = length b -> arr_ne neq a b = true <-> exists i, (i < length a)%nat /\ at1 a i <> at1 b i.
Proof. exact @ne1_ok. Qed.
Print Assumptions C24_not_equal.
Example C24_case : let ne x y := negb (Z.eqb x y) in
  run 0 [1; 2; 3; 4] [SetI 1%nat 9; ClearI 3%nat; SetI 1%nat 8] = Some [1; 8; 3; 0] /\
  set2 [[1; 2]; [3; 4]] 7 = [[7; 7]; [7; 7]] /\ set2_i [[1; 2]; [3; 4]] 1%nat 7 = Some [[1; 2]; [7; 7]] /\
  eq2 ne [[1; 2]; [3; 4]] [[1; 2]; [3; 5]] = false /\ eq2 ne [[1; 2]; [3; 4]] [[1; 2]; [3; 4]] = true.
Proof. vm_compute; repeat split; reflexivity. Qed.

(** C25: true for square matrices, also for shorter lists. *)
Theorem C25_init_square : forall A N (m : list (list A)) vs, (1 <= N)%nat -> shape2 N N m -> (length vs <= N * N)%nat ->
  exists m', init_list N N m vs = Some m' /\ shape2 N N m' /\
    forall r c, (r < N)%nat -> (c < N)%nat ->
      at2 m' r c = match nth_error vs (r * N + c) with Some v => Some v | None => at2 m r c end.
Proof. exact @init_square. Qed.
Print Assumptions C25_init_square.
(** False for every other shape: with more columns than rows every full list writes outside the matrix, ... *)
Theorem C25_init_wide_refuted : forall A M N (m : list (list A)) vs, (1 <= M < N)%nat -> shape2 M N m ->
  length vs = (M * N)%nat -> init_list M N m vs = None.
Proof. exact @init_wide. Qed.
Print Assumptions C25_init_wide_refuted.
(** ... and with more rows than columns value number N does not arrive at row 1, column 0. *)
Theorem C25_init_tall_refuted : forall M N (m m' : list (list nat)), (1 <= N < M)%nat -> shape2 M N m -> at2 m 1 0 <> Some N ->
  init_list M N m (seq 0 (M * N)) = Some m' -> at2 m' 1 0 <> Some N.
Proof. exact init_tall. Qed.
Print Assumptions C25_init_tall_refuted.
Example C25_case : init_list 2 2 [[0; 0]; [0; 0]] [1; 2; 3; 4] = Some [[1; 2]; [3; 4]] /\
  init_list 2 3 [[0; 0; 0]; [0; 0; 0]] [1; 2; 3; 4; 5; 6] = None /\
  init_list 3 2 [[0; 0]; [0; 0]; [0; 0]] [1; 2; 3; 4; 5; 6] = Some [[3; 2]; [5; 6]; [0; 0]].
Proof. vm_compute; repeat split; reflexivity. Qed.

(** C26: entries are mantissas of the element types. *)
Theorem C26_add : forall M N ta tb a b i j, 1 <= fW ta -> 1 <= fW tb -> fits_mat M N ta a -> fits_mat M N tb b ->
  (i < M)%nat -> (j < N)%nat ->
  let F := Z.max (fF ta) (fF tb) in
  mat_add M N ta tb a b i j = a i j * 2 ^ (F - fF ta) + b i j * 2 ^ (F - fF tb).
Proof. exact mat_add_ok. Qed.
Print Assumptions C26_add.
Theorem C26_subtract : forall M N ta tb a b i j, 1 <= fW ta -> 1 <= fW tb -> fits_mat M N ta a -> fits_mat M N tb b ->
  (i < M)%nat -> (j < N)%nat ->
  let F := Z.max (fF ta) (fF tb) in
  mat_minus M N ta tb a b i j = a i j * 2 ^ (F - fF ta) - b i j * 2 ^ (F - fF tb).
Proof. exact mat_minus_ok. Qed.
Print Assumptions C26_subtract.
Theorem C26_pwisemult : forall M N ta tb a b i j, 1 <= fW ta -> 1 <= fW tb -> fits_mat M N ta a -> fits_mat M N tb b ->
  (i < M)%nat -> (j < N)%nat -> mat_pwise M N ta tb a b i j = a i j * b i j.
Proof. exact mat_pwise_ok. Qed.
Print Assumptions C26_pwisemult.
Theorem C26_add_assign : forall M N t a b i j, 1 <= fW t -> (i < M)%nat -> (j < N)%nat ->
  converts2 t (a i j + b i j) (- fF t) (mat_add_to M N t a b i j).
Proof. exact mat_add_to_ok. Qed.
Print Assumptions C26_add_assign.
Theorem C26_sub_assign : forall M N t a b i j, 1 <= fW t -> (i < M)%nat -> (j < N)%nat ->
  converts2 t (a i j - b i j) (- fF t) (mat_sub_to M N t a b i j).
Proof. exact mat_sub_to_ok. Qed.
Print Assumptions C26_sub_assign.
Theorem C26_scale : forall M N t fs s a i j, 1 <= fW t -> (i < M)%nat -> (j < N)%nat ->
  converts2 t (s * a i j) (- (fs + fF t)) (mat_scale M N t fs s a i j).
Proof. exact mat_scale_ok. Qed.
Print Assumptions C26_scale.
Theorem C26_submatrix : forall R S a row col i j, (i < R)%nat -> (j < S)%nat ->
  mat_sub R S a row col i j = a (row + i)%nat (col + j)%nat.
Proof. exact mat_sub_ok. Qed.
Print Assumptions C26_submatrix.
Theorem C26_transpose : forall M N a i j, (i < N)%nat -> (j < M)%nat -> mat_transpose M N a i j = a j i.
Proof. exact mat_transpose_ok. Qed.
Print Assumptions C26_transpose.
Theorem C26_transpose_involution : forall M N a i j, (i < M)%nat -> (j < N)%nat ->
  mat_transpose N M (mat_transpose M N a) i j = a i j.
Proof. exact mat_transpose_involution. Qed.
Print Assumptions C26_transpose_involution.
Theorem C26_equal : forall M N neq a b, (forall x y, neq x y = false <-> x = y) ->
  mat_eq M N M N neq a b = true <-> (forall i j, (i < M)%nat -> (j < N)%nat -> a i j = b i j).
Proof. exact mat_eq_ok. Qed.
Print Assumptions C26_equal.
Theorem C26_not_equal : forall M N M2 N2 neq a b, (forall x y, neq x y = false <-> x = y) ->
  mat_ne M N M2 N2 neq a b = true <->
  (M2, N2) <> (M, N) \/ exists i j, (i < M)%nat /\ (j < N)%nat /\ a i j <> b i j.
Proof. exact mat_ne_ok. Qed.
Print Assumptions C26_not_equal.
Theorem C26_sum_wrapping : forall M N t a, 1 <= fW t -> fO t = WRAP ->
  is_limited WRAP (fS t) (fW t) (msum M N a) (mat_sum M N t a).
Proof. exact mat_sum_wrap. Qed.
Print Assumptions C26_sum_wrapping.
Theorem C26_sum_exact : forall M N t a, 1 <= fW t -> fits_mat M N t a ->
  msum M N (fun i j => Z.abs (a i j)) <= highest (fS t) (fW t) -> mat_sum M N t a = msum M N a.
Proof. exact mat_sum_exact. Qed.
Print Assumptions C26_sum_exact.
(** operator*: the sum of products modulo the accumulator's width, ... *)
Theorem C26_multiply_wrapping : forall M N Q ta tb a b i j, 1 <= fW ta -> 1 <= fW tb -> (i < M)%nat -> (j < Q)%nat ->
  is_limited WRAP (fS ta || fS tb) (fW ta + fW tb + Z.log2_up (Z.of_nat N - 1))
             (zsum N (fun k => a i k * b k j)) (mat_mul M N Q ta tb a b i j).
Proof. exact mat_mul_mod. Qed.
Print Assumptions C26_multiply_wrapping.
(** ... which is exact for all contents unless the inner dimension is 2^k+1, ... *)
Theorem C26_multiply_exact : forall M N Q ta tb a b i j, 1 <= fW ta -> 1 <= fW tb -> (2 <= N)%nat ->
  (forall k, 0 <= k -> Z.of_nat N <> 2 ^ k + 1) ->
  fits_mat M N ta a -> fits_mat N Q tb b -> (i < M)%nat -> (j < Q)%nat ->
  mat_mul M N Q ta tb a b i j = zsum N (fun k => a i k * b k j).
Proof. exact mat_mul_exact. Qed.
Print Assumptions C26_multiply_exact.
(** ... and loses the top bit for some contents in each of those dimensions (2, 3, 5, 9, ...). *)
Theorem C26_multiply_refuted : forall k, 0 <= k -> exists w (a : mat),
  let N := Z.to_nat (2 ^ k + 1) in let t := dfmt w w false in
  1 <= w /\ fits_mat N N t a /\ mat_mul N N N t t a a 0%nat 0%nat < zsum N (fun l => a 0%nat l * a l 0%nat).
Proof. exact mat_mul_short. Qed.
Print Assumptions C26_multiply_refuted.
Theorem C26_multiply_transpose : forall M N Q ta tb a b i j, 1 <= fW ta -> 1 <= fW tb -> (i < Q)%nat -> (j < M)%nat ->
  mat_transpose M Q (mat_mul M N Q ta tb a b) i j =
  mat_mul Q N M tb ta (mat_transpose N Q b) (mat_transpose M N a) i j.
Proof. exact mat_mul_transpose. Qed.
Print Assumptions C26_multiply_transpose.
Example C26_case : let t := dfmt 4 4 false in let a := fun i j : nat => 15 in let b := fun i j : nat => Z.of_nat (3 * i + j) in
  mat_mul 2 2 2 t t a a 0%nat 0%nat = 194 /\ zsum 2 (fun k => a 0%nat k * a k 0%nat) = 450 /\
  mat_mul 4 4 4 t t a a 1%nat 2%nat = 900 /\ mat_sum 2 2 t b = 8 /\ mat_transpose 2 2 b 0%nat 1%nat = 3 /\
  mat_add 2 2 t (dfmt 4 2 true) a (fun _ _ => -3) 0%nat 0%nat = 57 /\ mat_sub 1 1 b 1 1 0%nat 0%nat = 4.
Proof. vm_compute; repeat split; reflexivity. Qed.

(** C27 *)
Theorem C27_matrixmul : forall M N P ta tb tc a b i j, 1 <= fW ta -> 1 <= fW tb -> 1 <= fW tc -> (1 <= N)%nat ->
  fits_mat M N ta a -> fits_mat N P tb b -> (i < M)%nat -> (j < P)%nat ->
  converts2 tc (zsum N (fun k => a i k * b k j)) (- (fF ta + fF tb)) (matrixmul M N P ta tb tc a b i j).
Proof. exact matrixmul_ok. Qed.
Print Assumptions C27_matrixmul.
Theorem C27_accumulator : forall M N P ta tb a b i j n, 1 <= fW ta -> 1 <= fW tb -> (1 <= n <= N)%nat ->
  fits_mat M N ta a -> fits_mat N P tb b -> (i < M)%nat -> (j < P)%nat ->
  in_range (fS ta || fS tb) (fW (rt_sum (rt_mult ta tb) (Z.of_nat N))) (zsum n (fun k => a i k * b k j)).
Proof. exact matrixmul_acc_ok. Qed.
Print Assumptions C27_accumulator.
Example C27_case : let t := dfmt 4 2 true in
  matrixmul 3 3 3 t t (Fmt 6 5 true RND SAT) (fun _ _ => -8) (fun i j => Z.of_nat (i + j) - 8) 2%nat 1%nat = 18.
Proof. vm_compute; reflexivity. Qed.

(** C29 *)
Theorem C29_det2 : forall t a, 1 <= fW t -> converts2 t (det 2 a) (- (2 * fF t)) (mat_det2 t a).
Proof. exact mat_det2_ok. Qed.
Print Assumptions C29_det2.
Theorem C29_det3 : forall t a, 1 <= fW t -> converts2 t (det 3 a) (- (3 * fF t)) (mat_det3 t a).
Proof. exact mat_det3_ok. Qed.
Print Assumptions C29_det3.
Theorem C29_det2_transpose : forall t a, mat_det2 t (mat_transpose 2 2 a) = mat_det2 t a.
Proof. exact mat_det2_transpose. Qed.
Print Assumptions C29_det2_transpose.
Theorem C29_det3_transpose : forall t a, mat_det3 t (mat_transpose 3 3 a) = mat_det3 t a.
Proof. exact mat_det3_transpose. Qed.
Print Assumptions C29_det3_transpose.
Theorem C29_det2_swap : forall t a, 1 <= fW t -> converts2 t (- det 2 a) (- (2 * fF t)) (mat_det2 t (swap_rows 0 1 a)).
Proof. exact mat_det2_swap. Qed.
Print Assumptions C29_det2_swap.
Theorem C29_det3_swap : forall t a r1 r2, 1 <= fW t -> (r1 < r2 < 3)%nat ->
  converts2 t (- det 3 a) (- (3 * fF t)) (mat_det3 t (swap_rows r1 r2 a)).
Proof. exact mat_det3_swap. Qed.
Print Assumptions C29_det3_swap.
Example C29_case : let a := fun i j => match i, j with O, O => 2 | O, 1%nat => -1 | 1%nat, O => 3 | 1%nat, 1%nat => 5 | 2%nat, 2%nat => 4 | _, _ => 1 end in
  mat_det2 (dfmt 8 8 true) a = 13 /\ mat_det3 (dfmt 8 8 true) a = 47 /\ mat_det3 (dfmt 8 8 true) (swap_rows 0 2 a) = -47.
Proof. vm_compute; repeat split; reflexivity. Qed.
