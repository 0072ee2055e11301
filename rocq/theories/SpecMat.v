(** Specification vocabulary for arrays and matrices. *)
From Verif Require Import AcTypes.

(** f 0 + ... + f (n-1). *)
Fixpoint zsum (n : nat) (f : nat -> Z) : Z := match n with O => 0 | S n => zsum n f + f n end.

(** Sum of all elements of an M x N matrix. *)
Definition msum (M N : nat) (a : nat -> nat -> Z) : Z := zsum M (fun i => zsum N (fun j => a i j)).

(** Element access in nested arrays; None outside the array. *)
Definition at1 {T} (d : list T) (i : nat) : option T := nth_error d i.
Definition at2 {T} (d : list (list T)) (i j : nat) : option T :=
  match nth_error d i with Some r => nth_error r j | None => None end.
Definition at3 {T} (d : list (list (list T))) (i j k : nat) : option T :=
  match nth_error d i with Some r => at2 r j k | None => None end.

(** Shape of nested arrays. *)
Definition shape2 {T} (D1 D2 : nat) (d : list (list T)) : Prop :=
  length d = D1 /\ forall r, In r d -> length r = D2.
Definition shape3 {T} (D1 D2 D3 : nat) (d : list (list (list T))) : Prop :=
  length d = D1 /\ forall r, In r d -> shape2 D2 D3 r.

(** Operations of a one-dimensional array and what the last one to write element j left there. *)
Inductive arr_op (T : Type) := SetI (i : nat) (v : T) | SetAll (v : T) | ClearI (i : nat) | ClearAll.
Arguments SetI {T}. Arguments SetAll {T}. Arguments ClearI {T}. Arguments ClearAll {T}.
Fixpoint last_write {T} (zero : T) (ops : list (arr_op T)) (j : nat) (init : T) : T :=
  match ops with
  | [] => init
  | op :: ops =>
      last_write zero ops j
        (match op with
         | SetI i v => if Nat.eqb i j then v else init
         | SetAll v => v
         | ClearI i => if Nat.eqb i j then zero else init
         | ClearAll => zero
         end)
  end.
Definition op_in_range {T} (D : nat) (op : arr_op T) : Prop :=
  match op with SetI i _ | ClearI i => (i < D)%nat | _ => True end.

(** The determinant by Leibniz' formula: the sum over all permutations p of the columns of
    (-1)^(number of inversions of p) times the product of the a i (p i). *)
Fixpoint selects {A} (l : list A) : list (A * list A) :=
  match l with [] => [] | x :: t => (x, t) :: map (fun yr => (fst yr, x :: snd yr)) (selects t) end.
Fixpoint perms {A} (n : nat) (l : list A) : list (list A) :=
  match n with O => [[]] | S n => flat_map (fun xr => map (cons (fst xr)) (perms n (snd xr))) (selects l) end.
Fixpoint inversions (p : list nat) : nat :=
  match p with [] => O | x :: t => (length (filter (fun y => Nat.ltb y x) t) + inversions t)%nat end.
Fixpoint prod_from (a : nat -> nat -> Z) (i : nat) (p : list nat) : Z :=
  match p with [] => 1 | c :: p => a i c * prod_from a (S i) p end.
Definition zsum_list (l : list Z) : Z := fold_right Z.add 0 l.
Definition det (n : nat) (a : nat -> nat -> Z) : Z :=
  zsum_list (map (fun p => (if Nat.even (inversions p) then 1 else -1) * prod_from a 0 p) (perms n (seq 0 n))).
(** Exchange of two rows. *)
Definition swap_rows (r1 r2 : nat) (a : nat -> nat -> Z) : nat -> nat -> Z :=
  fun i j => if Nat.eqb i r1 then a r2 j else if Nat.eqb i r2 then a r1 j else a i j.
