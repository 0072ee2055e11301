(** Specification vocabulary for matrices of complex numbers with integer parts (pairs of real and imaginary part). *)
From Verif Require Import AcTypes SpecMat.

Definition gi := (Z * Z)%type.
Definition gadd (x y : gi) : gi := (fst x + fst y, snd x + snd y).
Definition gopp (x : gi) : gi := (- fst x, - snd x).
Definition gmul (x y : gi) : gi := (fst x * fst y - snd x * snd y, fst x * snd y + snd x * fst y).
Definition gscale (c : Z) (x : gi) : gi := (c * fst x, c * snd x).
(** |Re x| + |Im x|. *)
Definition norm1 (x : gi) : Z := Z.abs (fst x) + Z.abs (snd x).
(** f 0 + ... + f (n-1). *)
Fixpoint gsum (n : nat) (f : nat -> gi) : gi := match n with O => (0, 0) | S n => gadd (gsum n f) (f n) end.

(** The determinant by Leibniz' formula, as [det] of SpecMat.v. *)
Fixpoint gprod_from (a : nat -> nat -> gi) (i : nat) (p : list nat) : gi :=
  match p with [] => (1, 0) | c :: p => gmul (a i c) (gprod_from a (S i) p) end.
Definition gsum_list (l : list gi) : gi := fold_right gadd (0, 0) l.
Definition gdet (n : nat) (a : nat -> nat -> gi) : gi :=
  gsum_list (map (fun p => gscale (if Nat.even (inversions p) then 1 else -1) (gprod_from a 0 p)) (perms n (seq 0 n))).
