(** Complex factorisations, for the statements about the complex overload of ac_chol_d.  A complex matrix is given by its real and
    imaginary parts. *)
From Coq Require Import Reals.
From Verif Require Import AcTypes SpecR SpecCplx SpecLin.
Local Open Scope R_scope.

(** The real part of z^H A z for z = x + i y and A = P + i N, and the square of the 1-norm of the parts of z. *)
Definition quadC (P N : nat -> nat -> R) (x y : nat -> R) (n : nat) : R :=
  sumR (fun i => sumR (fun j => P i j * (x i * x j + y i * y j) - N i j * (x i * y j - y i * x j)) n) n.
Definition norm1sqC (x y : nat -> R) (n : nat) : R :=
  sumR (fun i => Rabs (x i) + Rabs (y i)) n * sumR (fun i => Rabs (x i) + Rabs (y i)) n.

Definition hermitian (M : nat) (P N : nat -> nat -> R) : Prop :=
  forall i j, (i < M)%nat -> (j < M)%nat -> P i j = P j i /\ N i j = - N j i.

(** The output is all zeros. *)
Definition zero_outC (M : nat) (out : nat -> nat -> option gi) : Prop := forall i j, (i < M)%nat -> (j < M)%nat -> out i j = Some (0%Z, 0%Z).

(** The parts of row i of L times the conjugate of row j. *)
Definition dotCr (F : Z) (L : nat -> nat -> gi) (i j n : nat) : R :=
  sumR (fun k => fxval (fst (L i k)) F * fxval (fst (L j k)) F + fxval (snd (L i k)) F * fxval (snd (L j k)) F) n.
Definition dotCi (F : Z) (L : nat -> nat -> gi) (i j n : nat) : R :=
  sumR (fun k => fxval (snd (L i k)) F * fxval (fst (L j k)) F - fxval (fst (L i k)) F * fxval (snd (L j k)) F) n.

(** The output is a lower triangular L with a real positive diagonal, and both parts of L L^H are within err of those of A = P + i N.
    The imaginary parts of the diagonal of A are not used. *)
Definition chol_factorsC (M : nat) (P N : nat -> nat -> R) (F : Z) (err : R) (out : nat -> nat -> option gi) (L : nat -> nat -> gi) : Prop :=
  (forall i j, (i < M)%nat -> (j < M)%nat -> out i j = Some (L i j)) /\
  (forall i j, (i < j < M)%nat -> L i j = (0%Z, 0%Z)) /\ (forall j, (j < M)%nat -> (0 < fst (L j j))%Z /\ snd (L j j) = 0%Z) /\
  (forall i j, (j <= i < M)%nat -> Rabs (P i j - dotCr F L i j M) <= err /\ ((j < i)%nat -> Rabs (N i j - dotCi F L i j M) <= err)).

(** A signed format whose conversion treats both signs alike. *)
Definition sym_fmt (f : fmt) : Prop := (1 <= fW f)%Z /\ fS f = true /\ fO f = SAT_SYM /\ fQ f <> TRN /\ fQ f <> RND /\ fQ f <> RND_MIN_INF.
