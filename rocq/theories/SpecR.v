(** Specification of "a real number converted to an output type"; the real-number counterpart of Spec.v. *)
From Coq Require Import Reals.
From Verif Require Import AcTypes Spec.
Local Open Scope R_scope.

(** [is_roundR q y z]: the integer z is the real y rounded with mode q. *)
Definition is_roundR (q : qmode) (y : R) (z : Z) : Prop :=
  let nearest := Rabs (y - IZR z) <= / 2 in
  let tie := Rabs (y - IZR z) = / 2 in
  match q with
  | TRN => IZR z <= y < IZR z + 1
  | TRN_ZERO => (0 <= y -> IZR z <= y < IZR z + 1) /\ (y < 0 -> IZR z - 1 < y <= IZR z)
  | RND => nearest /\ (tie -> y < IZR z)
  | RND_MIN_INF => nearest /\ (tie -> IZR z < y)
  | RND_ZERO => nearest /\ (tie -> Rabs (IZR z) < Rabs y)
  | RND_INF => nearest /\ (tie -> Rabs y < Rabs (IZR z))
  | RND_CONV => nearest /\ (tie -> Z.Even z)
  | RND_CONV_ODD => nearest /\ (tie -> Z.Odd z)
  end.

(** 2^e for any integer e. *)
Definition bpow2 (e : Z) : R := powerRZ 2 e.

(** Value of the fixed-point mantissa m with F fraction bits. *)
Definition fxval (m F : Z) : R := IZR m * bpow2 (- F).

(** [convertsR f y m]: the mantissa m is the real y converted to format f. *)
Definition convertsR (f : fmt) (y : R) (m : Z) : Prop :=
  exists z, is_roundR (fQ f) (y * bpow2 (fF f)) z /\ is_limited (fO f) (fS f) (fW f) z m.
