(** Model of the ac_float overload of include/ac_math/ac_chol_d.h (native arrays).  No proofs here.
    The arithmetic of ac_float belongs to ac_types: here it is a parameter, with the types of the input (Tin), of the
    output (To) and of the intermediate values (Ti).  [None] means that an element was read before it was written or
    that an access left its array. *)
From Verif Require Import AcTypes RtTypes MatrixModel CholModel.

(** The operations of ac_chol_d.h:373-428 on ac_float values. *)
Record flt_arith (Tin To Ti : Type) := {
  fa_in : Tin -> Ti;              (** T_imd sum = A[i][j], lines 373 and 419 *)
  fa_sub : Ti -> To -> To -> Ti;  (** sum -= x * y, lines 379 and 424 *)
  fa_pos : Ti -> bool;            (** not (sum <= 0), line 389 *)
  fa_root : Ti -> To;             (** ac_sqrt_pwl or ac_sqrt, lines 396 and 402 *)
  fa_recip : Ti -> To -> Ti;      (** ac_inverse_sqrt_pwl of the pivot or 1 / root, lines 399 and 407 *)
  fa_mul : Ti -> Ti -> To;        (** (T_out)(recip * sum), line 428 *)
  fa_zero : To }.
Arguments fa_in {Tin To Ti} _ _. Arguments fa_sub {Tin To Ti} _ _ _ _. Arguments fa_pos {Tin To Ti} _ _. Arguments fa_root {Tin To Ti} _ _.
Arguments fa_recip {Tin To Ti} _ _ _. Arguments fa_mul {Tin To Ti} _ _ _. Arguments fa_zero {Tin To Ti} _.

(** L_imd_1D, ac_chol_d.h:367, with the index of CholModel. *)
Definition farr_rd {To} (M : nat) (a : Z -> option To) (i j : nat) : option To :=
  let k := ind_conv M i j in if (0 <=? k) && (k <? ind_size M) then a k else None.
Definition farr_wr {To} (M : nat) (a : Z -> option To) (i j : nat) (v : To) : option (Z -> option To) :=
  let k := ind_conv M i j in
  if (0 <=? k) && (k <? ind_size M) then Some (fun n => if n =? k then Some v else a n) else None.

(** The inner loops, ac_chol_d.h:374-380 and 420-425. *)
Definition chol_inner_f {Tin To Ti} (ar : flt_arith Tin To Ti) (M : nat) (L : Z -> option To) (i j : nat) (a : Ti) : option Ti :=
  fold_left (fun o k => obind o (fun s => obind (farr_rd M L i k) (fun x => obind (farr_rd M L j k) (fun y => Some (fa_sub ar s x y)))))
            (seq 0 j) (Some a).

(** One column, ac_chol_d.h:372-430; the iteration i = j, whose sum is discarded, is left out. *)
Definition chol_col_f {Tin To Ti} (ar : flt_arith Tin To Ti) (M : nat) (A : nat -> nat -> Tin) (st : option ((Z -> option To) * bool)) (j : nat) :
  option ((Z -> option To) * bool) :=
  obind st (fun '(L, ok) =>
  obind (chol_inner_f ar M L j j (fa_in ar (A j j))) (fun p =>
  let d := fa_root ar p in
  let r := fa_recip ar p d in
  obind (farr_wr M L j j d) (fun L =>
  obind (fold_left (fun o i => obind o (fun L =>
           obind (chol_inner_f ar M L i j (fa_in ar (A i j))) (fun s => farr_wr M L i j (fa_mul ar r s))))
         (rev (seq (S j) (M - S j))) (Some L)) (fun L =>
  Some (L, ok && fa_pos ar p))))).

(** ac_chol_d.h:349-443. *)
Definition chol_flt {Tin To Ti} (ar : flt_arith Tin To Ti) (M : nat) (A : nat -> nat -> Tin) : option (nat -> nat -> option To) :=
  obind (fold_left (chol_col_f ar M A) (seq 0 M) (Some (fun _ => None, true))) (fun '(L, ok) =>
  Some (fun i j => if Nat.ltb i j || negb ok then Some (fa_zero ar) else farr_rd M L i j)).
