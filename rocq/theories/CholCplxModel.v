(** Model of the ac_complex<ac_fixed> overload of ac_chol_d, include/ac_math/ac_chol_d.h:730-852.  A complex number is the pair of
    the mantissas of its parts, which share a format.  No proofs here.  [None] means that an element was read before it was
    written, that an access left its array, or that a piecewise-linear table was read out of range. *)
From Verif Require Import AcTypes RtTypes SpecCplx MatrixModel MatCplxModel CholModel.

(** ac_complex::conj and ac_complex::mag_sqr (ac_types), both exact. *)
Definition c_conj (x : gi) : gi := (fst x, - snd x).
Definition c_mag_sqr (x : gi) : Z := fst x * fst x + snd x * snd x.

(** L_imd_1D, ac_chol_d.h:748: elements not yet written are None. *)
Definition carr := Z -> option gi.
Definition carr_rd (M : nat) (a : carr) (i j : nat) : option gi :=
  let k := ind_conv M i j in if (0 <=? k) && (k <? ind_size M) then a k else None.
Definition carr_wr (M : nat) (a : carr) (i j : nat) (v : gi) : option carr :=
  let k := ind_conv M i j in
  if (0 <=? k) && (k <? ind_size M) then Some (fun n => if n =? k then Some v else a n) else None.

(** The pivot, ac_chol_d.h:757-765: the real part of the diagonal element less the squared magnitudes of the row. *)
Definition cchol_pivot (M : nat) (fo fi : fmt) (L : carr) (j : nat) (a : Z) : option Z :=
  fold_left (fun o k => obind o (fun s => obind (carr_rd M L j k) (fun x => Some (acc_sub fi s (c_mag_sqr x) (2 * fF fo)))))
            (seq 0 j) (Some a).

(** [sum -= p] for complex numbers, part by part (ac_types). *)
Definition cacc_sub (f : fmt) (s p : gi) (Fp : Z) : gi := (acc_sub f (fst s) (fst p) Fp, acc_sub f (snd s) (snd p) Fp).

(** The sums below the pivot, ac_chol_d.h:820-826. *)
Definition cchol_inner (M : nat) (fo fi : fmt) (L : carr) (i j : nat) (a : gi) : option gi :=
  fold_left (fun o k => obind o (fun s => obind (carr_rd M L i k) (fun x => obind (carr_rd M L j k) (fun y =>
                          Some (cacc_sub fi s (c_mul x (c_conj y)) (2 * fF fo))))))
            (seq 0 j) (Some a).

(** One column, ac_chol_d.h:756-835.  The roots are those of the real overload, ac_chol_d.h:777-808.  The rows run from M-1 down to
    j+1; the iteration i = j only computes a sum that is thrown away, from elements the pivot has read too, and is left out. *)
Definition cchol_col (pwl : bool) (M : nat) (fa fo fi : fmt) (A : nat -> nat -> gi) (junk : nat -> Z) (st : option (carr * bool)) (j : nat) :
  option (carr * bool) :=
  obind st (fun '(L, ok) =>
  obind (cchol_pivot M fo fi L j (conv fi (fst (A j j)) (fF fa))) (fun p =>
  obind (chol_root pwl fo fi (junk j) p) (fun '(d, r) =>
  obind (carr_wr M L j j (conv fo d (fF fo), conv fo 0 0)) (fun L =>
  obind (fold_left (fun o i => obind o (fun L =>
           obind (cchol_inner M fo fi L i j (c_conv fi (A i j) (fF fa))) (fun s =>
           carr_wr M L i j (conv fo (r * fst s) (2 * fF fi), conv fo (r * snd s) (2 * fF fi)))))
         (rev (seq (S j) (M - S j))) (Some L)) (fun L =>
  Some (L, ok && (0 <? p))))))).

(** ac_chol_d.h:730-852.  fa is the input type, fo the output type, fi the type i_s_t of the intermediate sums. *)
Definition cchol_d (pwl : bool) (M : nat) (fa fo fi : fmt) (A : nat -> nat -> gi) (junk : nat -> Z) : option (nat -> nat -> option gi) :=
  obind (fold_left (cchol_col pwl M fa fo fi A junk) (seq 0 M) (Some (fun _ => None, true))) (fun '(L, ok) =>
  Some (fun i j => if Nat.ltb i j || negb ok then Some (0, 0) else carr_rd M L i j)).
