(** Model of the ac_complex<ac_fixed> overload of ac_cholinv, include/ac_math/ac_cholinv.h:284-347.  A complex number is the pair of
    the mantissas of its parts, which share a format.  No proofs here.  [None] is an access out of the bounds of an array or of a
    piecewise-linear table. *)
From Verif Require Import AcTypes RtTypes SpecCplx MatrixModel MatCplxModel PwlCplxModel CholModel CholCplxModel.

Definition cput (a : nat -> nat -> gi) (i j : nat) (v : gi) : nat -> nat -> gi := fun x y => if Nat.eqb x i && Nat.eqb y j then v else a x y.

(** [sum += p] for complex numbers, part by part, and the unary minus (ac_types). *)
Definition cacc_add (f : fmt) (s p : gi) (Fp : Z) : gi := (acc_add f (fst s) (fst p) Fp, acc_add f (snd s) (snd p) Fp).
Definition c_opp (x : gi) : gi := (- fst x, - snd x).

(** The reciprocal of a diagonal element, ac_cholinv.h:305-311, 325-332.  With use_pwl2 the complex ac_reciprocal_pwl is called
    ([MW] is the width of mag_sqr, ac_types' choice); otherwise the real part is divided and the imaginary part set to zero. *)
Definition cinv_recip (pwl : bool) (MW : Z) (ft : fmt) (junk : Z) (l : gi) : option gi :=
  if pwl then recip_cplx TRN MW (fW ft) (fI ft) (fS ft) ft (fst l) (snd l)
  else obind (inv_recip false ft junk (fst l)) (fun r => Some (r, conv ft 0 0)).

(** One element below the diagonal, ac_cholinv.h:318-333. *)
Definition cinv_elem (pwl : bool) (MW : Z) (ft : fmt) (L : nat -> nat -> gi) (i j : nat) (junk : Z) (V : nat -> nat -> gi) : option gi :=
  let sum := fold_left (fun s k => cacc_add ft s (if Nat.ltb k j && Nat.leb i k then c_mul (L j k) (V k i) else (0, 0)) (2 * fF ft))
                       (seq 0 (S j)) (c_conv ft (0, 0) 0) in
  obind (cinv_recip pwl MW ft junk (L j j)) (fun r => Some (c_conv ft (c_opp (c_mul sum r)) (2 * fF ft))).

(** One column, ac_cholinv.h:303-336. *)
Definition cinv_col (pwl : bool) (MW : Z) (M : nat) (ft : fmt) (L : nat -> nat -> gi) (junk : Z) (o : option (nat -> nat -> gi)) (i : nat) :
  option (nat -> nat -> gi) :=
  obind o (fun V =>
  obind (cinv_recip pwl MW ft junk (L i i)) (fun r =>
  fold_left (fun o j => obind o (fun V => if Nat.leb (S i) j then obind (cinv_elem pwl MW ft L i j junk V) (fun v => Some (cput V j i v)) else Some V))
            (seq 0 M) (Some (cput V i i r)))).

(** The conjugate transpose of the inverse factor times the inverse factor, ac_cholinv.h:337-346. *)
Definition cinv_prod (M : nat) (ft fo : fmt) (V : nat -> nat -> gi) : nat -> nat -> gi := fun i j =>
  c_conv fo (fold_left (fun s k => cacc_add ft s (if Nat.ltb k j || Nat.ltb k i then (0, 0) else c_mul (c_conj (V k i)) (V k j)) (2 * fF ft))
                       (seq 0 M) (c_conv ft (0, 0) 0)) (fF ft).

(** ac_cholinv.h:284-347.  [V0] is the uninitialised Linv, [j1] and [j2] the uninitialised locals of the divisions. *)
Definition ccholinv (pwl1 pwl2 : bool) (MW : Z) (M : nat) (fa fo ft : fmt) (A V0 : nat -> nat -> gi) (j1 : nat -> Z) (j2 : Z) :
  option (nat -> nat -> gi) :=
  obind (cchol_d pwl1 M fa ft (imd_fmt ft 0 0 RND SAT) A j1) (fun L =>
  let L := fun i j => match L i j with Some v => v | None => (0, 0) end in
  obind (fold_left (cinv_col pwl2 MW M ft L j2) (seq 0 M) (Some V0)) (fun V => Some (cinv_prod M ft fo V))).
