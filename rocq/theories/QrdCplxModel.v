(** Model of the ac_complex<ac_fixed> overload of ac_qrd, include/ac_math/ac_qrd.h:325-396.  A complex number is the pair of the
    mantissas of its parts, which share a format.  No proofs here.  [mI] is the number of integer bits of the unsigned type of
    ac_complex::mag_sqr for the intermediate type, which ac_types chooses.  [None] means that a piecewise-linear table was read out of
    range. *)
From Verif Require Import AcTypes RtTypes SpecCplx DivModel SqrtModel PwlModel MatrixModel MatCplxModel CholModel CholCplxModel CholInvCplxModel.

(** intermediate_type, ac_qrd.h:328-337; I1 is the integer width of the input.  sin_cosine_type, ac_qrd.h:338, is [sc_fmt]. *)
Definition cqr_fmt (M I1 : Z) : fmt :=
  let I := I1 + Z.log2_up (2 * (M * (M - 1) / 2) + 1) in Fmt (I + 32) I true RND SAT.

(** The square root of [x], of format W, I, and the reciprocal of the square root, ac_qrd.h:161-192 and 370-386.  The piecewise-linear
    inverse square root does not use the root. *)
Definition cqr_root (pwl : bool) (W I : Z) (x : Z) : option Z :=
  let f := dfmt (32 + (I + 1) / 2) ((I + 1) / 2) false in
  if pwl then sqrt_pwl TRN W I WRAP f true x else Some (sqrt_fx W I f x).
Definition cqr_iroot (pwl : bool) (W I : Z) (junk x : Z) : option Z :=
  let tr := dfmt 48 16 false in
  if pwl then inverse_sqrt_pwl TRN W I WRAP tr true x
  else obind (cqr_root false W I x) (fun w => Some (fst (div_ufx 1 1 (32 + (I + 1) / 2) ((I + 1) / 2) tr 1 w junk))).

(** diagonal_PE, ac_qrd.h:155-193, with the complex sqr_calc, ac_qrd.h:147-151, for elements b, a of type t. *)
Definition cdiag_pe (pwl : bool) (t : fmt) (mI junk : Z) (b a : gi) : option (gi * gi) :=
  let sqr := conv (dfmt (32 + mI) mI false) (c_mag_sqr b + c_mag_sqr a) (2 * fF t) in
  obind (cqr_iroot pwl (32 + mI) mI junk sqr) (fun ir =>
  Some (c_conv sc_fmt (fst a * ir, snd a * ir) (fF t + 32), c_conv sc_fmt (- fst b * ir, - snd b * ir) (fF t + 32))).

(** rotate, ac_qrd.h:214-247: [q] is set for the columns of the Q half, for which the coefficients are conjugated. *)
Definition crotate (t : fmt) (q : bool) (x y c s : gi) : gi * gi :=
  let K := fun z => c_conv sc_fmt z 32 in
  let '(c1, s1, c2, s2) :=
    if q then (K c, K (c_opp s), K (c_conj c), K (c_conj s)) else (K (c_conj c), K (c_opp (c_conj s)), K c, K s) in
  (c_conv t (c_add (c_mul c1 x) (c_mul s1 y)) (32 + fF t), c_conv t (c_add (c_mul c2 y) (c_mul s2 x)) (32 + fF t)).

(** offdiagonal_PE, ac_qrd.h:254-269: rows p-1 and p of the M x 2M matrix. *)
Definition coff_pe (M : nat) (t : fmt) (A : nat -> nat -> gi) (p : nat) (c s : gi) : nat -> nat -> gi :=
  fold_left (fun A i => let '(u, v) := crotate t (Nat.leb M i) (A (p - 1)%nat i) (A p i) c s in cput (cput A (p - 1)%nat i u) p i v)
            (seq 0 (2 * M)) A.

(** initialize_matrix, ac_qrd.h:101-117, with assign_unity_or_zero, ac_qrd.h:89-98. *)
Definition cqr_init (M : nat) (fa t : fmt) (A : nat -> nat -> gi) : nat -> nat -> gi := fun i j =>
  if Nat.ltb j M then c_conv t (A i j) (fF fa) else c_conv t (if Nat.eqb (j - M) i then 1 else 0, 0) 0.

(** One rotation of the loop nest, ac_qrd.h:345-353; the order of the rotations is [qr_order]. *)
Definition cqr_step (pwl : bool) (M : nat) (t : fmt) (mI junk : Z) (o : option (nat -> nat -> gi)) (rc : nat * nat) : option (nat -> nat -> gi) :=
  obind o (fun A => let '(row, col) := rc in
  obind (cdiag_pe pwl t mI junk (A row col) (A (row - 1)%nat col)) (fun '(c, s) => Some (coff_pe M t A row c s))).

(** The stage that makes the bottom right element real, ac_qrd.h:365-391: its magnitude and exp_arg_br_conj. *)
Definition cqr_real (pwl : bool) (t : fmt) (mI junk : Z) (br : gi) : option (Z * gi) :=
  let W := mI + 2 * fF t in
  obind (cqr_root pwl W mI (c_mag_sqr br)) (fun m =>
  obind (cqr_iroot pwl W mI junk (c_mag_sqr br)) (fun im =>
  Some (m, c_conv (dfmt 34 2 true) (fst br * im, snd br * im) (fF t + 32)))).

(** ac_qrd.h:325-396 and qr_separate, ac_qrd.h:121-137: the pair (Q, R).  Without real_diag the coefficient is not used. *)
Definition cqrd (rd pwl : bool) (M : nat) (fa fo : fmt) (mI : Z) (A : nat -> nat -> gi) (junk : Z) :
  option ((nat -> nat -> gi) * (nat -> nat -> gi)) :=
  let t := cqr_fmt (Z.of_nat M) (fI fa) in
  obind (fold_left (cqr_step pwl M t mI junk) (qr_order M) (Some (cqr_init M fa t A))) (fun X =>
  if rd
  then obind (cqr_real pwl t mI junk (X (M - 1)%nat (M - 1)%nat)) (fun '(m, e) =>
       let X := cput X (M - 1)%nat (M - 1)%nat (conv t m 32, conv t 0 0) in
       Some (fun i j => if Nat.eqb j (M - 1) then c_conv fo (c_mul (X j (i + M)%nat) e) (fF t + 32) else c_conv fo (X j (i + M)%nat) (fF t),
             fun i j => c_conv fo (X i j) (fF t)))
  else Some (fun i j => c_conv fo (X j (i + M)%nat) (fF t), fun i j => c_conv fo (X i j) (fF t))).
