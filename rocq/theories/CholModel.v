(** Models of include/ac_math/ac_chol_d.h, ac_cholinv.h and ac_qrd.h, the overloads for real ac_fixed matrices.
    No proofs here.  [None] means that an element was read before it was written, that an access left its array, or
    that a piecewise-linear table was read out of range. *)
From Verif Require Import AcTypes RtTypes DivModel SqrtModel PwlModel MatrixModel.

(** The unsigned version of a type. *)
Definition unsig (f : fmt) : fmt := Fmt (fW f) (fI f) false (fQ f) (fO f).

(** [s -= p] and [s += p] for s of type f and an exact p with Fp fraction bits. *)
Definition acc_sub (f : fmt) (s p Fp : Z) : Z :=
  let F := Z.max (fF f) Fp in conv f (s * 2 ^ (F - fF f) - p * 2 ^ (F - Fp)) F.
Definition acc_add (f : fmt) (s p Fp : Z) : Z :=
  let F := Z.max (fF f) Fp in conv f (s * 2 ^ (F - fF f) + p * 2 ^ (F - Fp)) F.

(** ** ac_chol_d *)

(** ac_chol_d.h:157-163 and 193-194: ind_conv, with the index converted to t_1D. *)
Definition ind_size (M : nat) : Z := Z.of_nat M * (Z.of_nat M + 1) / 2.
Definition ind_conv (M i j : nat) : Z :=
  let i := Z.of_nat i in wrapu (nbits (ind_size M - 1)) (Z.shiftr (i * (i + 1)) 1 + Z.of_nat j).

(** L_imd_1D, ac_chol_d.h:195: elements not yet written are None. *)
Definition arr := Z -> option Z.
Definition arr_rd (M : nat) (a : arr) (i j : nat) : option Z :=
  let k := ind_conv M i j in if (0 <=? k) && (k <? ind_size M) then a k else None.
Definition arr_wr (M : nat) (a : arr) (i j : nat) (v : Z) : option arr :=
  let k := ind_conv M i j in
  if (0 <=? k) && (k <? ind_size M) then Some (fun n => if n =? k then Some v else a n) else None.

(** The square root of a pivot p > 0 (type fi) and its reciprocal: imd_Ljj of type unsig fo and recip_Ljj of type
    unsig fi.  ac_chol_d.h:222-242; [junk] is the uninitialised recip_Ljj. *)
Definition chol_root (pwl : bool) (fo fi : fmt) (junk p : Z) : option (Z * Z) :=
  let pu := conv (unsig fi) p (fF fi) in
  if pwl
  then match sqrt_pwl TRN (fW fi) (fI fi) (fO fi) (unsig fo) true pu,
             inverse_sqrt_pwl TRN (fW fi) (fI fi) (fO fi) (unsig fi) true pu with
       | Some d, Some r => Some (d, r)
       | _, _ => None
       end
  else let d := sqrt_fx (fW fi) (fI fi) (unsig fo) pu in
       Some (d, fst (div_ufx 1 1 (fW fo) (fI fo) (unsig fi) 1 d junk)).

(** The inner loops, ac_chol_d.h:207-213 and 257-262: a - sum over k < j of L(i,k) L(j,k), in type fi. *)
Definition chol_inner (M : nat) (fo fi : fmt) (L : arr) (i j : nat) (a : Z) : option Z :=
  fold_left (fun o k => obind o (fun s => obind (arr_rd M L i k) (fun x => obind (arr_rd M L j k) (fun y =>
                          Some (acc_sub fi s (x * y) (2 * fF fo))))))
            (seq 0 j) (Some a).

(** One column, ac_chol_d.h:205-268.  The rows run from M-1 down to j+1; the iteration i = j only computes a sum that is
    thrown away, from elements the pivot has read too, and is left out. *)
Definition chol_col (pwl : bool) (M : nat) (fa fo fi : fmt) (A : mat) (junk : nat -> Z) (st : option (arr * bool)) (j : nat) :
  option (arr * bool) :=
  obind st (fun '(L, ok) =>
  obind (chol_inner M fo fi L j j (conv fi (A j j) (fF fa))) (fun p =>
  obind (chol_root pwl fo fi (junk j) p) (fun '(d, r) =>
  obind (arr_wr M L j j (conv fo d (fF fo))) (fun L =>
  obind (fold_left (fun o i => obind o (fun L =>
           obind (chol_inner M fo fi L i j (conv fi (A i j) (fF fa))) (fun s =>
           arr_wr M L i j (conv fo (r * s) (2 * fF fi)))))
         (rev (seq (S j) (M - S j))) (Some L)) (fun L =>
  Some (L, ok && (0 <? p))))))).

(** ac_chol_d.h:177-283.  fa is the input type, fo the output type, fi the type i_s_t of the intermediate sums. *)
Definition chol_d (pwl : bool) (M : nat) (fa fo fi : fmt) (A : mat) (junk : nat -> Z) : option (nat -> nat -> option Z) :=
  obind (fold_left (chol_col pwl M fa fo fi A junk) (seq 0 M) (Some (fun _ => None, true))) (fun '(L, ok) =>
  Some (fun i j => if Nat.ltb i j || negb ok then Some 0 else arr_rd M L i j)).

(** i_s_t, ac_chol_d.h:198. *)
Definition imd_fmt (fo : fmt) (dw di : Z) (q : qmode) (o : omode) : fmt := Fmt (fW fo + dw) (fI fo + di) true q o.

(** ** ac_cholinv *)

(** The reciprocal of a diagonal element, ac_cholinv.h:168-174 and 187-193. *)
Definition inv_recip (pwl : bool) (ft : fmt) (junk l : Z) : option Z :=
  if pwl then reciprocal_pwl TRN (fW ft) (fI ft) (fS ft) ft l
  else Some (if fS ft then fst (div_sfx 2 2 (fW ft) (fI ft) ft 1 l junk)
             else fst (div_ufx 1 1 (fW ft) (fI ft) ft 1 l junk)).

(** One element below the diagonal, ac_cholinv.h:179-195; ft is the type Tout. *)
Definition inv_elem (pwl : bool) (ft : fmt) (L : nat -> nat -> Z) (i j : nat) (junk : Z) (V : mat) : option Z :=
  let sum := fold_left (fun s k => acc_add ft s (if Nat.ltb k j && Nat.leb i k then L j k * V k i else 0) (2 * fF ft))
                       (seq 0 (S j)) (conv ft 0 0) in
  obind (inv_recip pwl ft junk (L j j)) (fun r => Some (conv ft (- (sum * r)) (2 * fF ft))).

(** One column, ac_cholinv.h:166-197. *)
Definition inv_col (pwl : bool) (M : nat) (ft : fmt) (L : nat -> nat -> Z) (junk : Z) (o : option mat) (i : nat) : option mat :=
  obind o (fun V =>
  obind (inv_recip pwl ft junk (L i i)) (fun r =>
  fold_left (fun o j => obind o (fun V => if Nat.leb (S i) j then obind (inv_elem pwl ft L i j junk V) (fun v => Some (put V j i v)) else Some V))
            (seq 0 M) (Some (put V i i r)))).

(** The product of the transposed inverse factor with the inverse factor, ac_cholinv.h:200-210. *)
Definition inv_prod (M : nat) (ft fo : fmt) (V : mat) : mat := fun i j =>
  conv fo (fold_left (fun s k => acc_add ft s (if Nat.ltb k j || Nat.ltb k i then 0 else V k i * V k j) (2 * fF ft))
                     (seq 0 M) (conv ft 0 0)) (fF ft).

(** ac_cholinv.h:153-211.  [V0] is the uninitialised Linv, [j1] and [j2] the uninitialised locals of the divisions. *)
Definition cholinv (pwl1 pwl2 : bool) (M : nat) (fa fo ft : fmt) (A V0 : mat) (j1 : nat -> Z) (j2 : Z) : option mat :=
  obind (chol_d pwl1 M fa ft (imd_fmt ft 0 0 RND SAT) A j1) (fun L =>
  let L := fun i j => match L i j with Some v => v | None => 0 end in
  obind (fold_left (inv_col pwl2 M ft L j2) (seq 0 M) (Some V0)) (fun V => Some (inv_prod M ft fo V))).

(** Tout, ac_cholinv.h:160. *)
Definition inv_fmt (fo : fmt) (aw ai : Z) (q : qmode) (o : omode) : fmt := Fmt (fW fo + aw) (fI fo + ai) (fS fo) q o.

(** ** ac_qrd *)

(** intermediate_type and sin_cosine_type, ac_qrd.h:299-310; I1 is the integer width of the input. *)
Definition qr_fmt (M I1 : Z) : fmt :=
  let I := I1 + Z.log2_up (M * (M - 1) / 2 + 1) in Fmt (I + 32) I true RND SAT.
Definition sc_fmt : fmt := Fmt 34 2 true RND SAT.

(** diagonal_PE, ac_qrd.h:155-193, for elements b, a of type t: the coefficients c, s. *)
Definition diag_pe (pwl : bool) (t : fmt) (junk b a : Z) : option (Z * Z) :=
  let sI := 2 * fI t - 1 in
  let sqr := conv (dfmt (32 + sI) sI false) (b * b + a * a) (2 * fF t) in
  let rI := (sI + 1) / 2 in
  let tr := dfmt 48 16 false in
  obind (if pwl then inverse_sqrt_pwl TRN (32 + sI) sI WRAP tr true sqr
         else Some (fst (div_ufx 1 1 (32 + rI) rI tr 1 (sqrt_fx (32 + sI) sI (dfmt (32 + rI) rI false) sqr) junk)))
        (fun ir => Some (conv sc_fmt (a * ir) (fF t + 32), conv sc_fmt (- b * ir) (fF t + 32))).

(** rotate, ac_qrd.h:196-211. *)
Definition rotate (t : fmt) (x y c s : Z) : Z * Z :=
  let sn := conv sc_fmt (- s) 32 in
  (conv t (c * x + sn * y) (32 + fF t), conv t (c * y + s * x) (32 + fF t)).

(** offdiagonal_PE, ac_qrd.h:264-277: rows p-1 and p of the M x 2M matrix. *)
Definition off_pe (M : nat) (t : fmt) (A : mat) (p : nat) (c s : Z) : mat :=
  fold_left (fun A i => let '(u, v) := rotate t (A (p - 1)%nat i) (A p i) c s in put (put A (p - 1)%nat i u) p i v)
            (seq 0 (2 * M)) A.

(** initialize_matrix, ac_qrd.h:101-117. *)
Definition qr_init (M : nat) (fa t : fmt) (A : mat) : mat := fun i j =>
  if Nat.ltb j M then conv t (A i j) (fF fa) else conv t (if Nat.eqb (j - M) i then 1 else 0) 0.

(** One rotation of the loop nest, ac_qrd.h:314-322. *)
Definition qr_step (pwl : bool) (M : nat) (t : fmt) (junk : Z) (o : option mat) (rc : nat * nat) : option mat :=
  obind o (fun A => let '(row, col) := rc in
  obind (diag_pe pwl t junk (A row col) (A (row - 1)%nat col)) (fun '(c, s) => Some (off_pe M t A row c s))).

(** The (row, column) pairs in the order of the loops: row runs from M-1 down to column+1. *)
Definition qr_order (M : nat) : list (nat * nat) :=
  flat_map (fun col => map (fun row => (row, col)) (rev (seq (S col) (M - S col)))) (seq 0 M).

(** ac_qrd.h:297-324 and qr_separate, ac_qrd.h:121-137, with the coefficient 1: the pair (Q, R). *)
Definition qrd (pwl : bool) (M : nat) (fa fo : fmt) (A : mat) (junk : Z) : option (mat * mat) :=
  let t := qr_fmt (Z.of_nat M) (fI fa) in
  obind (fold_left (qr_step pwl M t junk) (qr_order M) (Some (qr_init M fa t A))) (fun A1 =>
  Some (fun i j => conv fo (A1 j (i + M)%nat) (fF t), fun i j => conv fo (A1 i j) (fF t))).
