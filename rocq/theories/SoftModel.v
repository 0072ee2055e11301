(** Models of ac_exp_pwl, ac_log_pwl (natural logarithm), ac_softplus_pwl, ac_softsign_pwl, ac_elu_pwl, ac_selu_pwl,
    ac_gelu_pwl, ac_softmax_pwl and ac_softmax_pwl_new, ac_fixed overloads.  No proofs here.
    [None] means a table was read out of range. *)
From Verif Require Import AcTypes LeadingModel PwlModel.

(** comp_pii_exp: the fraction bits of x * log2(e); it has one integer bit more than x.  ac_pow_pwl.h:261-269. *)
Definition pit_frac (W I : Z) : Z := Z.max (W - I) 12.

(** ac_pow_pwl.h:277-306, macro AC_POW_PWL_CHANGE_FRAC_BITS not defined.  log2e = 23637/16384. *)
Definition exp_pwl (pQ : qmode) (W I : Z) (S : bool) (f : fmt) (x : Z) : option Z :=
  let pI := I + 1 in
  let pW := pI + pit_frac W I in
  pow2_pwl pQ pW pI S f (conv (dfmt pW pI S) (x * 23637) (W - I + 14)).

(** ac_log_pwl.h:246-271.  ln2 = 2839/4096. *)
Definition ln_pwl (pQ : qmode) (W I : Z) (XO : omode) (f : fmt) (x : Z) : option Z :=
  let tI := Z.max (nbits (Z.max (W - I) 0)) (nbits (Z.max I 0)) + 1 in
  match log2_pwl pQ W I XO (Fmt (22 + tI) tI true pQ WRAP) true x with
  | None => None
  | Some t => Some (if negb (x =? 0) then conv f (t * 2839) (22 + 12) else imin (fS f) (fW f))
  end.

(** The type of e^x inside softplus and elu.  ac_softplus_pwl.h:138-149, ac_elu_pwl.h:132-147. *)
Definition out_pow_fmt (W I : Z) : fmt :=
  let Iw := if I <? 0 then - I else I in
  let sc := Z.max 1 (Z.min 10 (pit_frac W Iw - 2)) in
  let i := Iw + 1 in
  dfmt ((i + 1) * i + sc + 10) ((i + 1) * i) false.

(** ac_softplus_pwl.h:118-160. *)
Definition softplus_pwl (pQ : qmode) (W I : Z) (S : bool) (f : fmt) (x : Z) : option Z :=
  let pf := out_pow_fmt W I in
  match exp_pwl TRN W I S pf x with
  | None => None
  | Some E => let L := conv (dfmt (fW pf + 1) (fI pf + 1) false) (E + 2 ^ fF pf) (fF pf) in
              ln_pwl pQ (fW pf + 1) (fI pf + 1) WRAP f L
  end.

(** ac_softsign_pwl.h:110-156. *)
Definition softsign_pwl (pQ : qmode) (W I : Z) (S : bool) (f : fmt) (x : Z) : option Z :=
  let sc := Z.max 1 (Z.min 10 (W - 4)) in
  let a := abs_u W I S x in
  let Iw := if I <? 0 then - I else I in
  let Ww := if W <? Iw then W + Iw else W in
  let r := conv (dfmt (Ww + 1) (Iw + 1) false) (a * pw (I - W) + pw (W - I)) (Z.max 0 (W - I)) in
  match reciprocal_pwl TRN (Ww + 1) (Iw + 1) false (Fmt (sc + 10 + 1) 1 (fS f) pQ WRAP) r with
  | None => None
  | Some q => Some (conv f (x * q) (W - I + sc + 10))
  end.

(** ac_elu_pwl.h:110-160; alpha has [aF] fraction bits. *)
Definition elu_pwl (W I : Z) (S : bool) (f : fmt) (x alpha aF : Z) : option Z :=
  let pf := out_pow_fmt W I in
  match exp_pwl TRN W I S pf x with
  | None => None
  | Some E => Some (if 0 <=? x then conv f x (W - I) else conv f (alpha * (E - 2 ^ fF pf)) (aF + fF pf))
  end.

(** ac_selu_pwl.h:109-132.  lambda = 1101739/2^20, alpha = 1754543/2^20. *)
Definition selu_pwl (W I : Z) (S : bool) (f : fmt) (x : Z) : option Z :=
  if 0 <=? x then Some (conv f (1101739 * x) (20 + (W - I)))
  else match elu_pwl W I S f x 1754543 20 with
       | None => None
       | Some e => Some (conv f (1101739 * e) (20 + fF f))
       end.

(** ac_gelu_pwl.h:110-144.  aconst = 418321/2^19, bconst = 23443/2^19; the polynomial is exact before it is stored. *)
Definition gelu_pwl (pQ : qmode) (W I : Z) (S : bool) (f : fmt) (x : Z) : option Z :=
  let tI := if (I <? W) && (I =? 1) then 1 else if (I <? W) && (I =? 0) then 0 else if I <? 0 then I else 3 * I - 3 in
  let tW := W + 2 * I + 10 in
  let F := Z.max 0 (W - I) in
  let X := x * pw (I - W) in
  let u := conv (Fmt tW tI (fS f) (fQ f) (fO f)) (418321 * (X * 2 ^ 19 * 2 ^ (2 * F) + 23443 * (X * X * X))) (19 + 19 + 3 * F) in
  match tanh_pwl pQ tW tI (fS f) (Fmt 21 1 true pQ WRAP) u with
  | None => None
  | Some t => Some (conv f (X * (2 ^ 20 + t)) (1 + F + 20))
  end.

(** Applies a partial function to every element. *)
Fixpoint map_opt {A B : Type} (g : A -> option B) (l : list A) : option (list B) :=
  match l with
  | [] => Some []
  | a :: l => match g a, map_opt g l with Some b, Some r => Some (b :: r) | _, _ => None end
  end.

(** ac_softmax_pwl.h:110-166 with the default types (or_e = or_r = false); K is the length of the list.
    The additions into T_sum are done in that type. *)
Definition softmax_pwl (pQ : qmode) (W I : Z) (S : bool) (f : fmt) (xs : list Z) : option (list Z) :=
  let K := Z.of_nat (length xs) in
  let eF := Z.max 1 (Z.min 10 (W - I - 2)) + 10 in
  let eI := 1443 * 2 ^ (I - b2z S) / 1000 + 1 in
  let sI := eI + Z.log2_up K in
  match map_opt (exp_pwl pQ W I S (dfmt (eF + eI) eI false)) xs with
  | None => None
  | Some es =>
      let sum := fold_left (fun s e => wrapu (eF + sI) (s + e)) es 0 in
      let rf := dfmt (eF + sI + 20) (eF + 1) false in
      match reciprocal_pwl pQ (eF + sI) sI false rf sum with
      | None => None
      | Some r => Some (map (fun e => conv f (r * e) (fF rf + eF)) es)
      end
  end.

(** log2e with l fraction bits, cut from 6196328018/2^32.  ac_softmax_pwl_new.h:122-126. *)
Definition log2e_bits (l : Z) : Z := Z.shiftr 6196328018 (32 - l).

(** One element of ac_softmax_pwl_new: the integer part of x * log2(e), and 2 to its fraction part with [fw] fraction
    bits.  ac_softmax_pwl_new.h:134-146. *)
Definition soft_split (pQ : qmode) (l fw W I : Z) (S : bool) (x : Z) : option (Z * Z) :=
  let p := x * log2e_bits l in
  let F := W - I + l in
  let i := wrap S (I + 1) (Z.shiftl p (- F)) in
  if 0 <? F
  then match pow2_pwl pQ F 0 false (dfmt (fw + 1) 1 false) (slc F 0 p) with Some e => Some (i, e) | None => None end
  else Some (i, 2 ^ fw).

(** ac_softmax_pwl_new.h:98-184; [fw] and [l] are exp2f_fw and l2e_fw after their defaults have been applied. *)
Definition softmax_new (pQ : qmode) (l fw W I : Z) (S : bool) (f : fmt) (xs : list Z) : option (list Z) :=
  let K := Z.of_nat (length xs) in
  match map_opt (soft_split pQ l fw W I S) xs with
  | None | Some [] => None
  | Some ((i0, e0) :: ps) =>
      let im := fold_left (fun m p => Z.max (fst p) m) ps i0 in
      let prods := map (fun p => wrapu (fw + 1) (Z.shiftr (snd p) (wrapu (I + 1) (im - fst p)))) ((i0, e0) :: ps) in
      let sI := nbits (2 * K - 1) in
      let sum := fold_left (fun s e => wrapu (fw + sI) (s + e)) prods 0 in
      let rf := dfmt (fw + sI + 20) (fw + 1) false in
      match reciprocal_pwl pQ (fw + sI) sI false rf sum with
      | None => None
      | Some r => Some (map (fun e => conv f (e * r) (fw + fF rf)) prods)
      end
  end.
