(** Model of include/ac_std_float_add_tree.h.  No proofs here.
    An ac_std_float<W,E> is its W-bit pattern, read as an unsigned integer. *)
From Verif Require Import AcTypes.

(** The flags and fields of one operand. *)
Record sf_op := SfOp { o_mu : Z; o_e : Z; o_sign : bool; o_normal : bool; o_zero : bool; o_inf : bool; o_nan : bool }.

(** ac_std_float_add_tree.h:118-140: extract, with biased_exp = true (as its only caller asks), and the biased exponent
    op_e_b of line 185. *)
Definition sf_extract (W E : Z) (nosub : bool) (d : Z) : sf_op :=
  let mant_bits := W - E - 1 in
  let e := wraps E (slc E mant_bits d) in
  let exception := e =? -1 in
  let normal := negb (e =? 0) || nosub in
  let m := wrapu (mant_bits + 1) d in
  let m_zero := slc mant_bits 0 m =? 0 in
  let zero := (e =? 0) && (nosub || m_zero) in
  let m := set_bit false (mant_bits + 1) mant_bits (negb (e =? 0)) m in
  SfOp m (wrapu E e) (Z.testbit d (W - 1)) normal zero (exception && m_zero) (exception && negb m_zero).

(** ac_std_float_add_tree.h:93-115: max_s, by halving; [fuel] is the length of the list. *)
Fixpoint tree_max (fuel : nat) (l : list Z) : Z :=
  match fuel, l with
  | _, [] => 0
  | _, [a] => a
  | O, _ => 0
  | S k, _ =>
      let h := (length l / 2)%nat in
      let m0 := tree_max k (firstn h l) in
      let m1 := tree_max k (skipn h l) in
      if m1 <? m0 then m0 else m1
  end.

(** ac_std_float_add_tree.h:191-202: the mantissas of subnormal numbers and of zero. *)
Definition sf_mant (W E : Z) (nosub : bool) (o : sf_op) : Z :=
  let mu_bits := W - E in
  if negb (o_normal o) then (if nosub then 0 else shl false mu_bits (o_mu o) 1)
  else if nosub && o_zero o then 0 else o_mu o.

(** ac_std_float_add_tree.h:222-262: one operand aligned to the largest exponent, jammed and negated.  [X] is AccExtraLSBs;
    the result has X fraction bits and 1 + mu_bits + logN + X bits in all. *)
Definition sf_align (W E X logN : Z) (nosub : bool) (emax : Z) (o : sf_op) : Z :=
  let mu_bits := W - E in
  let mu := sf_mant W E nosub o in
  let e_dif := wrapu E (emax - o_e o) in
  let e_dif_sat := conv (Fmt (nbits (mu_bits + 1)) (nbits (mu_bits + 1)) false TRN SAT) e_dif 0 in
  let op_bits := mu_bits + logN in
  let add_op := wrapu (op_bits + X) (mu * 2 ^ X) in
  let mw := mu_bits + 1 + (if X =? 0 then 0 else X - 1) in
  let mask := wrapu mw (-1) in
  let mask := shl false mw mask e_dif_sat in
  let mask := wrapu mw (Z.lnot mask) in
  let mask := shr false mw mask (if X =? 0 then 0 else X - 1) in
  let sticky := negb (Z.land mu mask =? 0) in
  let add_op := shr false (op_bits + X) add_op e_dif_sat in
  let add_op := set_bit false (op_bits + X) 0 sticky add_op in
  wraps (1 + op_bits + X) (if o_sign o then - add_op else add_op).

(** ac_std_float_add_tree.h:142-151: perf_add. *)
Definition sf_acc (w : Z) (l : list Z) : Z := fold_left (fun r a => wraps w (r + a)) l 0.

(** ac_std_float_add_tree.h:264-342: normalisation, rounding and packing.  [t] is res_mant_signed, with w = op_bits + X bits
    besides its sign. *)
Definition sf_pack (q : qmode) (W E X logN : Z) (nosub is_inf is_nan neg_inf pos_inf : bool) (emax t : Z) : Z :=
  let mant_bits := W - E - 1 in
  let mu_bits := mant_bits + 1 in
  let op_bits := mu_bits + logN in
  let w := op_bits + X in
  let r_sign := Z.testbit t w in
  let res_mant := wrapu w (if r_sign then - t else t) in
  let ls := leading_sign_u w res_mant in
  let r_zero := res_mant =? 0 in
  let resexp := emax - ls + logN - 1 in
  let '(ls, emax, r_normal) :=
    if resexp <? 0 then (wrapu (nbits w) emax, wrapu E (-1), false) else (ls, wrapu E resexp, true) in
  let res_mant := shl false w res_mant ls in
  let res_mant := shr false w res_mant 1 in
  let res_rounded := conv (Fmt (mu_bits + 1) op_bits false q WRAP) res_mant X in
  let ntz := match q with TRN_ZERO => false | _ => true end in
  let '(res_rounded, incr, r_normal) :=
    if Z.testbit res_rounded mu_bits && ntz then (shr false (mu_bits + 1) res_rounded 1, true, r_normal || (resexp =? -1))
    else (res_rounded, false, r_normal) in
  let emax := wrapu E (emax + (b2z incr + 1)) in
  let top := 2 * (2 ^ (E - 1) - 1) + 1 in
  let r_inf := top <? emax in
  let exp_max := emax =? top in
  let r_zero := r_zero || (nosub && negb r_normal) in
  let m_r := slc mant_bits 0 res_rounded in
  let '(emax, r_inf, m_r) :=
    if (r_inf || exp_max) && negb ntz then (wrapu E (top - 1), false, wrapu mant_bits (-1)) else (emax, r_inf, m_r) in
  let r_inf := r_inf || is_inf in
  let r_nan := is_nan in
  let r_sign := if neg_inf || pos_inf then neg_inf && negb pos_inf else r_sign in
  let exception := r_nan || r_inf in
  let e_r := if exception || r_zero then (if exception then -1 else 0) else wraps E emax in
  let exception := exception || (exp_max && ntz) in
  let m_r := if exception || r_zero then (if r_nan then wrapu mant_bits (-1) else 0) else m_r in
  b2z r_sign * 2 ^ (W - 1) + wrapu E e_r * 2 ^ mant_bits + m_r.

(** ac_std_float_add_tree.h:153-343: fadd_tree_core.  fadd_tree and fadd_tree_ptr call it on the same patterns. *)
Definition fadd_tree (q : qmode) (W E X : Z) (nosub : bool) (xs : list Z) : Z :=
  let ops := map (sf_extract W E nosub) xs in
  let emax := tree_max (length xs) (map o_e ops) in
  let is_inf := existsb o_inf ops in
  let neg_inf := existsb (fun o => o_inf o && o_sign o) ops in
  let pos_inf := existsb (fun o => o_inf o && negb (o_sign o)) ops in
  let is_nan := existsb o_nan ops || (neg_inf && pos_inf) in
  let logN := nbits (Z.of_nat (length xs) - 1) in
  let op_bits := W - E + logN in
  let t := sf_acc (1 + op_bits + X) (map (sf_align W E X logN nosub emax) ops) in
  sf_pack q W E X logN nosub is_inf is_nan neg_inf pos_inf emax t.
