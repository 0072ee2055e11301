(** Model of include/ac_float_add_tree.h.  No proofs here.

    An ac_float<WE,IE,EE> value is a pair of its mantissa (ac_fixed<WE,IE,true>, an integer scaled by 2^(WE-IE)) and
    its exponent (ac_int<EE,true>).  Fixed-point intermediates all carry WE - IE + AccExtraLSBs fractional bits. *)
From Verif Require Import AcTypes ShiftModel.

Notation flt := (Z * Z)%type.

(** ac_float_add_tree.h:138-163: sum2 with result mantissa type ac_fixed<WR,IR,true>; both operands have F fractional
    bits.  e_dif is a 32-bit int. *)
Definition sum2 (WR IR F : Z) (a b : flt) : flt :=
  let '(m1, e1) := a in let '(m2, e2) := b in
  let m_t := dfmt WR IR true in
  let e_dif := wraps 32 (e1 - e2) in
  let lt := e_dif <? 0 in
  let z1 := m1 =? 0 in let z2 := m2 =? 0 in
  let e_dif := if z1 || z2 then 0 else if lt then wraps 32 (- e_dif) else e_dif in
  let sh := if lt then conv m_t m1 F else conv m_t m2 F in
  let no := if lt then conv m_t m2 F else conv m_t m1 F in
  let sh := shr true WR sh e_dif in
  (conv m_t (no + sh) (WR - IR), if negb z2 && (z1 || lt) then e2 else e1).

(** ac_float_add_tree.h:165-212: add_r<N>::sum into an accumulator ac_fixed<WE+log2_ceil<N>+X, IE+log2_ceil<N>>, the
    type every caller passes.  [fuel] bounds the template recursion; add_r<0> is not instantiated. *)
Fixpoint add_r (fuel : nat) (WE IE X : Z) (xs : list flt) : flt :=
  let n := length xs in
  let G := Z.log2_up (Z.of_nat n) in
  match fuel, xs with
  | O, _ | _, [] => (0, 0)
  | S _, [x] => (conv (dfmt (WE + G + X) (IE + G) true) (fst x) (WE - IE), snd x)
  | S fuel, _ =>
      let nl := Nat.div n 2 in
      let l := add_r fuel WE IE X (firstn nl xs) in
      let h := add_r fuel WE IE X (skipn nl xs) in
      sum2 (WE + G + X) (IE + G) (WE - IE + X) l h
  end.

(** ac_float_add_tree.h:116-134: acc_fxpt_conv.  Without ac_shift_left the temporary has the type ac_float's to_ac_fixed
    returns, ac_fixed<W+2^E-1, I+2^(E-1)-1>, in which mant * 2^exp is exact. *)
Definition acc_fxpt_conv (use_sl : bool) (W I E : Z) (f : fmt) (x : flt) : Z :=
  let '(mant, exp) := x in
  if use_sl then
    let t := if fS f then f else Fmt (fW f + 1) (fI f + 1) true (fQ f) (fO f) in
    conv f (shift_left_si W I t mant (wraps 32 exp)) (fF t)
  else
    let t := dfmt (W + 2 ^ E - 1) (I + 2 ^ (E - 1) - 1) true in
    conv f (shl true (fW t) (conv t mant (W - I)) exp) (fF t).

(** ac_float_add_tree.h:251-272: add_tree with an ac_fixed result. *)
Definition add_tree_fx (WE IE EE X : Z) (use_sl : bool) (f : fmt) (xs : list flt) : Z :=
  let G := Z.log2_up (Z.of_nat (length xs)) in
  acc_fxpt_conv use_sl (WE + G + X) (IE + G) EE f (add_r (length xs) WE IE X xs).

(** ac_float_add_tree.h:98-114: zero_handle_exp. *)
Definition zero_handle_exp (ZH : bool) (EE : Z) (x : flt) : Z :=
  let '(m, e) := x in
  if ZH then
    let mz := m =? 0 in
    let mask := wrapu (EE - 1) (- b2z (negb mz)) in
    let out := wraps EE (Z.land (slc (EE - 1) 0 e) mask) in
    set_bit true EE (EE - 1) (mz || Z.testbit e (EE - 1)) out
  else e.

(** ac_float_add_tree.h:495-512: max_r. *)
Fixpoint max_r (fuel : nat) (es : list Z) : Z :=
  match fuel, es with
  | O, _ | _, [] => 0
  | S _, [e] => e
  | S fuel, _ =>
      let nl := Nat.div (length es) 2 in
      let ml := max_r fuel (firstn nl es) in
      let mh := max_r fuel (skipn nl es) in
      if ml <? mh then mh else ml
  end.

(** ac_float_add_tree.h:514-542: exp_equalizer, AC_TRN and AC_WRAP elements. *)
Definition exp_equalizer (WE IE EE X : Z) (ZH : bool) (xs : list flt) : list Z * Z :=
  let y_exp := max_r (length xs) (map (zero_handle_exp ZH EE) xs) in
  (map (fun x =>
     let elem := conv (dfmt (WE + X) IE true) (fst x) (WE - IE) in
     let exp_dif := wrapu EE (y_exp - snd x) in
     conv (dfmt (WE + X) IE true) (shr true (WE + X) elem exp_dif) (WE + X - IE)) xs, y_exp).

(** ac_float_add_tree.h:544-576: block_add_tree_core. *)
Definition block_add_core (WE IE EE X : Z) (ZH : bool) (xs : list flt) : flt :=
  let G := Z.log2_up (Z.of_nat (length xs)) in
  let t := dfmt (WE + G + X) (IE + G) true in
  let '(ms, e) := exp_equalizer WE IE EE X ZH xs in
  (fold_left (fun s m => conv t (s + m) (WE - IE + X)) ms (conv t 0 0), e).

(** ac_float_add_tree.h:641-664: block_add_tree with an ac_fixed result. *)
Definition block_add_tree_fx (WE IE EE X : Z) (ZH use_sl : bool) (f : fmt) (xs : list flt) : Z :=
  let G := Z.log2_up (Z.of_nat (length xs)) in
  acc_fxpt_conv use_sl (WE + G + X) (IE + G) EE f (block_add_core WE IE EE X ZH xs).
