(** Model of include/ac_math/ac_sqrt.h, the ac_int and ac_fixed overloads.  No proofs here. *)
From Verif Require Import AcTypes ShiftModel.

(** One iteration of the digit recurrence, ac_sqrt.h:148-160 and 217-229.
    State: (mask_d, d, r, z); d and mask_d have RW+2 bits, r has RW bits, z has ZW bits. *)
Definition sqrt_step (RW ZW z_shift : Z) (st : Z * Z * Z * Z) : Z * Z * Z * Z :=
  let '(mask, d, r, z) := st in
  let w := RW + 2 in
  let r := shl false RW r 1 in
  let mask := wrapu w (Z.lor (shl false w mask 2) 3) in
  let d := wrapu w (Z.lor (Z.land mask (shl false w d 2)) (Z.land (shr false ZW z z_shift) 3)) in
  let t := wrapu w (d - Z.lor (shl false (RW + 1) (wrapu (RW + 1) r) 1) 1) in
  let '(r, d) := if negb (Z.testbit t (RW + 1))
                 then (wrapu RW (Z.lor r 1), wrapu w (Z.land mask t))
                 else (r, d) in
  (mask, d, r, shl false ZW z 2).

Definition sqrt_loop (RW ZW z : Z) : Z * Z * Z * Z :=
  Nat.iter (Z.to_nat RW) (sqrt_step RW ZW (ZW - 2)) (0, 0, 0, z).

(** ac_sqrt.h:128-162: ac_int<XW,false> to ac_int<OW,OS>. *)
Definition sqrt_int (XW OW : Z) (OS : bool) (x : Z) : Z :=
  let RW := Z.quot (XW + 1) 2 in
  let '(_, _, r, _) := sqrt_loop RW (2 * RW) (wrapu (2 * RW) x) in
  wrap OS OW r.

(** ac_sqrt.h:175-245: ac_fixed<XW,XI,false> to the unsigned format [f]. *)
Definition sqrt_fx (XW XI : Z) (f : fmt) (x : Z) : Z :=
  let RBIT := match fQ f with TRN | TRN_ZERO => 0 | _ => 1 end in
  let OF := (fW f - fI f) + RBIT in
  let RI := Z.quot (XI + 1) 2 in
  if RI - 1 <? - OF then 0
  else
    let RF := Z.max OF (- RI + 1) in
    let RW := RI + RF in
    let ZF := 2 * Z.min (Z.quot (XW - XI + 1) 2) RF in
    let ZW := 2 * RI + ZF in
    let z := slc ZW 0 (shift_left_ui XW XI (dfmt ZW ZW false) x ZF) in
    let '(_, d, r, z) := sqrt_loop RW ZW z in
    let r2 := conv (dfmt (RW + 1) RW false) r 0 in
    let r2 := match fQ f with
              | RND_ZERO | RND_MIN_INF | RND_CONV | RND_CONV_ODD =>
                  let rem := negb (d =? 0) || negb (shr false ZW z (2 * RW) =? 0) in
                  let rem := if ZF <? XW - XI
                             then let rbits := Z.max (XW - XI - ZF) 1 in
                                  rem || negb (conv (dfmt rbits (- ZF) false) x (XW - XI) =? 0)
                             else rem in
                  set_bit false (RW + 1) 0 rem r2
              | _ => r2
              end in
    shift_right_ui (RW + 1) RW f r2 RF.

(** ac_sqrt.h:263-293: ac_float<XW,XI,XE,XQ>.  [mx] and [e] are the input mantissa and exponent, TF and TQ the
    fraction bits and rounding mode of the temporary.  The result is the (mantissa, exponent) pair handed to the
    normalising ac_float constructor; that constructor belongs to ac_types and is not modelled. *)
Definition sqrt_float (XW XI : Z) (XQ : qmode) (TF : Z) (TQ : qmode) (mx e : Z) : Z * Z :=
  let x_mant := conv (Fmt XW XI false XQ WRAP) mx (XW - XI) in
  let x_mant := shl false XW x_mant (b2z (Z.testbit e 0)) in
  let TI := if Z.rem XI 2 =? 0 then Z.quot XI 2 else Z.quot (XI + 1) 2 in
  (sqrt_fx XW XI (Fmt (TF + TI) TI false TQ WRAP) x_mant, Z.shiftr e 1).
