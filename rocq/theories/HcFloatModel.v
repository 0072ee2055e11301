(** Model of ac_hcordic.h, the ac_float overloads, up to the ac_float constructor (ac_types), which receives the results
    below.  An ac_float<W,I,E> is a mantissa [m] of W bits, W - I of them behind the point, and an exponent [e] of E bits.
    No proofs here. *)
From Verif Require Import AcTypes ShiftModel LeadingModel PwlModel HcModel.
Open Scope Z.

(** The mantissa of a non-negative ac_float normalised to [1/2,1), and the sum of the two exponents.
    ac_hcordic.h:692-696, 2149-2153. *)
Definition flt_norm (AW AI m e : Z) : Z * Z :=
  let xm := conv (dfmt (AW - 1) (AI - 1) false) m (AW - AI) in
  let '(ne, n) := normalize (AW - 1) (AI - 1) false WRAP xm in (e + ne, n).

(** OFW.  ac_hcordic.h:713. *)
Definition flt_OFW (AW AI AE : Z) : Z := nbits (Z.max (AI - 1) (AW - AI - 1) + 2 ^ (AE - 1)).

(** ac_log_ on ac_float, base e: offset + zc, with zf + 1 fraction bits.  [None] is a failed static assertion.
    ac_hcordic.h:676-725. *)
Definition log_float (ort : option Z) (TQ : qmode) (AW AI AE ZF m e : Z) : option Z :=
  let '(E, n) := flt_norm AW AI m e in
  let nf := hc_tf ort (AW - 1) in
  let zf := hc_tf ort ZF in
  if (44 <? nf) || (44 <? zf) then None else
  let n2 := conv (Fmt nf 0 false TQ WRAP) n (AW - 1) in
  let OFW := flt_OFW AW AI AE in
  let zc := log_rr hc_tab nf (dfmt (zf + 1) 1 true) n2 in
  let fo := dfmt (zf + 1 + OFW + 1) (OFW + 1) true in
  let off := conv fo (conv fo (conv (dfmt (zf + 1) 0 false) hc_ln2 159) (zf + 1) * E) (zf + 1) in
  Some (off + zc * 2).

(** ac_log_ on ac_float, base 2: offset + zc, with zf fraction bits.  ac_hcordic.h:676-713, 726-732. *)
Definition log2_float (ort : option Z) (TQ : qmode) (AW AI AE ZF m e : Z) : option Z :=
  let '(E, n) := flt_norm AW AI m e in
  let nf := hc_tf ort (AW - 1) in
  let zf := hc_tf ort ZF in
  if (44 <? nf) || (44 <? zf) then None else
  let n2 := conv (Fmt nf 0 false TQ WRAP) n (AW - 1) in
  let OFW := flt_OFW AW AI AE in
  let zc := log_rr hc_tab2 nf (dfmt (zf + 2) 2 true) n2 in
  let off := conv (dfmt (OFW + 1) (OFW + 1) true) E 0 in
  Some (off * 2 ^ zf + zc).

(** TI.  ac_hcordic.h:1413-1414, 2176-2177. *)
Definition flt_TI (ZW ZI ZE : Z) : Z := nbits (2 ^ (ZE - 1) + Z.max (ZI - 1) (ZW - ZI)) + 1.

(** The last part of ac_exp_float_ and ac_pow_cordic: the mantissa (TF fraction bits) and the exponent handed to the
    normalising constructor.  ac_hcordic.h:1443-1449, 2199-2205. *)
Definition flt_exp2 (TF TI : Z) (TQ : qmode) (x : Z) : Z * Z :=
  let fr := slc TF 0 x in
  let y := exp2_rr TF (Fmt (TF + 1) 1 false TQ WRAP) fr in
  (y, wraps TI (fx_to_int (TF + TI) TI x)).

(** ac_exp_float_, base 2.  ac_hcordic.h:1405-1434, 1443-1449. *)
Definition exp2_float (ort : option Z) (TQ : qmode) (AW AI ZW ZI ZE m e : Z) : option (Z * Z) :=
  let TI := flt_TI ZW ZI ZE in
  let TF := hc_tf ort (ZW - ZI) in
  if negb ((1 <=? TF) && (TF <=? 44)) then None else
  Some (flt_exp2 TF TI TQ (shift_left_si AW AI (Fmt (TF + TI) TI true TQ SAT) m e)).

(** ac_exp_float_, base e.  ac_hcordic.h:1405-1427, 1434-1449. *)
Definition exp_float (ort : option Z) (TQ : qmode) (AW AI ZW ZI ZE m e : Z) : option (Z * Z) :=
  let TI := flt_TI ZW ZI ZE in
  let TF := hc_tf ort (ZW - ZI) in
  if negb ((1 <=? TF) && (TF <=? 44)) then None else
  let il := conv (dfmt (TF + 1) 1 false) (conv (dfmt (TF + 1) 1 false) hc_inv_ln2 158) TF in
  Some (flt_exp2 TF TI TQ (shift_left_si (AW + (TF + 1)) (AI + 1) (Fmt (TF + TI) TI true TQ SAT) (m * il) e)).

(** log2_a_I.  ac_hcordic.h:2165. *)
Definition flt_LI (AW AI AE : Z) : Z := nbits (Z.max (AI - 1) (AW - AI - 1) + 2 ^ (AE - 1) + 1) + 1.

(** What ac_pow_cordic stores: an integer, or a mantissa and exponent through the normalising constructor. *)
Inductive pow_res := PInt (k : Z) | PNum (y n : Z).

(** The comparisons a == 1 and a == 0 of an ac_float. *)
Definition flt_is_one (AW AI m e : Z) : bool :=
  let k := e - (AW - AI) in if 0 <=? k then (m * 2 ^ k =? 1) else (m =? 2 ^ (- k)).

(** log2_a, with lF fraction bits.  ac_hcordic.h:2149-2173. *)
Definition flt_log2_a (ort : option Z) (TQ : qmode) (AW AI AE ZW m e : Z) : option Z :=
  let '(E, n) := flt_norm AW AI m e in
  let nf := hc_tf ort (AW - 1) in
  let lF := hc_tf ort ZW in
  if (44 <? nf) || (44 <? lF) then None else
  let n2 := conv (Fmt nf 0 false TQ WRAP) n (AW - 1) in
  let LI := flt_LI AW AI AE in
  let l := log_rr hc_tab2 nf (dfmt (lF + 2) 2 true) n2 in
  let off := conv (dfmt LI LI true) E 0 in
  Some (conv (dfmt (LI + lF) LI true) (l + off * 2 ^ lF) lF).

(** ac_pow_cordic on ac_float: (mA,eA) to the power (mB,eB).  ac_hcordic.h:2136-2213. *)
Definition pow_float (ort : option Z) (TQ : qmode) (AW AI AE BW BI ZW ZI ZE mA eA mB eB : Z) : option pow_res :=
  let lF := hc_tf ort ZW in
  let LI := flt_LI AW AI AE in
  let TI := flt_TI ZW ZI ZE in
  let TF := hc_tf ort (ZW - ZI) in
  match flt_log2_a ort TQ AW AI AE ZW mA eA with
  | None => None
  | Some l =>
      if negb ((1 <=? TF) && (TF <=? 44)) then None else
      let '(y, n) := flt_exp2 TF TI TQ (shift_left_si (BW + (LI + lF)) (BI + LI) (Fmt (TF + TI) TI true TQ SAT) (mB * l) eB) in
      Some (if flt_is_one AW AI mA eA then PInt 1 else if mA =? 0 then PInt (if mB =? 0 then 1 else 0) else PNum y n)
  end.
