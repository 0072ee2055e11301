(** Model of ac_hcordic.h, ac_pow_cordic on ac_fixed. *)
From Verif Require Import AcTypes LeadingModel HcModel.
Open Scope Z.

(** log2_a: the base-two logarithm of the base, in ac_fixed<log2_a_F,log2_a_I,true>; log2_a_F is the whole width of the
    output type, or the overridden precision, and is used as the width of log2_a.  ac_hcordic.h:2032-2057. *)
Definition pow_LI (AW AI : Z) : Z := Z.max (nbits (AW - AI)) (nbits AI) + 1.
Definition pow_log2 (ort : option Z) (TQ : qmode) (AW AI : Z) (AO : omode) (ZW a : Z) : option Z :=
  let '(e, n) := normalize AW AI false AO a in
  let nf := hc_tf ort AW in
  let lF := hc_tf ort ZW in
  if (44 <? nf) || (44 <? lF) then None else
  let n2 := conv (Fmt nf 0 false TQ WRAP) n AW in
  let l := log_rr hc_tab2 nf (dfmt (lF + 2) 2 true) n2 in
  Some (conv (dfmt lF (pow_LI AW AI) true) (l + e * 2 ^ lF) lF).

(** ac_pow_cordic.  ac_hcordic.h:2023-2069.  [b] has type ac_fixed<BW,BI,BS>. *)
Definition pow_cordic (ort : option Z) (TQ : qmode) (AW AI : Z) (AO : omode) (BW BI : Z) (f : fmt) (a b : Z) : option Z :=
  let lF := hc_tf ort (fW f) in
  let L := pow_LI AW AI in
  match pow_log2 ort TQ AW AI AO (fW f) a with
  | None => None
  | Some l =>
      let pi := L + BI in
      let pF := lF - L + (BW - BI) in
      let pf := Z.min pF 45 in
      let prod := conv (dfmt (pf + pi) pi true) (b * l) pF in
      exp2_cordic ort TQ (pf + pi) pi f prod
  end.
