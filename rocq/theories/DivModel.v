(** Model of include/ac_math/ac_div.h.  No proofs here.
    The macro AC_DIV_DISABLE_SATURATION_IF_INPUT_IS_ZERO is taken to be undefined and
    ASSERT_ON_INVALID_INPUT too (the defaults). *)
From Verif Require Import AcTypes ShiftModel.

(** One iteration of the non-restoring division loop, ac_div.h:168-174 and 341-347.
    State: dividend register N (NW bits), partial remainder R (DW+1 bits, signed), quotient Q (QW bits). *)
Definition div_step (NW DW QW D : Z) (st : Z * Z * Z) : Z * Z * Z :=
  let '(N, R, Q) := st in
  let R1 := wraps (DW + 1)
              (Z.lor (shl true (DW + 1) R 1) (Z.land (Z.shiftr N (NW - 1)) 1)
               + (if R <? 0 then wraps (DW + 1) D else wraps (DW + 1) (- D))) in
  let Q1 := wrapu QW (Z.lor (shl false QW Q 1) (b2z (0 <=? R1))) in
  (shl false NW N 1, R1, Q1).

(** The loop, ac_div.h:165-175 and 338-348: [k] iterations, then the final correction of R.
    Result: (N, R, Q). *)
Definition div_loop (NW DW QW k N D : Z) : Z * Z * Z :=
  let '(N', R, Q) := Nat.iter (Z.to_nat k) (div_step NW DW QW D) (N, 0, 0) in
  (N', (if R <? 0 then wraps (DW + 1) (R + D) else R), Q).

(** ac_div.h:151-185: unsigned ac_int; result (quotient, remainder, returned flag). *)
Definition div_uint (NW DW QW RW N D : Z) : Z * Z * bool :=
  let '(_, R, Q) := div_loop NW DW QW NW N D in
  let Q := if D =? 0 then imax false QW else Q in
  (Q, wrapu RW R, negb (R =? 0)).

(** ac_div.h:188-208: three-argument form; result (quotient, returned flag). *)
Definition div_uint3 (NW DW QW N D : Z) : Z * bool :=
  let '(Q, R, _) := div_uint NW DW QW DW N D in (Q, negb (R =? 0)).

(** ac_div.h:221-262: signed ac_int. *)
Definition div_sint (NW DW QW RW N D : Z) : Z * Z * bool :=
  let negN := N <? 0 in
  let uN := if negN then wrapu NW (- N) else wrapu NW N in
  let negD := D <? 0 in
  let uD := if negD then wrapu DW (- D) else wrapu DW D in
  let '(uQ, uR, _) := div_uint NW DW QW DW uN uD in
  let q := if eqb negN negD then wraps QW uQ else wraps QW (- uQ) in
  let q := if D =? 0 then (if negN then imin true QW else imax true QW) else q in
  let rem := wraps RW (if negN then wraps DW (- uR) else wraps DW uR) in
  (q, rem, negb (rem =? 0)).

(** ac_div.h:265-285: three-argument form. *)
Definition div_sint3 (NW DW QW N D : Z) : Z * bool :=
  let '(Q, R, _) := div_sint NW DW QW DW N D in (Q, negb (R =? 0)).

(** ac_div.h:315, RBIT of the unsigned ac_fixed overload. *)
Definition div_rbit (q : qmode) : Z := match q with TRN | TRN_ZERO => 0 | _ => 1 end.

(** ac_div.h:317-322: the condition of the early return. *)
Definition div_early (NI DW DI : Z) (f : fmt) : bool :=
  NI + (DW - DI) - 1 <? - (fF f + div_rbit (fQ f)).

(** ac_div.h:298-369: unsigned ac_fixed<NW,NI> / ac_fixed<DW,DI> to format [f].
    [old] is the content of the quotient argument before the call; on the early return
    (lines 322-326) it is left as it was.  Result: (quotient after the call, returned flag). *)
Definition div_ufx (NW NI DW DI : Z) (f : fmt) (n d old : Z) : Z * bool :=
  let RBIT := div_rbit (fQ f) in
  let QF := fW f - fI f + RBIT in
  let ZI := NI + (DW - DI) in
  if ZI - 1 <? - QF then (old, negb (n =? 0))
  else
    let ZF := Z.max QF (- ZI + 1) in
    let ZW := ZI + ZF in
    let N0 := slc NW 0 (shift_left_ui NW NI (dfmt NW NW false) n (NW - NI)) in
    let D0 := slc DW 0 (shift_left_ui DW DI (dfmt DW DW false) d (DW - DI)) in
    let '(N, R, Q) := div_loop NW DW ZW ZW N0 D0 in
    let rem := negb (R =? 0) || negb (Z.shiftr N ZW =? 0) in
    let Qfx := conv (dfmt (ZW + 1) ZW false) Q 0 in
    let Qfx := match fQ f with
               | RND_ZERO | RND_MIN_INF | RND_CONV | RND_CONV_ODD => set_bit false (ZW + 1) 0 rem Qfx
               | _ => Qfx
               end in
    let q := shift_right_ui (ZW + 1) ZW f Qfx ((NW - NI) - (DW - DI) + (ZW - NW)) in
    let q := if d =? 0 then imax (fS f) (fW f) else q in
    (q, rem || (negb (RBIT =? 0) && Z.testbit Q 0)).

(** ac_div.h:385-455: signed ac_fixed.  [junk] is the content of the local, never initialised
    variable uQ (lines 412, 423), which reaches the result when the unsigned overload returns early. *)
Definition div_sfx (NW NI DW DI : Z) (f : fmt) (n d junk : Z) : Z * bool :=
  let ZI := match fO f with WRAP => fI f | _ => NI + (DW - DI) end in
  let ZW := ZI + (fW f - fI f) in
  let negN := n <? 0 in
  let uN := if negN then wrapu NW (- n) else wrapu NW n in
  let negD := d <? 0 in
  let uD := if negD then wrapu DW (- d) else wrapu DW d in
  let '(q, has_rem) :=
    match fQ f with
    | RND_ZERO | RND_INF | RND_CONV | RND_CONV_ODD | TRN_ZERO =>
        let '(uQ, has_rem) := div_ufx NW NI DW DI (Fmt ZW ZI false (fQ f) WRAP) uN uD junk in
        let fQQ := Fmt (ZW + 1) (ZI + 1) true (fQ f) WRAP in
        let Q := if eqb negN negD then conv fQQ uQ (ZW - ZI) else conv fQQ (- uQ) (ZW - ZI) in
        (conv f Q (ZW - ZI), has_rem)
    | _ =>
        let RBIT := match fQ f with TRN => 0 | _ => 1 end in
        let '(uQ, has_rem) := div_ufx NW NI DW DI (dfmt (ZW + RBIT) ZI false) uN uD junk in
        let W2 := ZW + RBIT + 2 in
        let fQQ := dfmt W2 (ZI + 1) true in
        let min_inf := match fQ f with RND_MIN_INF => true | _ => false end in
        let Q :=
          if eqb negN negD
          then let Q := conv fQQ uQ (ZW + RBIT - ZI) in
               if min_inf then set_bit true W2 0 has_rem Q else Q
          else let lsb := set_bit false (ZW + RBIT) 0 (has_rem && negb min_inf) 0 in
               conv fQQ (- (uQ + lsb)) (ZW + RBIT - ZI) in
        (conv f Q (ZW + RBIT + 2 - (ZI + 1)),
         has_rem || (negb (RBIT =? 0) && Z.testbit uQ 0))
    end in
  let q := if d =? 0 then (if negN then imin (fS f) (fW f) else imax (fS f) (fW f)) else q in
  (q, has_rem).

(** ac_div.h:519-571: ac_complex operands whose parts are ac_fixed (or ac_int).
    The dividend has parts [xr], [xi] with [NF] fraction bits, the divisor has parts [dr], [di] of type
    <DW,DI>, the quotient parts have the signed format [f].
    - line 545: [s] is ac_fixed<2*DW+2,2*DI+2,true>;
    - line 546-548: the conjugate has type rt_unary::neg (one more bit), and [prod] has the type of the
      product of an ac_complex of the QUOTIENT's parts with the conjugate: W = QW+(DW+1)+1,
      I = QI+(DI+1)+1, signed, AC_TRN/AC_WRAP.
    [j1], [j2]: uninitialised local of the two signed divisions (see [div_sfx]).
    Result: (real part, imaginary part, returned flag). *)
Definition div_cplx (NF DW DI : Z) (f : fmt) (xr xi dr di j1 j2 : Z) : Z * Z * bool :=
  let DF := DW - DI in
  let sf := dfmt (2 * DW + 2) (2 * DI + 2) true in
  let s := conv sf (dr * dr + di * di) (2 * DF) in
  let pf := dfmt (fW f + (DW + 1) + 1) (fI f + (DI + 1) + 1) true in
  let pr := conv pf (xr * dr - xi * (- di)) (NF + DF) in
  let pi := conv pf (xr * (- di) + xi * dr) (NF + DF) in
  let '(qr, h1) := div_sfx (fW pf) (fI pf) (fW sf) (fI sf) f pr s j1 in
  let '(qi, h2) := div_sfx (fW pf) (fI pf) (fW sf) (fI sf) f pi s j2 in
  let z := (dr =? 0) && (di =? 0) in
  let lim p q := if z then (if p <? 0 then imin (fS f) (fW f) else imax (fS f) (fW f)) else q in
  (lim pr qr, lim pi qi, h1 || h2).
