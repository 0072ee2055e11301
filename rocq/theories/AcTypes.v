(** Semantics of the external ac_types library (ac_int, ac_fixed) used by ac_math.
    ac_types is not part of /repo; this file is the trusted reading of its documented behaviour
    (see DESIGN.md, "Trusted base").  No proofs here. *)
From Coq Require Export ZArith Bool List.
Export ListNotations.
Open Scope Z_scope.

(** ** ac_int<W,S>: an integer kept in W bits. *)

(** Reduction of an exact integer to an unsigned W-bit value. *)
Definition wrapu (w x : Z) : Z := x mod 2 ^ w.
(** Reduction of an exact integer to a two's complement W-bit value. *)
Definition wraps (w x : Z) : Z := (x + 2 ^ (w - 1)) mod 2 ^ w - 2 ^ (w - 1).
Definition wrap (s : bool) (w x : Z) : Z := if s then wraps w x else wrapu w x.

(** AC_VAL_MIN and AC_VAL_MAX of a W-bit type. *)
Definition imin (s : bool) (w : Z) : Z := if s then - 2 ^ (w - 1) else 0.
Definition imax (s : bool) (w : Z) : Z := if s then 2 ^ (w - 1) - 1 else 2 ^ w - 1.

(** [x] is a value of ac_int<w,s> (or a mantissa of ac_fixed<w,_,s>). *)
Definition in_range (s : bool) (w x : Z) : Prop := imin s w <= x <= imax s w.
Definition in_rangeb (s : bool) (w x : Z) : bool := (imin s w <=? x) && (x <=? imax s w).

(** ** Quantisation and overflow modes of ac_fixed. *)
Inductive qmode :=
  TRN | RND | TRN_ZERO | RND_ZERO | RND_INF | RND_MIN_INF | RND_CONV | RND_CONV_ODD.
Inductive omode := WRAP | SAT | SAT_ZERO | SAT_SYM.

(** Rounding of the rational [n/d] (d > 0) to an integer.
    TRN: toward minus infinity.  TRN_ZERO: toward zero.  The RND modes round to nearest and differ on
    ties: RND up, RND_MIN_INF down, RND_ZERO toward zero, RND_INF away from zero, RND_CONV to even,
    RND_CONV_ODD to odd. *)
Definition qround (q : qmode) (n d : Z) : Z :=
  let f := n / d in
  let r := n mod d in
  match q with
  | TRN => f
  | TRN_ZERO => if (n <? 0) && negb (r =? 0) then f + 1 else f
  | RND => if d <=? 2 * r then f + 1 else f
  | RND_MIN_INF => if d <? 2 * r then f + 1 else f
  | RND_ZERO => if d <? 2 * r then f + 1 else if (d =? 2 * r) && (n <? 0) then f + 1 else f
  | RND_INF => if d <? 2 * r then f + 1 else if (d =? 2 * r) && negb (n <? 0) then f + 1 else f
  | RND_CONV => if d <? 2 * r then f + 1 else if (d =? 2 * r) && Z.odd f then f + 1 else f
  | RND_CONV_ODD => if d <? 2 * r then f + 1 else if (d =? 2 * r) && Z.even f then f + 1 else f
  end.

(** Overflow handling of an exact integer [x] for a W-bit mantissa. *)
Definition overflow (o : omode) (s : bool) (w x : Z) : Z :=
  match o with
  | WRAP => wrap s w x
  | SAT => if x <? imin s w then imin s w else if imax s w <? x then imax s w else x
  | SAT_ZERO => if (x <? imin s w) || (imax s w <? x) then 0 else x
  | SAT_SYM =>
      let lo := if s then - imax s w else 0 in
      if x <? lo then lo else if imax s w <? x then imax s w else x
  end.

(** ** Formats: ac_fixed<W,I,S,Q,O>. *)
Record fmt := Fmt { fW : Z; fI : Z; fS : bool; fQ : qmode; fO : omode }.
(** Number of fraction bits: value = mantissa * 2^-F. *)
Definition fF (f : fmt) : Z := fW f - fI f.

(** 2^e for e >= 0 and 1 otherwise; [x * pw e / pw (-e)] is x * 2^e for any sign of e. *)
Definition pw (e : Z) : Z := 2 ^ (Z.max 0 e).

(** Conversion of the exact rational [n/d] (d > 0) to format [f]: quantise, then overflow.
    Result is the mantissa. *)
Definition conv_rat (f : fmt) (n d : Z) : Z :=
  overflow (fO f) (fS f) (fW f) (qround (fQ f) (n * pw (fF f)) (d * pw (- fF f))).

(** Conversion of the fixed-point number with mantissa [x] and [fx] fraction bits to format [f]. *)
Definition conv (f : fmt) (x fx : Z) : Z := conv_rat f (x * pw (- fx)) (pw fx).

(** A format with the default modes AC_TRN, AC_WRAP. *)
Definition dfmt (w i : Z) (s : bool) : fmt := Fmt w i s TRN WRAP.

(** ** Operators that keep the operand's type. *)

(** x << n and x >> n by a signed count (bidirectional); the type of x is kept. *)
Definition shl (s : bool) (w x n : Z) : Z := wrap s w (Z.shiftl x n).
Definition shr (s : bool) (w x n : Z) : Z := wrap s w (Z.shiftr x n).

(** x[i] = b on a W-bit value. *)
Definition set_bit (s : bool) (w i : Z) (b : bool) (x : Z) : Z :=
  wrap s w (if b then Z.setbit x i else Z.clearbit x i).

(** x.slc<n>(lo) as an unsigned value. *)
Definition slc (n lo x : Z) : Z := wrapu n (Z.shiftr x lo).

(** ac::nbits<n>::val: bits needed for n (0 for n = 0). *)
Definition nbits (n : Z) : Z := if n <=? 0 then 0 else Z.log2 n + 1.

(** x.leading_sign() of an unsigned W-bit value: number of leading zero bits (W for zero). *)
Definition leading_sign_u (w x : Z) : Z := w - nbits x.
(** x.leading_sign() of a signed W-bit value: number of copies of the sign bit below the sign bit. *)
Definition leading_sign_s (w x : Z) : Z := w - 1 - nbits (if x <? 0 then - x - 1 else x).
Definition leading_sign (s : bool) (w x : Z) : Z :=
  if s then leading_sign_s w x else leading_sign_u w x.

(** C bool to integer. *)
Definition b2z (b : bool) : Z := if b then 1 else 0.

(** 32-bit C types. *)
Definition int_min : Z := - 2 ^ 31.
Definition int_max : Z := 2 ^ 31 - 1.
