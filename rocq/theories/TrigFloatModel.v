(** Models of the ac_float overloads of the CORDIC sine, cosine, arc sine and arc cosine: the argument is m 2^(I-W) 2^e.
    The result is the fixed-point number handed to the output's ac_float constructor.  No proofs here. *)
From Verif Require Import AcTypes ShiftModel CordicModel ArcModel.
Open Scope Z.

(** ac_sincos_cordic.h:392-413 and 415-437: sin_output_fi and cos_output_fi, with 28 fraction bits. *)
Definition sin_flt (W I m e : Z) : Z := sin_cordic 40 15 (dfmt 35 7 true) (shift_left_si W I (Fmt 40 15 true RND WRAP) m e).
Definition cos_flt (W I m e : Z) : Z := cos_cordic 40 15 (dfmt 35 7 true) (shift_left_si W I (Fmt 40 15 true RND WRAP) m e).

(** ac_arcsin_cordic.h:326-346 and ac_arccos_cordic.h:317-337: arcsin_output_fi and arccos_output_fi, with 30 fraction bits. *)
Definition asin_flt (W I m e : Z) : Z := arcsin_cordic 18 (dfmt 35 5 true) (shift_left_si W I (Fmt 20 2 true RND WRAP) m e).
Definition acos_flt (W I m e : Z) : Z := arccos_cordic 18 (dfmt 35 5 false) (shift_left_si W I (Fmt 20 2 true RND WRAP) m e).
