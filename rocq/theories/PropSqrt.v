(** Properties C14, C15, C52: ac_sqrt. *)
From Coq Require Import Reals Lia.
From Verif Require Import AcTypes Spec SpecR SqrtModel SqrtProofs.

(** C14: the integer overload returns the floor square root, reduced to the output width. *)
Theorem C14_sqrt_int : forall XW OW OS x r,
  1 <= XW -> 1 <= OW -> 0 <= x < 2 ^ XW -> 0 <= r -> r * r <= x < (r + 1) * (r + 1) ->
  is_limited WRAP OS OW r (sqrt_int XW OW OS x).
Proof. exact sqrt_int_ok. Qed.
Print Assumptions C14_sqrt_int.
Example C14_case : sqrt_int 8 4 false 200 = 14 /\ 14 * 14 <= 200 < 15 * 15.
Proof. vm_compute; repeat split; congruence. Qed.
Example C14_case_wrap : sqrt_int 8 3 true 200 = -2.
Proof. vm_compute; reflexivity. Qed.

(** C15: the ac_fixed overload returns the real square root, rounded and limited as the output type asks. *)
Theorem C15_sqrt_fixed : forall XW XI f x,
  1 <= XW -> 1 <= fW f -> fS f = false -> 0 <= x < 2 ^ XW ->
  convertsR f (sqrt (fxval x (XW - XI))) (sqrt_fx XW XI f x).
Proof. exact sqrt_fx_ok. Qed.
Print Assumptions C15_sqrt_fixed.
(** sqrt 2 = 1.41421356...; 5792.6 / 4096. *)
Example C15_case_rnd : sqrt_fx 8 4 (Fmt 16 4 false RND SAT) 32 = 5793.
Proof. vm_compute; reflexivity. Qed.
Example C15_case_trn : sqrt_fx 8 4 (Fmt 16 4 false TRN SAT) 32 = 5792.
Proof. vm_compute; reflexivity. Qed.
(** sqrt 2.25 = 1.5 is a tie at integer precision; sqrt 2.3125 is just above it. *)
Example C15_case_tie : sqrt_fx 8 4 (Fmt 4 4 false RND_ZERO WRAP) 36 = 1 /\ sqrt_fx 8 4 (Fmt 4 4 false RND_ZERO WRAP) 37 = 2.
Proof. vm_compute; split; reflexivity. Qed.

(** C52: the ac_float overload hands on the root truncated to TF bits and the halved exponent. *)
Theorem C52_sqrt_float : forall XW XI XQ TF mx e,
  2 <= XW -> 0 <= mx < 2 ^ (XW - 1) -> 1 <= TF + (XI + 1) / 2 ->
  let '(m, e2) := sqrt_float XW XI XQ TF TRN mx e in
  let V := (fxval mx (XW - XI) * bpow2 e)%R in
  (fxval m TF * bpow2 e2 <= sqrt V < fxval (m + 1) TF * bpow2 e2)%R.
Proof. exact sqrt_float_ok. Qed.
Print Assumptions C52_sqrt_float.
(** 0.75 * 2^3 = 6, sqrt 6 = 1.22474... * 2^1; 313/256 = 1.2227. *)
Example C52_case : sqrt_float 8 2 TRN 8 TRN 48 3 = (313, 1).
Proof. vm_compute; reflexivity. Qed.

(** C52 with a rounding temporary: the root of the largest mantissa rounds up to a power of two, which the temporary cannot hold. *)
Theorem C52_rounding_temporary_refuted :
  exists XW XI XQ TF TQ mx e, 2 <= XW /\ 0 < mx < 2 ^ (XW - 1) /\ 1 <= TF + (XI + 1) / 2 /\
    fst (sqrt_float XW XI XQ TF TQ mx e) = 0.
Proof. exists 8, 2, TRN, 2, RND, 127, 1. vm_compute. repeat split; congruence. Qed.
Print Assumptions C52_rounding_temporary_refuted.
