(** Properties C09-C13 and C125: ac_shift_right and ac_shift_left. *)
From Coq Require Import Lia.
From Verif Require Import AcTypes AcFacts ShiftModel ShiftFacts ShiftProofs ShiftCplx Spec SpecFacts.

(** The specification relation determines the result. *)
Theorem converts2_deterministic : forall f x e y y',
  1 <= fW f -> converts2 f x e y -> converts2 f x e y' -> y = y'.
Proof. exact converts2_unique. Qed.
Print Assumptions converts2_deterministic.
(* 5 * 2^-1 = 2.5 rounded to the nearest even integer is 2 *)
Example converts2_case : converts2 (Fmt 4 4 false RND_CONV SAT) 5 (-1) 2.
Proof. exists 2; split; [split; [cbn; lia|intros _; exists 1; reflexivity]|reflexivity]. Qed.

(** C09, int count: for every input format, output format (all rounding and overflow modes), value and
    count of either sign, the result is x * 2^-(XF+n) converted to the output type. *)
Theorem C09_shift_right_unsigned_int : forall XW XI f x n,
  1 <= XW -> 1 <= fW f -> fS f = false -> 0 <= x < 2 ^ XW ->
  converts2 f x (- (XW - XI) - n) (shift_right_ui XW XI f x n).
Proof. exact shift_right_ui_spec. Qed.
Print Assumptions C09_shift_right_unsigned_int.
Example C09_case_right : shift_right_ui 8 4 (Fmt 4 4 false RND_CONV SAT) 151 1 = 5. (* 9.4375/2 *)
Proof. vm_compute; reflexivity. Qed.
Example C09_case_left_sat : shift_right_ui 8 4 (Fmt 4 4 false RND_CONV SAT) 151 (-1) = 15. (* 18.875 *)
Proof. vm_compute; reflexivity. Qed.

(** C09, unsigned count below 2^31. *)
Theorem C09_shift_right_unsigned_uint : forall XW XI f x n,
  1 <= XW -> 1 <= fW f -> fS f = false -> 0 <= x < 2 ^ XW -> 0 <= n < 2 ^ 31 ->
  converts2 f x (- (XW - XI) - n) (shift_right_uu XW XI f x n).
Proof. exact shift_right_uu_spec. Qed.
Print Assumptions C09_shift_right_unsigned_uint.
Example C09_case_uint : shift_right_uu 8 4 (Fmt 6 4 false RND_ZERO WRAP) 151 3 = 5. (* 1.1796875 *)
Proof. vm_compute; reflexivity. Qed.

(** C10, int count. *)
Theorem C10_shift_right_signed_int : forall XW XI f x n,
  1 <= XW -> 1 <= fW f -> fS f = true -> - 2 ^ (XW - 1) <= x < 2 ^ (XW - 1) ->
  converts2 f x (- (XW - XI) - n) (shift_right_si XW XI f x n).
Proof. exact shift_right_si_spec. Qed.
Print Assumptions C10_shift_right_signed_int.
Example C10_case_tie : shift_right_si 8 4 (Fmt 4 4 true RND_ZERO SAT) (-56) 0 = -3. (* -3.5, tie to zero *)
Proof. vm_compute; reflexivity. Qed.
Example C10_case_under : shift_right_si 8 4 (Fmt 4 4 true RND SAT_SYM) (-56) (-2) = -7. (* -14 *)
Proof. vm_compute; reflexivity. Qed.

(** C10, unsigned count below 2^31. *)
Theorem C10_shift_right_signed_uint : forall XW XI f x n,
  1 <= XW -> 1 <= fW f -> fS f = true -> - 2 ^ (XW - 1) <= x < 2 ^ (XW - 1) -> 0 <= n < 2 ^ 31 ->
  converts2 f x (- (XW - XI) - n) (shift_right_su XW XI f x n).
Proof. exact shift_right_su_spec. Qed.
Print Assumptions C10_shift_right_signed_uint.
Example C10_case_uint : shift_right_su 8 4 (Fmt 6 4 true RND_CONV SAT) (-122) 1 = -15. (* -3.8125 *)
Proof. vm_compute; reflexivity. Qed.

(** C11, int count. *)
Theorem C11_shift_left_unsigned_int : forall XW XI f x n,
  1 <= XW -> 1 <= fW f -> fS f = false -> 0 <= x < 2 ^ XW ->
  converts2 f x (- (XW - XI) + n) (shift_left_ui XW XI f x n).
Proof. exact shift_left_ui_spec. Qed.
Print Assumptions C11_shift_left_unsigned_int.
Example C11_case_int : shift_left_ui 8 4 (Fmt 6 5 false RND_MIN_INF SAT_ZERO) 151 1 = 38. (* 18.875 *)
Proof. vm_compute; reflexivity. Qed.

(** C11, unsigned count, any size. *)
Theorem C11_shift_left_unsigned_uint : forall XW XI f x n,
  1 <= XW -> 1 <= fW f -> fS f = false -> 0 <= x < 2 ^ XW -> 0 <= n ->
  converts2 f x (- (XW - XI) + n) (shift_left_uu XW XI f x n).
Proof. exact shift_left_uu_spec. Qed.
Print Assumptions C11_shift_left_unsigned_uint.
Example C11_case_uint : shift_left_uu 8 4 (Fmt 6 6 false RND SAT) 151 1 = 19. (* 18.875 *)
Proof. vm_compute; reflexivity. Qed.
Example C11_case_uint_sat : shift_left_uu 8 4 (Fmt 6 6 false RND SAT) 151 3 = 63. (* 75.5 *)
Proof. vm_compute; reflexivity. Qed.

(** C12, int count. *)
Theorem C12_shift_left_signed_int : forall XW XI f x n,
  1 <= XW -> 1 <= fW f -> fS f = true -> - 2 ^ (XW - 1) <= x < 2 ^ (XW - 1) ->
  converts2 f x (- (XW - XI) + n) (shift_left_si XW XI f x n).
Proof. exact shift_left_si_spec. Qed.
Print Assumptions C12_shift_left_signed_int.
Example C12_case_int : shift_left_si 8 4 (Fmt 4 5 true TRN_ZERO WRAP) (-77) 2 = 7. (* -19.25 -> -9 -> 7 *)
Proof. vm_compute; reflexivity. Qed.

(** C12, unsigned count: holds unless the output wraps with a rounding mode that looks at the sign. *)
Theorem C12_shift_left_signed_uint_partial : forall XW XI f x n,
  1 <= XW -> 1 <= fW f -> fS f = true -> - 2 ^ (XW - 1) <= x < 2 ^ (XW - 1) -> 0 <= n ->
  fO f <> WRAP \/ (fQ f <> TRN_ZERO /\ fQ f <> RND_ZERO /\ fQ f <> RND_INF) ->
  converts2 f x (- (XW - XI) + n) (shift_left_su XW XI f x n).
Proof. exact shift_left_su_spec. Qed.
Print Assumptions C12_shift_left_signed_uint_partial.
Example C12_case_uint : shift_left_su 8 4 (Fmt 4 5 true RND_CONV SAT) (-77) 1 = -5. (* -9.625 / 2 *)
Proof. vm_compute; reflexivity. Qed.

(** C12, unsigned count, excluded case: -3/32 * 2^2 = -0.375 truncated toward zero to quarters is
    -0.25 (mantissa -1), the code stores 0. *)
Theorem C12_shift_left_signed_uint_refuted : exists XW XI f x n,
  1 <= XW /\ 1 <= fW f /\ fS f = true /\ - 2 ^ (XW - 1) <= x < 2 ^ (XW - 1) /\ 0 <= n /\
  ~ converts2 f x (- (XW - XI) + n) (shift_left_su XW XI f x n).
Proof. exact shift_left_su_refuted. Qed.
Print Assumptions C12_shift_left_signed_uint_refuted.

(** C13: the unsigned-count overloads are wrong for some 32-bit counts (2^31 and above). *)
Theorem C13_shift_right_unsigned_refuted : exists XW XI f x n,
  1 <= XW /\ 1 <= fW f /\ fS f = false /\ 0 <= x < 2 ^ XW /\ 0 <= n < 2 ^ 32 /\
  ~ converts2 f x (- (XW - XI) - n) (shift_right_uu XW XI f x n).
Proof. exact shift_right_uu_refuted. Qed.
Print Assumptions C13_shift_right_unsigned_refuted.
Theorem C13_shift_right_signed_refuted : exists XW XI f x n,
  1 <= XW /\ 1 <= fW f /\ fS f = true /\ - 2 ^ (XW - 1) <= x < 2 ^ (XW - 1) /\ 0 <= n < 2 ^ 32 /\
  ~ converts2 f x (- (XW - XI) - n) (shift_right_su XW XI f x n).
Proof. exact shift_right_su_refuted. Qed.
Print Assumptions C13_shift_right_signed_refuted.

(** C125: the complex overloads convert the exact shift of both parts, with the exceptions of C12 and C13. *)
Theorem C125_shift_right_complex_partial : forall XW XI f x n, 1 <= XW -> 1 <= fW f -> in_range (fS f) XW (fst x) -> in_range (fS f) XW (snd x) -> 0 <= n < 2 ^ 31 ->
  let y := shift_right_c XW XI (fS f) f x n in converts2 f (fst x) (- (XW - XI) - n) (fst y) /\ converts2 f (snd x) (- (XW - XI) - n) (snd y).
Proof. exact shift_right_c_ok. Qed.
Print Assumptions C125_shift_right_complex_partial.
Theorem C125_shift_left_complex_partial : forall XW XI f x n, 1 <= XW -> 1 <= fW f -> in_range (fS f) XW (fst x) -> in_range (fS f) XW (snd x) -> 0 <= n ->
  fS f = false \/ fO f <> WRAP \/ (fQ f <> TRN_ZERO /\ fQ f <> RND_ZERO /\ fQ f <> RND_INF) ->
  let y := shift_left_c XW XI (fS f) f x n in converts2 f (fst x) (- (XW - XI) + n) (fst y) /\ converts2 f (snd x) (- (XW - XI) + n) (snd y).
Proof. exact shift_left_c_ok. Qed.
Print Assumptions C125_shift_left_complex_partial.
Theorem C125_shift_right_complex_refuted : exists XW XI f x n,
  1 <= XW /\ 1 <= fW f /\ in_range (fS f) XW (fst x) /\ in_range (fS f) XW (snd x) /\ 0 <= n < 2 ^ 32 /\
  ~ (let y := shift_right_c XW XI (fS f) f x n in converts2 f (fst x) (- (XW - XI) - n) (fst y) /\ converts2 f (snd x) (- (XW - XI) - n) (snd y)).
Proof. exact shift_right_c_false. Qed.
Print Assumptions C125_shift_right_complex_refuted.
Theorem C125_shift_left_complex_refuted : exists XW XI f x n,
  1 <= XW /\ 1 <= fW f /\ in_range (fS f) XW (fst x) /\ in_range (fS f) XW (snd x) /\ 0 <= n /\
  ~ (let y := shift_left_c XW XI (fS f) f x n in converts2 f (fst x) (- (XW - XI) + n) (fst y) /\ converts2 f (snd x) (- (XW - XI) + n) (snd y)).
Proof. exact shift_left_c_false. Qed.
Print Assumptions C125_shift_left_complex_refuted.
Example C125_case : shift_right_c 8 4 true (Fmt 6 4 true RND_CONV SAT) (-122, 77) 1 = (-15, 10) /\ (* -3.8125, 2.40625 *)
  shift_left_c 8 4 false (Fmt 6 6 false RND SAT) (151, 20) 1 = (19, 3). (* 18.875, 2.5 *)
Proof. vm_compute; split; reflexivity. Qed.
