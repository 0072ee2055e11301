(** Properties C73-C74: the piecewise-linear tangent.  [W], [I], [Q] and [O] describe the input type (unsigned), [f] the
    output type, [pQ] is the pwl_Q argument.  The code copies its input into an internal type that keeps at most 20 bits
    and the input's own rounding and overflow modes.  The disjunction in the hypotheses says when that copy cannot overflow;
    [-18 <= I <= W + 1] says that the internal type has at least one bit, without which the code does not compile. *)
From Coq Require Import Reals Lia Lra.
From Verif Require Import AcTypes AcFacts Spec SpecR PwlModel TanPwlModel TanPwlProofs TanPwlThm TanPwlDom.

(** C73: within 0.00275 of tan(x) below 0.78515625, within 1.2 % up to 1.4 and within 5 % up to 1.556640625, before the
    conversion to the output type; the largest output from 1.556640625 on. *)
Theorem C73_tan_accuracy : forall pQ W I Q O f x,
  1 <= W -> -18 <= I <= W + 1 ->
  (1 <= I \/ W - I <= 19 \/ Q = TRN \/ Q = TRN_ZERO \/ O = SAT \/ O = SAT_SYM) ->
  1 <= fW f -> 0 <= x < 2 ^ W ->
  let X := fxval x (W - I) in (X < 1594 / 1024)%R ->
  exists out V, tan_pwl pQ W I Q O f x = Some out /\ convertsR f V out /\
    (Rabs (V - tan X) <= (if Rlt_dec X (804 / 1024) then 0.00275 else (if Rle_dec X 1.4 then 0.012 else 0.05) * tan X))%R.
Proof. exact tan_accuracy_dom. Qed.
Print Assumptions C73_tan_accuracy.
Theorem C73_tan_saturates : forall pQ W I Q O f x, (1594 / 1024 <= fxval x (W - I))%R ->
  tan_pwl pQ W I Q O f x = Some (imax (fS f) (fW f)).
Proof. exact tan_top. Qed.
Print Assumptions C73_tan_saturates.
(** For an input type that rounds and wraps, has no integer bits and more than 19 fraction bits, the tangent of an input
    just below 1 (1.557) comes out as 0. *)
Theorem C73_tan_accuracy_refuted : exists W I f x, 1 <= W /\ 1 <= fW f /\ 0 <= x < 2 ^ W /\
  tan_pwl TRN W I RND WRAP f x = Some 0 /\ (0.9 < tan (fxval x (W - I)))%R.
Proof. exact tan_lost. Qed.
Print Assumptions C73_tan_accuracy_refuted.
(** tan(0.5) = 0.5463, tan(1) = 1.5574, tan(1.5259) = 22.26, and an input above the limit; all with 24 fraction bits. *)
Example C73_case : tan_pwl TRN 16 1 TRN WRAP (Fmt 32 8 false TRN SAT) 16384 = Some 9170944 /\
  tan_pwl TRN 16 1 TRN WRAP (Fmt 32 8 false TRN SAT) 32768 = Some 26151520 /\
  tan_pwl TRN 16 1 TRN WRAP (Fmt 32 8 false TRN SAT) 50000 = Some 385462004 /\
  tan_pwl TRN 16 1 TRN WRAP (Fmt 32 8 false TRN SAT) 51020 = Some (2 ^ 32 - 1).
Proof. vm_compute. repeat split; reflexivity. Qed.

(** C74: the tangent of 0 is 0, and with a saturating output the tangent never decreases, also where the code starts to
    halve its argument. *)
Theorem C74_tan_zero : forall pQ W I Q O f, 1 <= W -> -18 <= I <= W + 1 -> 1 <= fW f -> tan_pwl pQ W I Q O f 0 = Some 0.
Proof. exact tan_zero_dom. Qed.
Print Assumptions C74_tan_zero.
Theorem C74_tan_increasing : forall pQ W I Q O f x y a b, 1 <= W -> -18 <= I <= W + 1 ->
  (1 <= I \/ W - I <= 19 \/ Q = TRN \/ Q = TRN_ZERO \/ O = SAT \/ O = SAT_SYM) ->
  1 <= fW f -> (fO f = SAT \/ fO f = SAT_SYM) -> 0 <= x <= y -> y < 2 ^ W ->
  tan_pwl pQ W I Q O f x = Some a -> tan_pwl pQ W I Q O f y = Some b -> a <= b.
Proof. exact tan_increasing_dom. Qed.
Print Assumptions C74_tan_increasing.
Theorem C74_tan_increasing_refuted : exists W I f x y a b, fO f = SAT /\ 0 <= x <= y /\ y < 2 ^ W /\
  tan_pwl TRN W I RND WRAP f x = Some a /\ tan_pwl TRN W I RND WRAP f y = Some b /\ b < a.
Proof.
  exists 30, 0, (Fmt 32 8 false TRN SAT), (2 ^ 29), (2 ^ 30 - 1), 9170944, 0.
  split; [reflexivity|]. split; [lia|]. split; [lia|]. split; [vm_compute; reflexivity|]. split; [vm_compute; reflexivity|lia].
Qed.
Print Assumptions C74_tan_increasing_refuted.
(** The outputs on both sides of 0.78515625 = 25728/2^15 and of 1.556640625 = 51008/2^15. *)
Example C74_case : tan_pwl TRN 16 1 TRN WRAP (Fmt 32 8 false TRN SAT) 25727 = Some 16741520 /\
  tan_pwl TRN 16 1 TRN WRAP (Fmt 32 8 false TRN SAT) 25728 = Some 16752118 /\
  tan_pwl TRN 16 1 TRN WRAP (Fmt 32 8 false TRN SAT) 51007 = Some 1147666565 /\
  tan_pwl TRN 16 1 TRN WRAP (Fmt 32 8 false TRN SAT) 0 = Some 0.
Proof. vm_compute. repeat split; reflexivity. Qed.
