(** Properties C21, C23 and C53: absolute values and the ReLU family. *)
From Coq Require Import Lia.
From Verif Require Import AcTypes Spec AbsModel AbsProofs.

(** C21: ac_int overload.  The absolute value, reduced modulo the output width if it does not fit. *)
Theorem C21_abs_int : forall XW YW YS x, 1 <= XW -> 1 <= YW -> - 2 ^ (XW - 1) <= x < 2 ^ (XW - 1) ->
  is_limited WRAP YS YW (Z.abs x) (abs_int XW YW YS x).
Proof. exact abs_int_ok. Qed.
Print Assumptions C21_abs_int.
(** Exact whenever |x| is a value of the output type. *)
Theorem C21_abs_int_exact : forall XW YW YS x, 1 <= XW -> 1 <= YW -> - 2 ^ (XW - 1) <= x < 2 ^ (XW - 1) ->
  Z.abs x <= highest YS YW -> abs_int XW YW YS x = Z.abs x.
Proof. exact abs_int_exact. Qed.
Print Assumptions C21_abs_int_exact.
Theorem C21_abs_fixed : forall XW XI f x, 1 <= XW -> 1 <= fW f -> - 2 ^ (XW - 1) <= x < 2 ^ (XW - 1) ->
  converts2 f (Z.abs x) (- (XW - XI)) (abs_fx XW XI f x).
Proof. exact abs_fx_ok. Qed.
Print Assumptions C21_abs_fixed.
Example C21_case : abs_int 8 8 false (-128) = 128 /\ abs_int 8 8 true (-128) = -128 /\ abs_int 8 8 true (-100) = 100 /\
  abs_fx 8 4 (Fmt 6 4 false RND SAT) (-29) = 7.
Proof. vm_compute; repeat split; reflexivity. Qed.

(** C53: the ac_float overload. *)
Theorem C53_abs_float : forall XW XE m e, 2 <= XW -> 1 <= XE ->
  - 2 ^ (XW - 1) <= m < 2 ^ (XW - 1) -> - 2 ^ (XE - 1) <= e < 2 ^ (XE - 1) ->
  let '(m', e') := abs_float XW XE m e in
  e <= e' /\ m' * 2 ^ (e' - e) = Z.abs m /\ 0 <= m' < 2 ^ (XW - 1) /\ - 2 ^ XE <= e' < 2 ^ XE.
Proof. exact abs_float_ok. Qed.
Print Assumptions C53_abs_float.
Example C53_case : abs_float 8 4 (-128) 7 = (64, 8) /\ abs_float 8 4 (-3) (-8) = (3, -8).
Proof. vm_compute; repeat split; reflexivity. Qed.

(** C23 *)
Theorem C23_relu : forall F f x, 1 <= fW f ->
  (0 < x -> converts2 f x (- F) (relu F f x)) /\ (x <= 0 -> relu F f x = 0).
Proof. exact relu_ok. Qed.
Print Assumptions C23_relu.
Theorem C23_leakyrelu : forall F FA f x a, 1 <= fW f ->
  (0 < x -> converts2 f x (- F) (leakyrelu F FA f x a)) /\
  (x <= 0 -> converts2 f (a * x) (- (FA + F)) (leakyrelu F FA f x a)).
Proof. exact leakyrelu_ok. Qed.
Print Assumptions C23_leakyrelu.
Theorem C23_prelu : forall F FA f x a, 1 <= fW f ->
  (0 < x -> converts2 f x (- F) (prelu F FA f x a)) /\
  (x <= 0 -> converts2 f (a * x) (- (FA + F)) (prelu F FA f x a)).
Proof. exact leakyrelu_ok. Qed.
Print Assumptions C23_prelu.
Theorem C23_relu_monotone : forall F f x y, fO f = SAT \/ fO f = SAT_SYM -> 1 <= fW f -> x <= y -> relu F f x <= relu F f y.
Proof. exact relu_mono. Qed.
Print Assumptions C23_relu_monotone.
Theorem C23_leakyrelu_monotone : forall F FA f x y a, fO f = SAT \/ fO f = SAT_SYM -> 1 <= fW f -> 0 <= a -> x <= y ->
  leakyrelu F FA f x a <= leakyrelu F FA f y a.
Proof. exact leakyrelu_mono. Qed.
Print Assumptions C23_leakyrelu_monotone.
Theorem C23_prelu_monotone : forall F FA f x y a, fO f = SAT \/ fO f = SAT_SYM -> 1 <= fW f -> 0 <= a -> x <= y ->
  prelu F FA f x a <= prelu F FA f y a.
Proof. exact leakyrelu_mono. Qed.
Print Assumptions C23_prelu_monotone.
Example C23_case : let f := Fmt 8 4 true RND SAT in
  relu 8 f 1000 = 63 /\ relu 8 f (-1000) = 0 /\ leakyrelu 8 4 f (-1000) 3 = -12 /\ prelu 8 4 f (-8000) 15 = -128.
Proof. vm_compute; repeat split; reflexivity. Qed.
