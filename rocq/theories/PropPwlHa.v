(** Properties C68-C72: the higher-accuracy piecewise-linear functions and the piecewise-linear arctangents.  In every
    accuracy statement V is the value the code holds before its final conversion to the output type. *)
From Coq Require Import Reals Lia Lra.
From Verif Require Import AcTypes AcFacts Spec SpecR PwlModel PwlHaModel PwlHaProofs PwlHaReal AtanPwlThm.

(** C68: the high-accuracy reciprocal is within 0.014 % of 1/x, the very-high-accuracy one within 0.004 % (the file says
    0.005 %).  [cn] is the call_normalize argument; without it the input has to be normalised. *)
Theorem C68_reciprocal_ha_accuracy : forall pQ W I S f x,
  1 <= W -> 1 <= fW f -> in_range S W x -> x <> 0 ->
  let X := fxval x (W - I) in
  exists out V, reciprocal_pwl_ha pQ W I S f x = Some out /\ convertsR f V out /\
    (Rabs (V - (if S && fS f then / X else / Rabs X)) <= 0.00014 * / Rabs X)%R.
Proof. exact rha_real. Qed.
Print Assumptions C68_reciprocal_ha_accuracy.
Theorem C68_reciprocal_vha_accuracy : forall pQ W I S f cn x,
  1 <= W -> 1 <= fW f -> in_range S W x -> x <> 0 ->
  (cn = true \/ (1 + (if S then 1 else 0) <= W /\ 2 ^ (W - 1 - (if S then 1 else 0)) <= Z.abs x)) ->
  let X := fxval x (W - I) in
  exists out V, reciprocal_pwl_vha pQ W I S f cn x = Some out /\ convertsR f V out /\
    (Rabs (V - (if S && fS f then / X else / Rabs X)) <= 0.00004 * / Rabs X)%R.
Proof. exact rvha_real. Qed.
Print Assumptions C68_reciprocal_vha_accuracy.
Theorem C68_reciprocal_ha_zero : forall pQ W I S f, reciprocal_pwl_ha pQ W I S f 0 = Some (imax (fS f) (fW f)).
Proof. exact rha_zero. Qed.
Print Assumptions C68_reciprocal_ha_zero.
Theorem C68_reciprocal_vha_zero : forall pQ W I S f cn, reciprocal_pwl_vha pQ W I S f cn 0 = Some (imax (fS f) (fW f)).
Proof. exact rvha_zero. Qed.
Print Assumptions C68_reciprocal_vha_zero.
(** 1/3 = 349525.3 / 2^20; 1/96 = 10922.7 / 2^20 without normalisation; an input that is not normalised goes wrong. *)
Example C68_case : reciprocal_pwl_ha TRN 16 8 true (Fmt 24 4 true RND SAT) 768 = Some 349504 /\
  reciprocal_pwl_vha TRN 16 8 true (Fmt 24 4 true RND SAT) true 768 = Some 349520 /\
  reciprocal_pwl_vha TRN 16 8 true (Fmt 24 4 true RND SAT) false 24576 = Some 10923 /\
  reciprocal_pwl_vha TRN 16 8 true (Fmt 24 4 true RND SAT) false 768 = Some 15650 /\
  reciprocal_pwl_ha TRN 16 8 true (Fmt 24 4 true RND SAT) 0 = Some 8388607.
Proof. vm_compute. repeat split; reflexivity. Qed.

(** C69: these reciprocals too are odd before the output conversion, and decreasing for saturating outputs. *)
Theorem C69_reciprocal_ha_odd : forall pQ W I f x, 1 <= W -> 1 <= fW f -> fS f = true -> 0 < x < 2 ^ (W - 1) ->
  exists Y e out1 out2, reciprocal_pwl_ha pQ W I true f x = Some out1 /\ reciprocal_pwl_ha pQ W I true f (- x) = Some out2 /\
    converts2 f Y e out1 /\ converts2 f (- Y) e out2.
Proof. exact rha_odd. Qed.
Print Assumptions C69_reciprocal_ha_odd.
Theorem C69_reciprocal_vha_odd : forall pQ W I f cn x, 1 <= W -> 1 <= fW f -> fS f = true -> 0 < x < 2 ^ (W - 1) ->
  (cn = true \/ (2 <= W /\ 2 ^ (W - 2) <= x)) ->
  exists Y e out1 out2, reciprocal_pwl_vha pQ W I true f cn x = Some out1 /\ reciprocal_pwl_vha pQ W I true f cn (- x) = Some out2 /\
    converts2 f Y e out1 /\ converts2 f (- Y) e out2.
Proof. exact rvha_odd. Qed.
Print Assumptions C69_reciprocal_vha_odd.
Theorem C69_reciprocal_ha_decreasing : forall pQ W I S f x y a b, 1 <= W -> 1 <= fW f -> (fO f = SAT \/ fO f = SAT_SYM) ->
  in_range S W y -> 0 < x <= y ->
  reciprocal_pwl_ha pQ W I S f x = Some a -> reciprocal_pwl_ha pQ W I S f y = Some b -> b <= a.
Proof. exact rha_decreasing. Qed.
Print Assumptions C69_reciprocal_ha_decreasing.
Theorem C69_reciprocal_vha_decreasing : forall pQ W I S f cn x y a b, 1 <= W -> 1 <= fW f -> (fO f = SAT \/ fO f = SAT_SYM) ->
  in_range S W y -> 0 < x <= y -> (cn = true \/ (1 + (if S then 1 else 0) <= W /\ 2 ^ (W - 1 - (if S then 1 else 0)) <= x)) ->
  reciprocal_pwl_vha pQ W I S f cn x = Some a -> reciprocal_pwl_vha pQ W I S f cn y = Some b -> b <= a.
Proof. exact rvha_decreasing. Qed.
Print Assumptions C69_reciprocal_vha_decreasing.
Example C69_case : reciprocal_pwl_ha TRN 16 8 true (Fmt 24 4 true RND SAT) (-768) = Some (-349504) /\
  reciprocal_pwl_vha TRN 16 8 true (Fmt 24 4 true RND SAT) true (-768) = Some (-349520) /\
  reciprocal_pwl_ha TRN 16 8 true (Fmt 24 4 true RND SAT) 1024 = Some 262114 /\
  reciprocal_pwl_vha TRN 16 8 true (Fmt 24 4 true RND SAT) true 1024 = Some 262136.
Proof. vm_compute. repeat split; reflexivity. Qed.

(** C70: the very-high-accuracy inverse square root is within 0.005 % of 1/sqrt x, the tolerance its file states; zero
    gives the largest output; it decreases for saturating outputs. *)
Theorem C70_inverse_sqrt_vha_accuracy : forall pQ W I XO f cn x,
  1 <= W -> 1 <= fW f -> fS f = false -> 0 < x < 2 ^ W -> cn = true \/ 2 ^ (W - 1) <= x ->
  let X := fxval x (W - I) in
  exists out V, inverse_sqrt_pwl_vha pQ W I XO f cn x = Some out /\ convertsR f V out /\ (Rabs (V - / sqrt X) <= 0.00005 * / sqrt X)%R.
Proof. exact isqv_real. Qed.
Print Assumptions C70_inverse_sqrt_vha_accuracy.
Theorem C70_inverse_sqrt_vha_zero : forall pQ W I XO f cn, inverse_sqrt_pwl_vha pQ W I XO f cn 0 = Some (imax false (fW f)).
Proof. exact isqv_zero. Qed.
Print Assumptions C70_inverse_sqrt_vha_zero.
Theorem C70_inverse_sqrt_vha_decreasing : forall pQ W I XO f cn x y a b,
  1 <= W -> 1 <= fW f -> fS f = false -> (fO f = SAT \/ fO f = SAT_SYM) -> 0 < x <= y -> y < 2 ^ W -> cn = true \/ 2 ^ (W - 1) <= x ->
  inverse_sqrt_pwl_vha pQ W I XO f cn x = Some a -> inverse_sqrt_pwl_vha pQ W I XO f cn y = Some b -> b <= a.
Proof. exact isqv_decreasing. Qed.
Print Assumptions C70_inverse_sqrt_vha_decreasing.
(** 1/sqrt 2 = 741455.2 / 2^20, 1/sqrt 3 = 605395.6 / 2^20. *)
Example C70_case : inverse_sqrt_pwl_vha TRN 16 8 WRAP (Fmt 24 4 false RND SAT) true 512 = Some 741424 /\
  inverse_sqrt_pwl_vha TRN 16 8 WRAP (Fmt 24 4 false RND SAT) true 768 = Some 605384 /\
  inverse_sqrt_pwl_vha TRN 16 8 WRAP (Fmt 24 4 false RND SAT) true 0 = Some 16777215.
Proof. vm_compute. repeat split; reflexivity. Qed.

(** C71: the arctangents are within a fixed distance of atan x for every input, up to the output conversion. *)
Theorem C71_atan_accuracy : forall pQ W I f x, 1 <= W -> 1 <= fW f -> 0 <= x < 2 ^ W ->
  exists out V, atan_pwl pQ W I f x = Some out /\ convertsR f V out /\ (0 <= V)%R /\ (Rabs (V - atan (fxval x (W - I))) <= 0.0048)%R.
Proof. exact an_real. Qed.
Print Assumptions C71_atan_accuracy.
Theorem C71_atan_ha_accuracy : forall pQ W I f x, 1 <= W -> 1 <= fW f -> 0 <= x < 2 ^ W ->
  exists out V, atan_pwl_ha pQ W I f x = Some out /\ convertsR f V out /\ (0 <= V)%R /\ (Rabs (V - atan (fxval x (W - I))) <= 0.00013)%R.
Proof. exact ah_real. Qed.
Print Assumptions C71_atan_ha_accuracy.
Theorem C71_atan_vha_accuracy : forall pQ W I f x, 1 <= W -> 1 <= fW f -> 0 <= x < 2 ^ W ->
  exists out V, atan_pwl_vha pQ W I f x = Some out /\ convertsR f V out /\ (0 <= V)%R /\ (Rabs (V - atan (fxval x (W - I))) <= 0.0001)%R.
Proof. exact av_real. Qed.
Print Assumptions C71_atan_vha_accuracy.
(** atan(1/2) = 1944679 / 2^22, atan(3) = 5238878 / 2^22. *)
Example C71_case : atan_pwl TRN 16 8 (Fmt 24 2 false RND SAT) 128 = Some 1953792 /\ atan_pwl TRN 16 8 (Fmt 24 2 false RND SAT) 768 = Some 5248176 /\
  atan_pwl_ha TRN 16 8 (Fmt 24 2 false RND SAT) 128 = Some 1944832 /\ atan_pwl_ha TRN 16 8 (Fmt 24 2 false RND SAT) 768 = Some 5239056 /\
  atan_pwl_vha TRN 16 8 (Fmt 24 2 false RND SAT) 128 = Some 1944720 /\ atan_pwl_vha TRN 16 8 (Fmt 24 2 false RND SAT) 768 = Some 5238877.
Proof. vm_compute. repeat split; reflexivity. Qed.

(** C72: for a saturating output the arctangents increase, lie between 0 and the stored pi/2, and, in the two
    higher-accuracy versions, are zero at zero. *)
Theorem C72_atan_increasing : forall pQ W I f x y a b, 1 <= W -> 1 <= fW f -> (fO f = SAT \/ fO f = SAT_SYM) -> 0 <= x <= y -> y < 2 ^ W ->
  atan_pwl pQ W I f x = Some a -> atan_pwl pQ W I f y = Some b -> a <= b.
Proof. exact an_increasing. Qed.
Print Assumptions C72_atan_increasing.
Theorem C72_atan_ha_increasing : forall pQ W I f x y a b, 1 <= W -> 1 <= fW f -> (fO f = SAT \/ fO f = SAT_SYM) -> 0 <= x <= y -> y < 2 ^ W ->
  atan_pwl_ha pQ W I f x = Some a -> atan_pwl_ha pQ W I f y = Some b -> a <= b.
Proof. exact ah_increasing. Qed.
Print Assumptions C72_atan_ha_increasing.
Theorem C72_atan_vha_increasing : forall pQ W I f x y a b, 1 <= W -> 1 <= fW f -> (fO f = SAT \/ fO f = SAT_SYM) -> 0 <= x <= y -> y < 2 ^ W ->
  atan_pwl_vha pQ W I f x = Some a -> atan_pwl_vha pQ W I f y = Some b -> a <= b.
Proof. exact av_increasing. Qed.
Print Assumptions C72_atan_vha_increasing.
(** 1608 / 2^10, 3373259426 / 2^31 and 51471 / 2^15 are the three values of pi/2. *)
Theorem C72_atan_bounds : forall pQ W I f x, 1 <= W -> 1 <= fW f -> (fO f = SAT \/ fO f = SAT_SYM) -> 0 <= x < 2 ^ W ->
  exists out h, atan_pwl pQ W I f x = Some out /\ converts2 f 1608 (- 10) h /\ 0 <= out <= h.
Proof. exact an_bounds. Qed.
Print Assumptions C72_atan_bounds.
Theorem C72_atan_ha_bounds : forall pQ W I f x, 1 <= W -> 1 <= fW f -> (fO f = SAT \/ fO f = SAT_SYM) -> 0 <= x < 2 ^ W ->
  exists out h, atan_pwl_ha pQ W I f x = Some out /\ converts2 f 3373259426 (- 31) h /\ 0 <= out <= h.
Proof. exact ah_bounds. Qed.
Print Assumptions C72_atan_ha_bounds.
Theorem C72_atan_vha_bounds : forall pQ W I f x, 1 <= W -> 1 <= fW f -> (fO f = SAT \/ fO f = SAT_SYM) -> 0 <= x < 2 ^ W ->
  exists out h, atan_pwl_vha pQ W I f x = Some out /\ converts2 f 51471 (- 15) h /\ 0 <= out <= h.
Proof. exact av_bounds. Qed.
Print Assumptions C72_atan_vha_bounds.
Theorem C72_atan_ha_zero : forall pQ W I f, 1 <= W -> 1 <= fW f -> atan_pwl_ha pQ W I f 0 = Some 0.
Proof. exact ah_zero. Qed.
Print Assumptions C72_atan_ha_zero.
Theorem C72_atan_vha_zero : forall pQ W I f, 1 <= W -> 1 <= fW f -> atan_pwl_vha pQ W I f 0 = Some 0.
Proof. exact av_zero. Qed.
Print Assumptions C72_atan_vha_zero.
(** The plain version starts at 1/1024. *)
Theorem C72_atan_zero_refuted : ~ (forall pQ W I f, 1 <= W -> 1 <= fW f -> atan_pwl pQ W I f 0 = Some 0).
Proof. intros H. specialize (H TRN 16 8 (Fmt 24 2 false RND SAT) ltac:(lia) ltac:(cbn [fW]; lia)). vm_compute in H. discriminate H. Qed.
Print Assumptions C72_atan_zero_refuted.
Example C72_case : atan_pwl TRN 16 8 (Fmt 24 2 false RND SAT) 256 = Some 3293042 /\ atan_pwl TRN 16 8 (Fmt 24 2 false RND SAT) 257 = Some 3304686 /\
  atan_pwl_ha TRN 16 8 (Fmt 24 2 false RND SAT) 256 = Some 3294144 /\ atan_pwl_ha TRN 16 8 (Fmt 24 2 false RND SAT) 257 = Some 3302541 /\
  atan_pwl_vha TRN 16 8 (Fmt 24 2 false RND SAT) 256 = Some 3294128 /\ atan_pwl_vha TRN 16 8 (Fmt 24 2 false RND SAT) 257 = Some 3302280.
Proof. vm_compute. repeat split; reflexivity. Qed.
