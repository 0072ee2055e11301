(** Proofs about the models of ac_abs and the ReLU family. *)
From Coq Require Import Lia ZifyBool.
From Verif Require Import AcTypes AcFacts Spec SpecFacts ShiftFacts AbsModel.

Lemma abs_core_ok XW x : 1 <= XW -> - 2 ^ (XW - 1) <= x < 2 ^ (XW - 1) -> abs_core XW x = Z.abs x.
Proof.
  intros HX Hx. unfold abs_core, slc. rewrite Z.shiftr_0_r.
  assert (E2 : 2 ^ XW = 2 * 2 ^ (XW - 1)) by (rewrite <- pow2_succ by lia; f_equal; lia).
  destruct (Z.ltb_spec x 0) as [L|L]; cbn [b2z].
  - change (wraps 1 1) with (-1). change (wrapu 1 (-1)) with 1. rewrite Z.lxor_m1_l. unfold Z.lnot, Z.pred.
    rewrite (wrapu_id XW (- x + -1)) by lia. rewrite wrapu_id by lia. lia.
  - change (wraps 1 0) with 0. change (wrapu 1 0) with 0. rewrite Z.lxor_0_l. rewrite (wrapu_id XW x) by lia. rewrite wrapu_id by lia. lia.
Qed.

Theorem abs_int_ok XW YW YS x : 1 <= XW -> 1 <= YW -> - 2 ^ (XW - 1) <= x < 2 ^ (XW - 1) ->
  is_limited WRAP YS YW (Z.abs x) (abs_int XW YW YS x).
Proof. intros HX HY Hx. unfold abs_int. rewrite abs_core_ok by assumption. apply (overflow_is_limited WRAP). assumption. Qed.

Lemma slc_wraps XW x : 1 <= XW -> - 2 ^ (XW - 1) <= x < 2 ^ (XW - 1) -> wraps XW (slc XW 0 x) = x.
Proof.
  intros HX Hx. unfold slc. rewrite Z.shiftr_0_r. unfold wraps, wrapu. rewrite Zplus_mod_idemp_l.
  assert (E2 : 2 ^ XW = 2 * 2 ^ (XW - 1)) by (rewrite <- pow2_succ by lia; f_equal; lia).
  rewrite Z.mod_small; lia.
Qed.

Lemma slc_abs XW x : 1 <= XW -> - 2 ^ (XW - 1) <= x < 2 ^ (XW - 1) ->
  slc XW 0 (wrapu XW (abs_core XW (wraps XW (slc XW 0 x)))) = Z.abs x.
Proof.
  intros HX Hx. rewrite slc_wraps, abs_core_ok by assumption. unfold slc. rewrite Z.shiftr_0_r.
  assert (E2 : 2 ^ XW = 2 * 2 ^ (XW - 1)) by (rewrite <- pow2_succ by lia; f_equal; lia).
  rewrite (wrapu_id XW (Z.abs x)) by lia. apply wrapu_id; lia.
Qed.

Theorem abs_fx_ok XW XI f x : 1 <= XW -> 1 <= fW f -> - 2 ^ (XW - 1) <= x < 2 ^ (XW - 1) ->
  converts2 f (Z.abs x) (- (XW - XI)) (abs_fx XW XI f x).
Proof.
  intros HX HY Hx. unfold abs_fx. rewrite slc_abs by assumption. apply (conv_eq_converts2 _ _ _ (XW - XI)); [assumption|lia|reflexivity].
Qed.

Theorem abs_float_ok XW XE m e : 2 <= XW -> 1 <= XE ->
  - 2 ^ (XW - 1) <= m < 2 ^ (XW - 1) -> - 2 ^ (XE - 1) <= e < 2 ^ (XE - 1) ->
  let '(m', e') := abs_float XW XE m e in
  e <= e' /\ m' * 2 ^ (e' - e) = Z.abs m /\ 0 <= m' < 2 ^ (XW - 1) /\ - 2 ^ XE <= e' < 2 ^ XE.
Proof.
  intros HX HE Hm He. unfold abs_float. rewrite slc_abs by lia.
  assert (E2 : 2 ^ (XW - 1) = 2 * 2 ^ (XW - 2)) by (rewrite <- pow2_succ by lia; f_equal; lia).
  assert (E3 : 2 ^ XE = 2 * 2 ^ (XE - 1)) by (rewrite <- pow2_succ by lia; f_equal; lia).
  pose proof (pow2_pos (XE - 1) ltac:(lia)) as PE. pose proof (pow2_pos (XW - 2) ltac:(lia)) as PW.
  assert (We : forall b, 0 <= b <= 1 -> wraps (XE + 1) (e + b) = e + b).
  { intros b Hb. apply wraps_id; [lia|]. replace (XE + 1 - 1) with XE by lia. lia. }
  unfold slc.
  destruct (Z.eq_dec (Z.abs m) (2 ^ (XW - 1))) as [E|E].
  - rewrite E. rewrite Z.pow2_bits_true by lia. cbn [b2z]. rewrite Z.shiftr_div_pow2 by lia. change (2 ^ 1) with 2.
    rewrite E2, (Z.mul_comm 2 (2 ^ (XW - 2))), Z.div_mul by lia. rewrite (wrapu_id (XW - 1)) by lia. rewrite (wraps_id XW) by lia. rewrite We by lia.
    replace (e + 1 - e) with 1 by lia. change (2 ^ 1) with 2. repeat split; lia.
  - assert (F : Z.testbit (Z.abs m) (XW - 1) = false).
    { destruct (Z.eq_dec m 0) as [->|]; [apply Z.bits_0|]. apply Z.bits_above_log2; [lia|]. apply Z.log2_lt_pow2; lia. }
    rewrite F. cbn [b2z]. rewrite Z.shiftr_0_r. rewrite (wrapu_id (XW - 1)) by lia. rewrite (wraps_id XW) by lia. rewrite We by lia.
    rewrite Z.add_0_r, Z.sub_diag. change (2 ^ 0) with 1. repeat split; lia.
Qed.

(** *** ReLU *)
Lemma conv_0 f F : 1 <= fW f -> conv f 0 F = 0.
Proof.
  intros HW. rewrite conv_unfold, Z.mul_0_l.
  assert (Q : forall d, 0 < d -> qround (fQ f) 0 d = 0).
  { intros d Hd. unfold qround. rewrite Z.div_0_l, Z.mod_0_l by lia. destruct (fQ f); cbn [Z.ltb Z.compare andb negb Z.odd Z.even];
      try reflexivity; try (replace (d <=? 2 * 0) with false by lia); try (replace (d <? 2 * 0) with false by lia); try (replace (d =? 2 * 0) with false by lia); reflexivity. }
  rewrite Q by (apply pw_pos). 
  pose proof (pow2_pos (fW f) ltac:(lia)). pose proof (pow2_pos (fW f - 1) ltac:(lia)).
  destruct (fO f), (fS f); unfold overflow, imin, imax, wrap;
    first [apply wraps_id; lia | apply wrapu_id; lia | repeat match goal with |- context [?a <? ?b] => destruct (Z.ltb_spec a b) end; cbn [orb]; lia].
Qed.

Theorem relu_ok F f x : 1 <= fW f ->
  (0 < x -> converts2 f x (- F) (relu F f x)) /\ (x <= 0 -> relu F f x = 0).
Proof.
  intros HW. unfold relu. split; intros H.
  - replace (0 <? x) with true by lia. apply (conv_eq_converts2 _ _ _ F); [assumption|lia|reflexivity].
  - replace (0 <? x) with false by lia. apply conv_0. assumption.
Qed.

Theorem leakyrelu_ok F FA f x a : 1 <= fW f ->
  (0 < x -> converts2 f x (- F) (leakyrelu F FA f x a)) /\
  (x <= 0 -> converts2 f (a * x) (- (FA + F)) (leakyrelu F FA f x a)).
Proof.
  intros HW. unfold leakyrelu. split; intros H.
  - replace (0 <? x) with true by lia. apply (conv_eq_converts2 _ _ _ F); [assumption|lia|reflexivity].
  - replace (0 <? x) with false by lia. apply (conv_eq_converts2 _ _ _ (FA + F)); [assumption|lia|reflexivity].
Qed.

Lemma conv_mono f x y F : fO f = SAT \/ fO f = SAT_SYM -> 1 <= fW f -> x <= y -> conv f x F <= conv f y F.
Proof.
  intros HO HW Hxy. rewrite !conv_unfold.
  assert (M : qround (fQ f) (x * pw (fF f - F)) (pw (F - fF f)) <= qround (fQ f) (y * pw (fF f - F)) (pw (F - fF f))).
  { apply qround_mono; [apply pw_pos|]. apply Z.mul_le_mono_nonneg_r; [pose proof (pw_pos (fF f - F)); lia|assumption]. }
  revert M. generalize (qround (fQ f) (x * pw (fF f - F)) (pw (F - fF f))), (qround (fQ f) (y * pw (fF f - F)) (pw (F - fF f))).
  intros u v M. pose proof (pow2_pos (fW f) ltac:(lia)). pose proof (pow2_pos (fW f - 1) ltac:(lia)).
  destruct HO as [-> | ->]; unfold overflow, imin, imax; destruct (fS f);
    repeat match goal with |- context [?a <? ?b] => destruct (Z.ltb_spec a b) end; lia.
Qed.

Theorem relu_mono F f x y : fO f = SAT \/ fO f = SAT_SYM -> 1 <= fW f -> x <= y -> relu F f x <= relu F f y.
Proof.
  intros HO HW H. unfold relu. destruct (Z.ltb_spec 0 x), (Z.ltb_spec 0 y); try lia; apply conv_mono; try assumption; lia.
Qed.

Theorem leakyrelu_mono F FA f x y a : fO f = SAT \/ fO f = SAT_SYM -> 1 <= fW f -> 0 <= a -> x <= y ->
  leakyrelu F FA f x a <= leakyrelu F FA f y a.
Proof.
  intros HO HW Ha H. unfold leakyrelu. destruct (Z.ltb_spec 0 x), (Z.ltb_spec 0 y); try lia.
  - apply conv_mono; assumption.
  - apply Z.le_trans with (conv f 0 (FA + F)).
    + apply conv_mono; try assumption. nia.
    + rewrite conv_0 by assumption. rewrite <- (conv_0 f F) by assumption. apply conv_mono; try assumption. lia.
  - apply conv_mono; try assumption. apply Z.mul_le_mono_nonneg_l; assumption.
Qed.

Theorem abs_int_exact XW YW YS x : 1 <= XW -> 1 <= YW -> - 2 ^ (XW - 1) <= x < 2 ^ (XW - 1) ->
  Z.abs x <= highest YS YW -> abs_int XW YW YS x = Z.abs x.
Proof.
  intros HX HY Hx H. unfold abs_int. rewrite abs_core_ok by assumption. apply wrap_id; [assumption|].
  unfold in_range, imin, imax, highest in *. pose proof (pow2_pos (YW - 1) ltac:(lia)). destruct YS; lia.
Qed.
