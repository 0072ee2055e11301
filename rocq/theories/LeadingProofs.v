(** Proofs about the models of ac_leading, ac_leading_ones, ac_barrel_shift and ac_normalize. *)
From Coq Require Import Lia ZifyBool.
From Verif Require Import AcTypes AcFacts Spec SpecFacts ShiftFacts SqrtFacts SpecBits LeadingModel.

Lemma wrapu_bit w x j : 0 <= j < w -> Z.testbit (wrapu w x) j = Z.testbit x j.
Proof. intros H. unfold wrapu. apply Z.mod_pow2_bits_low. lia. Qed.

Lemma wrapu_rng w x : 0 <= w -> 0 <= wrapu w x < 2 ^ w.
Proof. intros H. apply Z.mod_pos_bound. apply pow2_pos; lia. Qed.

Lemma set_bit_bits w i b x j :
  0 <= i < w -> 0 <= j < w -> Z.testbit (set_bit false w i b x) j = if i =? j then b else Z.testbit x j.
Proof.
  intros Hi Hj. unfold set_bit. change (wrap false) with wrapu. rewrite wrapu_bit by lia.
  destruct (Z.eqb_spec i j) as [<-|N]; destruct b.
  - apply Z.setbit_eq; lia.
  - apply Z.clearbit_eq.
  - apply Z.setbit_neq; lia.
  - apply Z.clearbit_neq; lia.
Qed.

Lemma fill_bits_ok w n g : 0 <= n <= w ->
  0 <= fill_bits w n g < 2 ^ w /\ forall j, 0 <= j < n -> Z.testbit (fill_bits w n g) j = g j.
Proof.
  intros H. unfold fill_bits. rewrite <- (Z2Nat.id n) in H |- * by lia. rewrite Nat2Z.id. revert H.
  generalize (Z.to_nat n). clear n. intros n. induction n as [|n IH]; intros H.
  - cbn [seq map fold_left]. split; [split; [lia|apply pow2_pos; lia]|]. cbn; lia.
  - rewrite Nat2Z.inj_succ in *. destruct (IH ltac:(lia)) as [B T]. rewrite seq_S, map_app, fold_left_app. cbn [map fold_left plus].
    set (r := fold_left _ _ 0) in *. split.
    + unfold set_bit. apply wrapu_rng. lia.
    + intros j Hj. rewrite set_bit_bits by lia. destruct (Z.eqb_spec (Z.of_nat n) j) as [E|E]; [rewrite E; reflexivity|]. apply T. lia.
Qed.

Lemma nbits_bound n v : 0 <= v <= n -> wrapu (nbits n) v = v.
Proof.
  intros H. unfold nbits. destruct (Z.leb_spec n 0).
  - assert (v = 0) by lia. subst v. reflexivity.
  - apply wrapu_id. pose proof (Z.log2_spec n ltac:(lia)). unfold Z.succ in *. lia.
Qed.

Lemma nbits_pos x : 0 < x -> nbits x = Z.log2 x + 1.
Proof. intros H. unfold nbits. destruct (Z.leb_spec x 0); lia. Qed.

Lemma log2_bits x : 0 < x -> Z.testbit x (Z.log2 x) = true /\ forall j, Z.log2 x < j -> Z.testbit x j = false.
Proof. intros H. split; [apply Z.bit_log2; lia|]. intros j Hj. apply Z.bits_above_log2; lia. Qed.

Lemma log2_lt x w : 0 < x < 2 ^ w -> 0 <= Z.log2 x < w.
Proof. intros H. split; [apply Z.log2_nonneg|]. apply Z.log2_lt_pow2; lia. Qed.

Lemma lead_tail_ok w lw rw up x :
  1 <= w -> w <= lw -> w - 1 <= rw -> 0 <= x < 2 ^ w ->
  lead_tail w lw rw up x = if x =? 0 then (0, false) else (if up then Z.log2 x else w - 1 - Z.log2 x, true).
Proof.
  intros Hw Hl Hr Hx. unfold lead_tail, leading_sign_u.
  destruct (Z.eqb_spec x 0) as [->|N].
  - change (nbits 0) with 0. rewrite Z.sub_0_r, (nbits_bound lw) by lia. rewrite !Z.eqb_refl. reflexivity.
  - assert (P : 0 < x) by lia. rewrite nbits_pos by lia. pose proof (log2_lt x w ltac:(lia)) as L.
    rewrite (nbits_bound lw) by lia.
    replace (w - (Z.log2 x + 1) =? w) with false by lia. replace (w =? w - (Z.log2 x + 1)) with false by lia.
    cbn [negb]. f_equal. destruct up; rewrite nbits_bound by lia; lia.
Qed.

Lemma testbit_above x j : 0 <= x < 2 ^ j -> Z.testbit x j = false.
Proof.
  intros H. destruct (Z.eq_dec x 0) as [->|]; [apply Z.bits_0|]. apply Z.bits_above_log2; [lia|]. apply Z.log2_lt_pow2; lia.
Qed.

Lemma bits_zero w x : 0 <= x < 2 ^ w -> (forall j, 0 <= j < w -> Z.testbit x j = false) -> x = 0.
Proof.
  intros Hx H. destruct (Z.eq_dec x 0); [assumption|exfalso].
  pose proof (log2_lt x w ltac:(lia)). destruct (log2_bits x ltac:(lia)) as [T _]. rewrite H in T by lia. discriminate.
Qed.

Lemma tail_highest w lw rw x P :
  1 <= w -> w <= lw -> w - 1 <= rw -> 0 <= x < 2 ^ w -> (forall j, 0 <= j < w -> Z.testbit x j = P j) ->
  is_highest P w (lead_tail w lw rw true x).
Proof.
  intros Hw Hl Hr Hx HP. rewrite lead_tail_ok by assumption. destruct (Z.eqb_spec x 0) as [E|E]; unfold is_highest.
  - right. repeat split. intros j Hj. rewrite <- HP by lia. rewrite E. apply Z.bits_0.
  - left. pose proof (log2_lt x w ltac:(lia)). destruct (log2_bits x ltac:(lia)) as [T1 T2]. repeat split; try lia.
    + rewrite <- HP by lia. exact T1.
    + intros j Hj. rewrite <- HP by lia. apply T2; lia.
Qed.

Lemma tail_lowest w lw rw x P :
  1 <= w -> w <= lw -> w - 1 <= rw -> 0 <= x < 2 ^ w -> (forall j, 0 <= j < w -> Z.testbit x j = P (w - 1 - j)) ->
  is_lowest P w (lead_tail w lw rw false x).
Proof.
  intros Hw Hl Hr Hx HP.
  assert (HP' : forall j, 0 <= j < w -> P j = Z.testbit x (w - 1 - j)).
  { intros j Hj. rewrite HP by lia. f_equal; lia. }
  rewrite lead_tail_ok by assumption. destruct (Z.eqb_spec x 0) as [E|E]; unfold is_lowest.
  - right. repeat split. intros j Hj. rewrite HP' by lia. rewrite E. apply Z.bits_0.
  - left. pose proof (log2_lt x w ltac:(lia)). destruct (log2_bits x ltac:(lia)) as [T1 T2]. repeat split; try lia.
    + rewrite HP' by lia. replace (w - 1 - (w - 1 - Z.log2 x)) with (Z.log2 x) by lia. exact T1.
    + intros j Hj. rewrite HP' by lia. apply T2; lia.
Qed.

Section U.
  Variables (W din : Z).
  Hypothesis HW : 1 <= W.
  Hypothesis Hd : 0 <= din < 2 ^ W.
  Theorem leading1_u_ok : is_highest (Z.testbit din) W (leading1_u W din).
  Proof. apply tail_highest; try lia. reflexivity. Qed.
  Theorem trailing1_u_ok : is_lowest (Z.testbit din) W (trailing1_u W din).
  Proof.
    destruct (fill_bits_ok W W (fun i => Z.testbit din (W - 1 - i)) ltac:(lia)) as [B T].
    apply tail_lowest; try lia. exact T.
  Qed.
  Theorem leading0_u_ok : is_highest (fun j => negb (Z.testbit din j)) W (leading0_u W din).
  Proof.
    apply tail_highest; try lia; [apply wrapu_rng; lia|]. intros j Hj. rewrite wrapu_bit by lia. apply Z.lnot_spec. lia.
  Qed.
  Theorem trailing0_u_ok : is_lowest (fun j => negb (Z.testbit din j)) W (trailing0_u W din).
  Proof.
    destruct (fill_bits_ok W W (fun i => negb (Z.testbit din (W - 1 - i))) ltac:(lia)) as [B T].
    apply tail_lowest; try lia. exact T.
  Qed.
End U.

Section S.
  Variables (W din : Z).
  Hypothesis HW : 2 <= W.
  Lemma slc_low j : 0 <= j < W - 1 -> Z.testbit (slc (W - 1) 0 din) j = Z.testbit din j.
  Proof. intros. unfold slc. rewrite wrapu_bit by lia. rewrite Z.shiftr_0_r. reflexivity. Qed.
  Theorem leading1_s_ok : is_highest (Z.testbit din) (W - 1) (leading1_s W din).
  Proof. apply tail_highest; try lia; [apply wrapu_rng; lia|]. apply slc_low. Qed.
  Theorem trailing1_s_ok : is_lowest (Z.testbit din) (W - 1) (trailing1_s W din).
  Proof.
    unfold trailing1_s. destruct (fill_bits_ok (W - 1) (W - 1) (fun i => Z.testbit (slc (W - 1) 0 din) (W - 2 - i)) ltac:(lia)) as [B T].
    apply tail_lowest; try lia. intros j Hj. rewrite T by lia. rewrite slc_low by lia. f_equal; lia.
  Qed.
  Lemma lnot_low j : 0 <= j < W - 1 -> Z.testbit (wrapu (W - 1) (Z.lnot (slc (W - 1) 0 din))) j = negb (Z.testbit din j).
  Proof. intros. rewrite wrapu_bit, Z.lnot_spec, slc_low by lia. reflexivity. Qed.
  Theorem leading0_s_ok : is_highest (fun j => negb (Z.testbit din j)) (W - 1) (leading0_s W din).
  Proof. apply tail_highest; try lia; [apply wrapu_rng; lia|]. apply lnot_low. Qed.
  Theorem trailing0_s_ok : is_lowest (fun j => negb (Z.testbit din j)) (W - 1) (trailing0_s W din).
  Proof.
    unfold trailing0_s. set (t := wrapu _ _).
    destruct (fill_bits_ok (W - 1) (W - 1) (fun i => Z.testbit t (W - 2 - i)) ltac:(lia)) as [B T].
    apply tail_lowest; try lia. intros j Hj. rewrite T by lia. unfold t. rewrite lnot_low by lia. do 2 f_equal; lia.
  Qed.
End S.

(** *** ac_leading_ones *)
Lemma ones_small : forall N din i, 1 <= N <= 4 -> 0 < din < 2 ^ N -> 2 ^ i <= din < 2 ^ (i + 1) -> 0 <= i -> leading_ones N din = (true, i).
Proof.
  intros N din i HN Hd Hi Hi0.
  assert (Ei : i = Z.log2 din) by (symmetry; apply Z.log2_unique; unfold Z.succ; lia). subst i. clear Hi.
  assert (HN' : N = 1 \/ N = 2 \/ N = 3 \/ N = 4) by lia.
  assert (HD : 0 < din < 16) by (pose proof (pow2_le N 4 ltac:(lia)); change (2 ^ 4) with 16 in *; lia).
  assert (L : In din (map Z.of_nat (seq 0 16))).
  { apply in_map_iff. exists (Z.to_nat din). split; [lia|]. apply in_seq. lia. }
  repeat destruct HN' as [-> | HN']; try subst N; cbn in L;
    repeat (destruct L as [<- | L]; [try (cbn in Hd; lia); vm_compute; reflexivity|]); destruct L.
Qed.

Lemma ones_zero N : leading_ones N 0 = (false, ones_idx (Z.to_nat N) N 0).
Proof. unfold leading_ones. destruct (N =? 1); reflexivity. Qed.

Lemma P2_bound N : 5 <= N -> 2 <= ones_P2 N /\ 2 * ones_P2 N < N.
Proof.
  intros H. unfold ones_P2. set (h := (N + 1) / 2). assert (Hh : 3 <= h /\ 2 * h <= N + 1) by (unfold h; Z.to_euclidean_division_equations; lia).
  rewrite nbits_pos by lia. assert (L2 : 1 <= Z.log2 h) by (apply Z.log2_le_pow2; cbn; lia). split; [lia|].
  pose proof (Z.log2_spec h ltac:(lia)) as S.
  destruct (Z.eq_dec (Z.log2 h) 1) as [E|E]; [lia|]. 
  destruct (Z.eq_dec (Z.log2 h) 2) as [E2|E2]; [rewrite E2 in S; cbn in S; lia|].
  assert (G : forall n : nat, (3 <= n)%nat -> 2 * (Z.of_nat n + 1) < 2 * 2 ^ Z.of_nat n - 1).
  { intros n Hn. induction Hn as [|n Hn IH]; [cbn; lia|]. rewrite Nat2Z.inj_succ, Z.pow_succ_r by lia. lia. }
  specialize (G (Z.to_nat (Z.log2 h)) ltac:(lia)). rewrite Z2Nat.id in G by lia. lia.
Qed.

Lemma low_bit (p : positive) : exists t, 0 <= t /\ Z.testbit (Zpos p) t = true /\ Z.testbit (2 * Zpos p) t = false.
Proof.
  induction p as [p IH|p IH|].
  - exists 0. split; [lia|]. rewrite Z.testbit_even_0. split; reflexivity.
  - destruct IH as (t & H0 & H1 & H2). exists (t + 1). split; [lia|].
    replace (Z.pos p~0) with (2 * Z.pos p) by lia.
    rewrite !(Z.double_bits _ (t + 1)). replace (Z.pred (t + 1)) with t by lia. split; assumption.
  - exists 0. split; [lia|]. split; reflexivity.
Qed.

(** From N = 5 on, the one-hot input with bit 2*P2 set is reported at a wrong index, whatever the recursion returns. *)
Lemma ones_wrong N : 5 <= N -> exists i, 0 <= i < N /\ snd (leading_ones N (2 ^ i)) <> i.
Proof.
  intros HN. destruct (P2_bound N HN) as [P1 P2]. set (P := ones_P2 N) in *.
  assert (LC : N <= 2 ^ log2_ceil N) by (unfold log2_ceil; apply Z.log2_up_spec; lia).
  assert (LC0 : 0 <= log2_ceil N) by apply Z.log2_up_nonneg.
  exists (2 * P). split; [lia|]. unfold leading_ones. cbn [snd].
  destruct (Z.to_nat N) as [|fuel] eqn:EN; [lia|]. cbn [ones_idx]. replace (N =? 1) with false by lia. cbv zeta. fold P.
  assert (EU : slc (N - P) P (2 ^ (2 * P)) = 2 ^ P).
  { unfold slc. rewrite Z.shiftr_div_pow2 by lia. rewrite <- Z.pow_sub_r by lia. replace (2 * P - P) with P by lia.
    apply wrapu_id. split; [apply Z.pow_nonneg; lia|]. apply Z.pow_lt_mono_r; lia. }
  rewrite EU. assert (0 < 2 ^ P) by (apply pow2_pos; lia). replace (2 ^ P =? 0) with false by lia. cbn [negb].
  set (u := ones_idx fuel (N - P) (2 ^ P)). intros E.
  destruct P as [|p|p]; try lia. destruct (low_bit p) as (t & H0 & H1 & H2).
  assert (Ht : t < log2_ceil N).
  { apply Z.nle_gt. intros K. rewrite testbit_above in H1; [discriminate|]. pose proof (pow2_le (log2_ceil N) t). lia. }
  rewrite <- E in H2. rewrite wrapu_bit, Z.lor_spec, H1, Bool.orb_true_r in H2 by lia. discriminate.
Qed.

(** *** ac_barrel_shift *)
Lemma shift_layer_ok N d s i : 1 <= N -> 0 <= d < 2 ^ N -> 0 <= i -> 2 ^ i < N ->
  0 <= shift_layer N d s i < 2 ^ N /\
  forall j, 0 <= j < N -> Z.testbit (shift_layer N d s i) j = Z.testbit d ((j + b2z (Z.testbit s i) * 2 ^ i) mod N).
Proof.
  intros HN Hd Hi Hp. unfold shift_layer. split; [apply wrapu_rng; lia|]. intros j Hj.
  assert (HT : forall j, 0 <= j < 2 * N -> Z.testbit (Z.lor d (Z.shiftl d N)) j = Z.testbit d (j mod N)).
  { intros k Hk. rewrite Z.lor_spec, Z.shiftl_spec by lia. destruct (Z.lt_ge_cases k N) as [L|L].
    - rewrite (Z.testbit_neg_r d (k - N)) by lia. rewrite Bool.orb_false_r, Z.mod_small by lia. reflexivity.
    - rewrite (testbit_above d k) by (pose proof (pow2_le N k); lia). replace (k mod N) with (k - N) by (symmetry; apply (mod_eq _ _ 1); lia).
      reflexivity. }
  unfold slc. rewrite wrapu_bit, Z.shiftr_0_r by lia. pose proof (pow2_pos i Hi).
  destruct (Z.testbit s i); cbn [b2z].
  - unfold shr. change (wrap false) with wrapu. rewrite wrapu_bit by lia.
    rewrite Z.shiftl_1_l, Z.shiftr_spec by lia. rewrite HT by lia. do 2 f_equal. lia.
  - rewrite HT by lia. do 2 f_equal. lia.
Qed.

Theorem barrel_shift_ok N din s : 2 <= N -> 0 <= din < 2 ^ N -> 0 <= s < 2 ^ nbits (N - 1) ->
  0 <= barrel_shift N din s < 2 ^ N /\
  forall j, 0 <= j < N -> Z.testbit (barrel_shift N din s) j = Z.testbit din ((j + s) mod N).
Proof.
  intros HN Hd Hs.
  assert (K : forall k : nat, Z.of_nat k <= nbits (N - 1) ->
    let r := fold_left (fun d i => shift_layer N d s i) (map Z.of_nat (seq 0 k)) din in
    0 <= r < 2 ^ N /\ forall j, 0 <= j < N -> Z.testbit r j = Z.testbit din ((j + s mod 2 ^ Z.of_nat k) mod N)).
  { induction k as [|k IH]; intros Hk; cbv zeta.
    - cbn [seq map fold_left]. split; [lia|]. intros j Hj. change (2 ^ Z.of_nat 0) with 1. rewrite Z.mod_1_r, Z.add_0_r, Z.mod_small by lia. reflexivity.
    - rewrite Nat2Z.inj_succ in *. destruct (IH ltac:(lia)) as [B T]. rewrite seq_S, map_app, fold_left_app. cbn [map fold_left plus].
      set (r := fold_left _ _ din) in *.
      assert (HP : 2 ^ Z.of_nat k < N).
      { rewrite nbits_pos in Hk by lia. pose proof (Z.log2_spec (N - 1) ltac:(lia)). pose proof (pow2_le (Z.of_nat k) (Z.log2 (N - 1))). lia. }
      destruct (shift_layer_ok N r s (Z.of_nat k) ltac:(lia) B ltac:(lia) HP) as [B' T']. split; [exact B'|].
      intros j Hj. rewrite T' by lia. rewrite T by (apply Z.mod_pos_bound; lia). f_equal.
      rewrite Zplus_mod_idemp_l. f_equal. rewrite <- Z.add_assoc. f_equal.
      unfold Z.succ. rewrite Z.pow_add_r by lia. change (2 ^ 1) with 2. rewrite Z.rem_mul_r by (try apply Z.pow_nonzero; lia).
      assert (Eb : b2z (Z.testbit s (Z.of_nat k)) = (s / 2 ^ Z.of_nat k) mod 2).
      { rewrite <- Z.testbit_spec' by lia. reflexivity. }
      rewrite Eb. ring. }
  unfold barrel_shift. assert (N0 : 0 <= nbits (N - 1)) by (rewrite nbits_pos by lia; pose proof (Z.log2_nonneg (N - 1)); lia).
  specialize (K (Z.to_nat (nbits (N - 1))) ltac:(lia)). cbv zeta in K. rewrite Z2Nat.id in K by lia.
  rewrite (Z.mod_small s) in K by lia. exact K.
Qed.

(** *** ac_normalize *)
Lemma norm_u W x : 1 <= W -> 0 < x < 2 ^ W ->
  let l := leading_sign_u W x in 0 <= l /\ 2 ^ (W - 1) <= x * 2 ^ l < 2 ^ W.
Proof.
  intros HW Hx. cbv zeta. unfold leading_sign_u. rewrite nbits_pos by lia. pose proof (log2_lt x W Hx) as L.
  split; [lia|]. pose proof (Z.log2_spec x ltac:(lia)) as [S1 S2]. pose proof (pow2_pos (W - (Z.log2 x + 1)) ltac:(lia)) as P. split.
  - replace (W - 1) with (Z.log2 x + (W - (Z.log2 x + 1))) by lia. rewrite Z.pow_add_r by lia. apply Z.mul_le_mono_nonneg_r; lia.
  - replace W with (Z.succ (Z.log2 x) + (W - (Z.log2 x + 1))) at 2 by lia. rewrite Z.pow_add_r by lia. apply Z.mul_lt_mono_pos_r; lia.
Qed.

Lemma nbits_nonneg x : 0 <= nbits x.
Proof. unfold nbits. destruct (x <=? 0); [lia|]. pose proof (Z.log2_nonneg x); lia. Qed.

Lemma nbits_le x w : 0 <= w -> 0 <= x < 2 ^ w -> nbits x <= w.
Proof.
  intros Hw H. destruct (Z.eq_dec x 0) as [->|]; [cbn; lia|]. rewrite nbits_pos by lia. pose proof (log2_lt x w ltac:(lia)). lia.
Qed.

Lemma nbits_ub x : 0 <= x -> x < 2 ^ nbits x.
Proof.
  intros H. destruct (Z.eq_dec x 0) as [->|]; [cbn; lia|]. rewrite nbits_pos by lia. pose proof (Z.log2_spec x ltac:(lia)). unfold Z.succ in *; lia.
Qed.

Lemma nbits_lb x : 0 < x -> 2 ^ (nbits x - 1) <= x.
Proof. intros H. rewrite nbits_pos by lia. replace (Z.log2 x + 1 - 1) with (Z.log2 x) by lia. apply Z.log2_spec; lia. Qed.

(** Magnitude with the bits of the complement for negative values. *)
Definition cmag (v : Z) : Z := if v <? 0 then - v - 1 else v.

(** Shifting a signed value by l <= the number of redundant sign bits stays in range. *)
Lemma shift_in_range W v n : 1 <= W -> nbits (cmag v) <= n <= W - 1 ->
  - 2 ^ (W - 1) <= v * 2 ^ (W - 1 - n) < 2 ^ (W - 1).
Proof.
  intros HW Hn. assert (C0 : 0 <= cmag v) by (unfold cmag; destruct (Z.ltb_spec v 0); lia).
  pose proof (nbits_ub (cmag v) C0) as U. pose proof (nbits_nonneg (cmag v)).
  assert (U2 : cmag v < 2 ^ n) by (pose proof (pow2_le (nbits (cmag v)) n); lia).
  assert (B : - 2 ^ n <= v < 2 ^ n) by (unfold cmag in U2; destruct (Z.ltb_spec v 0); lia).
  replace (2 ^ (W - 1)) with (2 ^ n * 2 ^ (W - 1 - n)) by (rewrite <- Z.pow_add_r by lia; f_equal; lia).
  pose proof (pow2_pos (W - 1 - n) ltac:(lia)) as P. split.
  - rewrite <- Z.mul_opp_l. apply Z.mul_le_mono_nonneg_r; lia.
  - apply Z.mul_lt_mono_pos_r; lia.
Qed.

(** ... and by exactly that number it is normalised. *)
Lemma shift_normal W v : 2 <= W -> v <> 0 -> nbits (cmag v) <= W - 1 ->
  let m := v * 2 ^ (W - 1 - nbits (cmag v)) in
  2 ^ (W - 2) <= m < 2 ^ (W - 1) \/ - 2 ^ (W - 1) <= m < - 2 ^ (W - 2).
Proof.
  intros HW Hv Hn. cbv zeta. pose proof (shift_in_range W v (nbits (cmag v)) ltac:(lia) ltac:(lia)) as R.
  set (n := nbits (cmag v)) in *. pose proof (pow2_pos (W - 1 - n) ltac:(lia)) as P. pose proof (nbits_nonneg (cmag v)) as N0. fold n in N0.
  assert (E2 : 2 ^ (W - 1) = 2 * 2 ^ (W - 2)) by (rewrite <- pow2_succ by lia; f_equal; lia).
  destruct (Z.eq_dec (cmag v) 0) as [E|E].
  - assert (v = -1) by (unfold cmag in E; destruct (Z.ltb_spec v 0); lia). subst v.
    assert (En : n = 0) by (unfold n; rewrite E; reflexivity). rewrite En in *. rewrite Z.sub_0_r in *.
    right. pose proof (pow2_pos (W - 2) ltac:(lia)). lia.
  - assert (C : 0 < cmag v) by (unfold cmag in *; destruct (Z.ltb_spec v 0); lia).
    pose proof (nbits_lb (cmag v) C) as L. fold n in L. assert (N1 : 1 <= n) by (unfold n; rewrite nbits_pos by lia; pose proof (Z.log2_nonneg (cmag v)); lia).
    replace (2 ^ (W - 2)) with (2 ^ (n - 1) * 2 ^ (W - 1 - n)) by (rewrite <- Z.pow_add_r by lia; f_equal; lia).
    unfold cmag in L. destruct (Z.ltb_spec v 0).
    + right. split; [lia|]. rewrite <- Z.mul_opp_l. apply Z.mul_lt_mono_pos_r; lia.
    + left. split; [|lia]. apply Z.mul_le_mono_nonneg_r; lia.
Qed.

Lemma overflow_id o s w x : 1 <= w -> in_range s w x -> o <> SAT_SYM -> overflow o s w x = x.
Proof.
  intros Hw Hx Ho. unfold in_range in Hx. destruct o; try contradiction; unfold overflow.
  - destruct s; cbn [wrap]; unfold imin, imax in Hx; [apply wraps_id|apply wrapu_id]; lia.
  - destruct (Z.ltb_spec x (imin s w)), (Z.ltb_spec (imax s w) x); lia.
  - destruct (Z.ltb_spec x (imin s w)), (Z.ltb_spec (imax s w) x); cbn [orb]; lia.
Qed.

Lemma overflow_id_sym w x s : 1 <= w -> in_range s w x -> (s = true -> x <> - 2 ^ (w - 1)) -> overflow SAT_SYM s w x = x.
Proof.
  intros Hw Hx Hs. unfold in_range, overflow in *. cbv zeta. unfold imin, imax in *. destruct s; try specialize (Hs eq_refl).
  - replace (x <? - (2 ^ (w - 1) - 1)) with false by lia. replace (2 ^ (w - 1) - 1 <? x) with false by lia. reflexivity.
  - replace (x <? 0) with false by lia. replace (2 ^ w - 1 <? x) with false by lia. reflexivity.
Qed.

Lemma shl_in_range s w x l : 1 <= w -> 0 <= l -> in_range s w (x * 2 ^ l) -> shl s w x l = x * 2 ^ l.
Proof.
  intros Hw Hl H. unfold shl. rewrite Z.shiftl_mul_pow2 by lia. apply (overflow_id WRAP); [assumption|assumption|discriminate].
Qed.

Lemma shl_0 s w l : 1 <= w -> 0 <= l -> shl s w 0 l = 0.
Proof. intros. rewrite shl_in_range; try lia. unfold in_range, imin, imax. pose proof (pow2_pos (w - 1)). pose proof (pow2_pos w). destruct s; lia. Qed.

Theorem normalize_u_ok W I O x : 1 <= W -> 0 < x < 2 ^ W ->
  let '(e, m) := normalize W I false O x in
  e <= I /\ m = x * 2 ^ (I - e) /\ 2 ^ (W - 1) <= m < 2 ^ W.
Proof.
  intros HW Hx. unfold normalize. replace (x =? 0) with false by lia. cbn [negb b2z leading_sign].
  destruct (norm_u W x HW Hx) as [L B]. set (l := leading_sign_u W x) in *.
  assert (R : in_range false W (x * 2 ^ l)) by (unfold in_range, imin, imax; lia).
  rewrite shl_in_range by assumption.
  assert (E : overflow O false W (x * 2 ^ l) = x * 2 ^ l).
  { destruct O; try (apply overflow_id; [assumption|assumption|discriminate]). apply overflow_id_sym; try assumption. discriminate. }
  rewrite E. replace (I - (I - 0 - l)) with l by lia. repeat split; lia.
Qed.

Lemma ls_s W x : leading_sign_s W x = W - 1 - nbits (cmag x).
Proof. reflexivity. Qed.

Lemma cmag_bits W x : 1 <= W -> - 2 ^ (W - 1) <= x < 2 ^ (W - 1) -> nbits (cmag x) <= W - 1.
Proof. intros HW Hx. apply nbits_le; [lia|]. unfold cmag. destruct (Z.ltb_spec x 0); lia. Qed.

Theorem normalize_s_ok W I O x : 2 <= W -> - 2 ^ (W - 1) <= x < 2 ^ (W - 1) -> x <> 0 ->
  (O = SAT_SYM -> forall k, 0 <= k -> x <> - 2 ^ k) ->
  let '(e, m) := normalize W I true O x in
  e <= I - 1 /\ m = x * 2 ^ (I - 1 - e) /\
  (2 ^ (W - 2) <= m < 2 ^ (W - 1) \/ - 2 ^ (W - 1) <= m < - 2 ^ (W - 2)).
Proof.
  intros HW Hx N HO. unfold normalize. replace (x =? 0) with false by lia. cbn [negb b2z leading_sign].
  pose proof (cmag_bits W x ltac:(lia) Hx) as NB.
  pose proof (shift_normal W x HW N NB) as SN. cbv zeta in SN. pose proof (shift_in_range W x _ ltac:(lia) (conj (Z.le_refl _) NB)) as SR.
  rewrite ls_s. set (l := W - 1 - nbits (cmag x)) in *.
  assert (R : in_range true W (x * 2 ^ l)) by (unfold in_range, imin, imax; lia).
  rewrite shl_in_range by (try assumption; lia).
  assert (E : overflow O true W (x * 2 ^ l) = x * 2 ^ l).
  { destruct O; try (apply overflow_id; [lia|assumption|discriminate]). apply overflow_id_sym; [lia|assumption|]. intros _ K.
    assert (Hl : 0 <= l) by lia. pose proof (pow2_pos l Hl).
    assert (Ek : 2 ^ (W - 1) = 2 ^ (W - 1 - l) * 2 ^ l) by (rewrite <- Z.pow_add_r by (pose proof (nbits_nonneg (cmag x)); unfold l; lia); f_equal; lia).
    apply (HO eq_refl (W - 1 - l)); [pose proof (nbits_nonneg (cmag x)); unfold l; lia|]. nia. }
  rewrite E. replace (I - 1 - (I - 1 - l)) with l by lia. repeat split; try lia.
Qed.

Theorem normalize_0 W I S O : 1 <= W -> normalize W I S O 0 = (0, 0).
Proof.
  intros HW. unfold normalize. cbn [Z.eqb negb]. rewrite shl_0; [|assumption|].
  - f_equal. destruct O; unfold overflow; cbn [wrap].
    + destruct S; [apply wraps_id|apply wrapu_id]; pose proof (pow2_pos W); pose proof (pow2_pos (W - 1)); lia.
    + unfold imin, imax. pose proof (pow2_pos W). pose proof (pow2_pos (W - 1)). destruct S;
      [replace (0 <? - 2 ^ (W - 1)) with false by lia; replace (2 ^ (W - 1) - 1 <? 0) with false by lia
      |replace (0 <? 0) with false by lia; replace (2 ^ W - 1 <? 0) with false by lia]; reflexivity.
    + unfold imin, imax. pose proof (pow2_pos W). pose proof (pow2_pos (W - 1)). destruct S;
      [replace (0 <? - 2 ^ (W - 1)) with false by lia; replace (2 ^ (W - 1) - 1 <? 0) with false by lia
      |replace (0 <? 0) with false by lia; replace (2 ^ W - 1 <? 0) with false by lia]; reflexivity.
    + unfold imin, imax. pose proof (pow2_pos W). pose proof (pow2_pos (W - 1)). destruct S;
      [replace (0 <? - (2 ^ (W - 1) - 1)) with false by lia; replace (2 ^ (W - 1) - 1 <? 0) with false by lia
      |replace (0 <? 0) with false by lia; replace (2 ^ W - 1 <? 0) with false by lia]; reflexivity.
  - destruct S; unfold leading_sign, leading_sign_s, leading_sign_u; cbn; lia.
Qed.

(** *** complex ac_normalize *)
Lemma nbits_lor a b : 0 <= a -> 0 <= b -> nbits (Z.lor a b) = Z.max (nbits a) (nbits b).
Proof.
  intros Ha Hb. destruct (Z.eq_dec a 0) as [->|]; [rewrite Z.lor_0_l; pose proof (nbits_nonneg b); change (nbits 0) with 0; lia|].
  destruct (Z.eq_dec b 0) as [->|]; [rewrite Z.lor_0_r; pose proof (nbits_nonneg a); change (nbits 0) with 0; lia|].
  assert (0 < Z.lor a b).
  { assert (0 <= Z.lor a b) by (apply Z.lor_nonneg; lia). assert (Z.lor a b <> 0) by (intros E; apply Z.lor_eq_0_iff in E; lia). lia. }
  rewrite !nbits_pos by lia. rewrite Z.log2_lor by lia. lia.
Qed.

Lemma mag_cmag v : (if 0 <=? v then v else Z.lnot v) = cmag v.
Proof. unfold cmag, Z.lnot. destruct (Z.leb_spec 0 v), (Z.ltb_spec v 0); lia. Qed.

Lemma norm_part_s O W v l : 2 <= W -> 0 <= l -> - 2 ^ (W - 1) <= v * 2 ^ l < 2 ^ (W - 1) -> (O = SAT_SYM -> forall k, 0 <= k -> v <> - 2 ^ k) ->
  overflow O true W (shl true W v l) = v * 2 ^ l.
Proof.
  intros HW Hl B HO. assert (R : in_range true W (v * 2 ^ l)) by (unfold in_range, imin, imax; lia).
  rewrite shl_in_range by (try assumption; lia). pose proof (pow2_pos l Hl) as P.
  destruct O; try (apply overflow_id; [lia|assumption|discriminate]). apply overflow_id_sym; [lia|assumption|]. intros _ K.
  destruct (Z.le_gt_cases l (W - 1)) as [L|L].
  - assert (Ek : 2 ^ (W - 1) = 2 ^ (W - 1 - l) * 2 ^ l) by (rewrite <- Z.pow_add_r by lia; f_equal; lia).
    apply (HO eq_refl (W - 1 - l)); [lia|]. nia.
  - assert (2 ^ (W - 1) < 2 ^ l) by (apply Z.pow_lt_mono_r; lia). assert (v = 0 \/ v <= -1 \/ 1 <= v) as [->|[V|V]] by lia; nia.
Qed.

Theorem normalize_cplx_s_ok W I O x y : 2 <= W ->
  - 2 ^ (W - 1) <= x < 2 ^ (W - 1) -> - 2 ^ (W - 1) <= y < 2 ^ (W - 1) -> x <> 0 \/ y <> 0 ->
  (O = SAT_SYM -> forall k, 0 <= k -> x <> - 2 ^ k /\ y <> - 2 ^ k) ->
  let '(e, (mx, my)) := normalize_cplx W I true O x y in
  e <= I - 1 /\ mx = x * 2 ^ (I - 1 - e) /\ my = y * 2 ^ (I - 1 - e) /\ (normal_s W mx \/ normal_s W my).
Proof.
  intros HW Hx Hy N HO. unfold normalize_cplx. replace ((x =? 0) && (y =? 0)) with false by lia. cbn [negb b2z leading_sign].
  rewrite !mag_cmag. unfold leading_sign_s.
  assert (Cx : 0 <= cmag x) by (unfold cmag; destruct (Z.ltb_spec x 0); lia).
  assert (Cy : 0 <= cmag y) by (unfold cmag; destruct (Z.ltb_spec y 0); lia).
  assert (CL : 0 <= Z.lor (cmag x) (cmag y)) by (apply Z.lor_nonneg; lia).
  replace (Z.lor (cmag x) (cmag y) <? 0) with false by lia. rewrite nbits_lor by assumption.
  pose proof (cmag_bits W x ltac:(lia) Hx) as NX. pose proof (cmag_bits W y ltac:(lia) Hy) as NY.
  set (n := Z.max (nbits (cmag x)) (nbits (cmag y))).
  pose proof (shift_in_range W x n ltac:(lia) ltac:(lia)) as RX. pose proof (shift_in_range W y n ltac:(lia) ltac:(lia)) as RY.
  rewrite (norm_part_s O W x), (norm_part_s O W y) by (try assumption; try lia; intros E k Hk; destruct (HO E k Hk); assumption).
  replace (I - 1 - (I - 1 - (W - 1 - n))) with (W - 1 - n) by lia. repeat split; try lia.
  unfold normal_s.
  destruct (Z.eq_dec n 0) as [En|En].
  - (* both parts are 0 or -1 *)
    pose proof (nbits_nonneg (cmag x)). pose proof (nbits_nonneg (cmag y)).
    destruct N as [N|N]; [left|right]; rewrite En; [pose proof (shift_normal W x HW N NX) as K; replace (nbits (cmag x)) with 0 in K by lia
      |pose proof (shift_normal W y HW N NY) as K; replace (nbits (cmag y)) with 0 in K by lia]; exact K.
  - destruct (Z.max_spec (nbits (cmag x)) (nbits (cmag y))) as [[_ M]|[_ M]]; fold n in M; rewrite M in *.
    + right. apply shift_normal; [assumption| |assumption]. intros ->. apply En. reflexivity.
    + left. apply shift_normal; [assumption| |assumption]. intros ->. apply En. reflexivity.
Qed.

Theorem normalize_cplx_u_ok W I O x y : 1 <= W ->
  0 <= x < 2 ^ W -> 0 <= y < 2 ^ W -> x <> 0 \/ y <> 0 ->
  let '(e, (mx, my)) := normalize_cplx W I false O x y in
  e <= I /\ mx = x * 2 ^ (I - e) /\ my = y * 2 ^ (I - e) /\ (normal_u W mx \/ normal_u W my).
Proof.
  intros HW Hx Hy N. unfold normalize_cplx. replace ((x =? 0) && (y =? 0)) with false by lia. cbn [negb b2z leading_sign].
  unfold leading_sign_u. rewrite nbits_lor by lia.
  pose proof (nbits_le x W ltac:(lia) Hx) as NX. pose proof (nbits_le y W ltac:(lia) Hy) as NY.
  set (n := Z.max (nbits x) (nbits y)). pose proof (pow2_pos (W - n) ltac:(lia)) as P.
  pose proof (nbits_nonneg x). pose proof (nbits_nonneg y).
  assert (R : forall v, 0 <= v -> nbits v <= n -> 0 <= v * 2 ^ (W - n) < 2 ^ W).
  { intros v V0 V. pose proof (nbits_ub v V0). pose proof (nbits_nonneg v). pose proof (pow2_le (nbits v) n).
    replace (2 ^ W) with (2 ^ n * 2 ^ (W - n)) by (rewrite <- Z.pow_add_r by lia; f_equal; lia).
    split; [lia|apply Z.mul_lt_mono_pos_r; lia]. }
  assert (E : forall v, 0 <= v -> nbits v <= n -> overflow O false W (shl false W v (W - n)) = v * 2 ^ (W - n)).
  { intros v V0 V. specialize (R v V0 V). assert (IR : in_range false W (v * 2 ^ (W - n))) by (unfold in_range, imin, imax; lia).
    rewrite shl_in_range by (try assumption; lia). destruct O; try (apply overflow_id; [lia|assumption|discriminate]). apply overflow_id_sym; [lia|assumption|discriminate]. }
  rewrite !E by lia. replace (I - (I - 0 - (W - n))) with (W - n) by lia. repeat split; try lia.
  assert (NN : forall v, 0 < v -> nbits v = n -> normal_u W (v * 2 ^ (W - n))).
  { intros v V0 V. split; [|apply R; lia]. pose proof (nbits_lb v V0) as L. rewrite V in L.
    assert (1 <= n) by (rewrite <- V, nbits_pos by lia; pose proof (Z.log2_nonneg v); lia).
    replace (2 ^ (W - 1)) with (2 ^ (n - 1) * 2 ^ (W - n)) by (rewrite <- Z.pow_add_r by lia; f_equal; lia). apply Z.mul_le_mono_nonneg_r; lia. }
  assert (PN : forall v, 0 < v -> 1 <= nbits v) by (intros v V; rewrite nbits_pos by lia; pose proof (Z.log2_nonneg v); lia).
  assert (N1 : 1 <= n) by (destruct N as [N|N]; [pose proof (PN x ltac:(lia))|pose proof (PN y ltac:(lia))]; lia).
  destruct (Z.max_spec (nbits x) (nbits y)) as [[_ M]|[_ M]]; fold n in M.
  - right. apply NN; [|lia]. assert (y <> 0) by (intros ->; change (nbits 0) with 0 in *; lia). lia.
  - left. apply NN; [|lia]. assert (x <> 0) by (intros ->; change (nbits 0) with 0 in *; lia). lia.
Qed.

Theorem normalize_cplx_0 W I S O : 1 <= W -> normalize_cplx W I S O 0 0 = (0, (0, 0)).
Proof.
  intros HW. pose proof (normalize_0 W I S O HW) as E. unfold normalize in E. cbn [Z.eqb negb] in E.
  unfold normalize_cplx. cbn [Z.eqb andb negb].
  assert (EL : Z.lor (if S then if 0 <=? 0 then 0 else Z.lnot 0 else 0) (if S then if 0 <=? 0 then 0 else Z.lnot 0 else 0) = 0) by (destruct S; reflexivity).
  rewrite EL. injection E as E. rewrite E. reflexivity.
Qed.
