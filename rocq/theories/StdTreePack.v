(** Facts about the normalisation, rounding and packing of ac_std_float_add_tree.h. *)
From Coq Require Import Lia ZifyBool.
From Verif Require Import AcTypes AcFacts Spec SpecFacts SpecStd ShiftFacts LeadingProofs ShiftProofs StdTreeModel StdTreeProofs.

Ltac Zify.zify_post_hook ::= idtac.

Definition is_tz (q : qmode) : bool := match q with TRN_ZERO => true | _ => false end.
Lemma ntz q : match q with TRN_ZERO => false | _ => true end = negb (is_tz q).
Proof. destruct q; reflexivity. Qed.

Section PACK.
Variables (q : qmode) (W E X lg : Z) (nosub : bool) (emax t : Z).
Let mb := W - E - 1.
Let M := mb + 1.
Let w := M + lg + X.
Hypotheses (HE : 2 <= E) (Hm : 1 <= mb) (HX : 1 <= X) (Hlg : 0 <= lg) (Hemax : 0 <= emax < 2 ^ E - 1).

Lemma E4 : 4 <= 2 ^ E.
Proof. change 4 with (2 ^ 2). apply pow2_le; lia. Qed.
Lemma top_val : 2 * (2 ^ (E - 1) - 1) + 1 = 2 ^ E - 1.
Proof. rewrite (pow2_half E) by lia. lia. Qed.
Lemma sgn_bit : Z.abs t < 2 ^ w -> Z.testbit t w = (t <? 0).
Proof.
  intros H. replace w with (w + 1 - 1) by lia. apply xs_sign; [unfold w, M; lia|]. replace (w + 1 - 1) with w by lia. lia.
Qed.
Lemma mag_val : Z.abs t < 2 ^ w -> wrapu w (if t <? 0 then - t else t) = Z.abs t.
Proof. intros H. rewrite <- (wrapu_id w (Z.abs t)) by lia. f_equal. destruct (Z.ltb_spec t 0); lia. Qed.

Lemma conv_drop_w rm : 0 <= qround q (2 * rm) (2 ^ (X + lg)) < 2 ^ (M + 1) ->
  conv (Fmt (M + 1) (M + lg) false q WRAP) rm X = qround q (2 * rm) (2 ^ (X + lg)).
Proof.
  intros H. rewrite conv_unfold. unfold fF. cbn [fW fI fS fQ fO overflow].
  pose proof (pw_pos (X - (M + 1 - (M + lg)))) as P1. pose proof (pow2_pos (X + lg) ltac:(lia)) as P2.
  assert (Q : forall a, qround q (rm * pw (M + 1 - (M + lg) - X)) (pw (X - (M + 1 - (M + lg)))) = a ->
    wrap false (M + 1) (qround q (rm * pw (M + 1 - (M + lg) - X)) (pw (X - (M + 1 - (M + lg))))) = wrapu (M + 1) a) by (intros a ->; reflexivity).
  rewrite (Q (qround q (2 * rm) (2 ^ (X + lg)))); [apply wrapu_id; exact H|].
  apply qround_eqq; [assumption|assumption|]. unfold pw.
  rewrite Z.max_l by lia. rewrite Z.max_r by lia. change (2 ^ 0) with 1. rewrite Z.mul_1_r.
  replace (X - (M + 1 - (M + lg))) with (X + lg - 1) by lia. rewrite (pow2_half (X + lg)) by lia. ring.
Qed.

(** Zero. *)
Lemma pack_zero : t = 0 -> sf_pack q W E X lg nosub false false false false emax t = 0.
Proof.
  intros ->. pose proof E4. assert (Hw : 0 < 2 ^ w) by (apply pow2_pos; unfold w, M; lia).
  unfold sf_pack. fold mb. fold M. fold w. rewrite ntz, top_val. cbv zeta. rewrite Z.bits_0. rewrite (wrapu_id w 0) by lia.
  rewrite Z.eqb_refl. cbn [orb].
  assert (S0 : forall k, 0 <= k -> shr false w (shl false w 0 k) 1 = 0).
  { intros k Hk. unfold shl, shr. rewrite Z.shiftl_0_l. cbn [wrap]. rewrite (wrapu_id w 0) by lia. rewrite Z.shiftr_0_l. apply wrapu_id; lia. }
  assert (Q0 : qround q (2 * 0) (2 ^ (X + lg)) = 0).
  { pose proof (pow2_pos (X + lg) ltac:(lia)). exact (qround_exact q 0 (2 ^ (X + lg)) ltac:(lia)). }
  assert (C0 : conv (Fmt (M + 1) (M + lg) false q WRAP) 0 X = 0).
  { rewrite conv_drop_w; rewrite Q0; [reflexivity|]. pose proof (pow2_pos (M + 1) ltac:(unfold M; lia)). lia. }
  set (L := leading_sign_u w 0).
  assert (HL : L = w). { unfold L, leading_sign_u, nbits. cbn. lia. }
  destruct (Z.ltb_spec (emax - L + lg - 1) 0) as [N|N].
  - rewrite S0 by (apply wrapu_range, nbits_nonneg). rewrite C0, Z.bits_0. cbn [andb b2z].
    replace (wrapu E (wrapu E (-1) + (0 + 1))) with 0.
    2:{ symmetry. unfold wrapu. rewrite Zplus_mod_idemp_l. reflexivity. }
    destruct (Z.eqb_spec 0 (2 ^ E - 1)); [lia|]. destruct (Z.ltb_spec (2 ^ E - 1) 0); [lia|]. cbn [orb andb negb].
    rewrite (wrapu_id E 0) by lia. reflexivity.
  - rewrite S0 by (rewrite HL; unfold w, M; lia). rewrite C0, Z.bits_0. cbn [andb b2z].
    rewrite HL in *.
    rewrite (wrapu_id E (emax - w + lg - 1)) by (unfold w, M in *; lia).
    rewrite (wrapu_id E (emax - w + lg - 1 + (0 + 1))) by (unfold w, M in *; lia).
    destruct (Z.eqb_spec (emax - w + lg - 1 + (0 + 1)) (2 ^ E - 1)); [unfold w, M in *; lia|].
    destruct (Z.ltb_spec (2 ^ E - 1) (emax - w + lg - 1 + (0 + 1))); [unfold w, M in *; lia|]. cbn [orb andb negb].
    rewrite (wrapu_id E 0) by lia. reflexivity.
Qed.

Let n := nbits (Z.abs t).
Let resexp := emax + n - M - X - 1.
Let T1 := if n =? w then 2 * (Z.abs t / 2) else Z.abs t.
Let rr := qround q (T1 * 2 ^ (w - n)) (2 ^ (X + lg)).
Hypotheses (Ht0 : t <> 0) (Htw : Z.abs t < 2 ^ w).
Lemma n_range : 1 <= n <= w /\ 2 ^ (n - 1) <= Z.abs t < 2 ^ n.
Proof.
  assert (H1 : 2 ^ (n - 1) <= Z.abs t) by (apply nbits_lb; lia).
  assert (H2 : Z.abs t < 2 ^ n) by (apply nbits_ub; lia).
  assert (H3 : n <= w) by (apply nbits_le; [unfold w, M; lia|split; [apply Z.abs_nonneg|exact Htw]]).
  assert (H4 : 0 <= n) by apply nbits_nonneg.
  split; [|split; assumption]. split; [|assumption]. destruct (Z.eq_dec n 0) as [Q|Q]; [|lia]. rewrite Q in H2. cbn in H2. lia.
Qed.
Lemma T1_range : 2 ^ (n - 1) <= T1 <= Z.abs t /\ Z.abs t - 1 <= T1.
Proof.
  destruct n_range as [H1 H2]. unfold T1. destruct (Z.eqb_spec n w); [|lia].
  pose proof (Z.div_mod (Z.abs t) 2 ltac:(lia)). pose proof (Z.mod_pos_bound (Z.abs t) 2 ltac:(lia)).
  rewrite (pow2_half (n - 1)) in * by (unfold w, M in *; lia). lia.
Qed.
Lemma rr_range : 2 ^ mb <= rr <= 2 ^ M /\ (is_tz q = true -> rr < 2 ^ M).
Proof.
  destruct n_range as [H1 H2]. destruct T1_range as [H3 _].
  assert (P := pow2_pos (X + lg) ltac:(lia)). assert (Pn := pow2_pos (w - n) ltac:(lia)).
  assert (L1 : 2 ^ mb * 2 ^ (X + lg) <= T1 * 2 ^ (w - n)).
  { rewrite <- pow2_add by lia. replace (mb + (X + lg)) with (n - 1 + (w - n)) by (unfold w, M; lia).
    rewrite pow2_add by lia. apply Z.mul_le_mono_nonneg_r; lia. }
  assert (L2 : T1 * 2 ^ (w - n) < 2 ^ M * 2 ^ (X + lg)).
  { rewrite <- pow2_add by (unfold M; lia). replace (M + (X + lg)) with (n + (w - n)) by (unfold w, M; lia).
    rewrite pow2_add by lia. apply Z.mul_lt_mono_pos_r; lia. }
  split; [split; [apply qround_ge; assumption|apply qround_lt; assumption]|].
  intros Hq. unfold rr. destruct q; try discriminate. rewrite qround_trn_zero_nonneg; [|assumption|].
  - unfold qround. apply Z.div_lt_upper_bound; lia.
  - pose proof (pow2_nonneg (n - 1)). apply Z.mul_nonneg_nonneg; lia.
Qed.
Lemma shl_val : shr false w (shl false w (Z.abs t) (w - n)) 1 * 2 = T1 * 2 ^ (w - n) /\ 0 <= shr false w (shl false w (Z.abs t) (w - n)) 1.
Proof.
  destruct n_range as [H1 H2]. unfold shl, shr, wrap. rewrite Z.shiftl_mul_pow2, Z.shiftr_div_pow2 by lia.
  assert (Pn := pow2_pos (w - n) ltac:(lia)).
  assert (B : 0 <= Z.abs t * 2 ^ (w - n) < 2 ^ w).
  { split; [apply Z.mul_nonneg_nonneg; lia|]. rewrite (pow2_split w (w - n)) by lia. replace (w - (w - n)) with n by lia.
    rewrite Z.mul_comm. apply Z.mul_lt_mono_pos_l; lia. }
  rewrite (wrapu_id w (Z.abs t * _)) by lia. change (2 ^ 1) with 2.
  rewrite wrapu_id by (split; [apply Z.div_pos; lia|apply Z.div_lt_upper_bound; lia]).
  split; [|apply Z.div_pos; lia].
  unfold T1. destruct (Z.eqb_spec n w) as [Q|Q].
  - rewrite Q, Z.sub_diag. change (2 ^ 0) with 1. rewrite !Z.mul_1_r. ring.
  - rewrite (pow2_half (w - n)) by lia. replace (Z.abs t * (2 * 2 ^ (w - n - 1))) with (Z.abs t * 2 ^ (w - n - 1) * 2) by ring.
    rewrite Z.div_mul by lia. ring.
Qed.

Let F := resexp + 1 + b2z (rr =? 2 ^ M).
Let inf := F =? 2 ^ E - 1.
Lemma pack_normal : 0 <= resexp -> F <= 2 ^ E - 1 -> sf_pack q W E X lg nosub false false false false emax t =
  b2z (t <? 0) * 2 ^ (W - 1) + (if inf then (if is_tz q then 2 ^ E - 2 else 2 ^ E - 1) else F) * 2 ^ mb +
  (if inf then (if is_tz q then 2 ^ mb - 1 else 0) else if rr =? 2 ^ M then 0 else rr - 2 ^ mb).
Proof.
  intros Hr HF. pose proof E4 as E4. destruct n_range as [H1 H2]. destruct rr_range as [R1 R2].
  destruct shl_val as [S1 S2].
  assert (PM : 2 ^ M = 2 * 2 ^ mb) by (unfold M; rewrite pow2_succ; lia).
  assert (PM1 : 2 ^ (M + 1) = 2 * 2 ^ M) by (rewrite pow2_succ; unfold M; lia).
  assert (Pm := pow2_pos mb ltac:(lia)).
  unfold sf_pack. fold mb. fold M. fold w. rewrite ntz, top_val. cbv zeta. rewrite sgn_bit, mag_val by assumption.
  unfold leading_sign_u. fold n. replace (emax - (w - n) + lg - 1) with resexp by (unfold resexp, w; lia).
  destruct (Z.ltb_spec resexp 0) as [|_]; [lia|].
  set (rm := shr false w (shl false w (Z.abs t) (w - n)) 1) in *. clearbody rm.
  assert (Hrr : qround q (2 * rm) (2 ^ (X + lg)) = rr) by (unfold rr; rewrite <- S1; f_equal; ring).
  rewrite conv_drop_w by (rewrite Hrr; lia). rewrite Hrr.
  destruct (Z.eqb_spec (Z.abs t) 0) as [|_]; [lia|]. cbn [orb].
  assert (Hb : Z.testbit rr M = (rr =? 2 ^ M)).
  { pose proof (testbit_b2z rr M ltac:(unfold M; lia)) as TB. destruct (Z.eqb_spec rr (2 ^ M)) as [Q|Q].
    - assert (D : rr / 2 ^ M = 1) by (rewrite Q; apply Z.div_same; lia). rewrite D in TB.
      destruct (Z.testbit rr M); [reflexivity|cbv in TB; lia].
    - assert (D : rr / 2 ^ M = 0) by (apply Z.div_small; lia). rewrite D in TB.
      destruct (Z.testbit rr M); [cbv in TB; lia|reflexivity]. }
  rewrite Hb.
  assert (Hres : wrapu E resexp = resexp) by (apply wrapu_id; unfold F in HF; destruct (rr =? 2 ^ M); cbn [b2z] in HF; lia).
  rewrite Hres.
  assert (Hz : is_tz q = true -> (rr =? 2 ^ M) = false) by (intros Q; apply R2 in Q; lia).
  assert (FR : 0 <= F) by (unfold F; destruct (rr =? 2 ^ M); cbn [b2z]; lia).
  assert (WF : wraps E F = -1 /\ F = 2 ^ E - 1 \/ wrapu E (wraps E F) = F).
  { right. apply wraps_field; lia. }
  assert (WM : wrapu mb (-1) = 2 ^ mb - 1).
  { unfold wrapu. rewrite <- (Z.mod_add _ 1) by lia. rewrite Z.mod_small; lia. }
  assert (W1 : wrapu E (wraps E F) = F) by (apply wraps_field; lia).
  assert (W2 : wrapu E (wraps E (2 ^ E - 2)) = 2 ^ E - 2) by (apply wraps_field; lia).
  destruct (Z.eqb_spec rr (2 ^ M)) as [Q|Q].
  - assert (Htz : is_tz q = false) by (destruct (is_tz q); [specialize (Hz eq_refl); discriminate|reflexivity]).
    rewrite Htz. cbn [negb andb]. cbn [b2z] in *.
    replace (wrapu E (resexp + (1 + 1))) with F by (symmetry; unfold F; replace (resexp + 1 + 1) with (resexp + (1 + 1)) by lia; apply wrapu_id; unfold F in *; lia).
    destruct (Z.ltb_spec (2 ^ E - 1) F) as [|_]; [lia|]. cbn [orb]. rewrite !andb_false_r. cbn [orb negb].
    fold inf. rewrite andb_true_r. rewrite W1.
    assert (Hs : slc mb 0 (shr false (M + 1) rr 1) = 0).
    { unfold slc, shr, wrap. rewrite Z.shiftr_0_r, Z.shiftr_div_pow2 by lia. change (2 ^ 1) with 2. rewrite Q, PM.
      rewrite (Z.mul_comm 2), Z.div_mul by lia. rewrite (wrapu_id (M + 1)) by lia. unfold wrapu. apply Z.mod_same; lia. }
    rewrite Hs. unfold inf. destruct (Z.eqb_spec F (2 ^ E - 1)) as [QF|QF]; [rewrite QF|]; reflexivity.
  - cbn [andb b2z] in *.
    replace (wrapu E (resexp + (0 + 1))) with F by (symmetry; unfold F; replace (resexp + 1 + 0) with (resexp + (0 + 1)) by lia; apply wrapu_id; unfold F in *; lia).
    destruct (Z.ltb_spec (2 ^ E - 1) F) as [|_]; [lia|]. cbn [orb negb]. rewrite !andb_false_r. cbn [orb].
    fold inf.
    assert (Hs : slc mb 0 rr = rr - 2 ^ mb).
    { unfold slc. rewrite Z.shiftr_0_r. unfold wrapu. rewrite <- (Z.mod_add _ (-1)) by lia. rewrite Z.mod_small; lia. }
    rewrite Hs. unfold inf. destruct (Z.eqb_spec F (2 ^ E - 1)) as [QF|QF]; destruct (is_tz q); cbn [negb andb orb].
    + replace (2 ^ E - 1 - 1) with (2 ^ E - 2) by lia. rewrite (wrapu_id E (2 ^ E - 2)) by lia. rewrite W2, WM. reflexivity.
    + rewrite W1, QF. reflexivity.
    + rewrite W1. reflexivity.
    + rewrite W1. reflexivity.
Qed.

(** The value rounded: the accumulator without the bit that the last shift drops. *)
Let n' := (if t <? 0 then - T1 else T1) * 2 ^ emax.
Lemma T1_pos : 0 < T1.
Proof. destruct T1_range as [H _]. destruct n_range as [H1 _]. pose proof (pow2_pos (n - 1) ltac:(lia)). lia. Qed.
Lemma n'_sgn : (n' <? 0) = (t <? 0) /\ Z.abs n' = T1 * 2 ^ emax.
Proof.
  pose proof T1_pos as P. pose proof (pow2_pos emax ltac:(lia)) as Pe. pose proof (Z.mul_pos_pos _ _ P Pe). unfold n'.
  destruct (Z.ltb_spec t 0).
  - replace (- T1 * 2 ^ emax) with (- (T1 * 2 ^ emax)) by ring. split; lia.
  - split; lia.
Qed.
Lemma pack_rounds : 0 <= resexp -> F <= 2 ^ E - 1 ->
  float_rounds q W E n' (2 ^ (X + 1)) (sf_pack q W E X lg nosub false false false false emax t).
Proof.
  intros Hr HF. rewrite pack_normal by assumption. pose proof E4 as E4. destruct n_range as [H1 H2]. destruct rr_range as [R1 R2].
  destruct T1_range as [B1 _]. destruct n'_sgn as [Sg Ab].
  assert (PM : 2 ^ M = 2 * 2 ^ mb) by (unfold M; rewrite pow2_succ; lia).
  assert (Pm := pow2_pos mb ltac:(lia)). assert (Pe := pow2_pos emax ltac:(lia)). assert (Pr := pow2_pos resexp Hr).
  assert (FR : 1 <= F) by (unfold F; destruct (rr =? 2 ^ M); cbn [b2z]; lia).
  set (f := if inf then if is_tz q then 2 ^ E - 2 else 2 ^ E - 1 else F).
  set (m := if inf then if is_tz q then 2 ^ mb - 1 else 0 else if rr =? 2 ^ M then 0 else rr - 2 ^ mb).
  assert (Hf : 0 <= f < 2 ^ E) by (unfold f, inf; destruct (Z.eqb_spec F (2 ^ E - 1)); destruct (is_tz q); lia).
  assert (Hmr : 0 <= m < 2 ^ mb).
  { unfold m. destruct inf; [destruct (is_tz q); lia|]. destruct (Z.eqb_spec rr (2 ^ M)); lia. }
  destruct (word_make W E (t <? 0) f m ltac:(lia) Hm Hf Hmr) as (K1 & K2 & K3 & K4). fold mb in K1, K2, K3, K4.
  set (r := b2z (t <? 0) * 2 ^ (W - 1) + f * 2 ^ mb + m) in *.
  unfold float_rounds. rewrite Sg, Ab. fold mb. split; [exact K1|]. split; [exact K2|].
  exists resexp, rr. split; [exact Hr|].
  assert (X1 : 2 ^ (mb + 1 + resexp) * 2 ^ (X + 1) = 2 ^ n * 2 ^ emax).
  { rewrite <- !pow2_add by lia. f_equal. unfold resexp, M. lia. }
  assert (X2 : 2 ^ (mb + resexp) * 2 ^ (X + 1) = 2 ^ (n - 1) * 2 ^ emax).
  { rewrite <- !pow2_add by lia. f_equal. unfold resexp, M. lia. }
  split; [rewrite X1; apply Z.mul_lt_mono_pos_r; lia|].
  split; [right; rewrite X2; apply Z.mul_le_mono_nonneg_r; lia|].
  split.
  { assert (Hq : rr = qround q (T1 * 2 ^ emax) (2 ^ (X + 1) * 2 ^ resexp)).
    { unfold rr. apply qround_eqq; [apply pow2_pos; lia|apply Z.mul_pos_pos; [apply pow2_pos; lia|assumption]|].
      rewrite <- !Z.mul_assoc. f_equal. rewrite <- !pow2_add by lia. f_equal. unfold resexp, w. lia. }
    rewrite Hq. apply qround_is_round. apply Z.mul_pos_pos; [apply pow2_pos; lia|assumption]. }
  assert (Hcmp : (rr * 2 ^ resexp <? 2 ^ (mb + 2 ^ E - 2)) = negb inf).
  { unfold inf, F. destruct (Z.eqb_spec rr (2 ^ M)) as [Q|Q]; cbn [b2z].
    - rewrite Q, <- pow2_add by (unfold M; lia). destruct (Z.eqb_spec (resexp + 1 + 1) (2 ^ E - 1)); cbn [negb].
      + apply Z.ltb_ge. apply pow2_le. unfold M. lia.
      + apply Z.ltb_lt. apply Z.pow_lt_mono_r; unfold F, M in *; destruct (Z.eqb_spec rr (2 ^ (mb + 1))); cbn [b2z] in HF; lia.
    - destruct (Z.eqb_spec (resexp + 1 + 0) (2 ^ E - 1)); cbn [negb].
      + apply Z.ltb_ge. replace (mb + 2 ^ E - 2) with (mb + resexp) by lia. rewrite pow2_add by lia. apply Z.mul_le_mono_nonneg_r; lia.
      + apply Z.ltb_lt. apply Z.lt_le_trans with (2 ^ M * 2 ^ resexp); [apply Z.mul_lt_mono_pos_r; lia|].
        rewrite <- pow2_add by (unfold M; lia). apply pow2_le. unfold F, M in *. destruct (Z.eqb_spec rr (2 ^ (mb + 1))); cbn [b2z] in HF; lia. }
  rewrite Hcmp. unfold sf_finite, sf_inf, sf_mag. rewrite K3, K4, K2. unfold f, m.
  destruct (Z.eqb_spec F (2 ^ E - 1)) as [QF|QF]; unfold inf; cbn [negb].
  - assert (Hi : is_tz q = true -> (sf_word W r /\ 2 ^ E - 2 < 2 ^ E - 1) /\ (if 2 ^ E - 2 =? 0 then 2 ^ mb - 1 else (2 ^ mb + (2 ^ mb - 1)) * 2 ^ (2 ^ E - 2 - 1)) = (2 ^ (mb + 1) - 1) * 2 ^ (2 ^ E - 3)).
    { intros _. split; [split; [exact K1|lia]|]. destruct (Z.eqb_spec (2 ^ E - 2) 0); [lia|]. fold M. rewrite PM.
      replace (2 ^ E - 2 - 1) with (2 ^ E - 3) by lia. ring. }
    destruct q; cbn [is_tz] in *; try (split; [exact K1|split; [reflexivity|split; reflexivity]]). apply Hi; reflexivity.
  - split; [split; [exact K1|lia]|]. destruct (Z.eqb_spec F 0); [lia|]. unfold F.
    fold mb. destruct (Z.eqb_spec rr (2 ^ M)) as [Q|Q]; cbn [b2z].
    + rewrite Q, PM. replace (resexp + 1 + 1 - 1) with (resexp + 1) by lia. rewrite pow2_succ by lia. ring.
    + cbv iota. replace (resexp + 1 + 0 - 1) with resexp by lia. f_equal. lia.
Qed.

(** Subnormal results. *)
Lemma emax_wrap : resexp < 0 -> wrapu (nbits w) emax = emax.
Proof. intros H. destruct n_range as [H1 _]. apply nbits_bound. unfold resexp, w, M in *. lia. Qed.
Lemma sub_shift : resexp < 0 -> shr false w (shl false w (Z.abs t) emax) 1 = Z.abs t * 2 ^ emax / 2 /\ 0 <= Z.abs t * 2 ^ emax < 2 ^ (M + X).
Proof.
  intros H. destruct n_range as [H1 H2]. assert (Pe := pow2_pos emax ltac:(lia)).
  assert (B : 0 <= Z.abs t * 2 ^ emax < 2 ^ (M + X)).
  { split; [apply Z.mul_nonneg_nonneg; lia|]. apply Z.lt_le_trans with (2 ^ n * 2 ^ emax); [apply Z.mul_lt_mono_pos_r; lia|].
    rewrite <- pow2_add by lia. apply pow2_le. unfold resexp in H. lia. }
  split; [|exact B]. assert (L : 2 ^ (M + X) <= 2 ^ w) by (apply pow2_le; unfold w, M; lia).
  unfold shl, shr, wrap. rewrite Z.shiftl_mul_pow2, Z.shiftr_div_pow2 by lia. rewrite (wrapu_id w (_ * _)) by lia.
  change (2 ^ 1) with 2. apply wrapu_id. split; [apply Z.div_pos; lia|apply Z.div_lt_upper_bound; lia].
Qed.
Lemma pack_sub S : lg = 1 -> nosub = false -> resexp < 0 -> t * 2 ^ emax = S * 2 ^ (X + 1) ->
  float_rounds q W E S 1 (sf_pack q W E X lg nosub false false false false emax t).
Proof.
  intros Hl Hn Hr HS. pose proof E4 as E4. destruct n_range as [H1 H2]. destruct (sub_shift Hr) as [S1 S2].
  assert (Pm := pow2_pos mb ltac:(lia)). assert (PX := pow2_pos X ltac:(lia)). assert (Pe := pow2_pos emax ltac:(lia)).
  assert (PX1 := pow2_succ X ltac:(lia)).
  assert (HA : Z.abs t * 2 ^ emax = Z.abs S * 2 ^ (X + 1)).
  { rewrite <- (Z.abs_eq (2 ^ emax)), <- (Z.abs_eq (2 ^ (X + 1))) by lia. rewrite <- !Z.abs_mul. f_equal. exact HS. }
  assert (BS : Z.abs S < 2 ^ mb).
  { rewrite HA in S2. replace (M + X) with (mb + (X + 1)) in S2 by (unfold M; lia). rewrite (pow2_add mb (X + 1)) in S2 by lia.
    apply (Z.mul_lt_mono_pos_r (2 ^ (X + 1))); lia. }
  assert (Sg : (t <? 0) = (S <? 0)).
  { destruct (Z.ltb_spec t 0); destruct (Z.ltb_spec S 0); try reflexivity; nia. }
  unfold sf_pack. fold mb. fold M. fold w. rewrite ntz, top_val. cbv zeta. rewrite sgn_bit, mag_val by assumption.
  unfold leading_sign_u. fold n. replace (emax - (w - n) + lg - 1) with resexp by (unfold resexp, w; lia).
  destruct (Z.ltb_spec resexp 0) as [_|]; [|lia]. rewrite emax_wrap by assumption. rewrite S1.
  assert (Hrm : 2 * (Z.abs t * 2 ^ emax / 2) = Z.abs S * 2 ^ (X + lg)).
  { rewrite HA, PX1, Hl. replace (Z.abs S * (2 * 2 ^ X)) with (Z.abs S * 2 ^ X * 2) by ring. rewrite Z.div_mul by lia. rewrite PX1. ring. }
  assert (PM : 2 ^ (M + 1) = 2 * 2 ^ M) by (rewrite pow2_succ; unfold M; lia).
  assert (PM' : 2 ^ M = 2 * 2 ^ mb) by (unfold M; rewrite pow2_succ; lia).
  assert (Hqr : qround q (2 * (Z.abs t * 2 ^ emax / 2)) (2 ^ (X + lg)) = Z.abs S).
  { rewrite Hrm. apply qround_exact. apply pow2_pos; lia. }
  rewrite conv_drop_w by (rewrite Hqr; lia). rewrite Hqr.
  rewrite testbit_above by (unfold M in *; lia). cbn [andb].
  replace (wrapu E (wrapu E (-1) + (b2z false + 1))) with 0.
  2:{ symmetry. unfold wrapu. rewrite Zplus_mod_idemp_l. reflexivity. }
  destruct (Z.eqb_spec (Z.abs t) 0); [lia|]. rewrite Hn.
  destruct (Z.eqb_spec 0 (2 ^ E - 1)); [lia|]. destruct (Z.ltb_spec (2 ^ E - 1) 0); [lia|]. cbn [orb andb negb].
  assert (W0 : wrapu E (wraps E 0) = 0) by (apply wraps_field; lia). rewrite W0.
  assert (Hs : slc mb 0 (Z.abs S) = Z.abs S) by (unfold slc; rewrite Z.shiftr_0_r; apply wrapu_id; lia). rewrite Hs.
  destruct (word_make W E (t <? 0) 0 (Z.abs S) ltac:(lia) Hm ltac:(lia) ltac:(fold mb; lia)) as (K1 & K2 & K3 & K4). fold mb in K1, K2, K3, K4.
  unfold float_rounds. fold mb. split; [exact K1|]. split; [rewrite K2; exact Sg|].
  exists 0, (Z.abs S). split; [lia|]. split; [rewrite Z.add_0_r; fold M; lia|]. split; [left; reflexivity|].
  split; [rewrite <- (qround_int q (Z.abs S)) at 2; change (1 * 2 ^ 0) with 1; apply qround_is_round; lia|].
  assert (HC : 2 ^ mb <= 2 ^ (mb + 2 ^ E - 2)) by (apply pow2_le; lia).
  rewrite Z.mul_1_r. destruct (Z.ltb_spec (Z.abs S) (2 ^ (mb + 2 ^ E - 2))); [|lia].
  unfold sf_finite, sf_mag. rewrite K3, K4. split; [split; [exact K1|lia]|reflexivity].
Qed.
(** Results flushed to zero. *)
Lemma pack_flush : 1 <= lg -> nosub = true -> resexp < 0 ->
  sf_pack q W E X lg nosub false false false false emax t = b2z (t <? 0) * 2 ^ (W - 1).
Proof.
  intros Hl Hn Hr. pose proof E4 as E4. destruct n_range as [H1 H2]. destruct (sub_shift Hr) as [S1 S2].
  assert (Pm := pow2_pos mb ltac:(lia)).
  unfold sf_pack. fold mb. fold M. fold w. rewrite ntz, top_val. cbv zeta. rewrite sgn_bit, mag_val by assumption.
  unfold leading_sign_u. fold n. replace (emax - (w - n) + lg - 1) with resexp by (unfold resexp, w; lia).
  destruct (Z.ltb_spec resexp 0) as [_|]; [|lia]. rewrite emax_wrap by assumption. rewrite S1.
  set (rm := Z.abs t * 2 ^ emax / 2) in *.
  assert (Brm : 0 <= rm /\ 2 * rm < 2 ^ (M + X)).
  { unfold rm. split; [apply Z.div_pos; lia|]. pose proof (Z.mul_div_le (Z.abs t * 2 ^ emax) 2 ltac:(lia)). lia. }
  assert (PM : 2 ^ (M + 1) = 2 * 2 ^ M) by (rewrite pow2_succ; unfold M; lia).
  assert (PM' : 2 ^ M = 2 * 2 ^ mb) by (unfold M; rewrite pow2_succ; lia).
  assert (Plg := pow2_pos (X + lg) ltac:(lia)).
  assert (Hqr : 0 <= qround q (2 * rm) (2 ^ (X + lg)) <= 2 ^ mb).
  { split; [apply qround_ge; lia|]. apply qround_lt; [lia|]. apply Z.lt_le_trans with (2 ^ (M + X)); [lia|].
    rewrite <- pow2_add by lia. apply pow2_le. unfold M. lia. }
  rewrite conv_drop_w by lia. rewrite testbit_above by (unfold M in *; lia). cbn [andb].
  replace (wrapu E (wrapu E (-1) + (b2z false + 1))) with 0.
  2:{ symmetry. unfold wrapu. rewrite Zplus_mod_idemp_l. reflexivity. }
  destruct (Z.eqb_spec (Z.abs t) 0); [lia|]. rewrite Hn.
  destruct (Z.eqb_spec 0 (2 ^ E - 1)); [lia|]. destruct (Z.ltb_spec (2 ^ E - 1) 0); [lia|]. cbn [orb andb negb].
  rewrite (wrapu_id E 0) by lia. lia.
Qed.
End PACK.
