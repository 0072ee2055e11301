(** Facts about the model of ac_std_float_add_tree.h: operands, alignment and sum. *)
From Coq Require Import Lia ZifyBool.
From Verif Require Import AcTypes AcFacts Spec SpecFacts SpecStd ShiftFacts LeadingProofs StdTreeModel.

Ltac Zify.zify_post_hook ::= idtac.

(** *** Patterns *)
Lemma word_split W E d : 1 <= E -> 1 <= W - E - 1 -> sf_word W d ->
  d = b2z (sf_neg W d) * 2 ^ (W - 1) + sf_exp W E d * 2 ^ (W - E - 1) + sf_man W E d /\
  0 <= sf_exp W E d < 2 ^ E /\ 0 <= sf_man W E d < 2 ^ (W - E - 1).
Proof.
  intros HE Hm [H0 H1]. unfold sf_neg, sf_exp, sf_man. set (mb := W - E - 1) in *.
  assert (Pm := pow2_pos mb ltac:(lia)). assert (PE := pow2_pos E ltac:(lia)).
  assert (Hw : 2 ^ (W - 1) = 2 ^ mb * 2 ^ E) by (rewrite <- pow2_add by lia; f_equal; unfold mb; lia).
  assert (HW : 2 ^ W = 2 * 2 ^ (W - 1)) by (apply pow2_half; lia).
  pose proof (Z.mod_pos_bound d (2 ^ mb) Pm) as B1.
  pose proof (Z.mod_pos_bound (d / 2 ^ mb) (2 ^ E) PE) as B2.
  split; [|split; assumption].
  pose proof (Z.div_mod d (2 ^ mb) ltac:(lia)) as D1.
  pose proof (Z.div_mod (d / 2 ^ mb) (2 ^ E) ltac:(lia)) as D2.
  rewrite Z.div_div in D2 by lia. rewrite <- Hw in D2.
  assert (D3 : d / 2 ^ (W - 1) = b2z (2 ^ (W - 1) <=? d)).
  { destruct (Z.leb_spec (2 ^ (W - 1)) d); cbn [b2z].
    - symmetry; apply (Z.div_unique_pos _ _ _ (d - 2 ^ (W - 1))); lia.
    - apply Z.div_small; lia. }
  rewrite D3 in D2. rewrite D2 in D1. set (b := b2z _) in *. clearbody b. rewrite Hw. lia.
Qed.
Lemma word_make W E s e m : 1 <= E -> 1 <= W - E - 1 -> 0 <= e < 2 ^ E -> 0 <= m < 2 ^ (W - E - 1) ->
  let d := b2z s * 2 ^ (W - 1) + e * 2 ^ (W - E - 1) + m in
  sf_word W d /\ sf_neg W d = s /\ sf_exp W E d = e /\ sf_man W E d = m.
Proof.
  intros HE Hm He Hr d. set (mb := W - E - 1) in *.
  assert (Pm := pow2_pos mb ltac:(lia)). assert (PE := pow2_pos E ltac:(lia)).
  assert (Hw : 2 ^ (W - 1) = 2 ^ mb * 2 ^ E) by (rewrite <- pow2_add by lia; f_equal; unfold mb; lia).
  assert (HW : 2 ^ W = 2 * 2 ^ (W - 1)) by (apply pow2_half; lia).
  assert (L : 0 <= e * 2 ^ mb + m < 2 ^ (W - 1)) by (rewrite Hw; nia).
  assert (Hd : d = (b2z s * 2 ^ E + e) * 2 ^ mb + m) by (unfold d; rewrite Hw; ring).
  repeat split.
  - unfold d; destruct s; cbn [b2z]; lia.
  - unfold d; destruct s; cbn [b2z]; lia.
  - unfold sf_neg. destruct s; unfold d; cbn [b2z]; [apply Z.leb_le|apply Z.leb_gt]; lia.
  - unfold sf_exp; fold mb. replace (d / 2 ^ mb) with (b2z s * 2 ^ E + e).
    + rewrite Z.add_comm, Z.mod_add by lia. apply Z.mod_small; lia.
    + rewrite Hd. apply (Z.div_unique_pos _ _ _ m); lia.
  - unfold sf_man; fold mb. rewrite Hd, Z.add_comm, Z.mod_add by lia. apply Z.mod_small; lia.
Qed.

(** *** extract *)
Lemma wraps_field E e : 1 <= E -> 0 <= e < 2 ^ E ->
  (wraps E e =? -1) = (e =? 2 ^ E - 1) /\ (wraps E e =? 0) = (e =? 0) /\ wrapu E (wraps E e) = e.
Proof.
  intros HE He. pose proof (pow2_half E ltac:(lia)) as H2. pose proof (pow2_pos (E - 1) ltac:(lia)) as P.
  assert (Hw : wraps E e = if e <? 2 ^ (E - 1) then e else e - 2 ^ E).
  { destruct (Z.ltb_spec e (2 ^ (E - 1))).
    - apply wraps_id; lia.
    - rewrite (wraps_congr E e (e - 2 ^ E)); [apply wraps_id; lia|lia|].
      apply mod_eq_add_mul; [lia|exists 1; lia]. }
  rewrite Hw. destruct (Z.ltb_spec e (2 ^ (E - 1))).
  - repeat split; try (apply wrapu_id; lia); lia.
  - repeat split; try lia.
    unfold wrapu. rewrite <- (Z.mod_add _ 1) by lia. replace (e - 2 ^ E + 1 * 2 ^ E) with e by ring. apply Z.mod_small; lia.
Qed.
Lemma top_test W d : 1 <= W -> sf_word W d -> Z.testbit d (W - 1) = sf_neg W d.
Proof.
  intros HW [H0 H1]. rewrite (pow2_half W) in H1 by lia. pose proof (pow2_pos (W - 1) ltac:(lia)).
  pose proof (testbit_b2z d (W - 1) ltac:(lia)) as T. unfold sf_neg.
  destruct (Z.leb_spec (2 ^ (W - 1)) d).
  - replace (d / 2 ^ (W - 1)) with 1 in T by (apply (Z.div_unique_pos _ _ _ (d - 2 ^ (W - 1))); lia).
    destruct (Z.testbit d (W - 1)); [reflexivity|discriminate].
  - rewrite Z.div_small in T by lia. destruct (Z.testbit d (W - 1)); [discriminate|reflexivity].
Qed.
Lemma extract_ok W E nosub d : 1 <= E -> 1 <= W - E - 1 -> sf_word W d ->
  let e := sf_exp W E d in let m := sf_man W E d in
  sf_extract W E nosub d =
  SfOp ((if e =? 0 then 0 else 2 ^ (W - E - 1)) + m) e (sf_neg W d) (negb (e =? 0) || nosub) ((e =? 0) && (nosub || (m =? 0)))
    ((e =? 2 ^ E - 1) && (m =? 0)) ((e =? 2 ^ E - 1) && negb (m =? 0)).
Proof.
  intros HE Hm Hd e m. pose proof (word_split W E d HE Hm Hd) as [_ [Be Bm]].
  unfold sf_extract. set (mb := W - E - 1) in *.
  assert (Pm := pow2_pos mb ltac:(lia)).
  assert (S1 : slc E mb d = e) by (unfold slc, wrapu; rewrite Z.shiftr_div_pow2 by lia; reflexivity).
  rewrite S1. pose proof (wraps_field E e HE Be) as (W1 & W2 & W3). cbv zeta. rewrite W1, W2, W3.
  assert (S2 : slc mb 0 (wrapu (mb + 1) d) = m).
  { unfold slc, wrapu. rewrite Z.shiftr_0_r. unfold m, sf_man; fold mb.
    symmetry; apply Znumtheory.Zmod_div_mod; [lia|apply pow2_pos; lia|].
    exists 2. rewrite pow2_succ by lia; ring. }
  rewrite S2.
  assert (S3 : set_bit false (mb + 1) mb (negb (e =? 0)) (wrapu (mb + 1) d) = (if e =? 0 then 0 else 2 ^ mb) + m).
  { pose proof (wrapu_range (mb + 1) d ltac:(lia)) as R. rewrite pow2_succ in R by lia.
    rewrite set_bit_eq by lia. rewrite testbit_b2z by lia.
    assert (S4 : wrapu (mb + 1) d = wrapu (mb + 1) d / 2 ^ mb * 2 ^ mb + m).
    { pose proof (Z.div_mod (wrapu (mb + 1) d) (2 ^ mb) ltac:(lia)) as D.
      unfold slc, wrapu in S2; rewrite Z.shiftr_0_r in S2. fold (wrapu (mb + 1) d) in S2. rewrite S2 in D. lia. }
    assert (S5 : 0 <= wrapu (mb + 1) d / 2 ^ mb < 2).
    { split; [apply Z.div_pos; lia|apply Z.div_lt_upper_bound; lia]. }
    rewrite (Z.mod_small (_ / _)) by lia. set (u := wrapu (mb + 1) d) in *. set (b := u / 2 ^ mb) in *.
    assert (S6 : u + (b2z (negb (e =? 0)) - b) * 2 ^ mb = (if e =? 0 then 0 else 2 ^ mb) + m).
    { rewrite S4 at 1. destruct (e =? 0); cbn [negb b2z]; ring. }
    rewrite S6. apply wrapu_id. rewrite pow2_succ by lia. destruct (e =? 0); lia. }
  rewrite S3, (top_test W d) by (assumption || lia). reflexivity.
Qed.
(** The mantissa used for the alignment. *)
Lemma mant_ok W E nosub d : 1 <= E -> 1 <= W - E - 1 -> sf_word W d ->
  let mu := sf_mant W E nosub (sf_extract W E nosub d) in
  0 <= mu < 2 ^ (W - E) /\ 2 * Z.abs (sf_val_flush nosub W E d) = mu * 2 ^ sf_exp W E d /\
  sf_val_flush nosub W E d = (if sf_neg W d then -1 else 1) * Z.abs (sf_val_flush nosub W E d) /\
  (sf_exp W E d <> 0 -> 2 ^ (W - E - 1) <= mu).
Proof.
  intros HE Hm Hd. rewrite extract_ok by assumption. pose proof (word_split W E d HE Hm Hd) as [_ [Be Bm]].
  unfold sf_mant, sf_val_flush, sf_val, sf_mag. cbn [o_normal o_mu o_zero]. cbv zeta.
  set (e := sf_exp W E d) in *. set (m := sf_man W E d) in *. assert (Pm := pow2_pos (W - E - 1) ltac:(lia)).
  assert (HM : 2 ^ (W - E) = 2 * 2 ^ (W - E - 1)) by (apply pow2_half; lia).
  destruct (Z.eqb_spec e 0) as [Z0|N0].
  - rewrite Z0. change (2 ^ 0) with 1. cbn [negb orb andb]. destruct nosub; cbn [negb orb andb].
    + destruct (sf_neg W d); lia.
    + unfold shl, wrap. rewrite Z.shiftl_mul_pow2 by lia. change (2 ^ 1) with 2. rewrite wrapu_id by lia.
      destruct (sf_neg W d); lia.
  - rewrite andb_false_r. cbn [negb orb andb]. rewrite andb_false_r.
    pose proof (pow2_half e ltac:(lia)) as He. pose proof (pow2_pos (e - 1) ltac:(lia)) as Pe. rewrite He.
    assert (0 <= (2 ^ (W - E - 1) + m) * 2 ^ (e - 1)) by nia.
    destruct (sf_neg W d); repeat split; try lia.
Qed.

(** *** Alignment *)
(** [b] is n/D, or an odd number next to it when D does not divide n. *)
Definition jam (b n D : Z) : Prop := b * D = n \/ (Z.Odd b /\ (b - 1) * D < n < (b + 1) * D).
Lemma jam_opp b n D : jam b n D -> jam (- b) (- n) D.
Proof.
  intros [H|[H1 H2]]; [left; lia|right; split; [|lia]].
  destruct H1 as [k ->]. exists (- k - 1). lia.
Qed.
Lemma conv_sat n x : 0 <= n -> 0 <= x -> conv (Fmt n n false TRN SAT) x 0 = Z.min x (2 ^ n - 1).
Proof.
  intros Hn Hx. unfold conv, conv_rat, fF. cbn [fW fI fS fQ fO]. rewrite Z.sub_diag. unfold pw. cbn -[Z.pow Z.mul].
  rewrite !Z.mul_1_r. rewrite Z.div_1_r. pose proof (pow2_pos n Hn). unfold imin, imax.
  destruct (Z.ltb_spec x 0); [lia|]. destruct (Z.ltb_spec (2 ^ n - 1) x); lia.
Qed.
Lemma mask_ok mw d : 0 <= mw -> 0 <= d ->
  wrapu mw (Z.lnot (shl false mw (wrapu mw (-1)) d)) = 2 ^ Z.min d mw - 1.
Proof.
  intros Hw Hd. pose proof (pow2_pos mw Hw) as P. unfold shl, wrap. rewrite Z.shiftl_mul_pow2 by lia.
  assert (H1 : wrapu mw (-1) = 2 ^ mw - 1).
  { unfold wrapu. rewrite <- (Z.mod_add _ 1) by lia. rewrite Z.mod_small; lia. }
  rewrite H1. unfold Z.lnot.
  assert (H2 : wrapu mw ((2 ^ mw - 1) * 2 ^ d) = 2 ^ mw - 2 ^ Z.min d mw).
  { unfold wrapu. destruct (Z.le_gt_cases d mw) as [L|L].
    - rewrite Z.min_l by lia. pose proof (pow2_le d mw ltac:(lia)). pose proof (pow2_pos d Hd).
      replace ((2 ^ mw - 1) * 2 ^ d) with (2 ^ mw - 2 ^ d + (2 ^ d - 1) * 2 ^ mw) by ring.
      rewrite Z.mod_add by lia. apply Z.mod_small; lia.
    - rewrite Z.min_r by lia. rewrite (pow2_split d mw) by lia.
      replace ((2 ^ mw - 1) * (2 ^ mw * 2 ^ (d - mw))) with (((2 ^ mw - 1) * 2 ^ (d - mw)) * 2 ^ mw) by ring.
      rewrite Z.mod_mul; lia. }
  rewrite H2. pose proof (pow2_le (Z.min d mw) mw ltac:(lia)). pose proof (pow2_pos (Z.min d mw) ltac:(lia)).
  rewrite <- Z.sub_1_r. unfold wrapu. rewrite <- (Z.mod_add _ 1) by lia. rewrite Z.mod_small; lia.
Qed.
Lemma ones_shift k j : 0 <= k -> 0 <= j -> (2 ^ k - 1) / 2 ^ j = 2 ^ Z.max 0 (k - j) - 1.
Proof.
  intros Hk Hj. pose proof (pow2_pos j Hj). pose proof (pow2_pos k Hk). destruct (Z.le_gt_cases j k).
  - rewrite Z.max_r by lia. rewrite (pow2_split k j) by lia. pose proof (pow2_pos (k - j) ltac:(lia)).
    symmetry; apply (Z.div_unique_pos _ _ _ (2 ^ j - 1)); lia.
  - rewrite Z.max_l by lia. pose proof (pow2_le k j ltac:(lia)). apply Z.div_small; lia.
Qed.

(** The alignment of one mantissa, before its sign is applied. *)
Lemma jam_val X M d mu y b : 1 <= X -> 1 <= M -> 0 <= d -> 0 <= mu < 2 ^ M ->
  y = mu * 2 ^ X / 2 ^ d -> b = negb (mu mod 2 ^ Z.max 0 (Z.min d (M + X) - (X - 1)) =? 0) ->
  let a := y - y mod 2 + b2z b in 0 <= a /\ jam a (mu * 2 ^ X) (2 ^ d).
Proof.
  intros HX HM Hd Hmu Hy Hb a. assert (PX := pow2_pos X ltac:(lia)). assert (Pd := pow2_pos d Hd). assert (PM := pow2_pos M ltac:(lia)).
  assert (Hy0 : 0 <= y) by (rewrite Hy; apply Z.div_pos; nia).
  pose proof (Z.mod_pos_bound y 2 ltac:(lia)) as Hy2. pose proof (Z.mod_le y 2 Hy0 ltac:(lia)) as Hy3.
  assert (H0 : 0 <= a) by (unfold a; destruct b; cbn [b2z]; lia). split; [exact H0|].
  destruct (Z.lt_trichotomy d X) as [L|[L|L]].
  - left. rewrite Z.max_l in Hb by lia. change (2 ^ 0) with 1 in Hb. rewrite Z.mod_1_r in Hb. cbn in Hb.
    rewrite (pow2_split X d) in Hy by lia. replace (mu * (2 ^ d * 2 ^ (X - d))) with (mu * 2 ^ (X - d) * 2 ^ d) in Hy by ring.
    rewrite Z.div_mul in Hy by lia.
    assert (y mod 2 = 0).
    { rewrite Hy. rewrite (pow2_half (X - d)) by lia. replace (mu * (2 * 2 ^ (X - d - 1))) with (mu * 2 ^ (X - d - 1) * 2) by ring.
      apply Z.mod_mul; lia. }
    unfold a. rewrite H, Hb. cbn [b2z]. rewrite Hy. rewrite (pow2_split X d) by lia. ring.
  - left. subst d. rewrite Z.min_l, Z.max_r in Hb by lia. replace (X - (X - 1)) with 1 in Hb by lia. change (2 ^ 1) with 2 in Hb.
    rewrite Z.div_mul in Hy by lia. subst y. unfold a. rewrite Hb. pose proof (Z.mod_pos_bound mu 2 ltac:(lia)).
    destruct (Z.eqb_spec (mu mod 2) 0) as [Q|Q]; cbn [negb b2z]; f_equal; lia.
  - destruct (Z.le_gt_cases d (M + X)) as [L2|L2].
    + rewrite Z.min_l, Z.max_r in Hb by lia. set (j := d - (X - 1)) in *.
      assert (Pj := pow2_pos j ltac:(lia)).
      assert (Hd1 : 2 ^ (d + 1) = 2 ^ j * 2 ^ X) by (rewrite <- pow2_add by lia; f_equal; unfold j; lia).
      rewrite pow2_succ in Hd1 by lia.
      assert (Hq : y / 2 = mu / 2 ^ j).
      { rewrite Hy, Z.div_div by lia. replace (2 ^ d * 2) with (2 ^ j * 2 ^ X) by lia. apply Z.div_mul_cancel_r; lia. }
      pose proof (Z.div_mod y 2 ltac:(lia)) as D2. pose proof (Z.div_mod mu (2 ^ j) ltac:(lia)) as Dj.
      pose proof (Z.mod_pos_bound mu (2 ^ j) Pj) as Bj.
      assert (Ha : a = 2 * (mu / 2 ^ j) + b2z b) by (unfold a; lia).
      set (k := mu / 2 ^ j) in *. set (r := mu mod 2 ^ j) in *. clearbody k r.
      destruct (Z.eqb_spec r 0) as [Q|Q]; rewrite Hb in Ha; cbn [negb b2z] in Ha; rewrite Ha.
      * left. rewrite Dj, Q. nia.
      * right. split; [exists k; lia|]. rewrite Dj.
        replace ((2 * k + 1 - 1) * 2 ^ d) with (k * (2 * 2 ^ d)) by ring.
        replace ((2 * k + 1 + 1) * 2 ^ d) with ((k + 1) * (2 * 2 ^ d)) by ring. rewrite Hd1. nia.
    + rewrite Z.min_r, Z.max_r in Hb by lia.
      assert (mu * 2 ^ X < 2 ^ d).
      { apply Z.lt_le_trans with (2 ^ (M + X)); [rewrite pow2_add by lia; nia|apply pow2_le; lia]. }
      rewrite Z.mod_small in Hb by (pose proof (pow2_le M (M + X - (X - 1)) ltac:(lia)); lia).
      rewrite Z.div_small in Hy by nia. subst y. unfold a. rewrite Hb.
      destruct (Z.eqb_spec mu 0) as [Q|Q]; cbn [negb b2z].
      * left. subst mu. reflexivity.
      * right. rewrite Z.mod_0_l by lia. split; [exists 0; lia|]. nia.
Qed.

Lemma jam_bound a mu X M D : 0 <= X -> 1 <= D -> 0 <= mu <= M -> 0 <= a -> jam a (mu * 2 ^ X) D -> a <= M * 2 ^ X.
Proof.
  intros HX HD Hmu Ha HJ. pose proof (pow2_pos X HX). destruct HJ as [H1|[H1 H2]]; [nia|].
  assert (D = 1 \/ 2 <= D) as [->|H3] by lia; [nia|]. 
  assert (K : mu * 2 ^ X <= M * 2 ^ X) by nia.
  assert (a <= 1 \/ 2 <= a) as [H4|H4] by lia.
  - assert (a = 1) by (destruct H1; lia). subst a. lia.
  - assert ((a - 1) * 2 <= (a - 1) * D) by nia. lia.
Qed.

Lemma scale_le a b c : 0 <= c -> 0 <= a <= b -> 0 <= a * c <= b * c.
Proof. nia. Qed.
Lemma pad_le M lg X : 0 <= M -> 0 <= lg -> 0 <= X -> 2 ^ M * 2 ^ X <= 2 ^ (M + lg + X).
Proof. intros. rewrite <- pow2_add by lia. apply pow2_le; lia. Qed.
Lemma quot_le n k : 0 <= n -> 1 <= k -> 0 <= n / k <= n.
Proof. intros. split; [apply Z.div_pos; lia|]. apply Z.div_le_upper_bound; [lia|nia]. Qed.
Lemma small_prod mu M X d : 0 <= M -> 0 <= X -> 0 <= mu < 2 ^ M -> M + X <= d -> 0 <= mu * 2 ^ X < 2 ^ d.
Proof.
  intros HM HX Hmu Hd. pose proof (pow2_pos X HX). pose proof (pow2_le (M + X) d ltac:(lia)) as L. rewrite pow2_add in L by lia. nia.
Qed.
Lemma jam_widen a n D D' : 0 <= a -> 0 <= n < D -> D <= D' -> jam a n D -> jam a n D'.
Proof.
  intros Ha Hn HD [H|[H1 H2]].
  - left. assert (a = 0) by nia. subst a. lia.
  - right. split; [exact H1|]. assert (a = 1) by (destruct H1 as [k Hk]; nia). subst a. lia.
Qed.
Lemma jam_scale a n D k : 0 < k -> jam a n D -> jam a (n * k) (D * k).
Proof. intros Hk [H|[H1 H2]]; [left; rewrite <- H; ring|right; split; [exact H1|]]. rewrite !Z.mul_assoc. nia. Qed.
Lemma jam_one a n : jam a n 1 -> a = n.
Proof. intros [H|[_ H]]; lia. Qed.

(** Sufficient width of the saturated exponent difference (line 229). *)
Definition sat_ok (W E X : Z) : Prop := W - E + X <= 2 ^ nbits (W - E + 1) - 1.

Lemma align_ok W E X lg nosub emax d : 1 <= E -> 1 <= W - E - 1 -> 1 <= X -> 0 <= lg -> sat_ok W E X ->
  sf_word W d -> sf_exp W E d <= emax < 2 ^ E ->
  let b := sf_align W E X lg nosub emax (sf_extract W E nosub d) in
  Z.abs b <= (2 ^ (W - E) - 1) * 2 ^ X /\ jam b (2 ^ (X + 1) * sf_val_flush nosub W E d) (2 ^ emax) /\
  (sf_exp W E d = emax -> b * 2 ^ emax = 2 ^ (X + 1) * sf_val_flush nosub W E d /\ Z.Even b /\ (0 < emax -> 2 ^ (W - E - 1 + X) <= Z.abs b)).
Proof.
  intros HE Hm HX Hlg Hsat Hd He. pose proof (mant_ok W E nosub d HE Hm Hd) as HMU. cbv zeta in HMU.
  pose proof (word_split W E d HE Hm Hd) as [_ [Be Bm]].
  unfold sf_align. set (mu := sf_mant W E nosub (sf_extract W E nosub d)) in *. cbv zeta.
  destruct HMU as (Bmu & Hval & Hsgn & Hnorm).
  rewrite (extract_ok W E nosub d HE Hm Hd). cbn [o_e o_sign].
  set (M := W - E) in *. set (v := sf_val_flush nosub W E d) in *. set (e := sf_exp W E d) in *.
  assert (PX := pow2_pos X ltac:(lia)). assert (PM := pow2_pos M ltac:(lia)). assert (Pe := pow2_pos e ltac:(lia)).
  assert (Plg := pow2_pos lg Hlg).
  rewrite (wrapu_id E (emax - e)) by lia. rewrite conv_sat by (try apply nbits_nonneg; lia).
  set (dd := Z.min (emax - e) (2 ^ nbits (M + 1) - 1)).
  unfold sat_ok in Hsat; fold M in Hsat.
  assert (Hdd : 0 <= dd) by (unfold dd; lia).
  destruct (Z.eqb_spec X 0) as [|_]; [lia|].
  replace (M + 1 + (X - 1)) with (M + X) by lia. rewrite mask_ok by lia.
  assert (Pk := pow2_pos (Z.min dd (M + X)) ltac:(lia)). assert (Lk := pow2_le (Z.min dd (M + X)) (M + X) ltac:(lia)).
  assert (Hshr : shr false (M + X) (2 ^ Z.min dd (M + X) - 1) (X - 1) = 2 ^ Z.max 0 (Z.min dd (M + X) - (X - 1)) - 1).
  { unfold shr, wrap. rewrite Z.shiftr_div_pow2 by lia. rewrite ones_shift by lia. apply wrapu_id.
    pose proof (pow2_pos (Z.max 0 (Z.min dd (M + X) - (X - 1))) ltac:(lia)).
    pose proof (pow2_le (Z.max 0 (Z.min dd (M + X) - (X - 1))) (M + X) ltac:(lia)). lia. }
  rewrite Hshr. rewrite land_ones_mod by lia.
  set (st := negb (mu mod 2 ^ Z.max 0 (Z.min dd (M + X) - (X - 1)) =? 0)).
  assert (B1 := scale_le mu (2 ^ M - 1) (2 ^ X) ltac:(lia) ltac:(lia)).
  assert (B2 := pad_le M lg X ltac:(lia) Hlg ltac:(lia)).
  assert (B3 : (2 ^ M - 1) * 2 ^ X = 2 ^ M * 2 ^ X - 2 ^ X) by ring.
  rewrite (wrapu_id (M + lg + X) (mu * 2 ^ X)) by lia.
  set (y := mu * 2 ^ X / 2 ^ dd).
  assert (Pdd := pow2_pos dd Hdd).
  assert (By : 0 <= y <= mu * 2 ^ X) by (apply quot_le; lia).
  assert (Hsh : shr false (M + lg + X) (mu * 2 ^ X) dd = y).
  { unfold shr, wrap. rewrite Z.shiftr_div_pow2 by lia. apply wrapu_id; fold y; lia. }
  rewrite Hsh. rewrite set_bit_eq by lia. rewrite testbit_b2z by lia. change (2 ^ 0) with 1. rewrite Z.div_1_r, Z.mul_1_r.
  pose proof (jam_val X M dd mu y st HX ltac:(lia) Hdd Bmu eq_refl eq_refl) as [Ha0 HJ]. cbv zeta in HJ.
  replace (y + (b2z st - y mod 2)) with (y - y mod 2 + b2z st) by lia.
  set (a := y - y mod 2 + b2z st) in *. clearbody a. clear Hsh By Hshr. clearbody y st.
  assert (Ba : a <= (2 ^ M - 1) * 2 ^ X) by (apply (jam_bound a mu X (2 ^ M - 1) (2 ^ dd)); lia || assumption).
  assert (HJ2 : jam a (mu * 2 ^ X) (2 ^ (emax - e))).
  { destruct (Z.le_gt_cases (emax - e) (2 ^ nbits (M + 1) - 1)) as [L|L].
    - unfold dd in HJ. rewrite Z.min_l in HJ by lia. exact HJ.
    - apply (jam_widen _ _ (2 ^ dd)); [lia| |apply pow2_le; unfold dd; lia|exact HJ].
      apply (small_prod mu M X); unfold dd; lia. }
  assert (Hex : e = emax -> a = mu * 2 ^ X).
  { intros Q. rewrite Q, Z.sub_diag in HJ2. apply jam_one; exact HJ2. }
  clear HJ Pk Lk Pdd. clearbody dd.
  assert (Hwb : wrapu (M + lg + X) a = a) by (apply wrapu_id; lia).
  unfold wrap. rewrite Hwb.
  assert (Hws : forall s : bool, wraps (1 + (M + lg) + X) (if s then - a else a) = if s then - a else a).
  { intros s. apply wraps_id; [lia|]. replace (1 + (M + lg) + X - 1) with (M + lg + X) by lia. destruct s; lia. }
  rewrite Hws.
  assert (Hpe : 2 ^ emax = 2 ^ (emax - e) * 2 ^ e) by (rewrite <- pow2_add by lia; f_equal; lia).
  assert (Hn : 2 ^ (X + 1) * Z.abs v = mu * 2 ^ X * 2 ^ e).
  { rewrite pow2_succ by lia. transitivity (2 ^ X * (2 * Z.abs v)); [ring|]. rewrite Hval; ring. }
  assert (HJ3 : jam a (2 ^ (X + 1) * Z.abs v) (2 ^ emax)).
  { rewrite Hn, Hpe. apply jam_scale; assumption. }
  assert (Hev : Z.Even (mu * 2 ^ X)) by (exists (mu * 2 ^ (X - 1)); rewrite (pow2_half X) by lia; ring).
  assert (Hlow : e = emax -> 0 < emax -> 2 ^ (M - 1 + X) <= a).
  { intros H1 H2. rewrite (Hex H1). rewrite pow2_add by lia. apply scale_le; [lia|].
    split; [apply pow2_nonneg|apply Hnorm; lia]. }
  assert (Hfin : e = emax -> a * 2 ^ emax = 2 ^ (X + 1) * Z.abs v).
  { intros H1. rewrite (Hex H1), Hn, H1. reflexivity. }
  set (A := (2 ^ M - 1) * 2 ^ X) in *. clearbody A. set (p := 2 ^ (X + 1)) in *. clearbody p.
  clearbody v. clear B2 B3 B1 Hws Hwb.
  destruct (sf_neg W d).
  - split; [lia|]. assert (Hv : p * v = - (p * Z.abs v)) by (rewrite Hsgn at 1; ring). rewrite Hv. split.
    + apply jam_opp; exact HJ3.
    + intros H1. rewrite <- (Hfin H1). split; [ring|]. split.
      * rewrite (Hex H1). destruct Hev as [k Hk]. exists (- k). lia.
      * intros H2. specialize (Hlow H1 H2). lia.
  - split; [lia|]. assert (Hv : p * v = p * Z.abs v) by (rewrite Hsgn at 1; ring). rewrite Hv. split; [exact HJ3|].
    intros H1. rewrite <- (Hfin H1). split; [ring|]. split; [rewrite (Hex H1); exact Hev|].
    intros H2. specialize (Hlow H1 H2). lia.
Qed.

(** *** Largest exponent *)
Lemma fold_max_nonneg l : 0 <= fold_right Z.max 0 l.
Proof. induction l; cbn [fold_right]; lia. Qed.
Lemma fold_max_app l1 l2 : fold_right Z.max 0 (l1 ++ l2) = Z.max (fold_right Z.max 0 l1) (fold_right Z.max 0 l2).
Proof.
  induction l1 as [|a l IH]; cbn [app fold_right]; [pose proof (fold_max_nonneg l2); lia|]. rewrite IH. lia.
Qed.
Lemma tree_max_ok fuel : forall l, (length l <= fuel)%nat -> Forall (fun x => 0 <= x) l -> tree_max fuel l = fold_right Z.max 0 l.
Proof.
  induction fuel as [|k IH]; intros l Hl Hp.
  - destruct l; [reflexivity|cbn in Hl; lia].
  - destruct l as [|a [|b l]]; [reflexivity| |].
    + cbn. inversion Hp; lia.
    + set (h := (length (a :: b :: l) / 2)%nat).
      assert (Hh : (1 <= h /\ h < length (a :: b :: l))%nat).
      { unfold h. split; [apply Nat.div_le_lower_bound; cbn; lia|apply Nat.div_lt; cbn; lia]. }
      set (L := a :: b :: l) in *.
      assert (E1 : tree_max (S k) L = (let m0 := tree_max k (firstn h L) in let m1 := tree_max k (skipn h L) in if m1 <? m0 then m0 else m1)) by reflexivity.
      rewrite E1. cbv zeta. rewrite !IH.
      * rewrite <- (firstn_skipn h L) at 5. rewrite fold_max_app.
        destruct (Z.ltb_spec (fold_right Z.max 0 (skipn h L)) (fold_right Z.max 0 (firstn h L))); lia.
      * rewrite firstn_length; lia.
      * rewrite <- (firstn_skipn h L) in Hp. apply Forall_app in Hp. tauto.
      * rewrite skipn_length; lia.
      * rewrite <- (firstn_skipn h L) in Hp. apply Forall_app in Hp. tauto.
Qed.
Lemma maxexp_fold W E xs : sf_maxexp W E xs = fold_right Z.max 0 (map (sf_exp W E) xs).
Proof. induction xs as [|d l IH]; [reflexivity|]. cbn [sf_maxexp fold_right map] in *. unfold sf_maxexp in IH. rewrite IH. reflexivity. Qed.
Lemma maxexp_in W E xs : xs <> [] -> Forall (fun d => 0 <= sf_exp W E d) xs ->
  Forall (fun d => sf_exp W E d <= sf_maxexp W E xs) xs /\ Exists (fun d => sf_exp W E d = sf_maxexp W E xs) xs.
Proof.
  intros Hne Hp. induction Hp as [|d l Hd Hl IH]; [congruence|]. clear Hne.
  destruct l as [|d' l'].
  - cbn. split; [constructor; [lia|constructor]|]. constructor. lia.
  - destruct IH as [I1 I2]; [congruence|]. set (l := d' :: l') in *.
    change (sf_maxexp W E (d :: l)) with (Z.max (sf_exp W E d) (sf_maxexp W E l)).
    split.
    + constructor; [lia|]. eapply Forall_impl; [|exact I1]. cbn beta. lia.
    + destruct (Z.le_gt_cases (sf_exp W E d) (sf_maxexp W E l)).
      * apply Exists_cons_tl. rewrite Z.max_r by lia. exact I2.
      * apply Exists_cons_hd. lia.
Qed.

(** *** The sum *)
Lemma acc_ok w B l : 1 <= w -> 0 <= B -> Forall (fun a => Z.abs a <= B) l -> forall r, Z.abs r + Z.of_nat (length l) * B < 2 ^ (w - 1) ->
  fold_left (fun r a => wraps w (r + a)) l r = r + fold_right Z.add 0 l.
Proof.
  intros Hw HB Hl. induction Hl as [|a l Ha Hl IH]; intros r Hr; cbn [fold_left fold_right]; [lia|].
  cbn [length] in Hr. rewrite Nat2Z.inj_succ, Z.mul_succ_l in Hr.
  assert (0 <= Z.of_nat (length l) * B) by (apply Z.mul_nonneg_nonneg; lia).
  rewrite wraps_id by lia. rewrite IH by lia. ring.
Qed.
Lemma sum_abs B l : Forall (fun a => Z.abs a <= B) l -> Z.abs (fold_right Z.add 0 l) <= Z.of_nat (length l) * B.
Proof.
  induction 1 as [|a l Ha Hl IH]; cbn [fold_right length]; [lia|]. rewrite Nat2Z.inj_succ, Z.mul_succ_l. lia.
Qed.
Lemma jam_near b n D : 0 < D -> jam b n D -> Z.abs (b * D - n) <= D - 1.
Proof. intros HD [H|[_ H]]; [lia|]. replace ((b - 1) * D) with (b * D - D) in H by ring. replace ((b + 1) * D) with (b * D + D) in H by ring. lia. Qed.
Lemma jam_exact b n D : 0 < D -> (D | n) -> jam b n D -> b * D = n.
Proof. intros HD [k ->] [H|[_ H]]; [exact H|]. assert (k = b) by nia. subst; reflexivity. Qed.

Section SUM.
Variables (W E X lg : Z) (nosub : bool) (emax : Z).
Hypotheses (HE : 1 <= E) (Hm : 1 <= W - E - 1) (HX : 1 <= X) (Hlg : 0 <= lg) (Hsat : sat_ok W E X).
Let al d := sf_align W E X lg nosub emax (sf_extract W E nosub d).
Let ok d := sf_word W d /\ sf_exp W E d <= emax.
Hypothesis Hemax : 0 <= emax < 2 ^ E.
Lemma al_ok d : ok d -> Z.abs (al d) <= (2 ^ (W - E) - 1) * 2 ^ X /\ jam (al d) (2 ^ (X + 1) * sf_val_flush nosub W E d) (2 ^ emax) /\
  (sf_exp W E d = emax -> al d * 2 ^ emax = 2 ^ (X + 1) * sf_val_flush nosub W E d /\ Z.Even (al d) /\ (0 < emax -> 2 ^ (W - E - 1 + X) <= Z.abs (al d))).
Proof. intros [H1 H2]. apply align_ok; auto; lia. Qed.
Lemma al_bound xs : Forall ok xs -> Forall (fun a => Z.abs a <= (2 ^ (W - E) - 1) * 2 ^ X) (map al xs).
Proof. intros H. apply Forall_map. eapply Forall_impl; [|exact H]. intros d Hd. apply al_ok, Hd. Qed.
Let T xs := fold_right Z.add 0 (map al xs).
Lemma T_near xs : Forall ok xs -> Z.abs (T xs * 2 ^ emax - 2 ^ (X + 1) * sf_sum nosub W E xs) <= Z.of_nat (length xs) * (2 ^ emax - 1) /\
  (Exists (fun d => sf_exp W E d = emax) xs ->
   Z.abs (T xs * 2 ^ emax - 2 ^ (X + 1) * sf_sum nosub W E xs) <= (Z.of_nat (length xs) - 1) * (2 ^ emax - 1)).
Proof.
  pose proof (pow2_pos emax ltac:(lia)) as P.
  induction 1 as [|d l Hd Hl [IH1 IH2]].
  - cbn. split; [lia|]. intros H; inversion H.
  - destruct (al_ok d Hd) as (_ & J & Ex). pose proof (jam_near _ _ _ P J) as N.
    change (T (d :: l)) with (al d + T l). change (sf_sum nosub W E (d :: l)) with (sf_val_flush nosub W E d + sf_sum nosub W E l).
    cbn [length]. rewrite Nat2Z.inj_succ.
    set (D := 2 ^ emax) in *. set (p := 2 ^ (X + 1)) in *. set (v := sf_val_flush nosub W E d) in *. set (s := sf_sum nosub W E l) in *.
    set (n := Z.of_nat (length l)) in *. set (t := T l) in *. set (a := al d) in *.
    replace ((a + t) * D - p * (v + s)) with ((a * D - p * v) + (t * D - p * s)) by ring.
    replace (Z.succ n * (D - 1)) with (n * (D - 1) + (D - 1)) by ring. replace ((Z.succ n - 1) * (D - 1)) with (n * (D - 1)) by ring.
    replace ((n - 1) * (D - 1)) with (n * (D - 1) - (D - 1)) in IH2 by ring.
    split; [lia|]. intros HEx. apply Exists_cons in HEx. destruct HEx as [H0|H0].
    + destruct (Ex H0) as [H1 _]. rewrite H1. lia.
    + specialize (IH2 H0). lia.
Qed.
Lemma T_exact xs : Forall ok xs -> Forall (fun d => (2 ^ emax | 2 ^ (X + 1) * sf_val_flush nosub W E d)) xs ->
  T xs * 2 ^ emax = 2 ^ (X + 1) * sf_sum nosub W E xs.
Proof.
  pose proof (pow2_pos emax ltac:(lia)) as P.
  induction 1 as [|d l Hd Hl IH]; intros Hv; [cbn; lia|]. inversion Hv as [|? ? V1 V2]; subst.
  destruct (al_ok d Hd) as (_ & J & _). pose proof (jam_exact _ _ _ P V1 J) as N. specialize (IH V2).
  change (T (d :: l)) with (al d + T l). change (sf_sum nosub W E (d :: l)) with (sf_val_flush nosub W E d + sf_sum nosub W E l).
  rewrite Z.mul_add_distr_r, N, IH. ring.
Qed.
End SUM.

(** *** The whole tree up to the packing *)
Lemma count_pow n : 1 <= n -> n <= 2 ^ nbits (n - 1).
Proof. intros. pose proof (nbits_ub (n - 1) ltac:(lia)). lia. Qed.
Lemma fin_flags W E nosub xs : 1 <= E -> 1 <= W - E - 1 -> Forall (sf_finite W E) xs ->
  let ops := map (sf_extract W E nosub) xs in
  existsb o_inf ops = false /\ existsb o_nan ops = false /\ (forall f, existsb (fun o => o_inf o && f o) ops = false).
Proof.
  intros HE Hm H. induction H as [|d l [Hd He] Hl IH]; cbn [map existsb]; [auto|].
  rewrite extract_ok by assumption. cbn [o_inf o_nan].
  destruct (Z.eqb_spec (sf_exp W E d) (2 ^ E - 1)); [lia|]. cbn [andb orb]. exact IH.
Qed.
Lemma tree_sum q W E X nosub xs : 1 <= E -> 1 <= W - E - 1 -> 1 <= X -> sat_ok W E X -> xs <> [] -> Forall (sf_finite W E) xs ->
  let N := Z.of_nat (length xs) in let lg := nbits (N - 1) in let emax := sf_maxexp W E xs in
  let T := fold_right Z.add 0 (map (fun d => sf_align W E X lg nosub emax (sf_extract W E nosub d)) xs) in
  fadd_tree q W E X nosub xs = sf_pack q W E X lg nosub false false false false emax T /\
  Z.abs T <= N * ((2 ^ (W - E) - 1) * 2 ^ X) /\ 0 <= emax < 2 ^ E - 1.
Proof.
  intros HE Hm HX Hsat Hne Hf N lg emax T.
  assert (HN : 1 <= N) by (unfold N; destruct xs; [congruence|cbn [length]; lia]).
  assert (Hlg : 0 <= lg) by apply nbits_nonneg.
  assert (Hp : Forall (fun d => 0 <= sf_exp W E d) xs).
  { eapply Forall_impl; [|exact Hf]. intros d [Hd _]. destruct (word_split W E d HE Hm Hd) as [_ [? _]]. lia. }
  destruct (maxexp_in W E xs Hne Hp) as [H1 H2]. fold emax in H1, H2.
  assert (Hemax : 0 <= emax < 2 ^ E - 1).
  { apply Exists_exists in H2. destruct H2 as [d [I1 I2]]. rewrite Forall_forall in Hf, Hp.
    destruct (Hf d I1) as [_ ?]. specialize (Hp d I1). cbn beta in Hp. lia. }
  assert (Hok : Forall (fun d => sf_word W d /\ sf_exp W E d <= emax) xs).
  { rewrite Forall_forall in *. intros d Hd. split; [apply (Hf d Hd)|apply (H1 d Hd)]. }
  destruct (fin_flags W E nosub xs HE Hm Hf) as (F1 & F2 & F3). cbv zeta in F1, F2, F3.
  pose proof (al_bound W E X lg nosub emax HE Hm HX Hlg Hsat ltac:(lia) xs Hok) as Hb.
  set (B := (2 ^ (W - E) - 1) * 2 ^ X) in *.
  assert (Hms : map o_e (map (sf_extract W E nosub) xs) = map (sf_exp W E) xs).
  { rewrite map_map. apply map_ext_in. intros d Hd. rewrite Forall_forall in Hf. rewrite extract_ok by (auto; apply Hf, Hd). reflexivity. }
  assert (Hmx : tree_max (length xs) (map o_e (map (sf_extract W E nosub) xs)) = emax).
  { rewrite Hms. unfold emax. rewrite maxexp_fold. apply tree_max_ok; [rewrite map_length; lia|]. apply Forall_map; exact Hp. }
  assert (PX := pow2_pos X ltac:(lia)). assert (PM := pow2_pos (W - E) ltac:(lia)).
  assert (HB0 : 0 <= B) by (unfold B; apply Z.mul_nonneg_nonneg; lia).
  assert (HNB : N * B < 2 ^ (W - E + lg + X)).
  { pose proof (count_pow N HN) as C. fold lg in C. rewrite !pow2_add by lia.
    assert (N * B <= 2 ^ lg * B) by (apply Z.mul_le_mono_nonneg_r; assumption).
    pose proof (pow2_pos lg Hlg). unfold B in *.
    assert (0 < 2 ^ lg * 2 ^ X) by (apply Z.mul_pos_pos; assumption).
    replace (2 ^ lg * ((2 ^ (W - E) - 1) * 2 ^ X)) with (2 ^ (W - E) * 2 ^ lg * 2 ^ X - 2 ^ lg * 2 ^ X) in H by ring. lia. }
  split; [|split; [|exact Hemax]].
  - unfold fadd_tree. cbv zeta. rewrite Hmx, F1, F2, !F3. cbn [orb andb]. fold N lg.
    f_equal. unfold sf_acc. rewrite map_map.
    rewrite (acc_ok _ B); [unfold T; lia|lia|assumption|exact Hb|].
    rewrite map_length. fold N. replace (1 + (W - E + lg) + X - 1) with (W - E + lg + X) by lia. lia.
  - unfold T. pose proof (sum_abs B _ Hb) as S. rewrite map_length in S. exact S.
Qed.
