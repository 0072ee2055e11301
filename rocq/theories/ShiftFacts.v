(** Lemmas for ac_shift: sticky bits, overflow bits, masks. *)
From Coq Require Import Lia ZifyBool.
From Verif Require Import AcTypes AcFacts ShiftModel.
Ltac Zify.zify_post_hook ::= idtac.

(** *** Sticky-bit lemma *)

(** Everything [qround] looks at: the floor, the comparison of the fraction with 0 and 1/2, and the sign. *)
Lemma qround_same q n d n' d' :
  0 < d -> 0 < d' ->
  n / d = n' / d' ->
  (n mod d = 0 <-> n' mod d' = 0) ->
  (2 * (n mod d) ?= d) = (2 * (n' mod d') ?= d') ->
  (n < 0 <-> n' < 0) ->
  qround q n d = qround q n' d'.
Proof.
  intros Hd Hd' Hf Hz Hc Hs; unfold qround; rewrite Hf.
  set (r := n mod d) in *; set (r' := n' mod d') in *; set (f := n' / d').
  assert (E1 : (n <? 0) = (n' <? 0)).
  { destruct (Z.ltb_spec n 0), (Z.ltb_spec n' 0); lia. }
  assert (E2 : (r =? 0) = (r' =? 0)).
  { destruct (Z.eqb_spec r 0), (Z.eqb_spec r' 0); lia. }
  assert (E3 : (d <=? 2 * r) = (d' <=? 2 * r')).
  { destruct (Z.compare_spec (2 * r) d), (Z.compare_spec (2 * r') d'); try discriminate;
    destruct (Z.leb_spec d (2 * r)), (Z.leb_spec d' (2 * r')); lia. }
  assert (E4 : (d <? 2 * r) = (d' <? 2 * r')).
  { destruct (Z.compare_spec (2 * r) d), (Z.compare_spec (2 * r') d'); try discriminate;
    destruct (Z.ltb_spec d (2 * r)), (Z.ltb_spec d' (2 * r')); lia. }
  assert (E5 : (d =? 2 * r) = (d' =? 2 * r')).
  { destruct (Z.compare_spec (2 * r) d), (Z.compare_spec (2 * r') d'); try discriminate;
    destruct (Z.eqb_spec d (2 * r)), (Z.eqb_spec d' (2 * r')); lia. }
  rewrite E1, E2, E3, E4, E5; reflexivity.
Qed.

Lemma div_eq a b q r : 0 < b -> a = b * q + r -> 0 <= r < b -> a / b = q.
Proof. intros; symmetry; apply (Z.div_unique a b q r); auto; lia. Qed.
Lemma mod_eq a b q r : 0 < b -> a = b * q + r -> 0 <= r < b -> a mod b = r.
Proof. intros; symmetry; apply (Z.mod_unique a b q r); auto; lia. Qed.

(** Rounding a/(b*m) with m even only needs floor(a/b) and whether a/b is an integer. *)
Lemma qround_sticky q a b m h :
  0 < b -> 0 < h -> m = 2 * h ->
  qround q a (b * m) = qround q (2 * (a / b) + b2z (nz (a mod b))) (2 * m).
Proof.
  intros Hb Hh Hm.
  pose proof (Z.div_mod a b ltac:(lia)) as D1.
  pose proof (Z.mod_pos_bound a b Hb) as B1.
  set (y := a / b) in *; set (r0 := a mod b) in *.
  set (f := y / m); pose proof (Z.div_mod y m ltac:(lia)) as D2.
  pose proof (Z.mod_pos_bound y m ltac:(lia)) as B2. fold f in D2.
  set (g := y mod m) in *.
  set (s := b2z (nz r0)).
  assert (Hs01 : 0 <= s <= 1) by (unfold s, b2z, nz; destruct (r0 =? 0); simpl; lia).
  assert (Hs0 : s = 0 <-> r0 = 0).
  { unfold s, b2z, nz. destruct (Z.eqb_spec r0 0); simpl; lia. }
  assert (Ea : a = b * m * f + (b * g + r0)) by nia.
  assert (Ba : 0 <= b * g + r0 < b * m) by nia.
  assert (Ey : 2 * y + s = 2 * m * f + (2 * g + s)) by nia.
  assert (By : 0 <= 2 * g + s < 2 * m) by lia.
  assert (Bm : 0 < b * m) by nia.
  apply qround_same; try lia.
  - rewrite (div_eq a (b * m) f (b * g + r0)), (div_eq (2 * y + s) (2 * m) f (2 * g + s)) by (auto; lia).
    reflexivity.
  - rewrite (mod_eq a (b * m) f (b * g + r0)), (mod_eq (2 * y + s) (2 * m) f (2 * g + s)) by (auto; lia).
    nia.
  - rewrite (mod_eq a (b * m) f (b * g + r0)), (mod_eq (2 * y + s) (2 * m) f (2 * g + s)) by (auto; lia).
    destruct (Z.compare_spec (2 * (2 * g + s)) (2 * m)) as [C|C|C].
    + apply Z.compare_eq_iff. assert (s = 0) by lia. assert (g = h) by lia. nia.
    + apply Z.compare_lt_iff. assert (g < h) by lia. nia.
    + apply Z.compare_gt_iff. assert (g > h \/ (g = h /\ s <> 0)) by lia.
      assert (0 <= r0) by lia. nia.
  - assert (f < 0 \/ 0 <= f) by lia. nia.
Qed.

(** TRN only needs the floor. *)
Lemma qround_trn a b m : 0 < b -> 0 < m -> qround TRN a (b * m) = qround TRN (a / b) m.
Proof. intros; unfold qround; rewrite Z.div_div by lia; reflexivity. Qed.

(** RND only needs the floor at half-unit precision. *)
Lemma qround_rnd a b m h :
  0 < b -> 0 < h -> m = 2 * h -> qround RND a (b * m) = qround RND (a / b) m.
Proof.
  intros Hb Hh Hm.
  rewrite (qround_sticky RND a b m h) by assumption.
  set (y := a / b). set (s := b2z (nz (a mod b))).
  assert (Hs01 : 0 <= s <= 1) by (unfold s, b2z, nz; destruct (a mod b =? 0); simpl; lia).
  unfold qround.
  pose proof (Z.div_mod y m ltac:(lia)) as D2. pose proof (Z.mod_pos_bound y m ltac:(lia)) as B2.
  set (f := y / m) in *; set (g := y mod m) in *.
  rewrite (div_eq (2 * y + s) (2 * m) f (2 * g + s)) by nia.
  rewrite (mod_eq (2 * y + s) (2 * m) f (2 * g + s)) by nia.
  destruct (Z.leb_spec (2 * m) (2 * (2 * g + s))), (Z.leb_spec m (2 * g)); lia.
Qed.
Lemma qround_rnd_inf_nonneg a b m h :
  0 < b -> 0 < h -> m = 2 * h -> 0 <= a ->
  qround RND_INF a (b * m) = qround RND_INF (a / b) m.
Proof.
  intros Hb Hh Hm Ha.
  assert (E : forall n d, 0 < d -> 0 <= n -> qround RND_INF n d = qround RND n d).
  { intros n d Hd Hn; unfold qround.
    destruct (Z.ltb_spec n 0); [lia|].
    destruct (Z.ltb_spec d (2 * (n mod d))), (Z.leb_spec d (2 * (n mod d))),
      (Z.eqb_spec d (2 * (n mod d))); simpl; lia. }
  rewrite !E; try nia.
  - apply (qround_rnd a b m h); auto.
  - apply Z.div_pos; lia.
Qed.
Lemma qround_trn_zero_nonneg n d : 0 < d -> 0 <= n -> qround TRN_ZERO n d = qround TRN n d.
Proof. intros; unfold qround. destruct (Z.ltb_spec n 0); [lia|]. reflexivity. Qed.

(** Combined statement used for the unsigned overloads (and for non-negative values generally). *)
Lemma qround_sticky_u q a b k :
  0 < b -> 0 <= a -> r_bit_u q <= k ->
  qround q a (b * 2 ^ k) =
  qround q (a / b * 2 ^ r_half_u q + r_half_u q * b2z (nz (a mod b))) (2 ^ (k + r_half_u q)).
Proof.
  intros Hb Ha Hk.
  assert (0 <= k) by (destruct q; simpl in Hk; lia).
  pose proof (pow2_pos k ltac:(lia)) as Hp.
  assert (Hh : 1 <= k -> 2 ^ k = 2 * 2 ^ (k - 1) /\ 0 < 2 ^ (k - 1)).
  { intros; split; [apply pow2_half; lia|apply pow2_pos; lia]. }
  assert (0 <= a / b) by (apply Z.div_pos; lia).
  destruct q; cbn [r_half_u r_bit_u] in *; rewrite ?Z.pow_0_r, ?Z.mul_1_r, ?Z.mul_0_l, ?Z.add_0_r, ?Z.mul_1_l;
    try rewrite pow2_succ by lia; try rewrite (Z.mul_comm _ (2 ^ 1)); change (2 ^ 1) with 2.
  - apply qround_trn; lia.
  - destruct (Hh Hk). apply (qround_rnd _ _ _ (2 ^ (k - 1))); auto.
  - rewrite !qround_trn_zero_nonneg by nia. apply qround_trn; lia.
  - destruct (Hh Hk). apply (qround_sticky _ _ _ _ (2 ^ (k - 1))); auto.
  - destruct (Hh Hk). apply (qround_rnd_inf_nonneg _ _ _ (2 ^ (k - 1))); auto.
  - destruct (Hh Hk). apply (qround_sticky _ _ _ _ (2 ^ (k - 1))); auto.
  - destruct (Hh Hk). apply (qround_sticky _ _ _ _ (2 ^ (k - 1))); auto.
  - destruct (Hh Hk). apply (qround_sticky _ _ _ _ (2 ^ (k - 1))); auto.
Qed.
(** Combined statement used for the signed overloads. *)
Lemma qround_sticky_s q a b k :
  0 < b -> r_bit_s q <= k ->
  qround q a (b * 2 ^ k) =
  qround q (a / b * 2 ^ r_half_s q + r_half_s q * b2z (nz (a mod b))) (2 ^ (k + r_half_s q)).
Proof.
  intros Hb Hk.
  assert (0 <= k) by (destruct q; simpl in Hk; lia).
  pose proof (pow2_pos k ltac:(lia)) as Hp.
  assert (Hh : 1 <= k -> 2 ^ k = 2 * 2 ^ (k - 1) /\ 0 < 2 ^ (k - 1)).
  { intros; split; [apply pow2_half; lia|apply pow2_pos; lia]. }
  destruct q; cbn [r_half_s r_bit_s] in *; rewrite ?Z.pow_0_r, ?Z.mul_1_r, ?Z.mul_0_l, ?Z.add_0_r, ?Z.mul_1_l;
    try rewrite pow2_succ by lia; try rewrite (Z.mul_comm _ (2 ^ 1)); change (2 ^ 1) with 2.
  - apply qround_trn; lia.
  - destruct (Hh Hk). apply (qround_rnd _ _ _ (2 ^ (k - 1))); auto.
  - destruct (Hh Hk). apply (qround_sticky _ _ _ _ (2 ^ (k - 1))); auto.
  - destruct (Hh Hk). apply (qround_sticky _ _ _ _ (2 ^ (k - 1))); auto.
  - destruct (Hh Hk). apply (qround_sticky _ _ _ _ (2 ^ (k - 1))); auto.
  - destruct (Hh Hk). apply (qround_sticky _ _ _ _ (2 ^ (k - 1))); auto.
  - destruct (Hh Hk). apply (qround_sticky _ _ _ _ (2 ^ (k - 1))); auto.
  - destruct (Hh Hk). apply (qround_sticky _ _ _ _ (2 ^ (k - 1))); auto.
Qed.

(** *** Overflow lemma *)

(** Modes whose result depends on the sign of the exact value. *)
Definition sign_dep (q : qmode) : bool :=
  match q with TRN_ZERO | RND_ZERO | RND_INF => true | _ => false end.

Lemma qround_shift q n d j :
  0 < d -> (sign_dep q = true -> (n + j * d < 0 <-> n < 0)) ->
  Z.even j = true -> qround q (n + j * d) d = qround q n d + j.
Proof.
  intros Hd Hs Hj; unfold qround.
  rewrite Z.div_add, Z.mod_add by lia.
  set (f := n / d); set (r := n mod d).
  assert (Hoj : Z.odd j = false) by (rewrite <- Z.negb_even, Hj; reflexivity).
  rewrite Z.odd_add, Z.even_add, Hj, Hoj.
  assert (E : sign_dep q = true -> (n + j * d <? 0) = (n <? 0)).
  { intros H; specialize (Hs H). destruct (Z.ltb_spec (n + j * d) 0), (Z.ltb_spec n 0); lia. }
  destruct q; simpl in *; try rewrite (E eq_refl); clear E Hs.
  all: repeat match goal with |- context [if ?b then _ else _] => destruct b eqn:? end; try lia.
  all: rewrite ?xorb_false_r in *; destruct (Z.odd f), (Z.even f); simpl in *; lia.
Qed.

(** Wrapping outputs: a value congruent modulo 2^M with the same sign gives the same result. *)
Lemma overflow_wrap_eq q s OW M K u Y :
  1 <= OW -> 0 <= K -> OW + K <= M ->
  u mod 2 ^ M = Y mod 2 ^ M ->
  (sign_dep q = true -> (u < 0 <-> Y < 0)) ->
  overflow WRAP s OW (qround q u (2 ^ K)) = overflow WRAP s OW (qround q Y (2 ^ K)).
Proof.
  intros HW HK HM Hc Hs; simpl.
  pose proof (pow2_pos M ltac:(lia)) as HpM; pose proof (pow2_pos K HK) as HpK.
  destruct (mod_eq_exists u Y (2 ^ M) HpM Hc) as [j ->].
  assert (E : j * 2 ^ M = (j * 2 ^ (M - K)) * 2 ^ K).
  { rewrite <- Z.mul_assoc, <- pow2_add by lia. do 2 f_equal; lia. }
  rewrite E.
  rewrite qround_shift.
  - apply wrap_congr; [lia|].
    replace (2 ^ (M - K)) with (2 ^ (M - K - OW) * 2 ^ OW) by (rewrite <- pow2_add by lia; f_equal; lia).
    rewrite Z.mul_assoc. apply Z.mod_add. pose proof (pow2_pos OW ltac:(lia)); lia.
  - assumption.
  - intros H; specialize (Hs H). rewrite <- E; assumption.
  - rewrite Z.even_mul. rewrite Z.even_pow by lia. simpl. apply orb_true_r.
Qed.

(** Saturating outputs. *)
Lemma qround_ge q n d b : 0 < d -> b * d <= n -> b <= qround q n d.
Proof.
  intros Hd H. pose proof (qround_bounds q n d Hd).
  pose proof (Z.div_le_lower_bound n d b Hd ltac:(lia)). lia.
Qed.
Lemma qround_lt q n d b : 0 < d -> n < b * d -> qround q n d <= b.
Proof.
  intros Hd H. pose proof (qround_bounds q n d Hd).
  pose proof (Z.div_lt_upper_bound n d b Hd ltac:(lia)). lia.
Qed.
Lemma qround_le q n d b : 0 < d -> n <= b * d -> qround q n d <= b.
Proof.
  intros Hd H. rewrite <- (qround_exact q b d Hd). apply qround_mono; assumption.
Qed.
Lemma overflow_above o s w x y :
  1 <= w -> o <> WRAP -> imax s w < x -> imax s w < y -> overflow o s w x = overflow o s w y.
Proof.
  intros Hw Ho Hx Hy; pose proof (imin_le_imax s w Hw); unfold overflow.
  assert ((if s then - imax s w else 0) <= imax s w).
  { destruct s; unfold imax;
    [pose proof (pow2_pos (w - 1) ltac:(lia))|pose proof (pow2_pos w ltac:(lia))]; lia. }
  destruct o; [congruence| | |].
  - destruct (Z.ltb_spec x (imin s w)), (Z.ltb_spec y (imin s w)),
      (Z.ltb_spec (imax s w) x), (Z.ltb_spec (imax s w) y); lia.
  - destruct (Z.ltb_spec (imax s w) x), (Z.ltb_spec (imax s w) y); try lia.
    rewrite !orb_true_r; reflexivity.
  - destruct (Z.ltb_spec x (if s then - imax s w else 0)), (Z.ltb_spec y (if s then - imax s w else 0)),
      (Z.ltb_spec (imax s w) x), (Z.ltb_spec (imax s w) y); lia.
Qed.
Lemma overflow_below o s w x y :
  1 <= w -> o <> WRAP -> x < imin s w -> y < imin s w -> overflow o s w x = overflow o s w y.
Proof.
  intros Hw Ho Hx Hy; pose proof (imin_le_imax s w Hw); unfold overflow.
  assert (imin s w <= (if s then - imax s w else 0)).
  { unfold imin, imax; destruct s; lia. }
  destruct o; [congruence| | |].
  - destruct (Z.ltb_spec x (imin s w)), (Z.ltb_spec y (imin s w)); lia.
  - destruct (Z.ltb_spec x (imin s w)), (Z.ltb_spec y (imin s w)); try lia; reflexivity.
  - destruct (Z.ltb_spec x (if s then - imax s w else 0)), (Z.ltb_spec y (if s then - imax s w else 0)); lia.
Qed.
Lemma imax_lt s w : 1 <= w -> imax s w < 2 ^ w.
Proof.
  intros; unfold imax; destruct s; [|lia].
  pose proof (pow2_half w ltac:(lia)); pose proof (pow2_pos (w - 1) ltac:(lia)); lia.
Qed.
Lemma imin_gt s w : 1 <= w -> - 2 ^ w < imin s w.
Proof.
  intros; unfold imin; destruct s; [|pose proof (pow2_pos w ltac:(lia)); lia].
  pose proof (pow2_half w ltac:(lia)); pose proof (pow2_pos (w - 1) ltac:(lia)); lia.
Qed.
Lemma overflow_sat_eq q o s OW M K u Y :
  1 <= OW -> 0 <= K -> OW + K <= M -> o <> WRAP ->
  (u = Y \/ (2 ^ M <= u /\ 2 ^ M <= Y) \/ (u <= - 2 ^ M /\ Y <= - 2 ^ M)) ->
  overflow o s OW (qround q u (2 ^ K)) = overflow o s OW (qround q Y (2 ^ K)).
Proof.
  intros HW HK HM Ho Hc.
  pose proof (pow2_pos K HK) as HpK.
  assert (EM : 2 ^ M = 2 ^ (M - K) * 2 ^ K) by (rewrite <- pow2_add by lia; f_equal; lia).
  pose proof (pow2_le OW (M - K) ltac:(lia)) as Hle.
  pose proof (imax_lt s OW HW); pose proof (imin_gt s OW HW).
  destruct Hc as [-> | [[H1 H2] | [H1 H2]]]; [reflexivity| |].
  - apply overflow_above; auto.
    + pose proof (qround_ge q u (2 ^ K) (2 ^ (M - K)) HpK ltac:(lia)); lia.
    + pose proof (qround_ge q Y (2 ^ K) (2 ^ (M - K)) HpK ltac:(lia)); lia.
  - apply overflow_below; auto.
    + pose proof (qround_le q u (2 ^ K) (- 2 ^ (M - K)) HpK ltac:(lia)); lia.
    + pose proof (qround_le q Y (2 ^ K) (- 2 ^ (M - K)) HpK ltac:(lia)); lia.
Qed.

(** *** Default-mode conversions and bit operations *)
Lemma conv_dfmt_up W I s x fx : fx <= W - I -> conv (dfmt W I s) x fx = wrap s W (x * 2 ^ (W - I - fx)).
Proof.
  intros; rewrite conv_unfold; unfold fF; cbn [dfmt fW fI fS fQ fO overflow].
  rewrite (pw_nonneg_eq (W - I - fx)), (pw_nonpos_eq (fx - (W - I))) by lia.
  rewrite qround_int; reflexivity.
Qed.
Lemma conv_dfmt_down W I s x fx : W - I <= fx -> conv (dfmt W I s) x fx = wrap s W (x / 2 ^ (fx - (W - I))).
Proof.
  intros; rewrite conv_unfold; unfold fF; cbn [dfmt fW fI fS fQ fO overflow].
  rewrite (pw_nonpos_eq (W - I - fx)), (pw_nonneg_eq (fx - (W - I))) by lia.
  rewrite Z.mul_1_r; reflexivity.
Qed.

Lemma testbit_b2z x i : 0 <= i -> b2z (Z.testbit x i) = (x / 2 ^ i) mod 2.
Proof. intros; rewrite <- Z.testbit_spec' by lia; destruct (Z.testbit x i); reflexivity. Qed.

Lemma setbit_add x i : 0 <= i -> Z.setbit x i = x + (1 - b2z (Z.testbit x i)) * 2 ^ i.
Proof.
  intros Hi. rewrite Z.setbit_spec'.
  destruct (Z.testbit x i) eqn:E; simpl b2z.
  - rewrite Z.mul_0_l, Z.add_0_r.
    apply Z.bits_inj'; intros k Hk. rewrite Z.lor_spec, Z.pow2_bits_eqb by lia.
    destruct (Z.eqb_spec i k); [subst; rewrite E; reflexivity|apply orb_false_r].
  - rewrite Z.mul_1_l. symmetry. rewrite Z.add_nocarry_lxor.
    + apply Z.bits_inj'; intros k Hk. rewrite Z.lxor_spec, Z.lor_spec, Z.pow2_bits_eqb by lia.
      destruct (Z.eqb_spec i k); [subst; rewrite E; reflexivity|rewrite xorb_false_r, orb_false_r; reflexivity].
    + apply Z.bits_inj'; intros k Hk. rewrite Z.land_spec, Z.pow2_bits_eqb, Z.bits_0 by lia.
      destruct (Z.eqb_spec i k); [subst; rewrite E; reflexivity|apply andb_false_r].
Qed.
Lemma clearbit_sub x i : 0 <= i -> Z.clearbit x i = x - b2z (Z.testbit x i) * 2 ^ i.
Proof.
  intros Hi.
  assert (H : Z.testbit (Z.clearbit x i) i = false) by apply Z.clearbit_eq.
  pose proof (setbit_add (Z.clearbit x i) i Hi) as E. rewrite H in E. simpl b2z in E.
  destruct (Z.testbit x i) eqn:Ex; simpl b2z.
  - assert (Z.setbit (Z.clearbit x i) i = x).
    { apply Z.bits_inj'; intros k Hk. rewrite Z.setbit_eqb, Z.clearbit_eqb by lia.
      destruct (Z.eqb_spec i k); [subst; rewrite Ex; reflexivity|]. simpl. rewrite andb_true_r; reflexivity. }
    lia.
  - rewrite Z.mul_0_l, Z.sub_0_r. apply Z.bits_inj'; intros k Hk. rewrite Z.clearbit_eqb.
    destruct (Z.eqb_spec i k); [subst; rewrite Ex; reflexivity|]. simpl; apply andb_true_r.
Qed.
Lemma set_bit_eq s w i b x :
  0 <= i -> set_bit s w i b x = wrap s w (x + (b2z b - b2z (Z.testbit x i)) * 2 ^ i).
Proof.
  intros Hi; unfold set_bit; destruct b.
  - rewrite setbit_add by lia; reflexivity.
  - rewrite clearbit_sub by lia; f_equal; simpl; lia.
Qed.
Lemma set_bit_clear s w i b x :
  0 <= i -> Z.testbit x i = false -> set_bit s w i b x = wrap s w (x + b2z b * 2 ^ i).
Proof. intros Hi H; rewrite set_bit_eq, H by lia; f_equal; simpl; lia. Qed.

(** land with a low mask *)
Lemma land_ones_mod x e : 0 <= e -> Z.land x (2 ^ e - 1) = x mod 2 ^ e.
Proof. intros; rewrite <- Z.land_ones by lia; f_equal; rewrite Z.ones_equiv; lia. Qed.
Lemma land_high x e : 0 <= e -> Z.land x (- 2 ^ e) = x / 2 ^ e * 2 ^ e.
Proof.
  intros He.
  replace (- 2 ^ e) with (Z.lnot (Z.ones e)) by (rewrite Z.ones_equiv; unfold Z.lnot; lia).
  rewrite <- Z.ldiff_land, Z.ldiff_ones_r, Z.shiftl_mul_pow2, Z.shiftr_div_pow2 by lia; reflexivity.
Qed.
Lemma land_high_u x w e : 0 <= e <= w -> 0 <= x < 2 ^ w -> Z.land x (2 ^ w - 2 ^ e) = x / 2 ^ e * 2 ^ e.
Proof.
  intros He Hx. rewrite <- land_high by lia.
  replace (2 ^ w - 2 ^ e) with (Z.land (- 2 ^ e) (2 ^ w - 1)).
  - rewrite Z.land_assoc, (Z.land_comm _ (2 ^ w - 1)), Z.land_assoc, (Z.land_comm (2 ^ w - 1) x),
      land_ones_mod, Z.mod_small by lia. reflexivity.
  - rewrite land_ones_mod by lia.
    pose proof (pow2_le e w ltac:(lia)); pose proof (pow2_pos e ltac:(lia)).
    rewrite <- (Z.mod_add (- 2 ^ e) 1 (2 ^ w)) by lia.
    rewrite Z.mod_small; lia.
Qed.

(** *** The exact value at the temporary type's scale *)
Lemma conv_core f x XF TF e :
  XF <= TF -> fF f <= TF ->
  conv f x (XF - e) =
  overflow (fO f) (fS f) (fW f)
    (qround (fQ f) (x * 2 ^ (TF - XF) * pw e) (pw (- e) * 2 ^ (TF - fF f))).
Proof.
  intros H1 H2; rewrite conv_unfold; f_equal.
  pose proof (pow2_pos (TF - XF) ltac:(lia)); pose proof (pow2_pos (TF - fF f) ltac:(lia)).
  pose proof (pw_pos e); pose proof (pw_pos (- e)).
  apply qround_eqq; [apply pw_pos|apply Z.mul_pos_pos; lia|].
  unfold pw.
  transitivity (x * (2 ^ Z.max 0 (fF f - (XF - e)) * 2 ^ Z.max 0 (- e) * 2 ^ (TF - fF f))); [ring|].
  transitivity (x * (2 ^ (TF - XF) * 2 ^ Z.max 0 e * 2 ^ Z.max 0 (XF - e - fF f))); [|ring].
  rewrite <- !pow2_add by lia. do 2 f_equal; lia.
Qed.

Lemma shiftl_pw x e : Z.shiftl x e = x * pw e / pw (- e).
Proof.
  destruct (Z.le_gt_cases 0 e).
  - rewrite Z.shiftl_mul_pow2, (pw_nonneg_eq e), (pw_nonpos_eq (- e)), Z.div_1_r by lia; reflexivity.
  - rewrite Z.shiftl_div_pow2, (pw_nonpos_eq e), (pw_nonneg_eq (- e)), Z.mul_1_r by lia; reflexivity.
Qed.

(** *** Masks *)
Definition clamp (lo hi x : Z) : Z := Z.max lo (Z.min hi x).

Lemma wrap_lnot_wrap S W a :
  0 <= W -> wrap S W (Z.lnot (wrap S W a)) = wrap S W (- a - 1).
Proof.
  intros HW; apply wrap_congr; [assumption|].
  pose proof (pow2_pos W HW).
  unfold Z.lnot. replace (Z.pred (- wrap S W a)) with (- 1 - wrap S W a) by lia.
  rewrite Zminus_mod, wrap_mod, <- Zminus_mod by lia. f_equal; lia.
Qed.

Lemma conv_same W I S x : conv (dfmt W I S) x (W - I) = wrap S W x.
Proof. rewrite conv_dfmt_up by lia. f_equal. rewrite Z.sub_diag, Z.pow_0_r; lia. Qed.

Lemma shift_mask_gen XW XI S TW TI n :
  1 <= XW -> XI <= TI -> XW - XI <= TW - TI ->
  shift_mask XW XI S TW TI n =
  wrap S XW (- (wrapu TW (Z.shiftl (2 ^ TW - 1) n) / 2 ^ (TW - TI - (XW - XI))) - 1).
Proof.
  intros HW HI HF; unfold shift_mask.
  rewrite (conv_same TW TI false (Z.lnot 0)); change (wrap false TW (Z.lnot 0)) with (wrapu TW (Z.lnot 0)).
  assert (0 <= TW) by lia. pose proof (pow2_pos TW ltac:(lia)).
  assert (E : wrapu TW (Z.lnot 0) = 2 ^ TW - 1).
  { unfold wrapu, Z.lnot. symmetry. apply (Z.mod_unique _ _ (-1)); lia. }
  rewrite E. unfold shl; change (wrap false) with wrapu.
  rewrite (conv_dfmt_down XW XI S _ (TW - TI)) by lia.
  rewrite conv_same, wrap_lnot_wrap by lia. reflexivity.
Qed.

Lemma shift_mask_right XW XI S TW TI n :
  1 <= XW -> XI <= TI -> XW - XI <= TW - TI -> 0 <= n ->
  shift_mask XW XI S TW TI n = wrap S XW (2 ^ clamp 0 XW (n - (TW - TI - (XW - XI))) - 1).
Proof.
  intros HW HI HF Hn; rewrite shift_mask_gen by assumption.
  set (D := TW - TI - (XW - XI)).
  assert (HD : 0 <= D) by (unfold D; lia).
  assert (HT : XW <= TW - D) by (unfold D; lia).
  apply wrap_congr; [lia|].
  rewrite Z.shiftl_mul_pow2 by lia.
  pose proof (pow2_pos XW ltac:(lia)) as HpX; pose proof (pow2_pos D HD) as HpD.
  pose proof (pow2_pos TW ltac:(lia)) as HpT; pose proof (pow2_pos n Hn) as Hpn.
  assert (Hm : forall a, a mod 2 ^ (TW - D) = 0 -> a mod 2 ^ XW = 0).
  { intros a Ha. rewrite <- (Z.mod_0_l (2 ^ XW)) by lia. apply (mod_pow2_sub (TW - D)); [lia|].
    rewrite Ha, Z.mod_0_l; [reflexivity|]. pose proof (pow2_pos (TW - D) ltac:(lia)); lia. }
  destruct (Z.le_gt_cases TW n) as [Hbig|Hsmall].
  - assert (E : wrapu TW ((2 ^ TW - 1) * 2 ^ n) = 0).
    { unfold wrapu. rewrite (pow2_split n TW) by lia.
      rewrite (Z.mul_comm (2 ^ TW)), Z.mul_assoc. apply Z.mod_mul; lia. }
    rewrite E, Z.div_0_l by lia.
    replace (clamp 0 XW (n - D)) with XW by (unfold clamp; lia).
    rewrite <- (Z.mod_add (- 0 - 1) 1 (2 ^ XW)) by lia. f_equal; lia.
  - assert (E : wrapu TW ((2 ^ TW - 1) * 2 ^ n) = 2 ^ TW - 2 ^ n).
    { unfold wrapu. pose proof (pow2_le n TW ltac:(lia)).
      symmetry. apply (Z.mod_unique _ _ (2 ^ n - 1)); [lia|ring]. }
    rewrite E.
    destruct (Z.le_gt_cases D n) as [Hge|Hlt].
    + replace (2 ^ TW - 2 ^ n) with ((2 ^ (TW - D) - 2 ^ (n - D)) * 2 ^ D).
      2:{ rewrite Z.mul_sub_distr_r, <- !pow2_add by lia. f_equal; f_equal; lia. }
      rewrite Z.div_mul by lia.
      apply mod_eq_add_mul; [lia|].
      destruct (Z.le_gt_cases XW (n - D)).
      * replace (clamp 0 XW (n - D)) with XW by (unfold clamp; lia).
        exists (2 ^ (n - D - XW) - 2 ^ (TW - D - XW) - 1).
        rewrite !Z.mul_sub_distr_r, <- !pow2_add by lia.
        replace (n - D - XW + XW) with (n - D) by lia. replace (TW - D - XW + XW) with (TW - D) by lia. lia.
      * replace (clamp 0 XW (n - D)) with (n - D) by (unfold clamp; lia).
        exists (- 2 ^ (TW - D - XW)).
        rewrite Z.mul_opp_l, <- !pow2_add by lia. replace (TW - D - XW + XW) with (TW - D) by lia. lia.
    + assert (E2 : (2 ^ TW - 2 ^ n) / 2 ^ D = 2 ^ (TW - D) - 1).
      { symmetry. pose proof (pow2_le n D ltac:(lia)).
        apply (Z.div_unique _ _ _ (2 ^ D - 2 ^ n)); [lia|].
        rewrite Z.mul_sub_distr_l, <- pow2_add by lia. replace (D + (TW - D)) with TW by lia. lia. }
      rewrite E2.
      replace (clamp 0 XW (n - D)) with 0 by (unfold clamp; lia).
      replace (- (2 ^ (TW - D) - 1) - 1) with (0 + (- 2 ^ (TW - D - XW)) * 2 ^ XW).
      2:{ rewrite Z.mul_opp_l, <- pow2_add by lia. replace (TW - D - XW + XW) with (TW - D) by lia. lia. }
      rewrite Z.mod_add by lia. reflexivity.
Qed.

Lemma shift_mask_left XW XI S TW TI k :
  1 <= XW -> XI <= TI -> XW - XI <= TW - TI -> 0 <= k ->
  shift_mask XW XI S TW TI (- k) = wrap S XW (- 2 ^ clamp 0 XW (TI + (XW - XI) - k)).
Proof.
  intros HW HI HF Hk; rewrite shift_mask_gen by assumption.
  set (D := TW - TI - (XW - XI)).
  assert (HD : 0 <= D) by (unfold D; lia).
  assert (HT : XW <= TW - D) by (unfold D; lia).
  apply wrap_congr; [lia|].
  rewrite Z.shiftl_div_pow2 by lia.
  replace (- - k) with k by lia.
  pose proof (pow2_pos XW ltac:(lia)) as HpX; pose proof (pow2_pos D HD) as HpD.
  pose proof (pow2_pos TW ltac:(lia)) as HpT; pose proof (pow2_pos k Hk) as Hpk.
  rewrite (wrapu_id TW).
  2:{ split; [apply Z.div_pos; lia|]. apply Z.div_lt_upper_bound; nia. }
  rewrite Z.div_div by lia. rewrite <- pow2_add by lia.
  replace (TI + (XW - XI) - k) with (TW - (k + D)) by (unfold D; lia).
  destruct (Z.le_gt_cases (k + D) TW) as [Hs|Hb].
  - assert (E : (2 ^ TW - 1) / 2 ^ (k + D) = 2 ^ (TW - (k + D)) - 1).
    { symmetry. pose proof (pow2_pos (k + D) ltac:(lia)).
      apply (Z.div_unique _ _ _ (2 ^ (k + D) - 1)); [lia|].
      rewrite Z.mul_sub_distr_l, <- pow2_add by lia. replace (k + D + (TW - (k + D))) with TW by lia. lia. }
    rewrite E.
    destruct (Z.le_gt_cases XW (TW - (k + D))).
    + replace (clamp 0 XW (TW - (k + D))) with XW by (unfold clamp; lia).
      apply mod_eq_add_mul; [lia|]. exists (1 - 2 ^ (TW - (k + D) - XW)).
      rewrite Z.mul_sub_distr_r, <- pow2_add by lia.
      replace (TW - (k + D) - XW + XW) with (TW - (k + D)) by lia. lia.
    + replace (clamp 0 XW (TW - (k + D))) with (TW - (k + D)) by (unfold clamp; lia).
      f_equal; lia.
  - rewrite Z.div_small by (split; [lia|]; pose proof (pow2_le TW (k + D) ltac:(lia)); lia).
    replace (clamp 0 XW (TW - (k + D))) with 0 by (unfold clamp; lia).
    reflexivity.
Qed.

Lemma in_range_bounds S W x : 1 <= W -> in_range S W x -> - 2 ^ W < x < 2 ^ W.
Proof.
  intros HW [H1 H2]; pose proof (imax_lt S W HW); pose proof (imin_gt S W HW); lia.
Qed.

Lemma nz_mod_top S W x : 1 <= W -> in_range S W x -> nz (x mod 2 ^ W) = nz x.
Proof.
  intros HW Hx; pose proof (in_range_bounds S W x HW Hx). pose proof (pow2_pos W ltac:(lia)).
  unfold nz; f_equal.
  destruct (Z.eqb_spec x 0) as [->|Hn]; [rewrite Z.mod_0_l by lia; reflexivity|].
  apply Z.eqb_neq. intros E. apply Z.mod_divide in E; [|lia]. destruct E as [c Hc]. assert (c = 0 \/ 1 <= c \/ c <= -1) as [Hc0|[Hc0|Hc0]] by lia; nia.
Qed.

(** x & mask for a low mask *)
Lemma nz_land_low S W x e :
  1 <= W -> 0 <= e <= W -> in_range S W x ->
  nz (Z.land x (wrap S W (2 ^ e - 1))) = nz (x mod 2 ^ e).
Proof.
  intros HW He Hx.
  pose proof (pow2_pos e ltac:(lia)).
  destruct S; simpl wrap.
  - destruct (Z.eq_dec e W) as [->|Hne].
    + assert (E : wraps W (2 ^ W - 1) = -1).
      { change (wraps W (2 ^ W - 1)) with (wrap true W (2 ^ W - 1)).
        apply wrap_unique; [lia| |].
        - unfold in_range, imin, imax. pose proof (pow2_pos (W - 1) ltac:(lia)); lia.
        - replace (2 ^ W - 1) with (-1 + 1 * 2 ^ W) by lia. apply Z.mod_add; lia. }
      rewrite E, Z.land_m1_r. symmetry; apply (nz_mod_top true); assumption.
    + rewrite wraps_id; [rewrite land_ones_mod by lia; reflexivity|lia|].
      pose proof (pow2_le e (W - 1) ltac:(lia)). pose proof (pow2_pos (W - 1) ltac:(lia)); lia.
  - rewrite wrapu_id, land_ones_mod; [reflexivity|lia|].
    pose proof (pow2_le e W ltac:(lia)); lia.
Qed.

(** x & mask for a high mask *)
Lemma nz_land_high S W x e :
  1 <= W -> 0 <= e <= W -> in_range S W x ->
  nz (Z.land x (wrap S W (- 2 ^ e))) =
  (nz (wrap S W (- 2 ^ e)) && nz (x / 2 ^ e)).
Proof.
  intros HW He Hx.
  pose proof (pow2_pos e ltac:(lia)); pose proof (pow2_pos W ltac:(lia)).
  assert (Hz : nz (x / 2 ^ e * 2 ^ e) = nz (x / 2 ^ e)).
  { unfold nz; f_equal. destruct (Z.eqb_spec (x / 2 ^ e) 0) as [->|]; [reflexivity|].
    apply Z.eqb_neq. nia. }
  destruct (Z.eq_dec e W) as [->|Hne].
  - assert (E : wrap S W (- 2 ^ W) = 0).
    { apply wrap_unique; [lia|apply in_range_0; lia|].
      replace (- 2 ^ W) with (0 + (-1) * 2 ^ W) by lia. apply Z.mod_add; lia. }
    rewrite E, Z.land_0_r; reflexivity.
  - pose proof (pow2_le e (W - 1) ltac:(lia)).
    destruct S; simpl wrap.
    + rewrite wraps_id by (try lia; pose proof (pow2_pos (W - 1) ltac:(lia)); lia).
      rewrite land_high by lia. rewrite Hz.
      replace (nz (- 2 ^ e)) with true; [reflexivity|].
      unfold nz. destruct (Z.eqb_spec (- 2 ^ e) 0); [lia|reflexivity].
    + pose proof (pow2_half W ltac:(lia)).
      assert (E : wrapu W (- 2 ^ e) = 2 ^ W - 2 ^ e).
      { unfold wrapu; symmetry; apply (Z.mod_unique _ _ (-1)); lia. }
      rewrite E, land_high_u; [|lia|unfold in_range, imin, imax in Hx; lia].
      rewrite Hz. replace (nz (2 ^ W - 2 ^ e)) with true; [reflexivity|].
      unfold nz. destruct (Z.eqb_spec (2 ^ W - 2 ^ e) 0); [lia|reflexivity].
Qed.

Lemma nz_high_mask S W e :
  1 <= W -> 0 <= e <= W -> nz (wrap S W (- 2 ^ e)) = negb (e =? W).
Proof.
  intros HW He. unfold nz; f_equal.
  pose proof (pow2_pos e ltac:(lia)); pose proof (pow2_pos W ltac:(lia)).
  destruct (Z.eqb_spec e W) as [->|Hne].
  - apply Z.eqb_eq. apply wrap_unique; [lia|apply in_range_0; lia|].
    replace (- 2 ^ W) with (0 + (-1) * 2 ^ W) by lia. apply Z.mod_add; lia.
  - apply Z.eqb_neq. intros E.
    assert (H1 : (- 2 ^ e) mod 2 ^ W = 0).
    { rewrite <- (wrap_mod S), E, Z.mod_0_l by lia; reflexivity. }
    pose proof (pow2_le e (W - 1) ltac:(lia)). pose proof (pow2_half W ltac:(lia)).
    rewrite <- (Z.mod_add _ 1) in H1 by lia. rewrite Z.mod_small in H1 by lia. lia.
Qed.

(** bits lost by a right shift *)
Lemma nz_mod_shift S W x D n :
  1 <= W -> in_range S W x -> 0 <= D -> 0 <= n ->
  nz (x mod 2 ^ clamp 0 W (n - D)) = nz ((x * 2 ^ D) mod 2 ^ n).
Proof.
  intros HW Hx HD Hn.
  pose proof (pow2_pos D HD); pose proof (pow2_pos n Hn).
  destruct (Z.le_gt_cases n D) as [Hle|Hgt].
  - replace (clamp 0 W (n - D)) with 0 by (unfold clamp; lia).
    rewrite Z.pow_0_r, Z.mod_1_r.
    rewrite (pow2_split D n), Z.mul_comm, <- Z.mul_assoc, Z.mul_comm, Z.mod_mul by lia. reflexivity.
  - assert (E : (x * 2 ^ D) mod 2 ^ n = x mod 2 ^ (n - D) * 2 ^ D).
    { rewrite (pow2_split n D), (Z.mul_comm (2 ^ D) (2 ^ (n - D))) by lia.
      apply Z.mul_mod_distr_r; [|lia]. pose proof (pow2_pos (n - D) ltac:(lia)); lia. }
    rewrite E.
    transitivity (nz (x mod 2 ^ (n - D))).
    2:{ unfold nz; f_equal. destruct (Z.eqb_spec (x mod 2 ^ (n - D)) 0) as [->|]; [reflexivity|].
        symmetry; apply Z.eqb_neq; nia. }
    destruct (Z.le_gt_cases (n - D) W).
    + replace (clamp 0 W (n - D)) with (n - D) by (unfold clamp; lia). reflexivity.
    + replace (clamp 0 W (n - D)) with W by (unfold clamp; lia).
      rewrite (nz_mod_top S) by assumption. symmetry. apply (nz_mod_top true); [lia|].
      pose proof (in_range_bounds S W x HW Hx). pose proof (pow2_le W (n - D - 1) ltac:(lia)).
      unfold in_range, imin, imax; lia.
Qed.
