(** Basic facts about the ac_types semantics. *)
From Coq Require Import Lia ZifyBool.
From Verif Require Import AcTypes.
Ltac Zify.zify_post_hook ::= Z.div_mod_to_equations.

Lemma pow2_pos e : 0 <= e -> 0 < 2 ^ e.
Proof. intros; apply Z.pow_pos_nonneg; lia. Qed.
Lemma pow2_nonneg e : 0 <= 2 ^ e.
Proof. apply Z.pow_nonneg; lia. Qed.
Lemma pw_pos e : 0 < pw e.
Proof. unfold pw; apply pow2_pos; lia. Qed.
Lemma pow2_add a b : 0 <= a -> 0 <= b -> 2 ^ (a + b) = 2 ^ a * 2 ^ b.
Proof. intros; apply Z.pow_add_r; lia. Qed.
Lemma pow2_split a b : 0 <= b <= a -> 2 ^ a = 2 ^ b * 2 ^ (a - b).
Proof. intros; rewrite <- pow2_add by lia; f_equal; lia. Qed.
Lemma pow2_le a b : 0 <= a <= b -> 2 ^ a <= 2 ^ b.
Proof. intros; apply Z.pow_le_mono_r; lia. Qed.
Lemma pow2_succ a : 0 <= a -> 2 ^ (a + 1) = 2 * 2 ^ a.
Proof. intros; rewrite pow2_add by lia; lia. Qed.
Lemma pow2_half a : 1 <= a -> 2 ^ a = 2 * 2 ^ (a - 1).
Proof. intros; rewrite <- pow2_succ by lia; f_equal; lia. Qed.

(** *** wrap *)
Lemma wrapu_range w x : 0 <= w -> 0 <= wrapu w x < 2 ^ w.
Proof. intros; unfold wrapu; apply Z.mod_pos_bound, pow2_pos; lia. Qed.
Lemma wraps_range w x : 1 <= w -> - 2 ^ (w - 1) <= wraps w x < 2 ^ (w - 1).
Proof.
  intros Hw; unfold wraps.
  pose proof (Z.mod_pos_bound (x + 2 ^ (w - 1)) (2 ^ w) (pow2_pos w ltac:(lia))).
  rewrite (pow2_half w) in * by lia; lia.
Qed.
Lemma wrapu_id w x : 0 <= x < 2 ^ w -> wrapu w x = x.
Proof. intros; unfold wrapu; apply Z.mod_small; lia. Qed.
Lemma wraps_id w x : 1 <= w -> - 2 ^ (w - 1) <= x < 2 ^ (w - 1) -> wraps w x = x.
Proof.
  intros Hw H; unfold wraps; rewrite Z.mod_small; [lia|].
  rewrite (pow2_half w) by lia; lia.
Qed.
Lemma wrap_id s w x : 1 <= w -> in_range s w x -> wrap s w x = x.
Proof.
  intros Hw [H1 H2]; unfold in_range, imin, imax, wrap in *; destruct s.
  - apply wraps_id; lia.
  - apply wrapu_id; lia.
Qed.
Lemma wrap_range s w x : 1 <= w -> in_range s w (wrap s w x).
Proof.
  intros Hw; unfold in_range, imin, imax, wrap; destruct s.
  - pose proof (wraps_range w x Hw); lia.
  - pose proof (wrapu_range w x ltac:(lia)); lia.
Qed.
(** wrap depends only on the residue *)
Lemma wrapu_congr w x y : 0 <= w -> x mod 2 ^ w = y mod 2 ^ w -> wrapu w x = wrapu w y.
Proof. auto. Qed.
Lemma wraps_congr w x y : 0 <= w -> x mod 2 ^ w = y mod 2 ^ w -> wraps w x = wraps w y.
Proof.
  intros Hw H; unfold wraps; f_equal.
  pose proof (pow2_pos w Hw).
  rewrite (Z.add_mod x), (Z.add_mod y) by lia; rewrite H; reflexivity.
Qed.
Lemma wrap_congr s w x y : 0 <= w -> x mod 2 ^ w = y mod 2 ^ w -> wrap s w x = wrap s w y.
Proof. intros; destruct s; [apply wraps_congr | apply wrapu_congr]; auto. Qed.
Lemma wrap_mod s w x : 0 <= w -> (wrap s w x) mod 2 ^ w = x mod 2 ^ w.
Proof.
  intros Hw; pose proof (pow2_pos w Hw); destruct s; simpl; unfold wraps, wrapu.
  - rewrite <- Zminus_mod_idemp_l, Z.mod_mod, Zminus_mod_idemp_l by lia. f_equal; lia.
  - apply Z.mod_mod; lia.
Qed.
(** a residue equal to an in-range value determines it *)
Lemma wrap_unique s w x y :
  1 <= w -> in_range s w y -> x mod 2 ^ w = y mod 2 ^ w -> wrap s w x = y.
Proof.
  intros Hw Hy H; rewrite <- (wrap_id s w y) by assumption; apply wrap_congr; [lia|assumption].
Qed.
Lemma mod_pow2_sub a b x y :
  0 <= b <= a -> x mod 2 ^ a = y mod 2 ^ a -> x mod 2 ^ b = y mod 2 ^ b.
Proof.
  intros Hab H.
  assert (Hd : 2 ^ a = 2 ^ b * 2 ^ (a - b)) by (apply pow2_split; lia).
  pose proof (pow2_pos b ltac:(lia)); pose proof (pow2_pos (a - b) ltac:(lia)).
  assert (Hk : forall z, (z mod 2 ^ a) mod 2 ^ b = z mod 2 ^ b).
  { intros z. rewrite Hd. rewrite Z.rem_mul_r by lia.
    rewrite Z.mul_comm, Z.mod_add by lia. apply Z.mod_mod; lia. }
  rewrite <- (Hk x), <- (Hk y), H; reflexivity.
Qed.
Lemma mod_eq_add_mul a b n : 0 < n -> (exists k, a = b + k * n) -> a mod n = b mod n.
Proof. intros Hn [k ->]; apply Z.mod_add; lia. Qed.
Lemma mod_eq_exists a b n : 0 < n -> a mod n = b mod n -> exists k, a = b + k * n.
Proof.
  intros Hn H. exists (a / n - b / n).
  pose proof (Z.div_mod a n ltac:(lia)); pose proof (Z.div_mod b n ltac:(lia)); lia.
Qed.

(** *** qround *)
Lemma qround_scale q n d k : 0 < d -> 0 < k -> qround q (n * k) (d * k) = qround q n d.
Proof.
  intros Hd Hk; unfold qround.
  rewrite Z.div_mul_cancel_r by lia.
  rewrite Z.mul_mod_distr_r by lia.
  set (f := n / d); set (r := n mod d).
  assert (E1 : (n * k <? 0) = (n <? 0)).
  { destruct (Z.ltb_spec n 0), (Z.ltb_spec (n * k) 0); nia. }
  assert (E2 : (r * k =? 0) = (r =? 0)).
  { destruct (Z.eqb_spec r 0), (Z.eqb_spec (r * k) 0); nia. }
  assert (E3 : (d * k <=? 2 * (r * k)) = (d <=? 2 * r)).
  { destruct (Z.leb_spec d (2 * r)), (Z.leb_spec (d * k) (2 * (r * k))); nia. }
  assert (E4 : (d * k <? 2 * (r * k)) = (d <? 2 * r)).
  { destruct (Z.ltb_spec d (2 * r)), (Z.ltb_spec (d * k) (2 * (r * k))); nia. }
  assert (E5 : (d * k =? 2 * (r * k)) = (d =? 2 * r)).
  { destruct (Z.eqb_spec d (2 * r)), (Z.eqb_spec (d * k) (2 * (r * k))); nia. }
  rewrite E1, E2, E3, E4, E5; reflexivity.
Qed.

(** equal rationals round equally *)
Lemma qround_eqq q n d n' d' : 0 < d -> 0 < d' -> n * d' = n' * d -> qround q n d = qround q n' d'.
Proof.
  intros Hd Hd' H.
  rewrite <- (qround_scale q n d d') by lia.
  rewrite H, (Z.mul_comm d d').
  apply qround_scale; lia.
Qed.

Lemma qround_int q n : qround q n 1 = n.
Proof.
  unfold qround; rewrite Z.div_1_r, Z.mod_1_r.
  destruct q; simpl; try reflexivity.
  destruct (n <? 0); reflexivity.
Qed.

Lemma qround_exact q f d : 0 < d -> qround q (f * d) d = f.
Proof. intros. rewrite (qround_eqq q (f * d) d f 1) by lia. apply qround_int. Qed.

(** rounding stays within the two neighbouring integers *)
Lemma qround_bounds q n d : 0 < d -> n / d <= qround q n d <= n / d + 1.
Proof.
  intros; unfold qround; destruct q;
  repeat match goal with |- context [if ?b then _ else _] => destruct b end; lia.
Qed.

Lemma qround_mono q n n' d : 0 < d -> n <= n' -> qround q n d <= qround q n' d.
Proof.
  intros Hd Hn.
  pose proof (Z.div_le_mono n n' d Hd Hn) as Hf.
  destruct (Z.eq_dec (n / d) (n' / d)) as [E|E].
  - assert (Hsg : n < 0 <-> n' < 0).
    { split; intros.
      - assert (n / d < 0) by (apply Z.div_lt_upper_bound; lia).
        destruct (Z.le_gt_cases 0 n') as [Hp|Hp]; [|lia].
        pose proof (Z.div_pos n' d Hp Hd); lia.
      - lia. }
    pose proof (Z.div_mod n d ltac:(lia)) as Dn.
    pose proof (Z.div_mod n' d ltac:(lia)) as Dn'.
    pose proof (Z.mod_pos_bound n d Hd); pose proof (Z.mod_pos_bound n' d Hd).
    unfold qround; rewrite <- E in *.
    set (f := n / d) in *; set (r := n mod d) in *; set (r' := n' mod d) in *.
    assert (r <= r') by lia.
    destruct q.
    + lia.
    + destruct (Z.leb_spec d (2 * r)), (Z.leb_spec d (2 * r')); lia.
    + destruct (Z.ltb_spec n 0), (Z.eqb_spec r 0), (Z.ltb_spec n' 0), (Z.eqb_spec r' 0); simpl; nia.
    + destruct (Z.ltb_spec d (2 * r)), (Z.ltb_spec d (2 * r')), (Z.eqb_spec d (2 * r)),
        (Z.eqb_spec d (2 * r')), (Z.ltb_spec n 0), (Z.ltb_spec n' 0); simpl; nia.
    + destruct (Z.ltb_spec d (2 * r)), (Z.ltb_spec d (2 * r')), (Z.eqb_spec d (2 * r)),
        (Z.eqb_spec d (2 * r')), (Z.ltb_spec n 0), (Z.ltb_spec n' 0); simpl; nia.
    + destruct (Z.ltb_spec d (2 * r)), (Z.ltb_spec d (2 * r')); simpl; nia.
    + destruct (Z.ltb_spec d (2 * r)), (Z.ltb_spec d (2 * r')), (Z.eqb_spec d (2 * r)),
        (Z.eqb_spec d (2 * r')), (Z.odd f); simpl; nia.
    + destruct (Z.ltb_spec d (2 * r)), (Z.ltb_spec d (2 * r')), (Z.eqb_spec d (2 * r)),
        (Z.eqb_spec d (2 * r')), (Z.even f); simpl; nia.
  - pose proof (qround_bounds q n d Hd); pose proof (qround_bounds q n' d Hd); lia.
Qed.

(** *** overflow *)
Lemma imin_le_imax s w : 1 <= w -> imin s w <= imax s w.
Proof.
  intros; unfold imin, imax; destruct s.
  - pose proof (pow2_pos (w - 1) ltac:(lia)); lia.
  - pose proof (pow2_pos w ltac:(lia)); lia.
Qed.
Lemma in_range_0 s w : 1 <= w -> in_range s w 0.
Proof.
  intros; unfold in_range, imin, imax; destruct s.
  - pose proof (pow2_pos (w - 1) ltac:(lia)); lia.
  - pose proof (pow2_pos w ltac:(lia)); lia.
Qed.
Lemma overflow_range o s w x : 1 <= w -> in_range s w (overflow o s w x).
Proof.
  intros Hw; pose proof (imin_le_imax s w Hw); pose proof (in_range_0 s w Hw) as H0.
  unfold overflow; destruct o.
  - apply wrap_range; assumption.
  - unfold in_range in *.
    destruct (Z.ltb_spec x (imin s w)), (Z.ltb_spec (imax s w) x); lia.
  - unfold in_range in *.
    destruct (Z.ltb_spec x (imin s w)), (Z.ltb_spec (imax s w) x); simpl; lia.
  - unfold in_range in *.
    assert (imin s w <= (if s then - imax s w else 0)).
    { unfold imin, imax; destruct s; lia. }
    assert ((if s then - imax s w else 0) <= imax s w).
    { destruct s; [|lia]. unfold imax. pose proof (pow2_pos (w - 1) ltac:(lia)); lia. }
    destruct (Z.ltb_spec x (if s then - imax s w else 0)), (Z.ltb_spec (imax s w) x); lia.
Qed.
(** values in range are kept, except that SAT_SYM replaces the minimum *)
Lemma overflow_id o s w x :
  1 <= w -> in_range s w x -> (o = SAT_SYM -> s = true -> x <> imin s w) -> overflow o s w x = x.
Proof.
  intros Hw Hx Hsym; unfold overflow; destruct o.
  - apply wrap_id; assumption.
  - unfold in_range in Hx.
    destruct (Z.ltb_spec x (imin s w)), (Z.ltb_spec (imax s w) x); lia.
  - unfold in_range in Hx.
    destruct (Z.ltb_spec x (imin s w)), (Z.ltb_spec (imax s w) x); simpl; lia.
  - specialize (Hsym eq_refl). unfold in_range, imin, imax in *; destruct s.
    + specialize (Hsym eq_refl).
      destruct (Z.ltb_spec x (- (2 ^ (w - 1) - 1))), (Z.ltb_spec (2 ^ (w - 1) - 1) x); lia.
    + destruct (Z.ltb_spec x 0), (Z.ltb_spec (2 ^ w - 1) x); lia.
Qed.
Lemma overflow_mono o s w x y :
  1 <= w -> (o = SAT \/ o = SAT_SYM) -> x <= y -> overflow o s w x <= overflow o s w y.
Proof.
  intros Hw Ho Hxy; unfold overflow; pose proof (imin_le_imax s w Hw).
  assert ((if s then - imax s w else 0) <= imax s w).
  { destruct s; unfold imax;
    [pose proof (pow2_pos (w - 1) ltac:(lia))|pose proof (pow2_pos w ltac:(lia))]; lia. }
  destruct Ho as [-> | ->].
  - destruct (Z.ltb_spec x (imin s w)), (Z.ltb_spec (imax s w) x),
      (Z.ltb_spec y (imin s w)), (Z.ltb_spec (imax s w) y); lia.
  - destruct (Z.ltb_spec x (if s then - imax s w else 0)), (Z.ltb_spec (imax s w) x),
      (Z.ltb_spec y (if s then - imax s w else 0)), (Z.ltb_spec (imax s w) y); lia.
Qed.

(** *** conv *)
Lemma pw_mul a b : 0 <= a -> 0 <= b -> pw (a + b) = pw a * pw b.
Proof. intros; unfold pw; rewrite !Z.max_r by lia; apply pow2_add; lia. Qed.
Lemma pw_nonneg_eq a : 0 <= a -> pw a = 2 ^ a.
Proof. intros; unfold pw; rewrite Z.max_r by lia; reflexivity. Qed.
Lemma pw_nonpos_eq a : a <= 0 -> pw a = 1.
Proof. intros; unfold pw; rewrite Z.max_l by lia; reflexivity. Qed.
(** 2^(a-b) = 2^a / 2^b for all signs *)
Lemma pw_cross a b : pw (a - b) * (pw b * pw (- a)) = pw (b - a) * (pw a * pw (- b)).
Proof.
  unfold pw; rewrite <- !pow2_add by lia; f_equal; lia.
Qed.
Lemma pw_opp a b : pw (a + b) * (pw (- a) * pw (- b)) = pw (- a - b) * (pw a * pw b).
Proof.
  unfold pw; rewrite <- !pow2_add by lia; f_equal; lia.
Qed.

Lemma conv_unfold f x fx :
  conv f x fx =
  overflow (fO f) (fS f) (fW f) (qround (fQ f) (x * pw (fF f - fx)) (pw (fx - fF f))).
Proof.
  unfold conv, conv_rat; f_equal.
  apply qround_eqq; try (repeat apply Z.mul_pos_pos; apply pw_pos).
  pose proof (pw_cross (fF f) fx) as H.
  transitivity (x * (pw (fx - fF f) * (pw (fF f) * pw (- fx)))); [ring|].
  rewrite <- H; ring.
Qed.
Lemma conv_rat_eqq f n d n' d' :
  0 < d -> 0 < d' -> n * d' = n' * d -> conv_rat f n d = conv_rat f n' d'.
Proof.
  intros Hd Hd' H; unfold conv_rat; f_equal.
  pose proof (pw_pos (fF f)); pose proof (pw_pos (- fF f)).
  apply qround_eqq; try nia.
  transitivity (n * d' * (pw (fF f) * pw (- fF f))); [ring|].
  rewrite H; ring.
Qed.
Lemma conv_rat_range f n d : 1 <= fW f -> in_range (fS f) (fW f) (conv_rat f n d).
Proof. intros; apply overflow_range; assumption. Qed.
Lemma conv_range f x fx : 1 <= fW f -> in_range (fS f) (fW f) (conv f x fx).
Proof. intros; apply conv_rat_range; assumption. Qed.
