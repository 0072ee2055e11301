(** The executable conversion of [AcTypes] meets the relational specification, which has exactly one
    solution. *)
From Coq Require Import Lia ZifyBool.
From Verif Require Import AcTypes AcFacts Spec.
Ltac Zify.zify_post_hook ::= idtac.

Lemma qround_is_round q n d : 0 < d -> is_round q n d (qround q n d).
Proof.
  intros Hd. unfold is_round, qround.
  pose proof (Z.div_mod n d ltac:(lia)) as E. pose proof (Z.mod_pos_bound n d Hd) as B.
  set (f := n / d) in *. set (r := n mod d) in *. clearbody f r. subst n.
  assert (S1 : forall c, d * f + r - (f + c) * d = r - c * d) by (intros; ring).
  assert (S0 : d * f + r - f * d = r) by ring.
  destruct q; cbv zeta.
  - nia.
  - destruct (Z.leb_spec d (2 * r)); [rewrite S1|rewrite S0]; split; nia.
  - destruct (Z.ltb_spec (d * f + r) 0), (Z.eqb_spec r 0); simpl; split; nia.
  - destruct (Z.ltb_spec d (2 * r)); [rewrite S1; split; nia|].
    destruct (Z.eqb_spec d (2 * r)), (Z.ltb_spec (d * f + r) 0); cbn [andb];
      rewrite ?S1, ?S0; (split; [nia|intros Ht; try nia]).
    all: first [assert (f <= -1) by nia; assert ((f + 1) * d <= 0) by nia; rewrite !Z.abs_neq by nia; nia
               |assert (0 <= f) by nia; rewrite !Z.abs_eq by nia; nia].
  - destruct (Z.ltb_spec d (2 * r)); [rewrite S1; split; nia|].
    destruct (Z.eqb_spec d (2 * r)), (Z.ltb_spec (d * f + r) 0); cbn [andb negb];
      rewrite ?S1, ?S0; (split; [nia|intros Ht; try nia]).
    all: first [assert (f <= -1) by nia; rewrite !Z.abs_neq by nia; nia
               |assert (0 <= f) by nia; rewrite !Z.abs_eq by nia; nia].
  - destruct (Z.ltb_spec d (2 * r)); [rewrite S1|rewrite S0]; split; nia.
  - destruct (Z.ltb_spec d (2 * r)); [rewrite S1; split; nia|].
    destruct (Z.odd f) eqn:O; destruct (Z.eqb_spec d (2 * r)); cbn [andb];
      rewrite ?S1, ?S0; (split; [nia|intros Ht; try nia]).
    + apply Z.even_spec. rewrite Z.even_add. change (Z.even 1) with false.
      rewrite <- Z.negb_odd, O. reflexivity.
    + apply Z.even_spec. rewrite <- Z.negb_odd, O; reflexivity.
  - destruct (Z.ltb_spec d (2 * r)); [rewrite S1; split; nia|].
    destruct (Z.even f) eqn:O; destruct (Z.eqb_spec d (2 * r)); cbn [andb];
      rewrite ?S1, ?S0; (split; [nia|intros Ht; try nia]).
    + apply Z.odd_spec. rewrite Z.odd_add. change (Z.odd 1) with true.
      rewrite <- Z.negb_even, O. reflexivity.
    + apply Z.odd_spec. rewrite <- Z.negb_even, O; reflexivity.
Qed.

Lemma lt_mul_inv a b d : 0 < d -> a * d < b * d -> a < b. Proof. nia. Qed.

Lemma is_round_unique q n d z z' : 0 < d -> is_round q n d z -> is_round q n d z' -> z = z'.
Proof.
  intros Hd. unfold is_round.
  assert (Near : 2 * Z.abs (n - z * d) <= d -> 2 * Z.abs (n - z' * d) <= d -> z <> z' ->
                 2 * Z.abs (n - z * d) = d /\ 2 * Z.abs (n - z' * d) = d /\
                 ((z' = z + 1 /\ z * d < n /\ n < z' * d) \/ (z = z' + 1 /\ z' * d < n /\ n < z * d))).
  { intros H1 H2 H3. assert (z < z' \/ z' < z) as [H|H] by lia.
    - assert (z' = z + 1) by nia. subst. nia.
    - assert (z = z' + 1) by nia. subst. nia. }
  destruct q; cbv zeta.
  - intros; nia.
  - intros [N T] [N' T']. destruct (Z.eq_dec z z'); [assumption|]. exfalso.
    destruct (Near N N' n0) as (A & B & C). specialize (T A); specialize (T' B). lia.
  - intros [P Q] [P' Q']. destruct (Z.lt_ge_cases n 0) as [H|H].
    + specialize (Q H); specialize (Q' H). nia.
    + specialize (P H); specialize (P' H). nia.
  - intros [N T] [N' T']. destruct (Z.eq_dec z z'); [assumption|]. exfalso.
    destruct (Near N N' n0) as (A & B & C). specialize (T A); specialize (T' B).
    destruct C as [(-> & C1 & C2)|(-> & C1 & C2)].
    + destruct (Z.lt_ge_cases z 0).
      * assert (z * d < 0) by nia. lia.
      * assert (0 <= z * d) by nia. lia.
    + destruct (Z.lt_ge_cases z' 0).
      * assert (z' * d < 0) by nia. lia.
      * assert (0 <= z' * d) by nia. lia.
  - intros [N T] [N' T']. destruct (Z.eq_dec z z'); [assumption|]. exfalso.
    destruct (Near N N' n0) as (A & B & C). specialize (T A); specialize (T' B).
    destruct C as [(-> & C1 & C2)|(-> & C1 & C2)].
    + destruct (Z.lt_ge_cases z 0).
      * assert ((z + 1) * d <= 0) by nia. lia.
      * assert (0 <= z * d) by nia. lia.
    + destruct (Z.lt_ge_cases z' 0).
      * assert ((z' + 1) * d <= 0) by nia. lia.
      * assert (0 <= z' * d) by nia. lia.
  - intros [N T] [N' T']. destruct (Z.eq_dec z z'); [assumption|]. exfalso.
    destruct (Near N N' n0) as (A & B & C). specialize (T A); specialize (T' B). lia.
  - intros [N T] [N' T']. destruct (Z.eq_dec z z'); [assumption|]. exfalso.
    destruct (Near N N' n0) as (A & B & C). destruct (T A) as [k ->], (T' B) as [k' ->]. lia.
  - intros [N T] [N' T']. destruct (Z.eq_dec z z'); [assumption|]. exfalso.
    destruct (Near N N' n0) as (A & B & C). destruct (T A) as [k ->], (T' B) as [k' ->]. lia.
Qed.

Lemma lowest_imin s w : lowest s w = imin s w. Proof. reflexivity. Qed.
Lemma highest_imax s w : highest s w = imax s w. Proof. reflexivity. Qed.

Lemma overflow_is_limited o s w z : 1 <= w -> is_limited o s w z (overflow o s w z).
Proof.
  intros Hw. unfold is_limited, overflow. change lowest with imin. change highest with imax.
  pose proof (imin_le_imax s w Hw) as L. pose proof (in_range_0 s w Hw) as L0. unfold in_range in L0.
  destruct o.
  - split; [apply wrap_range; assumption|].
    assert (E : wrap s w z mod 2 ^ w = z mod 2 ^ w) by (apply wrap_mod; lia).
    pose proof (pow2_pos w ltac:(lia)).
    exists (z / 2 ^ w - wrap s w z / 2 ^ w).
    pose proof (Z.div_mod z (2 ^ w) ltac:(lia)). pose proof (Z.div_mod (wrap s w z) (2 ^ w) ltac:(lia)). nia.
  - destruct (Z.ltb_spec z (imin s w)), (Z.ltb_spec (imax s w) z); lia.
  - destruct (Z.ltb_spec z (imin s w)), (Z.ltb_spec (imax s w) z); simpl; lia.
  - cbv zeta. destruct s; set (h := imax _ w) in *; set (lo := imin _ w) in *.
    + destruct (Z.ltb_spec z (- h)), (Z.ltb_spec h z); lia.
    + destruct (Z.ltb_spec z 0), (Z.ltb_spec h z); lia.
Qed.

Lemma is_limited_unique o s w z y : 1 <= w -> is_limited o s w z y -> y = overflow o s w z.
Proof.
  intros Hw H. pose proof (overflow_is_limited o s w z Hw) as H'.
  destruct o; unfold is_limited in *.
  - destruct H as [B [k E]]. unfold overflow. symmetry. apply wrap_unique; [assumption|exact B|].
    rewrite E. rewrite Z.mod_add; [reflexivity|]. pose proof (pow2_pos w ltac:(lia)); lia.
  - congruence.
  - destruct H, H'. destruct (Z.le_gt_cases (lowest s w) z), (Z.le_gt_cases z (highest s w)); intuition lia.
  - congruence.
Qed.

Lemma conv_rat_converts f n d : 1 <= fW f -> 0 < d -> converts f n d (conv_rat f n d).
Proof.
  intros Hw Hd. unfold converts, conv_rat, pw.
  eexists; split; [apply qround_is_round|apply overflow_is_limited; assumption].
  pose proof (pw_pos (- fF f)) as P; unfold pw in P. nia.
Qed.
Lemma converts_unique f n d y : 1 <= fW f -> 0 < d -> converts f n d y -> y = conv_rat f n d.
Proof.
  intros Hw Hd (z & R & L). apply is_limited_unique in L; [|assumption]. rewrite L. unfold conv_rat.
  f_equal. pose proof (pw_pos (- fF f)) as P.
  eapply is_round_unique; [|exact R|apply qround_is_round]; unfold pw in *; nia.
Qed.
Lemma conv_converts2 f x e : 1 <= fW f -> converts2 f x e (conv f x (- e)).
Proof.
  intros Hw. unfold converts2, conv. rewrite Z.opp_involutive. apply conv_rat_converts; [assumption|apply pw_pos].
Qed.
Lemma conv_eq_converts2 f x e fx y : 1 <= fW f -> fx = - e -> y = conv f x fx -> converts2 f x e y.
Proof. intros Hw -> ->. apply conv_converts2; assumption. Qed.
Lemma converts2_unique f x e y y' :
  1 <= fW f -> converts2 f x e y -> converts2 f x e y' -> y = y'.
Proof.
  intros Hw H H'. apply converts_unique in H; [|assumption|apply pw_pos].
  apply converts_unique in H'; [|assumption|apply pw_pos]. congruence.
Qed.
