(** Proofs for ac_div in the form of the property statements. *)
From Coq Require Import Lia ZifyBool.
From Verif Require Import AcTypes AcFacts Spec SpecFacts ShiftModel ShiftFacts ShiftProofs DivModel DivFacts DivProofs DivSigned.
Ltac Zify.zify_post_hook ::= idtac.

Lemma div_sint_limited NW DW QW RW N D q r :
  1 <= NW -> 1 <= DW -> 1 <= QW -> 1 <= RW ->
  - 2 ^ (NW - 1) <= N < 2 ^ (NW - 1) -> - 2 ^ (DW - 1) <= D < 2 ^ (DW - 1) -> D <> 0 ->
  N = q * D + r -> Z.abs r < Z.abs D -> (r <> 0 -> (r < 0 <-> N < 0)) ->
  is_limited WRAP true QW q (fst (fst (div_sint NW DW QW RW N D))) /\
  is_limited WRAP true RW r (snd (fst (div_sint NW DW QW RW N D))).
Proof.
  intros. rewrite (div_sint_spec NW DW QW RW N D q r) by assumption. split; apply wraps_is_limited; assumption.
Qed.

Lemma div_sint3_limited NW DW QW N D q r :
  1 <= NW -> 1 <= DW -> 1 <= QW ->
  - 2 ^ (NW - 1) <= N < 2 ^ (NW - 1) -> - 2 ^ (DW - 1) <= D < 2 ^ (DW - 1) -> D <> 0 ->
  N = q * D + r -> Z.abs r < Z.abs D -> (r <> 0 -> (r < 0 <-> N < 0)) ->
  is_limited WRAP true QW q (fst (div_sint3 NW DW QW N D)) /\
  (snd (div_sint3 NW DW QW N D) = true <-> r <> 0).
Proof.
  intros. rewrite (div_sint3_spec NW DW QW N D q r) by assumption. split; [apply wraps_is_limited; assumption|cbn [snd]; lia].
Qed.

Lemma div_sint_flag_ok NW DW QW RW N D q r :
  1 <= NW -> 1 <= DW -> 1 <= QW -> DW <= RW ->
  - 2 ^ (NW - 1) <= N < 2 ^ (NW - 1) -> - 2 ^ (DW - 1) <= D < 2 ^ (DW - 1) -> D <> 0 ->
  N = q * D + r -> Z.abs r < Z.abs D -> (r <> 0 -> (r < 0 <-> N < 0)) ->
  (snd (div_sint NW DW QW RW N D) = true <-> r <> 0).
Proof.
  intros. rewrite (div_sint_spec NW DW QW RW N D q r) by (try assumption; lia). cbn [snd].
  assert (2 ^ (DW - 1) <= 2 ^ (RW - 1)) by (apply pow2_le; lia).
  rewrite wraps_id by lia. lia.
Qed.

Lemma div_uint3_zero NW DW QW N : 1 <= NW -> 1 <= DW -> 0 <= N < 2 ^ NW -> fst (div_uint3 NW DW QW N 0) = 2 ^ QW - 1.
Proof.
  intros. unfold div_uint3. pose proof (div_uint_zero NW DW QW DW N) as E.
  destruct (div_uint NW DW QW DW N 0) as [[q r] b]. apply E; assumption.
Qed.
Lemma div_sint3_zero NW DW QW N : 1 <= NW -> 1 <= DW -> - 2 ^ (NW - 1) <= N < 2 ^ (NW - 1) ->
  fst (div_sint3 NW DW QW N 0) = if N <? 0 then - 2 ^ (QW - 1) else 2 ^ (QW - 1) - 1.
Proof.
  intros. unfold div_sint3. pose proof (div_sint_zero NW DW QW DW N) as E.
  destruct (div_sint NW DW QW DW N 0) as [[q r] b]. apply E; assumption.
Qed.

(** Fixed point, unsigned. *)
Lemma early_guard NI DW DI f : div_early NI DW DI f = (NI + (DW - DI) + fF f + guard (fQ f) <=? 0).
Proof. unfold div_early. change (div_rbit (fQ f)) with (guard (fQ f)). lia. Qed.

Lemma div_ufx_converts NW NI DW DI f n d old :
  1 <= NW -> 1 <= DW -> 1 <= fW f -> fS f = false -> 0 <= n < 2 ^ NW -> 0 < d < 2 ^ DW ->
  0 < NI + (DW - DI) + fF f + guard (fQ f) ->
  let e := (DW - DI) - (NW - NI) in
  converts f (n * 2 ^ Z.max 0 e) (d * 2 ^ Z.max 0 (- e)) (fst (div_ufx NW NI DW DI f n d old)).
Proof.
  intros HN HD HW HS Bn Bd He e.
  rewrite div_ufx_ok; try assumption; try lia; [|rewrite early_guard; lia].
  apply conv_rat_converts; [assumption|]. apply Z.mul_pos_pos; [lia|apply pw_pos].
Qed.

Lemma early_small NW NI DW DI f n d : 1 <= NW -> 1 <= DW -> 0 <= n < 2 ^ NW -> 0 < d < 2 ^ DW ->
  NI + (DW - DI) + fF f + guard (fQ f) <= 0 ->
  let e := (DW - DI) - (NW - NI) in
  n * pw e * pw (fF f) * 2 ^ guard (fQ f) < d * pw (- e) * pw (- fF f).
Proof.
  intros HN HD Bn Bd He e. unfold pw.
  assert (Hg : 0 <= guard (fQ f) <= 1) by (destruct (fQ f); cbn; lia).
  assert (E : 2 ^ NW * (2 ^ Z.max 0 e * 2 ^ Z.max 0 (fF f) * 2 ^ guard (fQ f)) <= 2 ^ Z.max 0 (- e) * 2 ^ Z.max 0 (- fF f)).
  { rewrite <- !pow2_add by lia. apply pow2_le. unfold e. lia. }
  set (P1 := 2 ^ Z.max 0 e * 2 ^ Z.max 0 (fF f) * 2 ^ guard (fQ f)) in *.
  set (P2 := 2 ^ Z.max 0 (- e) * 2 ^ Z.max 0 (- fF f)) in *.
  assert (H1 : 0 < P1) by (unfold P1; apply Z.mul_pos_pos; [apply Z.mul_pos_pos|]; apply pow2_pos; lia).
  replace (n * 2 ^ Z.max 0 e * 2 ^ Z.max 0 (fF f) * 2 ^ guard (fQ f)) with (n * P1) by (unfold P1; ring).
  replace (d * 2 ^ Z.max 0 (- e) * 2 ^ Z.max 0 (- fF f)) with (d * P2) by (unfold P2; ring).
  clearbody P1 P2. clear - Bn Bd E H1.
  apply Z.lt_le_trans with (2 ^ NW * P1); [apply Z.mul_lt_mono_pos_r; lia|].
  assert (0 <= 2 ^ NW * P1) by (apply Z.mul_nonneg_nonneg; lia). set (X := 2 ^ NW * P1) in *. clearbody X. nia.
Qed.

(** On the early return the correct quotient is zero. *)
Lemma early_zero NW NI DW DI f n d : 1 <= NW -> 1 <= DW -> 1 <= fW f -> fS f = false ->
  0 <= n < 2 ^ NW -> 0 < d < 2 ^ DW ->
  NI + (DW - DI) + fF f + guard (fQ f) <= 0 ->
  let e := (DW - DI) - (NW - NI) in
  converts f (n * 2 ^ Z.max 0 e) (d * 2 ^ Z.max 0 (- e)) 0.
Proof.
  intros HN HD HW HS Bn Bd He e. pose proof (early_small NW NI DW DI f n d HN HD Bn Bd He) as S. cbv zeta in S. fold e in S.
  exists 0. unfold pw in S.
  assert (PA : 0 <= n * 2 ^ Z.max 0 e * 2 ^ Z.max 0 (fF f)).
  { apply Z.mul_nonneg_nonneg; [apply Z.mul_nonneg_nonneg|]; try apply Z.pow_nonneg; lia. }
  set (A := n * 2 ^ Z.max 0 e * 2 ^ Z.max 0 (fF f)) in *. set (B := d * 2 ^ Z.max 0 (- e) * 2 ^ Z.max 0 (- fF f)) in *.
  clearbody A B. split.
  - unfold is_round, guard in *. destruct (fQ f); cbv beta iota in *; change (2 ^ 0) with 1 in S; change (2 ^ 1) with 2 in S; try lia; (split; [lia|intros; exfalso; lia]).
  - unfold is_limited, lowest, highest. rewrite HS. pose proof (pow2_pos (fW f) ltac:(lia)).
    destruct (fO f); try lia. split; [lia|exists 0; lia].
Qed.

Lemma div_ufx_early NW NI DW DI f n d old : NI + (DW - DI) + fF f + guard (fQ f) <= 0 ->
  div_ufx NW NI DW DI f n d old = (old, negb (n =? 0)).
Proof.
  intros H. pose proof (early_guard NI DW DI f) as E. unfold div_early in E. unfold div_ufx.
  change (fW f - fI f) with (fF f). rewrite E. replace (_ <=? 0) with true by lia. reflexivity.
Qed.

Lemma div_ufx_zero NW NI DW DI f n old :
  0 < NI + (DW - DI) + fF f + guard (fQ f) -> fst (div_ufx NW NI DW DI f n 0 old) = highest (fS f) (fW f).
Proof.
  intros H. pose proof (early_guard NI DW DI f) as E. unfold div_early in E. unfold div_ufx.
  change (fW f - fI f) with (fF f). rewrite E. replace (_ <=? 0) with false by lia.
  destruct (div_loop _ _ _ _ _ _) as [[N R] Q]. reflexivity.
Qed.

Lemma div_writes_iff NW NI DW DI f : 1 <= NW -> 1 <= DW -> 1 <= fW f -> fS f = false ->
  ((forall n d old old', 0 <= n < 2 ^ NW -> 0 <= d < 2 ^ DW ->
     fst (div_ufx NW NI DW DI f n d old) = fst (div_ufx NW NI DW DI f n d old'))
   <-> 0 < NI + (DW - DI) + fF f + guard (fQ f)).
Proof.
  intros HN HD HW HS. split; intros H.
  - destruct (Z.lt_ge_cases 0 (NI + (DW - DI) + fF f + guard (fQ f))) as [L|L]; [assumption|exfalso].
    pose proof (pow2_pos NW ltac:(lia)). pose proof (pow2_pos DW ltac:(lia)).
    specialize (H 0 0 0 1 ltac:(lia) ltac:(lia)). rewrite !div_ufx_early in H by lia. discriminate H.
  - intros n d old old' Bn Bd. destruct (Z.eq_dec d 0) as [->|Hd].
    + rewrite !div_ufx_zero by assumption. reflexivity.
    + rewrite !div_ufx_ok; try assumption; try lia; try (rewrite early_guard; lia). 
Qed.

(** The flag of the unsigned overload, early return included. *)
Lemma nz_false_iff A B : 0 < B -> (nz (A mod B) = false <-> exists z, A = z * B).
Proof.
  intros HB. unfold nz. split.
  - intros H. assert (E : A mod B = 0) by lia. apply Z.mod_divide in E; [|lia]. destruct E as [z E]. exists z; lia.
  - intros [z ->]. rewrite Z.mod_mul by lia. reflexivity.
Qed.

Lemma div_ufx_flag_iff NW NI DW DI f n d old :
  1 <= NW -> 1 <= DW -> 0 <= n < 2 ^ NW -> 0 < d < 2 ^ DW ->
  let e := (DW - DI) - (NW - NI) in
  (snd (div_ufx NW NI DW DI f n d old) = false <->
   exists z, n * 2 ^ Z.max 0 e * 2 ^ Z.max 0 (fF f) = z * (d * 2 ^ Z.max 0 (- e) * 2 ^ Z.max 0 (- fF f))).
Proof.
  intros HN HD Bn Bd e.
  assert (PB : 0 < d * pw (- e) * pw (- fF f)).
  { pose proof (pw_pos (- e)). pose proof (pw_pos (- fF f)). apply Z.mul_pos_pos; [apply Z.mul_pos_pos|]; lia. }
  destruct (Z.lt_ge_cases 0 (NI + (DW - DI) + fF f + guard (fQ f))) as [L|L].
  - rewrite div_ufx_flag; try assumption; try lia; [|rewrite early_guard; lia]. fold e. apply nz_false_iff. exact PB.
  - rewrite div_ufx_early by lia. cbn [snd].
    pose proof (early_small NW NI DW DI f n d HN HD Bn Bd ltac:(lia)) as S. cbv zeta in S. fold e in S.
    assert (Hg : 1 <= 2 ^ guard (fQ f)) by (destruct (fQ f); cbn; lia).
    split.
    + intros H. exists 0. assert (n = 0) as -> by lia. lia.
    + intros [z E]. change (2 ^ Z.max 0 e) with (pw e) in E. change (2 ^ Z.max 0 (fF f)) with (pw (fF f)) in E.
      change (2 ^ Z.max 0 (- e)) with (pw (- e)) in E. change (2 ^ Z.max 0 (- fF f)) with (pw (- fF f)) in E.
      pose proof (pw_pos e) as P1. pose proof (pw_pos (fF f)) as P2.
      assert (P12 : 0 < pw e * pw (fF f)) by (apply Z.mul_pos_pos; lia).
      assert (PA : n * pw e * pw (fF f) = n * (pw e * pw (fF f))) by ring.
      rewrite PA in *. set (P := pw e * pw (fF f)) in *. set (B := d * pw (- e) * pw (- fF f)) in *. clearbody P B.
      assert (H0 : 0 <= n * P) by (apply Z.mul_nonneg_nonneg; lia).
      assert (n * P <= n * P * 2 ^ guard (fQ f)) by nia.
      assert (HX : 0 <= z * B < B) by lia. assert (z = 0) by (clear - HX; nia). subst z. assert (n * P = 0) by lia. assert (n = 0) by nia. subst n. reflexivity.
Qed.

(** Fixed point, signed. *)
Lemma div_sfx_converts NW NI DW DI f n d junk :
  1 <= NW -> 1 <= DW -> 1 <= fW f -> fS f = true ->
  - 2 ^ (NW - 1) <= n < 2 ^ (NW - 1) -> - 2 ^ (DW - 1) <= d < 2 ^ (DW - 1) -> d <> 0 ->
  (fO f <> WRAP -> 1 <= NI + (DW - DI) + fF f) ->
  (fO f = WRAP -> 0 < NI + (DW - DI) + fF f + guard (fQ f)) ->
  let e := (DW - DI) - (NW - NI) in
  converts f (Z.sgn d * n * 2 ^ Z.max 0 e) (Z.abs d * 2 ^ Z.max 0 (- e)) (fst (div_sfx NW NI DW DI f n d junk)).
Proof.
  intros HN HD HW HS Bn Bd D0 H1 H2 e.
  destruct (div_sfx_ok NW NI DW DI f n d junk HN HD HW HS Bn Bd D0 H1) as [E _].
  { change (div_rbit (fQ f)) with (guard (fQ f)). intros. specialize (H2 ltac:(assumption)). lia. }
  rewrite E. apply conv_rat_converts; [assumption|]. apply Z.mul_pos_pos; [lia|apply pow2_pos; lia].
Qed.

Lemma div_sfx_flag_iff NW NI DW DI f n d junk :
  1 <= NW -> 1 <= DW -> 1 <= fW f -> fS f = true ->
  - 2 ^ (NW - 1) <= n < 2 ^ (NW - 1) -> - 2 ^ (DW - 1) <= d < 2 ^ (DW - 1) -> d <> 0 ->
  (fO f <> WRAP -> 1 <= NI + (DW - DI) + fF f) ->
  (fO f = WRAP -> 0 < NI + (DW - DI) + fF f + guard (fQ f)) ->
  let e := (DW - DI) - (NW - NI) in
  (snd (div_sfx NW NI DW DI f n d junk) = false <->
   exists z, n * 2 ^ Z.max 0 e * 2 ^ Z.max 0 (fF f) = z * (d * 2 ^ Z.max 0 (- e) * 2 ^ Z.max 0 (- fF f))).
Proof.
  intros HN HD HW HS Bn Bd D0 H1 H2 e.
  destruct (div_sfx_ok NW NI DW DI f n d junk HN HD HW HS Bn Bd D0 H1) as [_ E].
  { change (div_rbit (fQ f)) with (guard (fQ f)). intros. specialize (H2 ltac:(assumption)). lia. }
  rewrite E. fold e. rewrite nz_false_iff.
  2:{ pose proof (pw_pos (- e)). pose proof (pw_pos (- fF f)). apply Z.mul_pos_pos; [apply Z.mul_pos_pos|]; lia. }
  unfold pw. set (P1 := 2 ^ Z.max 0 e). set (P2 := 2 ^ Z.max 0 (fF f)). set (P3 := 2 ^ Z.max 0 (- e)). set (P4 := 2 ^ Z.max 0 (- fF f)).
  assert (EN : Z.abs n = Z.sgn n * n) by lia. assert (ED : Z.abs d = Z.sgn d * d) by lia.
  split; intros [z Ez].
  - destruct (Z.eq_dec n 0) as [->|Hn]; [exists 0; ring|].
    exists (z * Z.sgn n * Z.sgn d). rewrite EN, ED in Ez.
    assert (SN : Z.sgn n * Z.sgn n = 1) by (destruct n; [lia|reflexivity..]).
    replace (n * P1 * P2) with (Z.sgn n * Z.sgn n * (n * P1 * P2)) by (rewrite SN; ring).
    transitivity (Z.sgn n * (Z.sgn n * n * P1 * P2)); [ring|]. rewrite Ez. ring.
  - destruct (Z.eq_dec n 0) as [->|Hn]; [exists 0; reflexivity|].
    exists (z * Z.sgn n * Z.sgn d). rewrite EN, ED.
    assert (SD : Z.sgn d * Z.sgn d = 1) by (destruct d; [lia|reflexivity..]).
    transitivity (Z.sgn n * (n * P1 * P2)); [ring|]. rewrite Ez.
    transitivity (Z.sgn n * z * (Z.sgn d * Z.sgn d) * (d * P3 * P4)); [rewrite SD; ring|ring].
Qed.

Lemma div_sfx_zero NW NI DW DI f n junk :
  fst (div_sfx NW NI DW DI f n 0 junk) = if n <? 0 then lowest (fS f) (fW f) else highest (fS f) (fW f).
Proof.
  unfold div_sfx. cbn [Z.eqb]. destruct (match fQ f with TRN => _ | _ => _ end) as [q h]. reflexivity.
Qed.
