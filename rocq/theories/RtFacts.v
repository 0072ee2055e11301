(** The result types hold every result. *)
From Coq Require Import Lia ZifyBool.
From Verif Require Import AcTypes AcFacts ShiftFacts RtTypes.

Lemma fits_s a x : fS a = true -> fits a x <-> - 2 ^ (fW a - 1) <= x < 2 ^ (fW a - 1).
Proof. intros E. unfold fits, in_range, imin, imax. rewrite E. lia. Qed.
Lemma fits_u a x : fS a = false -> fits a x <-> 0 <= x < 2 ^ fW a.
Proof. intros E. unfold fits, in_range, imin, imax. rewrite E. lia. Qed.

Lemma fits_mult a b x y : 1 <= fW a -> 1 <= fW b -> fits a x -> fits b y -> fits (rt_mult a b) (x * y).
Proof.
  intros HA HB. destruct (fS a) eqn:SA, (fS b) eqn:SB;
    rewrite ?(fits_s a x SA), ?(fits_u a x SA), ?(fits_s b y SB), ?(fits_u b y SB); intros Hx Hy;
    unfold fits, in_range, imin, imax, rt_mult; rewrite SA, SB; cbn [dfmt fW fI fS orb].
  - assert (E : 2 ^ (fW a + fW b - 1) = 2 * (2 ^ (fW a - 1) * 2 ^ (fW b - 1))).
    { rewrite <- Z.pow_add_r by lia. rewrite <- pow2_succ by lia. f_equal; lia. }
    rewrite E. pose proof (pow2_pos (fW a - 1) ltac:(lia)). pose proof (pow2_pos (fW b - 1) ltac:(lia)). nia.
  - assert (E : 2 ^ (fW a + fW b - 1) = 2 ^ (fW a - 1) * 2 ^ fW b) by (rewrite <- Z.pow_add_r by lia; f_equal; lia).
    rewrite E. pose proof (pow2_pos (fW a - 1) ltac:(lia)). pose proof (pow2_pos (fW b) ltac:(lia)). nia.
  - assert (E : 2 ^ (fW a + fW b - 1) = 2 ^ fW a * 2 ^ (fW b - 1)) by (rewrite <- Z.pow_add_r by lia; f_equal; lia).
    rewrite E. pose proof (pow2_pos (fW a) ltac:(lia)). pose proof (pow2_pos (fW b - 1) ltac:(lia)). nia.
  - rewrite Z.pow_add_r by lia. nia.
Qed.

(** Storing an in-range mantissa in a default-mode type of the same fraction bits keeps it. *)
Lemma conv_fits W I S x F : 1 <= W -> F = W - I -> in_range S W x -> conv (dfmt W I S) x F = x.
Proof.
  intros HW -> Hx. rewrite conv_dfmt_up by lia. rewrite Z.sub_diag, Z.pow_0_r, Z.mul_1_r.
  unfold in_range, imin, imax in Hx. destruct S; cbn [wrap]; [apply wraps_id|apply wrapu_id]; lia.
Qed.

Lemma log2_up_le n : 1 <= n -> 0 <= Z.log2_up n /\ n <= 2 ^ Z.log2_up n.
Proof.
  intros H. split; [apply Z.log2_up_nonneg|]. destruct (Z.eq_dec n 1) as [->|]; [cbn; lia|]. apply Z.log2_up_spec; lia.
Qed.

(** A sum of at most n values of format a fits in set<n>::sum. *)
Lemma fits_sum a n k s : 1 <= fW a -> 1 <= n -> 0 <= k <= n ->
  k * imin (fS a) (fW a) <= s <= k * imax (fS a) (fW a) -> fits (rt_sum a n) s.
Proof.
  intros HW Hn Hk Hs. destruct (log2_up_le n Hn) as [L0 L]. unfold fits, in_range, rt_sum. cbn [dfmt fW fS].
  unfold imin, imax in *. set (l := Z.log2_up n) in *. pose proof (pow2_pos l L0). destruct (fS a).
  - replace (2 ^ (fW a + l - 1)) with (2 ^ (fW a - 1) * 2 ^ l) by (rewrite <- Z.pow_add_r by lia; f_equal; lia).
    pose proof (pow2_pos (fW a - 1) ltac:(lia)). nia.
  - rewrite Z.pow_add_r by lia. pose proof (pow2_pos (fW a) ltac:(lia)). nia.
Qed.

Lemma align_bound F x fx lo hi : fx <= F -> lo <= x < hi -> lo * 2 ^ (F - fx) <= fx_align F x fx < hi * 2 ^ (F - fx).
Proof.
  intros H Hx. unfold fx_align. pose proof (pow2_pos (F - fx) ltac:(lia)). split; [apply Z.mul_le_mono_nonneg_r; lia|apply Z.mul_lt_mono_pos_r; lia].
Qed.

(** Every operand fits, aligned, in a signed type with rt_i - 1 integer bits (unsigned: likewise unsigned). *)
Lemma align_fits_s a x I F : 1 <= fW a -> fits a x -> fF a <= F -> fI a + b2z (negb (fS a)) <= I ->
  0 <= I + F - 1 /\ - 2 ^ (I + F - 1) <= fx_align F x (fF a) < 2 ^ (I + F - 1).
Proof.
  intros HW Hx HF HI. unfold fF in *. 
  assert (B : 0 <= I + F - 1) by (destruct (fS a); cbn [negb b2z] in HI; lia). split; [exact B|].
  destruct (fS a) eqn:S; cbn [negb b2z] in HI.
  - apply (fits_s a x S) in Hx. pose proof (align_bound F x (fW a - fI a) (- 2 ^ (fW a - 1)) (2 ^ (fW a - 1)) HF Hx) as A.
    assert (E : 2 ^ (fW a - 1) * 2 ^ (F - (fW a - fI a)) <= 2 ^ (I + F - 1)) by (rewrite <- Z.pow_add_r by lia; apply pow2_le; lia). lia.
  - apply (fits_u a x S) in Hx. pose proof (align_bound F x (fW a - fI a) 0 (2 ^ fW a) HF Hx) as A.
    assert (E : 2 ^ fW a * 2 ^ (F - (fW a - fI a)) <= 2 ^ (I + F - 1)) by (rewrite <- Z.pow_add_r by lia; apply pow2_le; lia). lia.
Qed.
Lemma align_fits_u a x I F : 1 <= fW a -> fits a x -> fS a = false -> fF a <= F -> fI a <= I ->
  0 <= I + F /\ 0 <= fx_align F x (fF a) < 2 ^ (I + F).
Proof.
  intros HW Hx S HF HI. unfold fF in *. assert (B : 0 <= I + F) by lia. split; [exact B|].
  apply (fits_u a x S) in Hx. pose proof (align_bound F x (fW a - fI a) 0 (2 ^ fW a) HF Hx) as A.
  assert (E : 2 ^ fW a * 2 ^ (F - (fW a - fI a)) <= 2 ^ (I + F)) by (rewrite <- Z.pow_add_r by lia; apply pow2_le; lia). lia.
Qed.

Lemma fits_plus a b x y : 1 <= fW a -> 1 <= fW b -> fits a x -> fits b y ->
  1 <= fW (rt_plus a b) /\ fits (rt_plus a b) (fx_add a b x y).
Proof.
  intros HA HB Hx Hy. unfold rt_plus, fx_add. set (F := rt_f a b). set (I := rt_i a b).
  assert (FA : fF a <= F) by (unfold F, rt_f; lia). assert (FB : fF b <= F) by (unfold F, rt_f; lia).
  unfold fits, in_range. cbn [dfmt fW fS]. destruct (fS a || fS b) eqn:E; unfold imin, imax.
  - destruct (align_fits_s a x (I - 1) F HA Hx FA) as [B1 B2].
    { unfold I, rt_i. destruct (fS a), (fS b); cbn [negb andb b2z orb] in *; try lia; discriminate. }
    destruct (align_fits_s b y (I - 1) F HB Hy FB) as [_ B3].
    { unfold I, rt_i. destruct (fS a), (fS b); cbn [negb andb b2z orb] in *; try lia; discriminate. }
    split; [lia|]. replace (I + F - 1) with (I - 1 + F - 1 + 1) by lia. rewrite pow2_succ by lia. lia.
  - apply Bool.orb_false_iff in E. destruct E as [SA SB].
    destruct (align_fits_u a x (I - 1) F HA Hx SA FA) as [B1 B2]; [unfold I, rt_i; rewrite SA, SB; cbn [negb andb b2z]; lia|].
    destruct (align_fits_u b y (I - 1) F HB Hy SB FB) as [_ B3]; [unfold I, rt_i; rewrite SA, SB; cbn [negb andb b2z]; lia|].
    split; [lia|]. replace (I + F) with (I - 1 + F + 1) by lia. rewrite pow2_succ by lia. lia.
Qed.

Lemma fits_minus a b x y : 1 <= fW a -> 1 <= fW b -> fits a x -> fits b y ->
  1 <= fW (rt_minus a b) /\ fits (rt_minus a b) (fx_sub a b x y).
Proof.
  intros HA HB Hx Hy. unfold rt_minus, fx_sub. set (F := rt_f a b). set (I := rt_i a b).
  assert (FA : fF a <= F) by (unfold F, rt_f; lia). assert (FB : fF b <= F) by (unfold F, rt_f; lia).
  unfold fits, in_range. cbn [dfmt fW fS]. unfold imin, imax.
  destruct (fS a || fS b) eqn:E.
  - destruct (align_fits_s a x (I - 1) F HA Hx FA) as [B1 B2].
    { unfold I, rt_i. destruct (fS a), (fS b); cbn [negb andb b2z orb] in *; try lia; discriminate. }
    destruct (align_fits_s b y (I - 1) F HB Hy FB) as [_ B3].
    { unfold I, rt_i. destruct (fS a), (fS b); cbn [negb andb b2z orb] in *; try lia; discriminate. }
    split; [lia|]. replace (I + F - 1) with (I - 1 + F - 1 + 1) by lia. rewrite pow2_succ by lia. lia.
  - apply Bool.orb_false_iff in E. destruct E as [SA SB].
    destruct (align_fits_u a x (I - 1) F HA Hx SA FA) as [B1 B2]; [unfold I, rt_i; rewrite SA, SB; cbn [negb andb b2z]; lia|].
    destruct (align_fits_u b y (I - 1) F HB Hy SB FB) as [_ B3]; [unfold I, rt_i; rewrite SA, SB; cbn [negb andb b2z]; lia|].
    split; [lia|]. replace (I + F - 1) with (I - 1 + F) by lia. lia.
Qed.
