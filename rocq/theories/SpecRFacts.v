(** Facts about the real-number specification. *)
From Coq Require Import Reals Lra Lia ZifyBool.
From Verif Require Import AcTypes AcFacts Spec SpecFacts ShiftFacts SpecR.
Local Open Scope R_scope.

Lemma bpow2_pos e : 0 < bpow2 e.
Proof. apply powerRZ_lt. lra. Qed.
Lemma bpow2_add a b : bpow2 (a + b) = bpow2 a * bpow2 b.
Proof. apply powerRZ_add. lra. Qed.
Lemma bpow2_0 : bpow2 0 = 1. Proof. reflexivity. Qed.
Lemma bpow2_1 : bpow2 1 = 2. Proof. apply powerRZ_1. Qed.
Lemma bpow2_opp e : bpow2 (- e) = / bpow2 e.
Proof. unfold bpow2. apply Rmult_eq_reg_r with (powerRZ 2 e); [|apply powerRZ_NOR; lra].
  rewrite <- powerRZ_add by lra. rewrite Z.add_opp_diag_l, Rinv_l by (apply powerRZ_NOR; lra). reflexivity. Qed.
Lemma bpow2_IZR e : (0 <= e)%Z -> bpow2 e = IZR (2 ^ e).
Proof.
  intros H. unfold bpow2. rewrite <- (Z2Nat.id e) by lia. rewrite <- pow_powerRZ.
  rewrite <- pow_IZR. reflexivity.
Qed.
Lemma bpow2_split e : bpow2 e = IZR (pw e) / IZR (pw (- e)).
Proof.
  unfold pw. destruct (Z.le_ge_cases 0 e).
  - rewrite (Z.max_r 0 e), (Z.max_l 0 (- e)) by lia. rewrite bpow2_IZR by lia. change (2 ^ 0)%Z with 1%Z. lra.
  - rewrite (Z.max_l 0 e), (Z.max_r 0 (- e)) by lia. change (2 ^ 0)%Z with 1%Z.
    rewrite <- bpow2_IZR by lia. rewrite bpow2_opp. pose proof (bpow2_pos e). field. lra.
Qed.

Lemma Rabs_le_both x a : Rabs x <= a -> - a <= x <= a.
Proof. unfold Rabs. destruct (Rcase_abs x); lra. Qed.

(** The integer and the real specification agree on rationals. *)
Lemma is_round_R q n d z : (0 < d)%Z -> is_round q n d z <-> is_roundR q (IZR n / IZR d) z.
Proof.
  intros Hd. assert (Pd : 0 < IZR d) by (apply IZR_lt in Hd; exact Hd).
  assert (En : IZR n = IZR n / IZR d * IZR d) by (field; lra).
  set (y := IZR n / IZR d) in *.
  assert (Le1 : forall a, IZR a <= y <-> (a * d <= n)%Z).
  { intros a. split; intros H.
    - apply le_IZR. rewrite mult_IZR, En. apply Rmult_le_compat_r; lra.
    - apply IZR_le in H. rewrite mult_IZR, En in H. apply Rmult_le_reg_r in H; lra. }
  assert (Le2 : forall a, y <= IZR a <-> (n <= a * d)%Z).
  { intros a. split; intros H.
    - apply le_IZR. rewrite mult_IZR, En. apply Rmult_le_compat_r; lra.
    - apply IZR_le in H. rewrite mult_IZR, En in H. apply Rmult_le_reg_r in H; lra. }
  assert (Lt1 : forall a, IZR a < y <-> (a * d < n)%Z).
  { intros a. specialize (Le2 a). split; intros H.
    - apply Z.nle_gt. intros K. apply Le2 in K. lra.
    - apply Rnot_le_lt. intros K. apply Le2 in K. lia. }
  assert (Lt2 : forall a, y < IZR a <-> (n < a * d)%Z).
  { intros a. specialize (Le1 a). split; intros H.
    - apply Z.nle_gt. intros K. apply Le1 in K. lra.
    - apply Rnot_le_lt. intros K. apply Le1 in K. lia. }
  assert (EA : IZR (Z.abs (n - z * d)) = Rabs (y - IZR z) * IZR d).
  { rewrite abs_IZR, minus_IZR, mult_IZR, En. rewrite <- (Rabs_pos_eq (IZR d)) at 3 by lra.
    rewrite <- Rabs_mult. f_equal. ring. }
  assert (Nr : (2 * Z.abs (n - z * d) <= d)%Z <-> Rabs (y - IZR z) <= / 2).
  { split; intros H.
    - apply IZR_le in H. rewrite mult_IZR, EA in H. nra.
    - apply le_IZR. rewrite mult_IZR, EA. nra. }
  assert (Ti : (2 * Z.abs (n - z * d) = d)%Z <-> Rabs (y - IZR z) = / 2).
  { split; intros H.
    - apply (f_equal IZR) in H. rewrite mult_IZR, EA in H. nra.
    - apply eq_IZR. rewrite mult_IZR, EA. rewrite H. lra. }
  assert (A1 : (Z.abs (z * d) < Z.abs n)%Z <-> Rabs (IZR z) < Rabs y).
  { assert (E1 : IZR (Z.abs (z * d)) = Rabs (IZR z) * IZR d).
    { rewrite abs_IZR, mult_IZR, Rabs_mult. rewrite (Rabs_pos_eq (IZR d)) by lra. reflexivity. }
    assert (E2 : IZR (Z.abs n) = Rabs y * IZR d).
    { rewrite abs_IZR, En, Rabs_mult. rewrite (Rabs_pos_eq (IZR d)) by lra. reflexivity. }
    split; intros H.
    - apply IZR_lt in H. rewrite E1, E2 in H. nra.
    - apply lt_IZR. rewrite E1, E2. nra. }
  assert (A2 : (Z.abs n < Z.abs (z * d))%Z <-> Rabs y < Rabs (IZR z)).
  { assert (E1 : IZR (Z.abs (z * d)) = Rabs (IZR z) * IZR d).
    { rewrite abs_IZR, mult_IZR, Rabs_mult. rewrite (Rabs_pos_eq (IZR d)) by lra. reflexivity. }
    assert (E2 : IZR (Z.abs n) = Rabs y * IZR d).
    { rewrite abs_IZR, En, Rabs_mult. rewrite (Rabs_pos_eq (IZR d)) by lra. reflexivity. }
    split; intros H.
    - apply IZR_lt in H. rewrite E1, E2 in H. nra.
    - apply lt_IZR. rewrite E1, E2. nra. }
  assert (Ez1 : IZR z + 1 = IZR (z + 1)) by (rewrite plus_IZR; lra).
  assert (Ez2 : IZR z - 1 = IZR (z - 1)) by (rewrite minus_IZR; lra).
  assert (S0 : 0 <= y <-> (0 <= n)%Z) by (specialize (Le1 0%Z); rewrite Z.mul_0_l in Le1; exact Le1).
  assert (S1 : y < 0 <-> (n < 0)%Z) by (specialize (Lt2 0%Z); rewrite Z.mul_0_l in Lt2; exact Lt2).
  unfold is_round, is_roundR. destruct q; rewrite ?Ez1, ?Ez2, ?Le1, ?Le2, ?Lt1, ?Lt2, ?Nr, ?Ti, ?A1, ?A2, ?S0, ?S1; reflexivity.
Qed.

Lemma converts_R f n d m : (0 < d)%Z -> converts f n d m <-> convertsR f (IZR n / IZR d) m.
Proof.
  intros Hd. unfold converts, convertsR.
  assert (E : IZR n / IZR d * bpow2 (fF f) = IZR (n * 2 ^ Z.max 0 (fF f)) / IZR (d * 2 ^ Z.max 0 (- fF f))).
  { rewrite bpow2_split, !mult_IZR. unfold pw.
    assert (0 < IZR (2 ^ Z.max 0 (- fF f))) by (apply (IZR_lt 0), pow2_pos; lia).
    assert (0 < IZR d) by (apply (IZR_lt 0); lia). field. lra. }
  rewrite E. split; intros (z & H & L); exists z; (split; [|exact L]);
    (apply is_round_R; [|exact H]) || (apply is_round_R in H; [exact H|]); apply Z.mul_pos_pos; try lia; apply pow2_pos; lia.
Qed.

Lemma converts2_R f x e m : converts2 f x e m <-> convertsR f (IZR x * bpow2 e) m.
Proof.
  unfold converts2. rewrite converts_R by (apply pow2_pos; lia).
  replace (IZR (x * 2 ^ Z.max 0 e) / IZR (2 ^ Z.max 0 (- e))) with (IZR x * bpow2 e); [reflexivity|].
  rewrite mult_IZR, bpow2_split. unfold pw. lra.
Qed.

(** Rounding is a function. *)
Lemma is_roundR_unique q y z z' : is_roundR q y z -> is_roundR q y z' -> z = z'.
Proof.
  intros H H'.
  assert (N : forall a b : Z, IZR a < IZR b + 1 -> IZR b < IZR a + 1 -> a = b).
  { intros a b A B. rewrite <- plus_IZR in A, B. apply lt_IZR in A, B. lia. }
  assert (Near : Rabs (y - IZR z) <= / 2 -> Rabs (y - IZR z') <= / 2 ->
    z = z' \/ (IZR z' = IZR z + 1 /\ y = IZR z + / 2) \/ (IZR z = IZR z' + 1 /\ y = IZR z' + / 2)).
  { intros A B. apply Rabs_le_both in A, B.
    assert (C : IZR z' - IZR z <= 1 /\ IZR z - IZR z' <= 1) by lra.
    rewrite <- !minus_IZR in C. destruct C as [C1 C2]. apply le_IZR in C1, C2.
    destruct (Z.eq_dec z z') as [|Ne]; [left; assumption|right].
    assert (z' = z + 1 \/ z = z' + 1)%Z as [->| ->] by lia; rewrite plus_IZR in *; [left|right]; lra. }
  assert (T1 : forall u, y = IZR u + / 2 -> Rabs (y - IZR u) = / 2).
  { intros u ->. replace (IZR u + / 2 - IZR u) with (/ 2) by ring. apply Rabs_pos_eq; lra. }
  assert (T2 : forall u v, y = IZR u + / 2 -> IZR v = IZR u + 1 -> Rabs (y - IZR v) = / 2).
  { intros u v -> ->. replace (IZR u + / 2 - (IZR u + 1)) with (- / 2) by field. rewrite Rabs_Ropp. apply Rabs_pos_eq; lra. }
  assert (Par : forall u v, IZR v = IZR u + 1 -> (v = u + 1)%Z).
  { intros u v E. apply eq_IZR. rewrite plus_IZR. exact E. }
  assert (Ab : forall u v, y = IZR u + / 2 -> IZR v = IZR u + 1 ->
     (Rabs (IZR u) < Rabs y -> Rabs (IZR v) < Rabs y -> False) /\ (Rabs y < Rabs (IZR u) -> Rabs y < Rabs (IZR v) -> False)).
  { intros u v Ey Ev. assert (Eu : (v = u + 1)%Z) by (apply Par; exact Ev).
    destruct (Z.le_gt_cases 0 u) as [L|L].
    - apply IZR_le in L. rewrite (Rabs_pos_eq (IZR u)), (Rabs_pos_eq y), (Rabs_pos_eq (IZR v)) by lra. lra.
    - assert (v <= 0)%Z as L2 by lia. apply IZR_le in L2. apply IZR_lt in L.
      rewrite (Rabs_left1 (IZR u)), (Rabs_left1 y), (Rabs_left1 (IZR v)) by lra. lra. }
  unfold is_roundR in *. destruct q.
  - apply N; lra.
  - destruct H as [H1 H2], H' as [H1' H2']. destruct (Near H1 H1') as [|[[A B]|[A B]]]; [assumption|exfalso..].
    + specialize (H2 (T1 z B)). lra. + specialize (H2' (T1 z' B)). lra.
  - destruct H as [H1 H2], H' as [H1' H2']. destruct (Rle_or_lt 0 y) as [L|L].
    + specialize (H1 L). specialize (H1' L). apply N; lra.
    + specialize (H2 L). specialize (H2' L). apply N; lra.
  - destruct H as [H1 H2], H' as [H1' H2']. destruct (Near H1 H1') as [|[[A B]|[A B]]]; [assumption|exfalso..].
    + destruct (Ab z z' B A) as [X _]. apply X; [apply H2, T1, B|apply H2', (T2 z z' B A)].
    + destruct (Ab z' z B A) as [X _]. apply X; [apply H2', T1, B|apply H2, (T2 z' z B A)].
  - destruct H as [H1 H2], H' as [H1' H2']. destruct (Near H1 H1') as [|[[A B]|[A B]]]; [assumption|exfalso..].
    + destruct (Ab z z' B A) as [_ X]. apply X; [apply H2, T1, B|apply H2', (T2 z z' B A)].
    + destruct (Ab z' z B A) as [_ X]. apply X; [apply H2', T1, B|apply H2, (T2 z' z B A)].
  - destruct H as [H1 H2], H' as [H1' H2']. destruct (Near H1 H1') as [|[[A B]|[A B]]]; [assumption|exfalso..].
    + specialize (H2' (T2 z z' B A)). lra. + specialize (H2 (T2 z' z B A)). lra.
  - destruct H as [H1 H2], H' as [H1' H2']. destruct (Near H1 H1') as [|[[A B]|[A B]]]; [assumption|exfalso..].
    + pose proof (Par z z' A). destruct (H2 (T1 z B)) as [i Hi], (H2' (T2 z z' B A)) as [j Hj]. lia.
    + pose proof (Par z' z A). destruct (H2' (T1 z' B)) as [i Hi], (H2 (T2 z' z B A)) as [j Hj]. lia.
  - destruct H as [H1 H2], H' as [H1' H2']. destruct (Near H1 H1') as [|[[A B]|[A B]]]; [assumption|exfalso..].
    + pose proof (Par z z' A). destruct (H2 (T1 z B)) as [i Hi], (H2' (T2 z z' B A)) as [j Hj]. lia.
    + pose proof (Par z' z A). destruct (H2' (T1 z' B)) as [i Hi], (H2 (T2 z' z B A)) as [j Hj]. lia.
Qed.

Lemma convertsR_unique f y m m' : (1 <= fW f)%Z -> convertsR f y m -> convertsR f y m' -> m = m'.
Proof.
  intros HW (z & R1 & L1) (z' & R2 & L2). pose proof (is_roundR_unique _ _ _ _ R1 R2) as <-.
  rewrite (is_limited_unique _ _ _ _ _ HW L1), (is_limited_unique _ _ _ _ _ HW L2). reflexivity.
Qed.

(** Rounding a truncated value with a sticky half-bit is rounding the value itself. *)
Lemma sticky_R q (r h K z : Z) (Y : R) :
  (0 <= r)%Z -> IZR r <= Y < IZR r + 1 -> (guard q <= K)%Z ->
  match q with
  | RND_ZERO | RND_MIN_INF | RND_CONV | RND_CONV_ODD => (h = 0%Z /\ Y = IZR r) \/ (h = 1%Z /\ Y <> IZR r)
  | _ => h = 0%Z
  end ->
  is_round q (2 * r + h) (2 * 2 ^ K) z -> is_roundR q (Y / IZR (2 ^ K)) z.
Proof.
  intros Hr HY HK Hh H.
  assert (K0 : (0 <= K)%Z) by (destruct q; cbn in HK; lia).
  assert (PP : (0 < 2 ^ K)%Z) by (apply pow2_pos; lia).
  assert (PR : 0 < IZR (2 ^ K)) by (apply (IZR_lt 0); lia).
  destruct (Z.eq_dec h 0) as [->|Nh].
  { destruct (Req_dec Y (IZR r)) as [E|NE].
    { assert (E2 : Y / IZR (2 ^ K) = IZR (2 * r + 0) / IZR (2 * 2 ^ K)).
      { rewrite E, Z.add_0_r, !mult_IZR. field. lra. }
      rewrite E2. apply is_round_R; [lia|exact H]. }
    assert (Y0 : 0 <= Y / IZR (2 ^ K)).
    { apply IZR_le in Hr. apply Rmult_le_pos; [lra|]. apply Rlt_le, Rinv_0_lt_compat, PR. }
    assert (T : forall a b, (a * 2 ^ K <= r)%Z -> (r < b * 2 ^ K)%Z -> IZR a <= Y / IZR (2 ^ K) < IZR b).
    { intros a b A B. assert (B' : (r + 1 <= b * 2 ^ K)%Z) by lia.
      apply IZR_le in A, B'. rewrite plus_IZR in B'. rewrite mult_IZR in A, B'. split.
      - apply Rmult_le_reg_r with (IZR (2 ^ K)); [exact PR|]. replace (Y / IZR (2 ^ K) * IZR (2 ^ K)) with Y by (field; lra). lra.
      - apply Rmult_lt_reg_r with (IZR (2 ^ K)); [exact PR|]. replace (Y / IZR (2 ^ K) * IZR (2 ^ K)) with Y by (field; lra). lra. }
    assert (Tr : (z * 2 ^ K <= r)%Z -> (r < (z + 1) * 2 ^ K)%Z -> IZR z <= Y / IZR (2 ^ K) < IZR z + 1).
    { intros A B. rewrite <- plus_IZR. apply T; assumption. }
    assert (Nr : (1 <= K)%Z -> (z * 2 ^ K - 2 ^ (K - 1) <= r)%Z -> (r < z * 2 ^ K + 2 ^ (K - 1))%Z ->
       - / 2 <= Y / IZR (2 ^ K) - IZR z < / 2).
    { intros K1 A B. assert (B' : (r + 1 <= z * 2 ^ K + 2 ^ (K - 1))%Z) by lia.
      assert (EK : IZR (2 ^ K) = 2 * IZR (2 ^ (K - 1))).
      { rewrite <- mult_IZR. f_equal. rewrite <- Z.pow_succ_r by lia. f_equal; lia. }
      apply IZR_le in A, B'. rewrite minus_IZR, mult_IZR in A. rewrite !plus_IZR, mult_IZR in B'.
      split.
      - apply Rmult_le_reg_r with (IZR (2 ^ K)); [exact PR|]. replace ((Y / IZR (2 ^ K) - IZR z) * IZR (2 ^ K)) with (Y - IZR z * IZR (2 ^ K)) by (field; lra). lra.
      - apply Rmult_lt_reg_r with (IZR (2 ^ K)); [exact PR|]. replace ((Y / IZR (2 ^ K) - IZR z) * IZR (2 ^ K)) with (Y - IZR z * IZR (2 ^ K)) by (field; lra). lra. }
    assert (EZ : (1 <= K)%Z -> (2 ^ K = 2 * 2 ^ (K - 1))%Z).
    { intros. rewrite <- Z.pow_succ_r by lia. f_equal; lia. }
    unfold is_round in H. unfold is_roundR. destruct q; try (exfalso; destruct Hh as [[_ Hh]|[Hh _]]; [contradiction|lia]);
      cbn in HK; try specialize (EZ HK).
    - apply Tr; nia.
    - destruct H as [H1 H2]. destruct (Nr HK) as [N1 N2]; [nia|nia|]. split.
      + apply Rabs_le; lra.
      + intros E. unfold Rabs in E. destruct (Rcase_abs _) in E; lra.
    - split; [|lra]. intros _. destruct H as [H _]. specialize (H ltac:(lia)). apply Tr; nia.
    - destruct H as [H1 H2].
      assert (Z0 : (0 <= z)%Z) by nia.
      destruct (Nr HK) as [N1 N2]; [nia|nia|]. split.
      + apply Rabs_le; lra.
      + apply IZR_le in Z0. intros E. rewrite !Rabs_pos_eq by lra. unfold Rabs in E. destruct (Rcase_abs _) in E; lra. }
  assert (Hq : guard q = 1%Z /\ q <> RND /\ q <> RND_INF /\ h = 1%Z /\ Y <> IZR r).
  { destruct q; try contradiction; cbn; (destruct Hh as [[E _]|[E1 E2]]; [contradiction|]); repeat split; try assumption; discriminate. }
  destruct Hq as (Gq & _ & _ & -> & NY). clear Hh. assert (K1 : (1 <= K)%Z) by lia.
  assert (EZ : (2 ^ K = 2 * 2 ^ (K - 1))%Z).
  { rewrite <- Z.pow_succ_r by lia. f_equal; lia. }
  assert (N : (2 * Z.abs (2 * r + 1 - z * (2 * 2 ^ K)) <= 2 * 2 ^ K)%Z).
  { unfold is_round in H. destruct q; cbn in HK; try tauto; discriminate. }
  assert (A : (z * 2 ^ K - 2 ^ (K - 1) <= r)%Z) by nia.
  assert (B : (r + 1 <= z * 2 ^ K + 2 ^ (K - 1))%Z) by nia.
  assert (EK : IZR (2 ^ K) = 2 * IZR (2 ^ (K - 1))) by (rewrite <- mult_IZR; f_equal; exact EZ).
  apply IZR_le in A, B. rewrite minus_IZR, mult_IZR in A. rewrite !plus_IZR, mult_IZR in B.
  assert (S : Rabs (Y / IZR (2 ^ K) - IZR z) < / 2).
  { apply Rabs_def1.
    - apply Rmult_lt_reg_r with (IZR (2 ^ K)); [exact PR|]. replace ((Y / IZR (2 ^ K) - IZR z) * IZR (2 ^ K)) with (Y - IZR z * IZR (2 ^ K)) by (field; lra). lra.
    - apply Rmult_lt_reg_r with (IZR (2 ^ K)); [exact PR|]. replace ((Y / IZR (2 ^ K) - IZR z) * IZR (2 ^ K)) with (Y - IZR z * IZR (2 ^ K)) by (field; lra). lra. }
  unfold is_roundR. unfold is_round in H. destruct q; try discriminate Gq; (split; [lra|intros; lra]).
Qed.
