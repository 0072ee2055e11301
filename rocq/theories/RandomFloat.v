(** ac_random for ac_float. *)
From Coq Require Import Lia.
From Verif Require Import AcTypes AcFacts Spec SpecFloat RandomModel RandomProofs.

Lemma digits_ext k : forall rs rs', (forall n, (n < k)%nat -> rs n = rs' n) -> digits k rs = digits k rs'.
Proof.
  induction k as [|k IH]; intros rs rs' H; [reflexivity|]. cbn [digits]. rewrite (H O) by lia. f_equal. apply IH. intros n Hn. apply H. lia.
Qed.
(** Only the first results count. *)
Lemma random_ext s w old rs rs' : 1 <= w -> (forall n, (n < random_calls w)%nat -> rs n = rs' n) -> random_ac s w old rs = random_ac s w old rs'.
Proof.
  intros Hw H. unfold random_ac, random_calls in *. destruct (Z.leb_spec w 16).
  - rewrite !random_small_val by lia. rewrite (H O) by lia. reflexivity.
  - rewrite !random_large_val by lia. f_equal. apply digits_ext, H.
Qed.

(** The magnitude, as a power of two bounds it. *)
Lemma nbits_bound x : 0 <= x -> x < 2 ^ nbits x /\ (0 < x -> 2 ^ (nbits x - 1) <= x) /\ 0 <= nbits x.
Proof.
  intros H. unfold nbits. destruct (Z.leb_spec x 0) as [L|L]; [assert (x = 0) by lia; subst; cbn; lia|].
  pose proof (Z.log2_spec x L) as [A B]. pose proof (Z.log2_nonneg x). split; [exact B|]. split; [|lia]. intros _. replace (Z.log2 x + 1 - 1) with (Z.log2 x) by lia. exact A.
Qed.

Lemma lead_ok W m : 2 <= W -> - 2 ^ (W - 1) <= m < 2 ^ (W - 1) -> m <> 0 -> let l := leading_sign_s W m in
  0 <= l <= W - 1 /\ - 2 ^ (W - 1) <= m * 2 ^ l < 2 ^ (W - 1) /\ normal_mant W (m * 2 ^ l) /\ (normal_mant W m -> l = 0).
Proof.
  intros HW Hm H0 l. unfold l, leading_sign_s, normal_mant. set (a := if m <? 0 then - m - 1 else m).
  assert (A0 : 0 <= a < 2 ^ (W - 1)) by (unfold a; destruct (Z.ltb_spec m 0); lia). destruct (nbits_bound a ltac:(lia)) as (B1 & B2 & B3). set (n := nbits a) in *.
  assert (N : n <= W - 1).
  { destruct (Z.le_gt_cases n (W - 1)) as [L|L]; [exact L|exfalso]. assert (2 ^ (W - 1) <= 2 ^ (n - 1)) by (apply Z.pow_le_mono_r; lia). destruct (Z.eq_dec a 0) as [Z|Z]; [|lia]. unfold n, nbits in L. rewrite Z in L. cbn in L. lia. }
  assert (P : 2 ^ n * 2 ^ (W - 1 - n) = 2 ^ (W - 1)) by (rewrite <- Z.pow_add_r by lia; f_equal; lia).
  assert (P2 : 2 * 2 ^ (W - 2) = 2 ^ (W - 1)) by (rewrite <- Z.pow_succ_r by lia; f_equal; lia).
  assert (K : 0 < 2 ^ (W - 1 - n)) by (apply Z.pow_pos_nonneg; lia). set (k := 2 ^ (W - 1 - n)) in *.
  assert (Q : 0 < a -> 2 ^ (n - 1) * 2 = 2 ^ n /\ 2 ^ (n - 1) * k = 2 ^ (W - 2)).
  { intros HA. assert (1 <= n). { destruct (Z.le_gt_cases 1 n); [assumption|]. assert (n = 0) by lia. rewrite H1 in B1. change (2 ^ 0) with 1 in B1. lia. }
    assert (E : 2 ^ (n - 1) * 2 = 2 ^ n) by (rewrite Z.mul_comm, <- Z.pow_succ_r by lia; f_equal; lia). split; [exact E|]. unfold k. rewrite <- Z.pow_add_r by lia. f_equal. lia. }
  split; [lia|]. unfold a in *. destruct (Z.ltb_spec m 0) as [L|L].
  - assert (U : - 2 ^ n <= m) by lia. assert (V : - 2 ^ (W - 1) <= m * k) by nia.
    assert (X : m * k < - 2 ^ (W - 2)).
    { destruct (Z.eq_dec m (-1)) as [->|C].
      - assert (n = 0) by reflexivity. unfold k. rewrite H, Z.sub_0_r. pose proof (Z.pow_pos_nonneg 2 (W - 2) ltac:(lia) ltac:(lia)). lia.
      - destruct (Q ltac:(lia)) as [Q1 Q2]. specialize (B2 ltac:(lia)). nia. }
    split; [nia|]. split; [right; lia|]. intros [H|H]; [lia|].
    assert (W - 2 < n). { destruct (Z.lt_ge_cases (W - 2) n) as [C|C]; [exact C|exfalso]. assert (2 ^ n <= 2 ^ (W - 2)) by (apply Z.pow_le_mono_r; lia). lia. }
    lia.
  - destruct (Q ltac:(lia)) as [Q1 Q2]. specialize (B2 ltac:(lia)). assert (X : 2 ^ (W - 2) <= m * k) by nia. assert (Y : m * k < 2 ^ (W - 1)) by nia.
    split; [lia|]. split; [left; lia|]. intros [H|H]; [|lia].
    assert (W - 2 < n). { destruct (Z.lt_ge_cases (W - 2) n) as [C|C]; [exact C|exfalso]. assert (2 ^ n <= 2 ^ (W - 2)) by (apply Z.pow_le_mono_r; lia). lia. }
    lia.
Qed.

(** What the constructor stores. *)
Definition stored_flt (W E : Z) (x : Z * Z) : Prop := x = (0, 0) \/ fst x <> 0 /\ (normal_mant W (fst x) \/ snd x = - 2 ^ (E - 1)).

Lemma flt_norm_ok W E m e : 2 <= W -> 1 <= E -> valid_flt W E (m, e) ->
  valid_flt W E (flt_norm W E m e) /\ stored_flt W E (flt_norm W E m e) /\
  fst (flt_norm W E m e) * 2 ^ (snd (flt_norm W E m e) + 2 ^ (E - 1)) = m * 2 ^ (e + 2 ^ (E - 1)).
Proof.
  intros HW HE [Hm He]. cbn [fst snd] in Hm, He. unfold flt_norm, stored_flt, valid_flt. destruct (Z.eqb_spec m 0) as [->|N].
  { cbn [fst snd]. pose proof (Z.pow_pos_nonneg 2 (W - 1) ltac:(lia) ltac:(lia)). pose proof (Z.pow_pos_nonneg 2 (E - 1) ltac:(lia) ltac:(lia)). split; [lia|]. split; [left; reflexivity|]. rewrite !Z.mul_0_l. reflexivity. }
  destruct (lead_ok W m HW Hm N) as (L1 & L2 & L3 & L4). set (L := leading_sign_s W m) in *. set (B := 2 ^ (E - 1)) in *. set (l := Z.min L (e - - B)). assert (Hl : 0 <= l <= L) by (unfold l; lia).
  assert (K : 0 < 2 ^ l) by (apply Z.pow_pos_nonneg; lia). assert (KK : 2 ^ l <= 2 ^ L) by (apply Z.pow_le_mono_r; lia).
  assert (R : - 2 ^ (W - 1) <= m * 2 ^ l < 2 ^ (W - 1)) by nia.
  assert (S : shl true W m l = m * 2 ^ l).
  { unfold shl. rewrite Z.shiftl_mul_pow2 by lia. apply wraps_id; [lia|exact R]. }
  rewrite S. cbn [fst snd]. split; [split; [exact R|unfold l; lia]|]. split.
  - right. split; [nia|]. destruct (Z.le_gt_cases L (e - - B)) as [C|C]; [left; unfold l; rewrite Z.min_l by lia; exact L3|right; unfold l; lia].
  - rewrite <- Z.mul_assoc, <- Z.pow_add_r by (unfold l; lia). do 2 f_equal. lia.
Qed.
(** Stored numbers stay as they are. *)
Lemma flt_norm_id W E m e : 2 <= W -> 1 <= E -> valid_flt W E (m, e) -> stored_flt W E (m, e) -> flt_norm W E m e = (m, e).
Proof.
  intros HW HE [Hm He] [H|[N H]]; cbn [fst snd] in *; [injection H as -> ->; reflexivity|]. unfold flt_norm. rewrite (proj2 (Z.eqb_neq m 0) N). destruct (lead_ok W m HW Hm N) as (L1 & L2 & L3 & L4).
  assert (E0 : Z.min (leading_sign_s W m) (e - - 2 ^ (E - 1)) = 0) by (destruct H as [H|H]; [rewrite (L4 H)|]; lia). rewrite E0. unfold shl. rewrite Z.shiftl_0_r, Z.sub_0_r. f_equal. apply wraps_id; [lia|exact Hm].
Qed.

Lemma range_valid W m : in_range true W m -> - 2 ^ (W - 1) <= m < 2 ^ (W - 1).
Proof. unfold in_range, imin, imax. lia. Qed.

Theorem random_flt_stored W E oldm olde rs : 2 <= W -> 1 <= E -> let r := random_flt W E oldm olde rs in
  valid_flt W E r /\ stored_flt W E r.
Proof.
  intros HW HE r. unfold r, random_flt.
  destruct (flt_norm_ok W E (random_ac true W oldm rs) (random_ac true E olde (fun n => rs (random_calls W + n)%nat)) HW HE) as (A & B & _).
  - split; cbn [fst snd]; apply range_valid, random_range; lia.
  - split; assumption.
Qed.
Theorem random_flt_reach W E R x : 2 <= W -> 1 <= E -> valid_flt W E x -> stored_flt W E x -> 65535 <= R ->
  exists rs, (forall n, 0 <= rs n <= R) /\ forall oldm olde, random_flt W E oldm olde rs = x.
Proof.
  intros HW HE V S HR. destruct x as [m e]. pose proof V as [Hm He]. cbn [fst snd] in Hm, He.
  destruct (random_reach true W m R ltac:(lia) ltac:(unfold in_range, imin, imax; lia) HR) as (r1 & A1 & B1).
  destruct (random_reach true E e R ltac:(lia) ltac:(unfold in_range, imin, imax; lia) HR) as (r2 & A2 & B2).
  exists (fun n => if Nat.ltb n (random_calls W) then r1 n else r2 (n - random_calls W)%nat). split.
  - intros n. destruct (Nat.ltb n (random_calls W)); [apply A1|apply A2].
  - intros oldm olde. unfold random_flt. rewrite (random_ext true W oldm _ r1) by (try lia; intros n Hn; apply Nat.ltb_lt in Hn; rewrite Hn; reflexivity).
    rewrite (random_ext true E olde _ r2), B1, B2; [apply flt_norm_id; assumption|lia|]. intros n _. destruct (Nat.ltb_spec (random_calls W + n) (random_calls W)); [lia|]. f_equal. lia.
Qed.
(** One call of rand() for each 16 bits or part of them. *)
Lemma random_calls_ceil w : 1 <= w -> random_calls w = Z.to_nat ((w + 15) / 16).
Proof.
  intros H. unfold random_calls. replace (w + 15) with (w - 1 + 1 * 16) by lia. rewrite Z.div_add by lia.
  destruct (Z.leb_spec w 16).
  - rewrite (Z.div_small (w - 1)) by lia. reflexivity.
  - assert (0 <= (w - 1) / 16) by (apply Z.div_pos; lia). lia.
Qed.
(** Only those results matter. *)
Theorem random_reads s w old rs rs' : 1 <= w -> (forall n, Z.of_nat n < (w + 15) / 16 -> rs n = rs' n) -> random_ac s w old rs = random_ac s w old rs'.
Proof.
  intros Hw H. apply random_ext; [exact Hw|]. intros n Hn. apply H. rewrite random_calls_ceil in Hn by exact Hw.
  assert (0 <= (w + 15) / 16) by (apply Z.div_pos; lia). lia.
Qed.
(** Random mantissa times two to the random exponent. *)
Theorem random_flt_value W E oldm olde rs : 2 <= W -> 1 <= E ->
  let m := random_ac true W 0 rs in let e := random_ac true E 0 (fun n => rs (Z.to_nat ((W + 15) / 16) + n)%nat) in let r := random_flt W E oldm olde rs in
  fst r * 2 ^ (snd r + 2 ^ (E - 1)) = m * 2 ^ (e + 2 ^ (E - 1)).
Proof.
  intros HW HE. unfold random_flt. cbv zeta. rewrite random_calls_ceil by lia. rewrite (random_independent true W oldm 0), (random_independent true E olde 0) by lia.
  apply flt_norm_ok; [exact HW|exact HE|]. split; cbn [fst snd]; apply range_valid, random_range; lia.
Qed.
