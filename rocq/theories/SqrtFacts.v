(** Invariant of the digit recurrence of ac_sqrt. *)
From Coq Require Import Lia ZifyBool.
From Verif Require Import AcTypes AcFacts ShiftFacts ShiftProofs DivFacts SqrtModel.
Ltac Zify.zify_post_hook ::= idtac.

Lemma lor_low a b k : 0 <= k -> 0 <= b < 2 ^ k -> Z.lor (a * 2 ^ k) b = a * 2 ^ k + b.
Proof.
  intros Hk Hb.
  assert (L0 : Z.land (a * 2 ^ k) b = 0).
  { apply Z.bits_inj'. intros i Hi. rewrite Z.land_spec, Z.bits_0.
    destruct (Z.lt_ge_cases i k).
    - rewrite Z.mul_pow2_bits_low by lia. reflexivity.
    - rewrite (testbit_high_0 b i); [apply andb_false_r| |lia].
      assert (2 ^ k <= 2 ^ i) by (apply pow2_le; lia). lia. }
  rewrite Z.add_nocarry_lxor, Z.lxor_lor by assumption. reflexivity.
Qed.

Lemma shl_u w x n : 0 <= n -> shl false w x n = (x * 2 ^ n) mod 2 ^ w.
Proof. intros. unfold shl. rewrite Z.shiftl_mul_pow2 by lia. reflexivity. Qed.
Lemma shr_u w x n : 0 <= n -> 0 <= x < 2 ^ w -> shr false w x n = x / 2 ^ n.
Proof.
  intros Hn Hx. unfold shr. rewrite Z.shiftr_div_pow2 by lia. change (wrap false) with wrapu. apply wrapu_id.
  pose proof (pow2_pos n Hn). split; [apply Z.div_pos; lia|]. apply Z.div_lt_upper_bound; [lia|]. nia.
Qed.

Lemma land_mask a x : 0 <= a -> 0 <= x < 2 ^ a -> Z.land (2 ^ a - 1) x = x.
Proof. intros Ha Hx. rewrite Z.land_comm, land_ones_mod by lia. apply Z.mod_small; lia. Qed.

Lemma mask_step w a : 2 <= w -> 0 <= a <= w ->
  wrapu w (Z.lor (shl false w (2 ^ a - 1) 2) 3) = 2 ^ Z.min (a + 2) w - 1.
Proof.
  intros Hw Ha. rewrite shl_u by lia. change (2 ^ 2) with 4.
  pose proof (pow2_pos a ltac:(lia)) as Pa.
  destruct (Z.le_gt_cases (a + 2) w) as [L|L].
  - rewrite Z.min_l by lia.
    assert (E : 2 ^ (a + 2) = 2 ^ a * 4) by (apply pow2_add; lia).
    assert (2 ^ (a + 2) <= 2 ^ w) by (apply pow2_le; lia).
    rewrite Z.mod_small by lia.
    pose proof (lor_low (2 ^ a - 1) 3 2 ltac:(lia) ltac:(cbn; lia)) as EL. change (2 ^ 2) with 4 in EL. rewrite EL.
    rewrite wrapu_id by lia. rewrite E. ring.
  - rewrite Z.min_r by lia.
    assert (E : 2 ^ a * 4 = 2 ^ w * 2 ^ (a + 2 - w)) by (change 4 with (2 ^ 2); rewrite <- !pow2_add by lia; f_equal; lia).
    assert (Ew : 2 ^ w = 4 * 2 ^ (w - 2)) by (change 4 with (2 ^ 2); rewrite <- pow2_add by lia; f_equal; lia).
    pose proof (pow2_pos (w - 2) ltac:(lia)).
    assert (Em : ((2 ^ a - 1) * 4) mod 2 ^ w = (2 ^ (w - 2) - 1) * 4).
    { apply (mod_eq _ _ (2 ^ (a + 2 - w) - 1)); [lia| |lia].
      replace ((2 ^ a - 1) * 4) with (2 ^ a * 4 - 4) by ring. rewrite E.
      replace (2 ^ w * (2 ^ (a + 2 - w) - 1)) with (2 ^ w * 2 ^ (a + 2 - w) - 2 ^ w) by ring. lia. }
    rewrite Em.
    pose proof (lor_low (2 ^ (w - 2) - 1) 3 2 ltac:(lia) ltac:(cbn; lia)) as EL. change (2 ^ 2) with 4 in EL. rewrite EL.
    rewrite wrapu_id by lia. lia.
Qed.

(** Leading part of z after k pairs have been shifted in. *)
Definition sq_part (m z k : Z) : Z := z * 4 ^ k / 4 ^ m.

Lemma pow4 k : 0 <= k -> 4 ^ k = 2 ^ (2 * k).
Proof. intros. rewrite Z.pow_mul_r by lia. reflexivity. Qed.
Lemma pow4_pos k : 0 <= k -> 0 < 4 ^ k.
Proof. intros. apply Z.pow_pos_nonneg; lia. Qed.

Lemma sq_part_step m z k : 1 <= m -> 0 <= k -> 0 <= z ->
  let pair := (z * 4 ^ k) mod 4 ^ m / 4 ^ (m - 1) in
  sq_part m z (k + 1) = 4 * sq_part m z k + pair /\ 0 <= pair < 4 /\
  (z * 4 ^ (k + 1)) mod 4 ^ m = ((z * 4 ^ k) mod 4 ^ m * 4) mod 4 ^ m.
Proof.
  intros Hm Hk Hz pair. unfold sq_part.
  pose proof (pow4_pos (m - 1) ltac:(lia)) as P1.
  assert (E4 : 4 ^ m = 4 * 4 ^ (m - 1)) by (rewrite <- Z.pow_succ_r by lia; f_equal; lia).
  assert (Ek : z * 4 ^ (k + 1) = z * 4 ^ k * 4) by (unfold Z.succ; rewrite <- Z.add_1_r || idtac; rewrite Z.pow_add_r by lia; ring).
  set (y := z * 4 ^ k) in *.
  pose proof (Z.div_mod y (4 ^ m) ltac:(lia)) as DM. pose proof (Z.mod_pos_bound y (4 ^ m) ltac:(lia)) as B.
  set (R := y mod 4 ^ m) in *. set (Pk := y / 4 ^ m) in *.
  pose proof (Z.div_mod R (4 ^ (m - 1)) ltac:(lia)) as DR. pose proof (Z.mod_pos_bound R (4 ^ (m - 1)) ltac:(lia)) as BR.
  fold pair in DR.
  assert (Bp : 0 <= pair < 4).
  { split; [apply Z.div_pos; lia|apply Z.div_lt_upper_bound; lia]. }
  split; [|split; [exact Bp|]].
  - rewrite Ek. apply (div_eq _ _ _ (4 * (R mod 4 ^ (m - 1)))); [lia| |lia].
    rewrite DM. set (c := R mod 4 ^ (m - 1)) in *. rewrite E4 in *. set (M := 4 ^ (m - 1)) in *. 
    replace (4 * M * (4 * Pk + pair)) with (4 * (4 * M * Pk) + 4 * (M * pair)) by ring. lia.
  - rewrite Ek. rewrite <- Z.mul_mod_idemp_l by lia. reflexivity.
Qed.

Section Loop.
  Variables RW m z0 : Z.
  Hypothesis Hm : 1 <= m <= RW.
  Hypothesis Hz : 0 <= z0 < 4 ^ m.
  Let ZW := 2 * m.

  Definition sq_inv (k : Z) (st : Z * Z * Z * Z) : Prop :=
    let '(mask, d, r, z) := st in
    mask = 2 ^ Z.min (2 * k) (RW + 2) - 1 /\ z = (z0 * 4 ^ k) mod 4 ^ m /\
    0 <= r < 2 ^ k /\ d = sq_part m z0 k - r * r /\ 0 <= d <= 2 * r.

  Lemma sq_part_bound k : 0 <= k -> sq_part m z0 k < 4 ^ k.
  Proof.
    intros Hk. unfold sq_part. pose proof (pow4_pos m ltac:(lia)). pose proof (pow4_pos k Hk).
    apply Z.div_lt_upper_bound; [lia|]. apply Z.mul_lt_mono_pos_r; lia.
  Qed.

  Lemma sqrt_step_inv k st : 0 <= k < RW -> sq_inv k st -> sq_inv (k + 1) (sqrt_step RW ZW (ZW - 2) st).
  Proof.
    destruct st as [[[mask d] r] z]. intros Hk (Em & Ez & Br & Ed & Bd).
    unfold sqrt_step.
    destruct (sq_part_step m z0 k ltac:(lia) ltac:(lia) ltac:(lia)) as (SP & Bp & SZ).
    pose proof (sq_part_bound (k + 1) ltac:(lia)) as SB. pose proof (sq_part_bound k ltac:(lia)) as SB0.
    set (pair := (z0 * 4 ^ k) mod 4 ^ m / 4 ^ (m - 1)) in *.
    set (xk := sq_part m z0 k) in *. clearbody xk. remember (sq_part m z0 (k + 1)) as x' eqn:Ex'.
    assert (P4m : 4 ^ m = 2 ^ ZW) by (apply pow4; lia).
    assert (Zr : 0 <= z < 2 ^ ZW) by (rewrite Ez, <- P4m; apply Z.mod_pos_bound, pow4_pos; lia).
    pose proof (pow2_pos k ltac:(lia)) as Pk.
    assert (E1 : 2 ^ (k + 1) = 2 * 2 ^ k) by (apply pow2_succ; lia).
    assert (E2 : 2 ^ (k + 2) = 2 ^ k * 4) by (apply pow2_add; lia).
    assert (E3 : 2 ^ (k + 3) = 2 ^ k * 8) by (apply pow2_add; lia).
    assert (L1 : 2 ^ (k + 1) <= 2 ^ RW) by (apply pow2_le; lia).
    assert (L2 : 2 ^ (k + 2) <= 2 ^ (RW + 1)) by (apply pow2_le; lia).
    assert (L3 : 2 ^ (k + 3) <= 2 ^ (RW + 2)) by (apply pow2_le; lia).
    assert (ER : 2 ^ (RW + 2) = 2 * 2 ^ (RW + 1)) by (replace (RW + 2) with (RW + 1 + 1) by lia; apply pow2_succ; lia).
    (* the shifted registers *)
    rewrite (shl_u RW r 1), (Z.mod_small (r * 2 ^ 1)) by (change (2 ^ 1) with 2; lia). change (2 ^ 1) with 2.
    rewrite Em, mask_step by lia.
    replace (Z.min (Z.min (2 * k) (RW + 2) + 2) (RW + 2)) with (Z.min (2 * (k + 1)) (RW + 2)) by lia.
    set (b := Z.min (2 * (k + 1)) (RW + 2)).
    assert (E4k : 4 ^ (k + 1) = 2 ^ (2 * (k + 1))) by (apply pow4; lia).
    assert (E4k' : 4 ^ (k + 1) = 4 * 4 ^ k) by (rewrite Z.pow_add_r by lia; ring).
    assert (Hin : forall y, 0 <= y -> y < 4 ^ (k + 1) -> y < 2 ^ (RW + 2) -> 0 <= y < 2 ^ b).
    { intros y H0 H1 H2. split; [assumption|]. unfold b. destruct (Z.min_spec (2 * (k + 1)) (RW + 2)) as [[_ ->]|[_ ->]]; lia. }
    rewrite (shl_u (RW + 2) d 2), (Z.mod_small (d * 2 ^ 2)) by (change (2 ^ 2) with 4; lia). change (2 ^ 2) with 4.
    assert (D4 : d * 4 < 4 ^ (k + 1)) by (pose proof (Z.square_nonneg r); lia).
    rewrite land_mask by (try (unfold b; lia); apply Hin; lia).
    assert (Epair : Z.land (shr false ZW z (ZW - 2)) 3 = pair).
    { rewrite shr_u by (unfold ZW in *; lia). change 3 with (2 ^ 2 - 1). rewrite land_ones_mod by lia.
      assert (E : 2 ^ (ZW - 2) = 4 ^ (m - 1)) by (rewrite pow4 by lia; f_equal; unfold ZW; lia).
      rewrite E, Ez. fold pair. apply Z.mod_small. change (2 ^ 2) with 4. lia. }
    rewrite Epair.
    pose proof (lor_low d pair 2 ltac:(lia) ltac:(cbn; lia)) as EL. change (2 ^ 2) with 4 in EL. rewrite EL.
    assert (Ed' : d * 4 + pair = x' - 4 * (r * r)) by lia.
    rewrite (wrapu_id (RW + 2) (d * 4 + pair)) by lia.
    rewrite (wrapu_id (RW + 1) (r * 2)) by lia.
    rewrite (shl_u (RW + 1) (r * 2) 1), (Z.mod_small (r * 2 * 2 ^ 1)) by (change (2 ^ 1) with 2; lia). change (2 ^ 1) with 2.
    pose proof (lor_low (r * 2) 1 1 ltac:(lia) ltac:(cbn; lia)) as EL2. change (2 ^ 1) with 2 in EL2. rewrite EL2.
    pose proof (lor_low r 1 1 ltac:(lia) ltac:(cbn; lia)) as EL3. change (2 ^ 1) with 2 in EL3. rewrite EL3.
    set (t := d * 4 + pair - (r * 2 * 2 + 1)).
    assert (Bt : - (4 * r + 1) <= t <= 4 * r + 2) by (unfold t; lia).
    assert (Et : Z.testbit (wrapu (RW + 2) t) (RW + 1) = (t <? 0)).
    { destruct (Z.ltb_spec t 0) as [Ht|Ht].
      - assert (E : wrapu (RW + 2) t = t + 2 ^ (RW + 2)).
        { unfold wrapu. apply (mod_eq _ _ (-1)); lia. }
        rewrite E. apply Z.testbit_true; [lia|].
        rewrite (div_eq (t + 2 ^ (RW + 2)) (2 ^ (RW + 1)) 1 (t + 2 ^ (RW + 1))) by lia. reflexivity.
      - rewrite wrapu_id by lia. apply testbit_high_0; lia. }
    rewrite Et.
    assert (Ez' : shl false ZW z 2 = (z0 * 4 ^ (k + 1)) mod 4 ^ m).
    { rewrite shl_u by lia. change (2 ^ 2) with 4. rewrite <- P4m, Ez. symmetry. exact SZ. }
    rewrite Ez'.
    destruct (Z.ltb_spec t 0) as [Ht|Ht]; cbn [negb]; unfold sq_inv; fold b; rewrite <- Ex'.
    - split; [reflexivity|]. split; [reflexivity|]. split; [lia|]. split; [replace (r * 2 * (r * 2)) with (4 * (r * r)) by ring; exact Ed'|]. unfold t in Ht; lia.
    - rewrite (wrapu_id RW) by lia. rewrite (wrapu_id (RW + 2) t) by lia.
      assert (t = x' - (r * 2 + 1) * (r * 2 + 1)) by (unfold t; rewrite Ed'; ring).
      assert (t < 4 ^ (k + 1)) by (pose proof (Z.square_nonneg (r * 2 + 1)); lia).
      rewrite land_mask by (try (unfold b; lia); apply Hin; lia). rewrite (wrapu_id (RW + 2) t) by lia.
      split; [reflexivity|]. split; [reflexivity|]. split; [lia|]. split; [assumption|]. lia.
  Qed.

  Lemma sqrt_loop_inv : sq_inv RW (sqrt_loop RW ZW z0).
  Proof.
    unfold sqrt_loop.
    assert (K : forall k, Z.of_nat k <= RW -> sq_inv (Z.of_nat k) (Nat.iter k (sqrt_step RW ZW (ZW - 2)) (0, 0, 0, z0))).
    { induction k as [|k IH]; intros Hk.
      - cbn [Nat.iter nat_rect Z.of_nat sq_inv]. rewrite Z.min_l by lia.
        assert (E : sq_part m z0 0 = 0).
        { unfold sq_part. change (4 ^ 0) with 1. rewrite Z.mul_1_r. apply Z.div_small; lia. }
        rewrite E. change (2 ^ (2 * 0)) with 1. change (4 ^ 0) with 1. change (2 ^ 0) with 1.
        rewrite Z.mul_1_r, Z.mod_small by lia. lia.
      - rewrite Nat2Z.inj_succ in *. cbn [Nat.iter nat_rect]. unfold Z.succ. apply sqrt_step_inv; [lia|]. apply IH; lia. }
    specialize (K (Z.to_nat RW)). rewrite Z2Nat.id in K by lia. apply K; lia.
  Qed.
End Loop.
