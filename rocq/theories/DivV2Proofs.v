(** Proofs about ac_div_v2. *)
From Coq Require Import Lia ZifyBool.
From Verif Require Import AcTypes AcFacts Spec SpecFacts ShiftFacts ShiftProofs DivFacts DivProofs DivV2Model.
Ltac Zify.zify_post_hook ::= idtac.

Section V2.
  Variables NW DW PW N D : Z.
  Hypothesis HN : 1 <= NW.
  Hypothesis HD : 1 <= DW.
  Hypothesis HP : 1 <= PW <= DW.
  Hypothesis HQ : DW < NW + PW.
  Hypothesis BN : 0 <= N < 2 ^ NW.
  Hypothesis BD : 2 ^ (DW - PW) <= D < 2 ^ DW.
  Let iw := NW + PW + 1.
  Let qw := NW + PW - DW.

  Definition v2_inv (i : Z) (st : Z * Z * Z) : Prop :=
    let '(T, rem, Q) := st in
    T = N * 2 ^ i - Q * (D * 2 ^ qw) /\ 0 <= T < D * 2 ^ qw /\ 0 <= Q /\
    (0 < rem -> rem = T / 2 ^ qw) /\ (rem < 0 \/ rem = 0 \/ 0 < rem).

  Lemma Dpos : 0 < D.
  Proof. pose proof (pow2_pos (DW - PW) ltac:(lia)). lia. Qed.

  Lemma q_bound i T Q : 0 <= i -> T = N * 2 ^ i - Q * (D * 2 ^ qw) -> 0 <= T -> 0 <= Q -> Q < 2 ^ i.
  Proof.
    intros Hi ET HT H0.
    assert (E : 2 ^ NW = 2 ^ (DW - PW) * 2 ^ qw) by (rewrite <- pow2_add by (unfold qw; lia); f_equal; unfold qw; lia).
    pose proof (pow2_pos i Hi) as Pi. pose proof (pow2_pos qw ltac:(unfold qw; lia)) as Pq.
    assert (H1 : N * 2 ^ i < 2 ^ NW * 2 ^ i) by (apply Z.mul_lt_mono_pos_r; lia).
    assert (H2 : 2 ^ (DW - PW) * 2 ^ qw <= D * 2 ^ qw) by (apply Z.mul_le_mono_nonneg_r; lia).
    rewrite <- E in H2.
    assert (H3 : Q * 2 ^ NW <= Q * (D * 2 ^ qw)) by (apply Z.mul_le_mono_nonneg_l; lia).
    assert (H4 : Q * 2 ^ NW < 2 ^ i * 2 ^ NW) by lia.
    apply (Z.mul_lt_mono_pos_r (2 ^ NW)); [apply pow2_pos; lia|exact H4].
  Qed.

  Lemma v2_step_inv i st : 0 <= i < qw -> v2_inv i st -> v2_inv (i + 1) (v2_step NW DW PW D st).
  Proof.
    destruct st as [[T rem] Q]. intros Hi (ET & BT & HQ0 & _).
    pose proof Dpos as D0.
    pose proof (q_bound i T Q ltac:(lia) ET ltac:(lia) HQ0) as BQ.
    unfold v2_step. fold iw. fold qw.
    assert (Pq : 0 < 2 ^ qw) by (apply pow2_pos; lia).
    assert (PD : 0 < 2 ^ DW) by (apply pow2_pos; lia).
    assert (Eiw : 2 ^ iw = 2 * 2 ^ DW * 2 ^ qw).
    { rewrite <- pow2_succ, <- pow2_add by lia. f_equal. unfold iw, qw; lia. }
    assert (Eiw1 : 2 ^ (iw - 1) = 2 ^ DW * 2 ^ qw) by (rewrite <- pow2_add by lia; f_equal; unfold iw, qw; lia).
    assert (HiW : 1 <= iw) by (unfold iw; lia).
    assert (Q2 : 2 <= 2 ^ qw) by (change 2 with (2 ^ 1) at 1; apply pow2_le; lia).
    assert (BDq : D * 2 ^ qw <= (2 ^ DW - 1) * 2 ^ qw) by (apply Z.mul_le_mono_nonneg_r; lia).
    assert (B2T : 0 <= 2 * T < 2 ^ iw) by (rewrite Eiw; lia).
    assert (ET2 : shl false iw T 1 = 2 * T) by (rewrite shl1_u by lia; apply Z.mod_small; lia).
    rewrite ET2.
    set (h := 2 * T / 2 ^ qw). set (l := (2 * T) mod 2 ^ qw).
    assert (EhL : 2 * T = 2 ^ qw * h + l) by (apply Z.div_mod; lia).
    assert (Bl : 0 <= l < 2 ^ qw) by (apply Z.mod_pos_bound; lia).
    assert (Bh : 0 <= h < 2 * D).
    { split; [apply Z.div_pos; lia|apply Z.div_lt_upper_bound; lia]. }
    assert (Esh : shr false iw (2 * T) qw = h).
    { unfold shr. rewrite Z.shiftr_div_pow2 by lia. fold h. change (wrap false) with wrapu.
      apply wrapu_id. rewrite Eiw. split; [lia|]. clear - Bh BD Pq PD Q2. nia. }
    rewrite Esh.
    assert (Pdq : 2 * 2 ^ DW <= 2 ^ DW * 2 ^ qw) by (clear - PD Q2; nia).
    rewrite (wraps_id iw h), (wraps_id iw D) by lia.
    assert (EDW : DW + 1 - 1 = DW) by lia.
    rewrite (wraps_id (DW + 1) (h - D)) by (rewrite ?EDW; lia).
    assert (EQ1 : shl false qw Q 1 = 2 * Q).
    { rewrite shl1_u by lia. apply Z.mod_small. rewrite (pow2_half qw) by lia.
      assert (2 ^ i <= 2 ^ (qw - 1)) by (apply pow2_le; lia). lia. }
    assert (BQ2 : 2 * Q + 1 < 2 ^ qw).
    { rewrite (pow2_half qw) by lia. assert (2 ^ i <= 2 ^ (qw - 1)) by (apply pow2_le; lia). lia. }
    assert (E2i : 2 ^ (i + 1) = 2 * 2 ^ i) by (apply pow2_succ; lia).
    rewrite EQ1. rewrite !lor_bit by lia.
    destruct (Z.ltb_spec (h - D) 0) as [Hneg|Hpos].
    - rewrite wrapu_id by lia. unfold v2_inv. split; [rewrite E2i, ET; ring|].
      assert (2 * T < D * 2 ^ qw). { rewrite EhL. clear - Hneg Bl Pq. nia. }
      repeat split; lia.
    - rewrite (wrapu_id qw) by lia. rewrite (wrapu_id iw (h - D)) by (rewrite Eiw; lia).
      assert (Em : shr false iw (imax false iw) (DW + 1) = 2 ^ qw - 1).
      { unfold shr, imax. rewrite Z.shiftr_div_pow2 by lia. change (wrap false) with wrapu.
        assert (E : (2 ^ iw - 1) / 2 ^ (DW + 1) = 2 ^ qw - 1).
        { rewrite pow2_succ by lia. apply (div_eq _ _ _ (2 * 2 ^ DW - 1)); [lia| |lia]. rewrite Eiw. ring. }
        rewrite E. apply wrapu_id. lia. }
      rewrite Em, land_ones_mod by lia. fold l.
      assert (Es : shl false iw (h - D) qw = (h - D) * 2 ^ qw).
      { unfold shl. rewrite Z.shiftl_mul_pow2 by lia. change (wrap false) with wrapu. apply wrapu_id.
        rewrite Eiw. split; [apply Z.mul_nonneg_nonneg; lia|]. apply Z.mul_lt_mono_pos_r; lia. }
      rewrite Es.
      assert (El : Z.lor ((h - D) * 2 ^ qw) l = (h - D) * 2 ^ qw + l).
      { assert (L0 : Z.land ((h - D) * 2 ^ qw) l = 0).
        { apply Z.bits_inj'. intros b Hb. rewrite Z.land_spec, Z.bits_0.
          destruct (Z.lt_ge_cases b qw).
          - rewrite Z.mul_pow2_bits_low by lia. reflexivity.
          - rewrite (testbit_high_0 l b); [apply andb_false_r| |lia]. assert (2 ^ qw <= 2 ^ b) by (apply pow2_le; lia). lia. }
        rewrite Z.add_nocarry_lxor, Z.lxor_lor by assumption. reflexivity. }
      rewrite El.
      assert (B3 : 0 <= (h - D) * 2 ^ qw + l < D * 2 ^ qw).
      { split; [apply Z.add_nonneg_nonneg; [apply Z.mul_nonneg_nonneg|]; lia|].
        assert ((h - D) * 2 ^ qw <= (D - 1) * 2 ^ qw) by (apply Z.mul_le_mono_nonneg_r; lia). lia. }
      rewrite wrapu_id by (rewrite Eiw; lia).
      unfold v2_inv. split; [rewrite E2i|]. 
      + replace ((h - D) * 2 ^ qw + l) with (2 * T - D * 2 ^ qw) by lia. rewrite ET. ring.
      + split; [exact B3|]. split; [lia|]. split; [|lia]. intros _. symmetry.
        apply (div_eq _ _ _ l); lia.
  Qed.

  Lemma v2_iter_inv k : Z.of_nat k <= qw -> v2_inv (Z.of_nat k) (Nat.iter k (v2_step NW DW PW D) (N, 0, 0)).
  Proof.
    induction k as [|k IH]; intros Hk.
    - pose proof Dpos. pose proof (pow2_pos qw ltac:(unfold qw; lia)).
      assert (E : 2 ^ NW = 2 ^ (DW - PW) * 2 ^ qw) by (rewrite <- pow2_add by (unfold qw; lia); f_equal; unfold qw; lia).
      assert (H2 : 2 ^ (DW - PW) * 2 ^ qw <= D * 2 ^ qw) by (apply Z.mul_le_mono_nonneg_r; lia).
      cbn [Nat.iter nat_rect v2_inv]. change (2 ^ Z.of_nat 0) with 1. repeat split; lia.
    - rewrite Nat2Z.inj_succ in *. cbn [Nat.iter nat_rect]. unfold Z.succ. apply v2_step_inv; [lia|]. apply IH; lia.
  Qed.

  Lemma v2_core_spec QW RW q r : N = q * D + r -> 0 <= r < D ->
    v2_core NW DW QW RW PW N D = (q mod 2 ^ QW, r mod 2 ^ RW).
  Proof.
    intros E B. unfold v2_core. fold iw. fold qw.
    pose proof (pow2_pos qw ltac:(unfold qw; lia)) as Pq.
    assert (Hiw : 2 ^ NW <= 2 ^ iw) by (apply pow2_le; unfold iw; lia).
    rewrite (wrapu_id iw N) by lia.
    pose proof (v2_iter_inv (Z.to_nat qw) ltac:(unfold qw; lia)) as I.
    destruct (Nat.iter (Z.to_nat qw) (v2_step NW DW PW D) (N, 0, 0)) as [[T rem] Q].
    rewrite Z2Nat.id in I by (unfold qw; lia). destruct I as (ET & BT & HQ0 & Hr & Hc).
    pose proof Dpos as D0.
    assert (ET' : T = (N - Q * D) * 2 ^ qw) by (rewrite ET; ring).
    assert (BR : 0 <= N - Q * D < D).
    { rewrite ET' in BT. split.
      - apply (Z.mul_le_mono_pos_r _ _ (2 ^ qw)); lia.
      - apply (Z.mul_lt_mono_pos_r (2 ^ qw)); lia. }
    assert (q = Q /\ r = N - Q * D) as [-> ->].
    { assert (q = Q) by (assert (q - Q < 1) by nia; assert (-1 < q - Q) by nia; lia). subst q. lia. }
    assert (ETd : T / 2 ^ qw = N - Q * D) by (rewrite ET'; apply Z.div_mul; lia).
    unfold wrapu at 1. f_equal.
    assert (PD : 2 ^ DW <= 2 ^ iw) by (apply pow2_le; unfold iw; lia).
    replace (if 0 <? rem then wrapu iw rem else shr false iw T qw) with (N - Q * D); [reflexivity|].
    destruct (Z.ltb_spec 0 rem) as [H|H].
    - rewrite (Hr H), ETd. rewrite wrapu_id by lia. reflexivity.
    - unfold shr. rewrite Z.shiftr_div_pow2 by (unfold qw; lia). rewrite ETd.
      change (wrap false) with wrapu. rewrite wrapu_id by lia. reflexivity.
  Qed.
End V2.

Lemma min_div_val DW PW : 1 <= PW <= DW -> set_bit false DW (DW - PW) true 0 = 2 ^ (DW - PW).
Proof.
  intros H. rewrite set_bit_clear by (try lia; apply Z.testbit_0_l).
  change (b2z true) with 1. rewrite Z.mul_1_l, Z.add_0_l. change (wrap false) with wrapu. apply wrapu_id.
  split; [apply pow2_nonneg|]. apply Z.pow_lt_mono_r; lia.
Qed.

Lemma div_v2_u_spec NW DW QW RW PW N D q r :
  1 <= NW -> 1 <= DW -> 1 <= PW <= DW -> DW < NW + PW -> 0 <= N < 2 ^ NW -> 2 ^ (DW - PW) <= D < 2 ^ DW ->
  N = q * D + r -> 0 <= r < D ->
  div_v2_u NW DW QW RW PW N D = Some (q mod 2 ^ QW, r mod 2 ^ RW).
Proof.
  intros. unfold div_v2_u. rewrite min_div_val by assumption.
  pose proof (pow2_pos (DW - PW) ltac:(lia)).
  replace ((D =? 0) || (D <? 2 ^ (DW - PW))) with false by lia.
  f_equal. apply v2_core_spec; assumption.
Qed.

Lemma div_v2_u_reject NW DW QW RW PW N D : 1 <= PW <= DW ->
  (div_v2_u NW DW QW RW PW N D = None <-> D = 0 \/ D < 2 ^ (DW - PW)).
Proof.
  intros. unfold div_v2_u. rewrite min_div_val by assumption.
  destruct (Z.eqb_spec D 0), (Z.ltb_spec D (2 ^ (DW - PW))); cbn [orb]; split; intros; try reflexivity; try discriminate; lia.
Qed.

Lemma div_v2_s_spec NW DW QW RW PW N D q r :
  1 <= NW -> 1 <= DW -> 1 <= PW <= DW -> DW < NW + PW -> 1 <= QW -> 1 <= RW ->
  - 2 ^ (NW - 1) <= N < 2 ^ (NW - 1) -> - 2 ^ (DW - 1) <= D < 2 ^ (DW - 1) -> 2 ^ (DW - PW) <= Z.abs D ->
  N = q * D + r -> Z.abs r < Z.abs D -> (r <> 0 -> (r < 0 <-> N < 0)) ->
  div_v2_s NW DW QW RW PW N D = Some (wraps QW q, wraps RW r).
Proof.
  intros HN HD HP HQ HQW HRW BN BD MD E B S. unfold div_v2_s.
  pose proof (pow2_pos (DW - PW) ltac:(lia)). replace (D =? 0) with false by lia.
  rewrite !abs_wrapu by assumption.
  assert (S1 : 0 <= r * N).
  { destruct (Z.eq_dec r 0) as [->|Hr]; [lia|]. specialize (S Hr). destruct (Z.lt_ge_cases r 0); nia. }
  destruct (trunc_abs N D q r ltac:(lia) E B S1 S) as [EA Sq].
  pose proof (pow2_half NW ltac:(lia)). pose proof (pow2_pos (NW - 1) ltac:(lia)).
  pose proof (pow2_half DW ltac:(lia)). pose proof (pow2_pos (DW - 1) ltac:(lia)).
  rewrite (div_v2_u_spec NW DW QW RW PW (Z.abs N) (Z.abs D) (Z.abs q) (Z.abs r)) by lia.
  fold (wrapu QW (Z.abs q)). fold (wrapu RW (Z.abs r)).
  f_equal. f_equal.
  - destruct (Z.ltb_spec N 0), (Z.ltb_spec D 0); cbn [eqb];
      rewrite ?wraps_opp_wrapu, ?wraps_wrapu by lia; f_equal; lia.
  - assert (Hw : forall z, z mod 2 ^ RW = wrapu RW (Z.abs r) mod 2 ^ RW -> True) by auto. clear Hw.
    assert (K : forall sg, sg = 1 \/ sg = -1 -> wraps RW (wraps DW (sg * wrapu RW (Z.abs r))) = wraps RW (sg * Z.abs r)).
    { intros sg Hs. destruct (Z.le_gt_cases DW RW) as [L|L].
      - rewrite (wrapu_id RW).
        2:{ assert (2 ^ DW <= 2 ^ RW) by (apply pow2_le; lia). lia. }
        rewrite (wraps_id DW) by (destruct Hs; subst sg; lia). reflexivity.
      - pose proof (wrapu_range RW (Z.abs r) ltac:(lia)).
        assert (2 ^ RW <= 2 ^ (DW - 1)) by (apply pow2_le; lia).
        rewrite (wraps_id DW) by (destruct Hs; subst sg; lia).
        destruct Hs; subst sg.
        + rewrite !Z.mul_1_l. apply wraps_wrapu; lia.
        + replace (-1 * wrapu RW (Z.abs r)) with (- wrapu RW (Z.abs r)) by lia.
          rewrite wraps_opp_wrapu by lia. f_equal; lia. }
    destruct (Z.ltb_spec N 0) as [HN0|HN0].
    + specialize (K (-1) ltac:(lia)). replace (-1 * wrapu RW (Z.abs r)) with (- wrapu RW (Z.abs r)) in K by lia.
      rewrite K. f_equal. lia.
    + specialize (K 1 ltac:(lia)). rewrite !Z.mul_1_l in K. rewrite K. f_equal. lia.
Qed.

Lemma div_v2_s_limited NW DW QW RW PW N D q r :
  1 <= NW -> 1 <= DW -> 1 <= PW <= DW -> DW < NW + PW -> 1 <= QW -> 1 <= RW ->
  - 2 ^ (NW - 1) <= N < 2 ^ (NW - 1) -> - 2 ^ (DW - 1) <= D < 2 ^ (DW - 1) -> 2 ^ (DW - PW) <= Z.abs D ->
  N = q * D + r -> Z.abs r < Z.abs D -> (r <> 0 -> (r < 0 <-> N < 0)) ->
  exists q' r', div_v2_s NW DW QW RW PW N D = Some (q', r') /\
    is_limited WRAP true QW q q' /\ is_limited WRAP true RW r r'.
Proof.
  intros. exists (wraps QW q), (wraps RW r). split; [apply div_v2_s_spec; assumption|].
  split; apply wraps_is_limited; assumption.
Qed.

Lemma div_v2_s_reject NW DW QW RW PW N D : 1 <= PW <= DW -> - 2 ^ (DW - 1) <= D < 2 ^ (DW - 1) ->
  (div_v2_s NW DW QW RW PW N D = None <-> Z.abs D < 2 ^ (DW - PW)).
Proof.
  intros HP BD. unfold div_v2_s. pose proof (pow2_pos (DW - PW) ltac:(lia)).
  destruct (Z.eqb_spec D 0) as [->|HD]; [cbn [Z.abs]; split; auto|].
  rewrite (abs_wrapu DW D) by (try assumption; lia).
  pose proof (div_v2_u_reject NW DW QW RW PW (if N <? 0 then wrapu NW (- N) else wrapu NW N) (Z.abs D) HP) as R.
  destruct (div_v2_u _ _ _ _ _ _ _) as [[a b]|].
  - split; [discriminate|]. intros H1. destruct R as [_ R]. specialize (R (or_intror H1)). discriminate R.
  - split; [|reflexivity]. intros _. destruct R as [R _]. specialize (R eq_refl). lia.
Qed.
