(** Proofs for ac_div. *)
From Coq Require Import Lia ZifyBool.
From Verif Require Import AcTypes AcFacts ShiftModel ShiftFacts ShiftProofs DivModel DivFacts Spec SpecFacts.
Ltac Zify.zify_post_hook ::= idtac.

(** *** ac_int *)

Lemma div_uint_spec NW DW QW RW N D q r :
  1 <= NW -> 1 <= DW -> 1 <= QW -> 0 <= N < 2 ^ NW -> 0 < D < 2 ^ DW ->
  N = q * D + r -> 0 <= r < D ->
  div_uint NW DW QW RW N D = (q mod 2 ^ QW, r mod 2 ^ RW, negb (r =? 0)).
Proof.
  intros HN HD HQ BN BD E B. unfold div_uint.
  rewrite div_loop_spec by lia. rewrite Z.div_mul by (pose proof (pow2_pos NW); lia).
  rewrite (div_eq N D q r), (mod_eq N D q r) by lia.
  replace (D =? 0) with false by lia. reflexivity.
Qed.
Lemma div_uint3_spec NW DW QW N D q r :
  1 <= NW -> 1 <= DW -> 1 <= QW -> 0 <= N < 2 ^ NW -> 0 < D < 2 ^ DW ->
  N = q * D + r -> 0 <= r < D ->
  div_uint3 NW DW QW N D = (q mod 2 ^ QW, negb (r =? 0)).
Proof.
  intros. unfold div_uint3. rewrite (div_uint_spec NW DW QW DW N D q r) by assumption.
  rewrite (Z.mod_small r) by lia. reflexivity.
Qed.
Lemma div_uint_zero NW DW QW RW N :
  1 <= NW -> 1 <= DW -> 0 <= N < 2 ^ NW ->
  fst (fst (div_uint NW DW QW RW N 0)) = 2 ^ QW - 1.
Proof.
  intros HN HD BN. unfold div_uint. destruct (div_loop_zero NW DW QW N HN HD BN) as (N' & Q' & ->). reflexivity.
Qed.

Lemma abs_wrapu W x : 1 <= W -> - 2 ^ (W - 1) <= x < 2 ^ (W - 1) ->
  (if x <? 0 then wrapu W (- x) else wrapu W x) = Z.abs x.
Proof.
  intros HW Hx. pose proof (pow2_half W ltac:(lia)).
  destruct (Z.ltb_spec x 0); rewrite wrapu_id by lia; lia.
Qed.

Lemma wraps_is_limited QW q : 1 <= QW -> is_limited WRAP true QW q (wraps QW q).
Proof. intros; exact (overflow_is_limited WRAP true QW q ltac:(lia)). Qed.

Lemma wraps_opp_wrapu QW q : 1 <= QW -> wraps QW (- wrapu QW q) = wraps QW (- q).
Proof.
  intros H. apply (wrap_congr true); [lia|]. unfold wrapu.
  pose proof (pow2_pos QW ltac:(lia)).
  pose proof (Z.div_mod q (2 ^ QW) ltac:(lia)) as E.
  replace (- q) with (- (q mod 2 ^ QW) + (- (q / 2 ^ QW)) * 2 ^ QW) by lia.
  rewrite Z.mod_add by lia. reflexivity.
Qed.
Lemma wraps_wrapu QW q : 1 <= QW -> wraps QW (wrapu QW q) = wraps QW q.
Proof. intros H. apply (wrap_congr true); [lia|]. unfold wrapu. apply Z.mod_mod. pose proof (pow2_pos QW ltac:(lia)); lia. Qed.

(** Truncated division of magnitudes. *)
Lemma trunc_abs N D q r :
  D <> 0 -> N = q * D + r -> Z.abs r < Z.abs D -> 0 <= r * N ->
  (r <> 0 -> (r < 0 <-> N < 0)) ->
  Z.abs N = Z.abs q * Z.abs D + Z.abs r /\ (q = 0 \/ (q < 0 <-> (N < 0 <-> 0 < D))).
Proof. intros HD E B S1 S2. subst N. destruct (Z.lt_trichotomy q 0) as [H|[H|H]], (Z.lt_ge_cases D 0), (Z.lt_trichotomy r 0) as [K|[K|K]]; nia. Qed.

Lemma div_sint_spec NW DW QW RW N D q r :
  1 <= NW -> 1 <= DW -> 1 <= QW -> 1 <= RW ->
  - 2 ^ (NW - 1) <= N < 2 ^ (NW - 1) -> - 2 ^ (DW - 1) <= D < 2 ^ (DW - 1) -> D <> 0 ->
  N = q * D + r -> Z.abs r < Z.abs D -> (r <> 0 -> (r < 0 <-> N < 0)) ->
  div_sint NW DW QW RW N D = (wraps QW q, wraps RW r, negb (wraps RW r =? 0)).
Proof.
  intros HN HD HQ HR BN BD D0 E B S. unfold div_sint.
  rewrite !abs_wrapu by assumption.
  assert (S1 : 0 <= r * N).
  { destruct (Z.eq_dec r 0) as [->|K]; [lia|]. specialize (S K).
    destruct (Z.lt_ge_cases N 0); [assert (r < 0) by lia|assert (0 <= r) by lia]; nia. }
  destruct (trunc_abs N D q r D0 E B S1 S) as [EA SQ].
  pose proof (pow2_half NW ltac:(lia)). pose proof (pow2_half DW ltac:(lia)).
  rewrite (div_uint_spec NW DW QW DW (Z.abs N) (Z.abs D) (Z.abs q) (Z.abs r)) by lia.
  replace (D =? 0) with false by lia.
  rewrite (Z.mod_small (Z.abs r)) by lia.
  change (Z.abs q mod 2 ^ QW) with (wrapu QW (Z.abs q)).
  rewrite wraps_opp_wrapu, wraps_wrapu by lia.
  assert (Er : (if N <? 0 then wraps DW (- Z.abs r) else wraps DW (Z.abs r)) = r).
  { destruct (Z.eq_dec r 0) as [->|K].
    - destruct (N <? 0); apply wraps_id; lia.
    - specialize (S K). destruct (Z.ltb_spec N 0); rewrite wraps_id by lia; lia. }
  rewrite Er. do 2 f_equal.
  destruct (Z.eq_dec q 0) as [->|K]; [destruct (eqb _ _); reflexivity|].
  destruct SQ as [SQ|SQ]; [contradiction|].
  destruct (Z.ltb_spec N 0), (Z.ltb_spec D 0); cbn [eqb]; f_equal; lia.
Qed.
Lemma div_sint3_spec NW DW QW N D q r :
  1 <= NW -> 1 <= DW -> 1 <= QW ->
  - 2 ^ (NW - 1) <= N < 2 ^ (NW - 1) -> - 2 ^ (DW - 1) <= D < 2 ^ (DW - 1) -> D <> 0 ->
  N = q * D + r -> Z.abs r < Z.abs D -> (r <> 0 -> (r < 0 <-> N < 0)) ->
  div_sint3 NW DW QW N D = (wraps QW q, negb (r =? 0)).
Proof.
  intros. unfold div_sint3. rewrite (div_sint_spec NW DW QW DW N D q r) by assumption.
  rewrite (wraps_id DW r) by lia. reflexivity.
Qed.
Lemma div_sint_zero NW DW QW RW N :
  1 <= NW -> 1 <= DW -> - 2 ^ (NW - 1) <= N < 2 ^ (NW - 1) ->
  fst (fst (div_sint NW DW QW RW N 0)) = if N <? 0 then - 2 ^ (QW - 1) else 2 ^ (QW - 1) - 1.
Proof.
  intros HN HD BN. unfold div_sint.
  destruct (div_uint _ _ _ _ _ _) as [[uQ uR] b]. reflexivity.
Qed.

(** *** ac_fixed, unsigned *)

Section UFx.
  Variables (NW NI DW DI : Z) (f : fmt) (n d : Z).
  Hypothesis HN : 1 <= NW.
  Hypothesis HD : 1 <= DW.
  Hypothesis HW : 1 <= fW f.
  Hypothesis HfS : fS f = false.
  Hypothesis Bn : 0 <= n < 2 ^ NW.
  Hypothesis Bd : 0 <= d < 2 ^ DW.

  Let e := (DW - DI) - (NW - NI).
  Let RBIT := div_rbit (fQ f).
  Let ZI := NI + (DW - DI).
  Let ZF := fF f + RBIT.
  Let ZW := ZI + ZF.
  Let a := n * pw (ZW - NW).
  Let b := d * pw (NW - ZW).

  Lemma raw_id W I x : 1 <= W -> 0 <= x < 2 ^ W ->
    slc W 0 (shift_left_ui W I (dfmt W W false) x (W - I)) = x.
  Proof.
    intros H B. rewrite shift_left_ui_ok by (try assumption; reflexivity).
    replace (W - I - (W - I)) with (W - W) by lia. rewrite conv_same. simpl wrap.
    unfold slc. rewrite Z.shiftr_0_r. rewrite !wrapu_id by (try rewrite wrapu_id by lia; lia). reflexivity.
  Qed.

  Lemma div_rbit_eq q : div_rbit q = r_bit_u q. Proof. destruct q; reflexivity. Qed.

  Lemma ZW_pos : div_early NI DW DI f = false -> 1 <= ZW.
  Proof. unfold div_early, ZW, ZI, ZF, RBIT. intros; lia. Qed.

  (** quotient and stickiness of the loop in terms of a/b *)
  Lemma loop_ab : 1 <= ZW -> 0 < d ->
    exists N', div_loop NW DW ZW ZW n d = (N', (n * 2 ^ ZW / 2 ^ NW) mod d, a / b) /\
      (negb ((n * 2 ^ ZW / 2 ^ NW) mod d =? 0) || negb (Z.shiftr N' ZW =? 0)) = nz (a mod b) /\
      0 <= a / b < 2 ^ ZW.
  Proof.
    intros HZ H0. eexists. rewrite div_loop_spec by lia.
    pose proof (pow2_pos NW ltac:(lia)) as PN. pose proof (pow2_pos ZW ltac:(lia)) as PZ.
    assert (Epd : n * 2 ^ ZW / 2 ^ NW / d = a / b /\
      (negb ((n * 2 ^ ZW / 2 ^ NW) mod d =? 0) || negb (Z.shiftr ((n * 2 ^ ZW) mod 2 ^ NW) ZW =? 0)) = nz (a mod b)).
    { unfold a, b. destruct (Z.le_gt_cases NW ZW) as [L|L].
      - rewrite (pw_nonneg_eq (ZW - NW)), (pw_nonpos_eq (NW - ZW)), Z.mul_1_r by lia.
        assert (E : n * 2 ^ ZW = n * 2 ^ (ZW - NW) * 2 ^ NW).
        { rewrite <- Z.mul_assoc, <- pow2_add by lia. do 2 f_equal; lia. }
        rewrite E, Z.div_mul, Z.mod_mul by lia. split; [reflexivity|].
        rewrite Z.shiftr_0_l. change (negb (0 =? 0)) with false. rewrite orb_false_r. reflexivity.
      - rewrite (pw_nonpos_eq (ZW - NW)), (pw_nonneg_eq (NW - ZW)), Z.mul_1_r by lia.
        pose proof (pow2_pos (NW - ZW) ltac:(lia)) as PC.
        assert (E : 2 ^ NW = 2 ^ (NW - ZW) * 2 ^ ZW) by (rewrite <- pow2_add by lia; f_equal; lia).
        rewrite E, Z.div_mul_cancel_r, Z.mul_mod_distr_r by lia.
        rewrite Z.shiftr_div_pow2, Z.div_mul by lia.
        rewrite (Z.mul_comm d), Z.div_div by lia. split; [reflexivity|].
        rewrite Z.rem_mul_r by lia.
        pose proof (Z.mod_pos_bound n (2 ^ (NW - ZW)) PC). pose proof (Z.mod_pos_bound (n / 2 ^ (NW - ZW)) d H0).
        set (r1 := n mod 2 ^ (NW - ZW)) in *. set (r2 := (n / 2 ^ (NW - ZW)) mod d) in *.
        unfold nz. destruct (Z.eqb_spec r2 0), (Z.eqb_spec r1 0), (Z.eqb_spec (r1 + 2 ^ (NW - ZW) * r2) 0); nia. }
    destruct Epd as [Ep Er].
    assert (B : 0 <= a / b < 2 ^ ZW).
    { rewrite <- Ep. assert (0 <= n * 2 ^ ZW / 2 ^ NW < 2 ^ ZW).
      { split; [apply Z.div_pos; nia|apply Z.div_lt_upper_bound; nia]. }
      split; [apply Z.div_pos; lia|apply Z.div_lt_upper_bound; nia]. }
    rewrite Ep, wrapu_id by lia. split; [reflexivity|]. split; assumption.
  Qed.

  Lemma ab_pos : 0 < d -> 0 <= a /\ 0 < b.
  Proof. intros. unfold a, b. pose proof (pw_pos (ZW - NW)); pose proof (pw_pos (NW - ZW)). nia. Qed.

  (** the exact quotient over a and b *)
  Lemma exact_ab : 0 < d ->
    n * pw e * pw (fF f) * (b * 2 ^ RBIT) = a * (d * pw (- e) * pw (- fF f)).
  Proof.
    intros H0. pose proof (r_bit_u_01 (fQ f)) as HR. rewrite <- div_rbit_eq in HR. fold RBIT in HR.
    unfold a, b, pw.
    transitivity (n * d * (2 ^ Z.max 0 e * 2 ^ Z.max 0 (fF f) * 2 ^ Z.max 0 (NW - ZW) * 2 ^ RBIT)); [ring|].
    transitivity (n * d * (2 ^ Z.max 0 (ZW - NW) * 2 ^ Z.max 0 (- e) * 2 ^ Z.max 0 (- fF f))); [|ring].
    rewrite <- !pow2_add by lia. do 2 f_equal. unfold ZW, ZI, ZF, e. lia.
  Qed.

  Lemma div_ufx_ok old : div_early NI DW DI f = false -> 0 < d ->
    fst (div_ufx NW NI DW DI f n d old) = conv_rat f (n * pw e) (d * pw (- e)).
  Proof.
    intros Hne H0. pose proof (ZW_pos Hne) as HZ.
    unfold div_early in Hne. unfold div_ufx. fold RBIT ZI. change (fW f - fI f) with (fF f). fold RBIT ZI in Hne.
    rewrite Hne. replace (Z.max (fF f + RBIT) (- ZI + 1)) with ZF by (unfold ZF; lia). fold ZW.
    rewrite !raw_id by assumption.
    destruct (loop_ab HZ H0) as (N' & -> & Erem & BQ). rewrite Erem. cbn [fst].
    replace (d =? 0) with false by lia.
    set (rem := nz (a mod b)). set (Q := a / b) in *.
    assert (EQfx : conv (dfmt (ZW + 1) ZW false) Q 0 = 2 * Q).
    { rewrite conv_dfmt_up by lia. replace (ZW + 1 - ZW - 0) with 1 by lia. change (2 ^ 1) with 2.
      rewrite wrapu_id; [lia|]. rewrite pow2_succ by lia. lia. }
    rewrite EQfx.
    pose proof (r_half_u_01 (fQ f)) as HH.
    assert (EQf2 : (match fQ f with
              | RND_ZERO | RND_MIN_INF | RND_CONV | RND_CONV_ODD => set_bit false (ZW + 1) 0 rem (2 * Q)
              | _ => 2 * Q end) = 2 * Q + r_half_u (fQ f) * b2z rem).
    { assert (ES : set_bit false (ZW + 1) 0 rem (2 * Q) = 2 * Q + b2z rem).
      { rewrite Z.mul_comm, set_bit_clear by (try lia; apply testbit_even_0).
        rewrite Z.pow_0_r, Z.mul_1_r. apply wrapu_id. rewrite pow2_succ by lia. pose proof (b2z_01 rem). lia. }
      destruct (fQ f); cbn [r_half_u]; rewrite ?ES; lia. }
    rewrite EQf2.
    rewrite shift_right_ui_ok; try assumption; try lia.
    2:{ rewrite pow2_succ by lia. pose proof (b2z_01 rem). nia. }
    replace (ZW + 1 - ZW + (NW - NI - (DW - DI) + (ZW - NW))) with (ZF + 1) by (unfold ZW, ZI; lia).
    destruct (ab_pos H0) as [Pa Pb].
    pose proof (r_bit_u_01 (fQ f)) as HR. rewrite <- div_rbit_eq in HR. fold RBIT in HR.
    rewrite conv_tmp by (unfold ZF; lia).
    unfold conv_rat. f_equal.
    rewrite (qround_eqq (fQ f) (n * pw e * pw (fF f)) (d * pw (- e) * pw (- fF f)) a (b * 2 ^ RBIT)).
    - rewrite qround_sticky_u by (try lia; rewrite <- div_rbit_eq; unfold RBIT; lia).
      fold Q rem. replace (ZF - fF f + 1) with (RBIT + 1) by (unfold ZF; lia).
      assert (r_half_u (fQ f) = 0 \/ r_half_u (fQ f) = 1) as [E|E] by lia; rewrite E.
      + rewrite Z.pow_0_r, Z.mul_1_r, Z.mul_0_l, !Z.add_0_r. rewrite Z.add_comm, pow2_add by lia.
        rewrite (Z.mul_comm 2). change (2 ^ 1) with 2. rewrite (Z.mul_comm 2).
        apply qround_scale; [apply pow2_pos; lia|lia].
      + change (2 ^ 1) with 2. f_equal; lia.
    - pose proof (pw_pos (- e)); pose proof (pw_pos (- fF f)). apply Z.mul_pos_pos; [nia|lia].
    - pose proof (pow2_pos RBIT ltac:(lia)). nia.
    - apply exact_ab; assumption.
  Qed.

  (** the returned flag *)
  Lemma div_ufx_flag old : div_early NI DW DI f = false -> 0 < d ->
    snd (div_ufx NW NI DW DI f n d old) = nz ((n * pw e * pw (fF f)) mod (d * pw (- e) * pw (- fF f))).
  Proof.
    intros Hne H0. pose proof (ZW_pos Hne) as HZ.
    unfold div_early in Hne. unfold div_ufx. fold RBIT ZI. change (fW f - fI f) with (fF f). fold RBIT ZI in Hne.
    rewrite Hne. replace (Z.max (fF f + RBIT) (- ZI + 1)) with ZF by (unfold ZF; lia). fold ZW.
    rewrite !raw_id by assumption.
    destruct (loop_ab HZ H0) as (N' & -> & Erem & BQ). rewrite Erem. cbn [snd].
    destruct (ab_pos H0) as [Pa Pb].
    pose proof (r_bit_u_01 (fQ f)) as HR. rewrite <- div_rbit_eq in HR. fold RBIT in HR.
    pose proof (exact_ab H0) as EX.
    set (A := n * pw e * pw (fF f)) in *. set (B := d * pw (- e) * pw (- fF f)) in *.
    assert (PB : 0 < B).
    { unfold B. pose proof (pw_pos (- e)); pose proof (pw_pos (- fF f)). apply Z.mul_pos_pos; [nia|lia]. }
    assert (E1 : nz (a mod b) || negb (RBIT =? 0) && Z.testbit (a / b) 0 = nz (a mod (b * 2 ^ RBIT))).
    { assert (RBIT = 0 \/ RBIT = 1) as [->| ->] by lia.
      - rewrite Z.pow_0_r, Z.mul_1_r. cbn. apply orb_false_r.
      - change (2 ^ 1) with 2. cbn [Z.eqb negb andb]. rewrite Z.rem_mul_r by lia.
        rewrite Z.bit0_odd. pose proof (Zmod_odd (a / b)) as EO.
        pose proof (Z.mod_pos_bound a b Pb).
        unfold nz. destruct (Z.odd (a / b)); rewrite EO; destruct (Z.eqb_spec (a mod b) 0) as [->|];
          cbn [negb orb]; symmetry; lia. }
    rewrite E1. set (b' := b * 2 ^ RBIT) in *.
    assert (Pb' : 0 < b') by (unfold b'; pose proof (pow2_pos RBIT ltac:(lia)); nia).
    unfold nz. f_equal.
    destruct (Z.eqb_spec (a mod b') 0) as [E|E], (Z.eqb_spec (A mod B) 0) as [E'|E']; try reflexivity; exfalso.
    - apply E'. apply Z.mod_divide in E; [|lia]. destruct E as [z Ez].
      apply Z.mod_divide; [lia|]. exists z. nia.
    - apply E. apply Z.mod_divide in E'; [|lia]. destruct E' as [z Ez].
      apply Z.mod_divide; [lia|]. exists z. nia.
  Qed.
End UFx.
