(** Proofs about the model of ac_sqrt. *)
From Coq Require Import Reals Lra Lia ZifyBool.
From Verif Require Import AcTypes AcFacts Spec SpecFacts ShiftModel ShiftFacts ShiftProofs DivFacts DivProofs SqrtModel SqrtFacts SpecR SpecRFacts.

Lemma quot2_half a : 0 <= a -> Z.quot a 2 = a / 2.
Proof. intros; apply Z.quot_div_nonneg; lia. Qed.

Theorem sqrt_int_ok XW OW OS x r :
  1 <= XW -> 1 <= OW -> 0 <= x < 2 ^ XW -> 0 <= r -> r * r <= x < (r + 1) * (r + 1) ->
  is_limited WRAP OS OW r (sqrt_int XW OW OS x).
Proof.
  intros HX HO Bx Hr Hs. unfold sqrt_int. set (RW := Z.quot (XW + 1) 2).
  assert (HRW : XW <= 2 * RW /\ 1 <= RW) by (unfold RW; Z.quot_rem_to_equations; lia).
  assert (B : 0 <= x < 2 ^ (2 * RW)) by (pose proof (pow2_le XW (2 * RW)); lia).
  rewrite wrapu_id by lia.
  pose proof (sqrt_loop_inv RW RW x ltac:(lia)) as I. rewrite pow4 in I by lia. specialize (I B).
  destruct (sqrt_loop RW (2 * RW) x) as [[[mk d] r'] z']. destruct I as (_ & _ & Br & Ed & Bd).
  assert (S : sq_part RW x RW = x).
  { unfold sq_part. apply Z.div_mul. apply Z.pow_nonzero; lia. }
  rewrite S in Ed.
  assert (E : r' = r).
  { assert (r' < r + 1) by (apply Z.square_lt_simpl_nonneg; lia).
    assert (r < r' + 1) by (apply Z.square_lt_simpl_nonneg; lia). lia. }
  rewrite E. apply (overflow_is_limited WRAP). exact HO.
Qed.

Section Fx.
  Variables (XW XI : Z) (f : fmt) (x : Z).
  Hypothesis HXW : 1 <= XW.
  Hypothesis HfW : 1 <= fW f.
  Hypothesis HfS : fS f = false.
  Hypothesis Hx : 0 <= x < 2 ^ XW.
  Let v := fxval x (XW - XI).

  Lemma v_pos : (0 <= v)%R.
  Proof. clear HfS HfW f.
    unfold v, fxval. apply Rmult_le_pos; [apply (IZR_le 0); lia|]. apply Rlt_le, bpow2_pos.
  Qed.

  Lemma v_lt : (v < bpow2 XI)%R.
  Proof. clear HfS HfW f.
    unfold v, fxval. destruct Hx as [_ H]. apply IZR_lt in H. rewrite <- bpow2_IZR in H by lia.
    replace (bpow2 XI) with (bpow2 XW * bpow2 (- (XW - XI)))%R by (rewrite <- bpow2_add; f_equal; lia).
    apply Rmult_lt_compat_r; [apply bpow2_pos|exact H].
  Qed.

  Lemma sqrt_v_lt RI : XI <= 2 * RI -> (sqrt v < bpow2 RI)%R.
  Proof. clear HfS HfW f.
    intros H. pose proof (bpow2_pos RI). rewrite <- (sqrt_pow2 (bpow2 RI)) by lra.
    apply sqrt_lt_1; [apply v_pos|apply pow2_ge_0|]. replace (bpow2 RI ^ 2)%R with (bpow2 (2 * RI)).
    - apply Rlt_le_trans with (1 := v_lt). unfold bpow2.
      replace (2 * RI) with (XI + (2 * RI - XI)) by lia. rewrite powerRZ_add by lra.
      rewrite <- (Rmult_1_r (powerRZ 2 XI)) at 1. apply Rmult_le_compat_l; [apply Rlt_le, powerRZ_lt; lra|].
      change (1 <= bpow2 (2 * RI - XI))%R. rewrite bpow2_IZR by lia. apply (IZR_le 1). pose proof (pow2_pos (2 * RI - XI)). lia.
    - replace (2 * RI) with (RI + RI) by lia. rewrite bpow2_add. ring.
  Qed.

  (** Early return: the root is below the smallest value the output distinguishes from 0. *)
  Lemma early_ok RI : XI <= 2 * RI -> RI - 1 < - (fF f + guard (fQ f)) -> convertsR f (sqrt v) 0.
  Proof.
    intros H1 H2. exists 0. split.
    - pose proof (sqrt_v_lt RI H1) as S. pose proof (sqrt_pos v) as S0. pose proof (bpow2_pos (fF f)) as PF.
      assert (S1 : (0 <= sqrt v * bpow2 (fF f))%R) by (apply Rmult_le_pos; lra).
      assert (S2 : (sqrt v * bpow2 (fF f) < bpow2 (- guard (fQ f)))%R).
      { apply Rlt_le_trans with (bpow2 RI * bpow2 (fF f))%R; [apply Rmult_lt_compat_r; lra|].
        rewrite <- bpow2_add. replace (- guard (fQ f)) with ((RI + fF f) + (- guard (fQ f) - RI - fF f)) by lia.
        rewrite (bpow2_add (RI + fF f)). rewrite <- (Rmult_1_r (bpow2 (RI + fF f))) at 1.
        apply Rmult_le_compat_l; [apply Rlt_le, bpow2_pos|]. rewrite bpow2_IZR by lia.
        apply (IZR_le 1). pose proof (pow2_pos (- guard (fQ f) - RI - fF f)). lia. }
      set (y := (sqrt v * bpow2 (fF f))%R) in *. unfold is_roundR. unfold guard in S2.
      assert (E1 : bpow2 (- (1)) = (/ 2)%R) by (rewrite bpow2_opp, bpow2_1; reflexivity).
      assert (E0 : bpow2 (- 0) = 1%R) by reflexivity.
      rewrite Rminus_0_r, (Rabs_pos_eq y) by lra.
      destruct (fQ f); rewrite ?E1, ?E0 in S2; try lra; split; try lra; intros; lra.
    - rewrite HfS. pose proof (pow2_pos (fW f)) as P. unfold is_limited, lowest, highest. destruct (fO f); try lia.
      split; [lia|]. exists 0; lia.
  Qed.

  Lemma sq_le_sqrt a b : (0 <= b -> a * a <= b * b -> a <= b)%R.
  Proof. intros Hb H. apply Rnot_lt_le. intros K. nra. Qed.
  Lemma sq_lt_sqrt a b : (0 <= b -> a * a < b * b -> a < b)%R.
  Proof. intros Hb H. apply Rnot_le_lt. intros K. nra. Qed.

  Theorem sqrt_fx_ok : convertsR f (sqrt v) (sqrt_fx XW XI f x).
  Proof.
    unfold sqrt_fx. cbv zeta. change (match fQ f with TRN | TRN_ZERO => 0 | _ => 1 end) with (guard (fQ f)).
    change (fW f - fI f) with (fF f). set (OF := fF f + guard (fQ f)).
    set (RI := Z.quot (XI + 1) 2). assert (HRI : XI <= 2 * RI) by (unfold RI; Z.quot_rem_to_equations; lia).
    destruct (Z.ltb_spec (RI - 1) (- OF)) as [He|He].
    { apply (early_ok RI); [exact HRI|exact He]. }
    set (RF := Z.max OF (- RI + 1)). set (RW := RI + RF).
    set (XF := XW - XI). set (qX := Z.quot (XF + 1) 2).
    assert (HqX : XF <= 2 * qX /\ 1 <= RI + qX) by (unfold qX, RI, XF; clear - HXW; Z.quot_rem_to_equations; lia).
    assert (HRW : 1 <= RW /\ OF <= RF) by (unfold RW, RF; lia).
    set (m := RI + Z.min qX RF). set (ZF := 2 * Z.min qX RF).
    replace (2 * RI + ZF) with (2 * m) by (unfold m, ZF; lia).
    assert (Hm : 1 <= m <= RW) by (unfold m, RW in *; lia).
    assert (HZ : ZF <= 2 * RF /\ (ZF < XF -> ZF = 2 * RF) /\ 2 * m = 2 * RI + ZF /\ 2 * (RW - m) = 2 * RF - ZF) by (unfold ZF, m, RW; lia).
    assert (Gd : guard (fQ f) = 0 \/ guard (fQ f) = 1) by (unfold guard; destruct (fQ f); lia).
    assert (HK : guard (fQ f) <= RF - fF f) by (unfold OF in *; lia).
    clearbody RF m ZF qX. clear Gd.
    (* the bits fed to the loop *)
    set (z := if ZF <=? XF then x / 2 ^ (XF - ZF) else x * 2 ^ (ZF - XF)).
    set (left := if ZF <=? XF then x mod 2 ^ (XF - ZF) else 0).
    assert (Bz : 0 <= z < 2 ^ (2 * m)).
    { assert (B : 2 ^ (XI + ZF) <= 2 ^ (2 * m) \/ XI + ZF < 0).
      { destruct (Z.lt_ge_cases (XI + ZF) 0); [right; lia|left; apply pow2_le; lia]. }
      unfold z. destruct (Z.leb_spec ZF XF).
      - pose proof (pow2_pos (XF - ZF)). split; [apply Z.div_pos; lia|].
        destruct (Z.lt_ge_cases (XI + ZF) 0) as [L|L].
        + rewrite Z.div_small; [apply pow2_pos; lia|]. pose proof (pow2_le XW (XF - ZF)). unfold XF in *; lia.
        + apply Z.lt_le_trans with (2 ^ (XI + ZF)); [|lia]. apply Z.div_lt_upper_bound; [lia|].
          rewrite <- Z.pow_add_r by lia. replace (XF - ZF + (XI + ZF)) with XW by (unfold XF; lia). lia.
      - pose proof (pow2_pos (ZF - XF)). split; [lia|].
        apply Z.lt_le_trans with (2 ^ XW * 2 ^ (ZF - XF)); [apply Z.mul_lt_mono_pos_r; lia|].
        rewrite <- Z.pow_add_r by lia. apply pow2_le. unfold XF in *; lia. }
    assert (Ez : slc (2 * m) 0 (shift_left_ui XW XI (dfmt (2 * m) (2 * m) false) x ZF) = z).
    { rewrite shift_left_ui_ok by (cbn [dfmt fW fS]; first [lia|reflexivity]). fold XF.
      assert (E : conv (dfmt (2 * m) (2 * m) false) x (XF - ZF) = z).
      { unfold z in *. destruct (Z.leb_spec ZF XF).
        - rewrite conv_dfmt_down by lia. change (wrap false) with wrapu.
          replace (XF - ZF - (2 * m - 2 * m)) with (XF - ZF) by lia. apply wrapu_id; lia.
        - rewrite conv_dfmt_up by lia. change (wrap false) with wrapu.
          replace (2 * m - 2 * m - (XF - ZF)) with (ZF - XF) by lia. apply wrapu_id; lia. }
      rewrite E. unfold slc. rewrite Z.shiftr_0_r. apply wrapu_id; lia. }
    rewrite Ez. clear Ez.
    pose proof (sqrt_loop_inv RW m z Hm) as I. rewrite pow4 in I by lia. specialize (I Bz).
    destruct (sqrt_loop RW (2 * m) z) as [[[mk d] r] z']. destruct I as (_ & Ez' & Br & Ed & Bd).
    assert (P4 : 0 < 4 ^ m) by (apply Z.pow_pos_nonneg; lia).
    assert (E4 : z * 4 ^ RW = z * 4 ^ (RW - m) * 4 ^ m).
    { rewrite <- Z.mul_assoc, <- Z.pow_add_r by lia. do 2 f_equal; lia. }
    assert (Ez0 : z' = 0) by (rewrite Ez', E4; apply Z.mod_mul; lia).
    assert (S : sq_part m z RW = z * 4 ^ (RW - m)) by (unfold sq_part; rewrite E4; apply Z.div_mul; lia).
    rewrite S in Ed. clear Ez' E4 S mk.
    (* the exact square, scaled *)
    set (Y := (sqrt v * bpow2 RF)%R).
    assert (PRF := bpow2_pos RF). pose proof (sqrt_pos v) as Sv.
    assert (Y0 : (0 <= Y)%R) by (unfold Y; apply Rmult_le_pos; lra).
    assert (YY : (Y * Y = IZR (z * 4 ^ (RW - m)) + IZR left / IZR (2 ^ Z.max 0 (XF - ZF)))%R).
    { unfold Y. replace (sqrt v * bpow2 RF * (sqrt v * bpow2 RF))%R with (sqrt v * sqrt v * (bpow2 RF * bpow2 RF))%R by ring.
      rewrite sqrt_sqrt by apply v_pos. rewrite <- bpow2_add. unfold v, fxval. fold XF.
      rewrite Rmult_assoc, <- bpow2_add. rewrite pow4 by lia. destruct HZ as (Z1 & Z2 & Z3 & Z4). rewrite Z4.
      unfold z, left. destruct (Z.leb_spec ZF XF) as [L|L].
      - rewrite Z.max_r by lia. destruct (Z.eq_dec ZF XF) as [E|E].
        + rewrite E, Z.sub_diag. change (2 ^ 0) with 1. rewrite Z.div_1_r, Z.mod_1_r. rewrite mult_IZR, <- bpow2_IZR by lia.
          replace (- XF + (RF + RF)) with (2 * RF - XF) by lia. lra.
        + replace (2 * RF - ZF) with 0 by lia. change (2 ^ 0) with 1. rewrite Z.mul_1_r.
          pose proof (pow2_pos (XF - ZF) ltac:(lia)) as P. pose proof (Z.div_mod x (2 ^ (XF - ZF)) ltac:(lia)) as D.
          rewrite D at 1. replace (- XF + (RF + RF)) with (- (XF - ZF)) by lia. rewrite bpow2_opp, bpow2_IZR by lia.
          rewrite plus_IZR, mult_IZR. apply (IZR_lt 0) in P. field. lra.
      - rewrite Z.max_l by lia. change (2 ^ 0) with 1. rewrite <- Z.mul_assoc, <- Z.pow_add_r by lia.
        rewrite mult_IZR, <- bpow2_IZR by lia. replace (ZF - XF + (2 * RF - ZF)) with (- XF + (RF + RF)) by lia. lra. }
    assert (Bl : (0 <= IZR left / IZR (2 ^ Z.max 0 (XF - ZF)) < 1)%R /\ (IZR left / IZR (2 ^ Z.max 0 (XF - ZF)) = 0 <-> left = 0%Z)%R).
    { assert (P : 0 < 2 ^ Z.max 0 (XF - ZF)) by (apply pow2_pos; lia).
      assert (B : 0 <= left < 2 ^ Z.max 0 (XF - ZF)).
      { unfold left. destruct (Z.leb_spec ZF XF); [|lia]. rewrite Z.max_r by lia. apply Z.mod_pos_bound. apply pow2_pos; lia. }
      destruct B as [B1 B2]. apply (IZR_lt 0) in P. apply (IZR_le 0) in B1. apply IZR_lt in B2. split; [split|].
      - apply Rmult_le_pos; [exact B1|]. apply Rlt_le, Rinv_0_lt_compat, P.
      - apply Rmult_lt_reg_r with (1 := P). replace (IZR left / IZR (2 ^ Z.max 0 (XF - ZF)) * IZR (2 ^ Z.max 0 (XF - ZF)))%R with (IZR left) by (field; lra). lra.
      - split; intros E.
        + apply eq_IZR. apply Rmult_integral in E. destruct E as [E|E]; [exact E|]. apply Rinv_0_lt_compat in P. lra.
        + rewrite E. unfold Rdiv. apply Rmult_0_l. }
    set (fr := (IZR left / IZR (2 ^ Z.max 0 (XF - ZF)))%R) in *. clearbody fr.
    set (Sq := z * 4 ^ (RW - m)) in *. clearbody Sq.
    assert (BS : r * r <= Sq < (r + 1) * (r + 1)) by lia.
    assert (BSR : (IZR r * IZR r <= IZR Sq /\ IZR Sq + 1 <= (IZR r + 1) * (IZR r + 1))%R).
    { destruct BS as [B1 B2]. split.
      - apply IZR_le in B1. rewrite mult_IZR in B1. exact B1.
      - assert (B3 : Sq + 1 <= (r + 1) * (r + 1)) by lia. apply IZR_le in B3. rewrite plus_IZR, mult_IZR, plus_IZR in B3. exact B3. }
    assert (R0 : (0 <= IZR r)%R) by (apply (IZR_le 0); lia).
    assert (BY : (IZR r <= Y < IZR r + 1)%R).
    { split; [apply sq_le_sqrt|apply sq_lt_sqrt]; lra. }
    assert (EY : (Y = IZR r)%R <-> d = 0 /\ left = 0).
    { destruct Bl as [Bl1 Bl2]. split.
      - intros E. rewrite E in YY. assert (F0 : fr = 0%R) by lra. split; [|apply Bl2, F0].
        assert (E2 : IZR Sq = IZR (r * r)) by (rewrite mult_IZR; lra). apply eq_IZR in E2. lia.
      - intros [D0 L0]. apply Bl2 in L0. assert (E2 : Sq = r * r) by lia. rewrite E2, L0, mult_IZR in YY.
        assert (Y <= IZR r)%R by (apply sq_le_sqrt; lra). lra. }
    (* the code's register r2 *)
    rewrite Ez0.
    assert (Esh : shr false (2 * m) 0 (2 * RW) = 0).
    { unfold shr. rewrite Z.shiftr_0_l. reflexivity. }
    rewrite Esh. change (0 =? 0) with true. cbn [negb]. rewrite Bool.orb_false_r.
    assert (E2r : conv (dfmt (RW + 1) RW false) r 0 = 2 * r).
    { rewrite conv_dfmt_up by lia. change (wrap false) with wrapu. replace (RW + 1 - RW - 0) with 1 by lia. change (2 ^ 1) with 2.
      rewrite wrapu_id; [lia|]. rewrite pow2_succ by lia. lia. }
    rewrite E2r.
    set (rem := if ZF <? XF then negb (d =? 0) || negb (conv (dfmt (Z.max (XF - ZF) 1) (- ZF) false) x XF =? 0) else negb (d =? 0)).
    assert (Erem : (rem = false /\ Y = IZR r) \/ (rem = true /\ Y <> IZR r)).
    { assert (Er : rem = negb ((d =? 0) && (left =? 0))).
      { unfold rem, left. destruct (Z.ltb_spec ZF XF) as [L|L].
        - rewrite (Z.max_l (XF - ZF) 1) by lia. rewrite conv_dfmt_up by lia. change (wrap false) with wrapu.
          replace (XF - ZF - - ZF - XF) with 0 by lia. change (2 ^ 0) with 1. rewrite Z.mul_1_r.
          destruct (Z.leb_spec ZF XF); [|lia]. unfold wrapu. symmetry. apply Bool.negb_andb.
        - assert (E : (if ZF <=? XF then x mod 2 ^ (XF - ZF) else 0) = 0).
          { destruct (Z.leb_spec ZF XF); [|reflexivity]. replace (XF - ZF) with 0 by lia. apply Z.mod_1_r. }
          rewrite E. change (0 =? 0) with true. rewrite Bool.andb_true_r. reflexivity. }
      rewrite Er. destruct (Z.eqb_spec d 0) as [D|D], (Z.eqb_spec left 0) as [L|L]; cbn [andb negb].
      - left. split; [reflexivity|]. apply EY; split; assumption.
      - right. split; [reflexivity|]. intros E. apply EY in E. tauto.
      - right. split; [reflexivity|]. intros E. apply EY in E. tauto.
      - right. split; [reflexivity|]. intros E. apply EY in E. tauto. }
    assert (Esb : set_bit false (RW + 1) 0 rem (2 * r) = 2 * r + b2z rem).
    { rewrite set_bit_clear; [|lia|apply Z.testbit_even_0]. change (2 ^ 0) with 1. rewrite Z.mul_1_r. change (wrap false) with wrapu.
      apply wrapu_id. rewrite pow2_succ by lia. destruct rem; cbn [b2z]; lia. }
    rewrite Esb.
    set (h := match fQ f with RND_ZERO | RND_MIN_INF | RND_CONV | RND_CONV_ODD => b2z rem | _ => 0 end).
    assert (Eh : match fQ f with RND_ZERO | RND_MIN_INF | RND_CONV | RND_CONV_ODD => 2 * r + b2z rem | _ => 2 * r end = 2 * r + h).
    { unfold h. destruct (fQ f); lia. }
    rewrite Eh.
    assert (Bh : 0 <= h <= 1) by (unfold h; destruct (fQ f), rem; cbn [b2z]; lia).
    rewrite shift_right_ui_ok; [|lia|assumption|assumption|rewrite pow2_succ by lia; lia].
    replace (RW + 1 - RW + RF) with (1 + RF) by lia.
    pose proof (conv_converts2 f (2 * r + h) (- (1 + RF)) HfW) as C. rewrite Z.opp_involutive in C.
    apply converts2_R in C. destruct C as (zz & Rz & Lz). exists zz. split; [|exact Lz].
    assert (EK : (sqrt v * bpow2 (fF f) = Y / IZR (2 ^ (RF - fF f)))%R).
    { rewrite <- bpow2_IZR by (unfold guard in HK; destruct (fQ f); lia). unfold Y, Rdiv. rewrite <- bpow2_opp.
      rewrite Rmult_assoc, <- bpow2_add. do 2 f_equal. lia. }
    rewrite EK. apply (sticky_R _ r h); try assumption; try lia.
    - unfold h. destruct (fQ f); try reflexivity; destruct Erem as [[-> E]|[-> E]]; cbn [b2z]; tauto.
    - assert (K0 : 0 <= RF - fF f) by (unfold guard in HK; destruct (fQ f); lia).
      pose proof (pow2_pos (RF - fF f) K0) as PK.
      apply is_round_R; [lia|]. replace (IZR (2 * r + h) / IZR (2 * 2 ^ (RF - fF f)))%R with (IZR (2 * r + h) * bpow2 (- (1 + RF)) * bpow2 (fF f))%R; [exact Rz|].
      rewrite mult_IZR, <- bpow2_IZR by lia. rewrite <- bpow2_1, <- bpow2_add. unfold Rdiv. rewrite <- bpow2_opp.
      rewrite Rmult_assoc, <- bpow2_add. do 2 f_equal. lia.
  Qed.
End Fx.

Lemma bit0_mod e : b2z (Z.testbit e 0) = e mod 2.
Proof. rewrite Z.bit0_odd, Zmod_odd; destruct (Z.odd e); reflexivity. Qed.

(** The mantissa passed on by the ac_float overload is the root truncated to TF bits, scaled by the halved exponent. *)
Theorem sqrt_float_ok XW XI XQ TF mx e :
  2 <= XW -> 0 <= mx < 2 ^ (XW - 1) -> 1 <= TF + (XI + 1) / 2 ->
  let '(m, e2) := sqrt_float XW XI XQ TF TRN mx e in
  let V := (fxval mx (XW - XI) * bpow2 e)%R in
  (fxval m TF * bpow2 e2 <= sqrt V < fxval (m + 1) TF * bpow2 e2)%R.
Proof.
  intros HX Hm HT. unfold sqrt_float. cbv zeta.
  assert (ETI : (if Z.rem XI 2 =? 0 then Z.quot XI 2 else Z.quot (XI + 1) 2) = (XI + 1) / 2).
  { clear. destruct (Z.eqb_spec (Z.rem XI 2) 0); Z.to_euclidean_division_equations; lia. }
  rewrite ETI. set (TI := (XI + 1) / 2) in *.
  assert (E2 : 2 ^ XW = 2 * 2 ^ (XW - 1)) by (rewrite <- pow2_succ by lia; f_equal; lia).
  assert (EC : conv (Fmt XW XI false XQ WRAP) mx (XW - XI) = mx).
  { rewrite conv_unfold. unfold fF; cbn [fW fI fS fO fQ overflow]. rewrite Z.sub_diag. change (pw 0) with 1. rewrite qround_int, Z.mul_1_r.
    change (wrap false) with wrapu. apply wrapu_id; lia. }
  rewrite EC.
  rewrite bit0_mod. pose proof (Z.mod_pos_bound e 2 ltac:(lia)) as Be.
  rewrite shl_u by lia. assert (P : 2 ^ (e mod 2) = 1 \/ 2 ^ (e mod 2) = 2) by (assert (e mod 2 = 0 \/ e mod 2 = 1) as [->| ->] by lia; cbn; lia).
  rewrite Z.mod_small by (destruct P as [-> | ->]; lia).
  set (x := mx * 2 ^ (e mod 2)).
  assert (Bx : 0 <= x < 2 ^ XW) by (unfold x; destruct P as [-> | ->]; lia).
  set (f := Fmt (TF + TI) TI false TRN WRAP).
  destruct (sqrt_fx_ok XW XI f x ltac:(lia) HT eq_refl Bx) as (z & Rz & Lz).
  pose proof (sqrt_v_lt XW XI x ltac:(lia) Bx TI ltac:(unfold TI; pose proof (Z.div_mod (XI + 1) 2 ltac:(lia)); pose proof (Z.mod_pos_bound (XI + 1) 2); lia)) as Lt.
  set (v := fxval x (XW - XI)) in *.
  cbn [fQ fO fS fW f is_roundR is_limited lowest highest] in Rz, Lz. replace (fF f) with TF in Rz by (unfold fF; cbn; lia).
  assert (Bz : 0 <= z < 2 ^ (TF + TI)).
  { pose proof (sqrt_pos v) as S0. pose proof (bpow2_pos TF) as PT. split.
    - assert (0 < z + 1); [|lia]. apply lt_IZR. rewrite plus_IZR. pose proof (Rmult_le_pos _ _ S0 (Rlt_le _ _ PT)). lra.
    - apply lt_IZR. rewrite <- bpow2_IZR by lia. rewrite Z.add_comm, bpow2_add. pose proof (Rmult_lt_compat_r _ _ _ PT Lt). lra. }
  set (m := sqrt_fx XW XI f x) in *.
  assert (Em : m = z).
  { destruct Lz as [B [k K]]. assert (k = 0) by nia. subst k. lia. }
  rewrite Em. rewrite Z.shiftr_div_pow2 by lia. change (2 ^ 1) with 2.
  assert (EV : sqrt (fxval mx (XW - XI) * bpow2 e) = (sqrt v * bpow2 (e / 2))%R).
  { pose proof (bpow2_pos (e / 2)) as Pe. rewrite <- (sqrt_pow2 (bpow2 (e / 2))) at 1 by lra.
    rewrite <- sqrt_mult_alt by (apply (v_pos XW XI x Bx)). f_equal.
    unfold v, fxval, x. rewrite mult_IZR, <- (bpow2_IZR (e mod 2)) by lia.
    rewrite (Z.div_mod e 2) at 1 by lia. rewrite bpow2_add. replace (2 * (e / 2)) with (e / 2 + e / 2) by lia.
    rewrite bpow2_add. ring. }
  rewrite EV. unfold fxval.
  replace (IZR z * bpow2 (- TF) * bpow2 (e / 2))%R with (IZR z / bpow2 TF * bpow2 (e / 2))%R by (rewrite bpow2_opp; reflexivity).
  replace (IZR (z + 1) * bpow2 (- TF) * bpow2 (e / 2))%R with ((IZR z + 1) / bpow2 TF * bpow2 (e / 2))%R by (rewrite bpow2_opp, plus_IZR; reflexivity).
  pose proof (bpow2_pos (e / 2)) as Pe. pose proof (bpow2_pos TF) as PT. split.
  - apply Rmult_le_compat_r; [lra|]. apply Rmult_le_reg_r with (1 := PT). unfold Rdiv. rewrite Rmult_assoc, Rinv_l by lra. lra.
  - apply Rmult_lt_compat_r; [lra|]. apply Rmult_lt_reg_r with (1 := PT). unfold Rdiv. rewrite Rmult_assoc, Rinv_l by lra. lra.
Qed.
