(** Proofs for ac_shift: every overload converts the exact shifted value. *)
From Coq Require Import Lia ZifyBool.
From Verif Require Import AcTypes AcFacts ShiftModel ShiftFacts Spec SpecFacts.
Ltac Zify.zify_post_hook ::= idtac.

(** Final step: replace the temporary by the exact value. *)
Lemma finish o s q OW M K u Y :
  1 <= OW -> 0 <= K -> OW + K <= M ->
  (o = WRAP -> u mod 2 ^ M = Y mod 2 ^ M /\ (sign_dep q = true -> (u < 0 <-> Y < 0))) ->
  (o <> WRAP -> u = Y \/ (2 ^ M <= u /\ 2 ^ M <= Y) \/ (u <= - 2 ^ M /\ Y <= - 2 ^ M)) ->
  overflow o s OW (qround q u (2 ^ K)) = overflow o s OW (qround q Y (2 ^ K)).
Proof.
  intros HW HK HM Hw Hs.
  destruct o.
  - destruct (Hw eq_refl). eapply overflow_wrap_eq; eauto.
  - eapply overflow_sat_eq; eauto; try discriminate. apply Hs; discriminate.
  - eapply overflow_sat_eq; eauto; try discriminate. apply Hs; discriminate.
  - eapply overflow_sat_eq; eauto; try discriminate. apply Hs; discriminate.
Qed.

(** Conversion of a temporary with K more fraction bits than the output. *)
Lemma conv_tmp f u TF RH :
  0 <= RH -> fF f <= TF ->
  conv f u (TF + RH) = overflow (fO f) (fS f) (fW f) (qround (fQ f) u (2 ^ (TF - fF f + RH))).
Proof.
  intros; rewrite conv_unfold.
  rewrite (pw_nonneg_eq (TF + RH - fF f)) by lia.
  replace (TF + RH - fF f) with (TF - fF f + RH) by lia.
  destruct (Z.eq_dec (TF + RH) (fF f)).
  - rewrite (pw_nonpos_eq (fF f - (TF + RH))) by lia. rewrite Z.mul_1_r; reflexivity.
  - rewrite (pw_nonpos_eq (fF f - (TF + RH))) by lia. rewrite Z.mul_1_r; reflexivity.
Qed.

Lemma r_half_u_01 q : 0 <= r_half_u q <= 1. Proof. destruct q; simpl; lia. Qed.
Lemma r_bit_u_01 q : 0 <= r_bit_u q <= 1. Proof. destruct q; simpl; lia. Qed.
Lemma r_half_s_01 q : 0 <= r_half_s q <= 1. Proof. destruct q; simpl; lia. Qed.
Lemma r_bit_s_01 q : 0 <= r_bit_s q <= 1. Proof. destruct q; simpl; lia. Qed.
Lemma s_over_u_01 o : 0 <= s_over_u o <= 1. Proof. destruct o; simpl; lia. Qed.
Lemma s_over_u_wrap o : s_over_u o = 0 <-> o = WRAP. Proof. destruct o; simpl; split; congruence. Qed.
Lemma s_over_s_wrap o : s_over_s o = 1 <-> o = WRAP. Proof. destruct o; simpl; split; congruence. Qed.
Lemma s_over_s_12 o : s_over_s o = 1 \/ s_over_s o = 2. Proof. destruct o; simpl; lia. Qed.
Lemma b2z_01 b : 0 <= b2z b <= 1. Proof. destruct b; simpl; lia. Qed.

Lemma testbit_even_0 t : Z.testbit (t * 2) 0 = false.
Proof. rewrite Z.bit0_odd, Z.odd_mul. apply andb_false_r. Qed.
Lemma testbit_high_0 t M : 0 <= t < 2 ^ M -> 0 <= M -> Z.testbit t M = false.
Proof.
  intros Ht HM. apply Z.testbit_false; [lia|]. rewrite Z.div_small by lia. reflexivity.
Qed.

(** *** Unsigned overloads *)

(** The unsigned temporary after a right shift by n >= 0, with the sticky bit. *)
Lemma tmp_right_u (XW XI TI W2 : Z) q x n TF :
  let RH := r_half_u q in let TW := TI + TF in let D := TF - (XW - XI) in
  1 <= XW -> XI <= TI -> 0 <= D -> TW + RH <= W2 -> 0 <= x < 2 ^ XW -> 0 <= n ->
  let t := shr false TW (conv (dfmt TW TI false) x (XW - XI)) n in
  let t2 := wrapu W2 (t * 2 ^ RH) in
  (if RH =? 0 then t2
   else set_bit false W2 0 (nz (Z.land x (shift_mask XW XI false TW TI n))) t2) =
  (x * 2 ^ D) / 2 ^ n * 2 ^ RH + RH * b2z (nz ((x * 2 ^ D) mod 2 ^ n)) /\
  0 <= t * 2 ^ RH < 2 ^ W2.
Proof.
  intros RH TW D HXW HI HD HW2 Hx Hn t t2.
  pose proof (r_half_u_01 q) as HRH; fold RH in HRH.
  assert (HTW : XW + D <= TW) by (unfold TW, D in *; lia).
  pose proof (pow2_pos D HD) as HpD; pose proof (pow2_pos n Hn) as Hpn.
  assert (HX : 0 <= x * 2 ^ D < 2 ^ TW).
  { pose proof (pow2_le (XW + D) TW ltac:(lia)). rewrite pow2_add in * by lia. nia. }
  assert (Et : t = x * 2 ^ D / 2 ^ n).
  { unfold t, shr; simpl wrap.
    rewrite conv_dfmt_up by (unfold TW, D in *; lia). simpl wrap.
    replace (TW - TI - (XW - XI)) with D by (unfold TW, D; lia).
    rewrite (wrapu_id TW (x * 2 ^ D)) by lia.
    rewrite Z.shiftr_div_pow2 by lia. apply wrapu_id.
    split; [apply Z.div_pos; lia|]. apply Z.div_lt_upper_bound; [lia|]. nia. }
  assert (Bt : 0 <= t < 2 ^ TW).
  { rewrite Et. split; [apply Z.div_pos; lia|]. apply Z.div_lt_upper_bound; [lia|]. nia. }
  assert (HpR := pow2_pos RH ltac:(lia)).
  assert (Bt2 : 0 <= t * 2 ^ RH /\ t * 2 ^ RH + 2 ^ RH <= 2 ^ W2).
  { pose proof (pow2_le (TW + RH) W2 ltac:(lia)). rewrite pow2_add in * by lia. nia. }
  split; [|lia].
  assert (Et2 : t2 = t * 2 ^ RH) by (unfold t2; apply wrapu_id; lia).
  rewrite Et2, <- Et.
  destruct (Z.eqb_spec RH 0) as [H0|H1].
  - rewrite H0, Z.mul_0_l, Z.add_0_r. reflexivity.
  - assert (E1 : RH = 1) by lia. rewrite E1 in *. change (2 ^ 1) with 2 in *.
    rewrite set_bit_clear by (try lia; apply testbit_even_0).
    rewrite Z.pow_0_r, Z.mul_1_r, Z.mul_1_l.
    rewrite shift_mask_right by (unfold TW, D in *; lia).
    replace (TW - TI - (XW - XI)) with D by (unfold TW, D; lia).
    rewrite nz_land_low by (try (unfold clamp; lia); unfold in_range, imin, imax; lia).
    rewrite (nz_mod_shift false XW) by (try lia; unfold in_range, imin, imax; lia).
    simpl wrap. apply wrapu_id.
    pose proof (b2z_01 (nz ((x * 2 ^ D) mod 2 ^ n))). lia.
Qed.

(** The unsigned temporary after a left shift by k >= 0, with the overflow bit. *)
Lemma tmp_left_u (XW XI TI RH W2 : Z) x k TF :
  let TW := TI + TF in let D := TF - (XW - XI) in let M := TW + RH in
  1 <= XW -> XI <= TI -> 0 <= D -> 0 <= RH -> W2 = M + 1 -> 0 <= x < 2 ^ XW -> 0 <= k ->
  let t := shl false TW (conv (dfmt TW TI false) x (XW - XI)) k in
  let t2 := wrapu W2 (t * 2 ^ RH) in
  let u := set_bit false W2 M (nz (Z.land x (shift_mask XW XI false TW TI (- k)))) t2 in
  let Y := x * 2 ^ D * 2 ^ k * 2 ^ RH in
  u = Y \/ (2 ^ M <= u /\ 2 ^ M <= Y).
Proof.
  intros TW D M HXW HI HD HRH HW2 Hx Hk t t2 u Y.
  assert (HTW : XW + D <= TW) by (unfold TW, D in *; lia).
  pose proof (pow2_pos D HD) as HpD; pose proof (pow2_pos k Hk) as Hpk.
  pose proof (pow2_pos RH ltac:(lia)) as HpR; pose proof (pow2_pos TW ltac:(lia)) as HpT.
  assert (EM : 2 ^ M = 2 ^ TW * 2 ^ RH) by (unfold M; apply pow2_add; lia).
  assert (HX : 0 <= x * 2 ^ D < 2 ^ TW).
  { pose proof (pow2_le (XW + D) TW ltac:(lia)). rewrite pow2_add in * by lia. nia. }
  assert (Et : t = (x * 2 ^ D * 2 ^ k) mod 2 ^ TW).
  { unfold t, shl; simpl wrap.
    rewrite conv_dfmt_up by (unfold TW, D in *; lia). simpl wrap.
    replace (TW - TI - (XW - XI)) with D by (unfold TW, D; lia).
    rewrite (wrapu_id TW (x * 2 ^ D)) by lia.
    rewrite Z.shiftl_mul_pow2 by lia. reflexivity. }
  pose proof (Z.mod_pos_bound (x * 2 ^ D * 2 ^ k) (2 ^ TW) HpT) as Bt. rewrite <- Et in Bt.
  assert (Bt2 : 0 <= t * 2 ^ RH < 2 ^ M) by nia.
  assert (EW2 : 2 ^ W2 = 2 * 2 ^ M) by (rewrite HW2; apply pow2_succ; unfold M; lia).
  assert (Et2 : t2 = t * 2 ^ RH) by (unfold t2; apply wrapu_id; lia).
  assert (Eu : u = t * 2 ^ RH + b2z (nz (Z.land x (shift_mask XW XI false TW TI (- k)))) * 2 ^ M).
  { unfold u; rewrite Et2.
    rewrite set_bit_clear by (try (unfold M; lia); apply testbit_high_0; unfold M in *; lia).
    simpl wrap. apply wrapu_id.
    pose proof (b2z_01 (nz (Z.land x (shift_mask XW XI false TW TI (- k))))).
    split; [nia|]. nia. }
  rewrite shift_mask_left in Eu by (unfold TW, D in *; lia).
  set (e := clamp 0 XW (TI + (XW - XI) - k)) in *.
  assert (He : 0 <= e <= XW) by (unfold e, clamp; lia).
  rewrite nz_land_high in Eu by (try lia; unfold in_range, imin, imax; lia).
  rewrite nz_high_mask in Eu by lia.
  pose proof (pow2_pos e ltac:(lia)) as Hpe.
  (* no overflow *)
  assert (HY : Y = x * 2 ^ D * 2 ^ k * 2 ^ RH) by reflexivity.
  destruct (Z.lt_ge_cases (x * 2 ^ D * 2 ^ k) (2 ^ TW)) as [Hno|Hov].
  - left. rewrite Eu, Et, Z.mod_small by nia.
    replace (negb (e =? XW) && nz (x / 2 ^ e)) with false; [change (b2z false) with 0; lia|].
    destruct (Z.eqb_spec e XW); [reflexivity|]. simpl. symmetry. unfold nz.
    replace (x / 2 ^ e) with 0; [reflexivity|]. symmetry. apply Z.div_small. split; [lia|].
    destruct (Z.le_gt_cases 0 (TI + (XW - XI) - k)) as [H0|H0].
    + assert (Ee : e = TI + (XW - XI) - k) by (unfold e, clamp in *; lia).
      assert (E3 : 2 ^ TW = 2 ^ e * (2 ^ D * 2 ^ k)).
      { rewrite <- !pow2_add by lia. f_equal. unfold TW, D; lia. }
      nia.
    + assert (Ee : e = 0) by (unfold e, clamp in *; lia). rewrite Ee, Z.pow_0_r.
      assert (2 ^ TW < 2 ^ (D + k)) by (apply Z.pow_lt_mono_r; unfold TW, D in *; lia).
      rewrite pow2_add in * by lia. nia.
  - right. split; [|rewrite HY, EM; nia].
    rewrite Eu.
    replace (negb (e =? XW) && nz (x / 2 ^ e)) with true; [change (b2z true) with 1; lia|].
    assert (Hx1 : 2 ^ e <= x).
    { destruct (Z.le_gt_cases 0 (TI + (XW - XI) - k)) as [H0|H0].
      + destruct (Z.le_gt_cases (TI + (XW - XI) - k) XW) as [H1|H1].
        * assert (Ee : e = TI + (XW - XI) - k) by (unfold e, clamp in *; lia).
          assert (E3 : 2 ^ TW = 2 ^ e * (2 ^ D * 2 ^ k)).
          { rewrite <- !pow2_add by lia. f_equal. unfold TW, D; lia. }
          nia.
        * exfalso. assert (2 ^ (XW + D + k) <= 2 ^ TW) by (apply pow2_le; unfold TW, D in *; lia).
          rewrite !pow2_add in * by lia. nia.
      + assert (Ee : e = 0) by (unfold e, clamp in *; lia). rewrite Ee, Z.pow_0_r. nia. }
    destruct (Z.eqb_spec e XW) as [E|E]; [rewrite E in *; lia|]. simpl. symmetry.
    unfold nz. destruct (Z.eqb_spec (x / 2 ^ e) 0) as [E0|]; [|reflexivity].
    apply Z.div_small_iff in E0; lia.
Qed.

(** wrapping case of a left shift *)
Lemma tmp_left_u_wrap (XW XI TI RH W2 : Z) x k TF :
  let TW := TI + TF in let D := TF - (XW - XI) in let M := TW + RH in
  1 <= XW -> XI <= TI -> 0 <= D -> 0 <= RH -> W2 = M -> 0 <= x < 2 ^ XW -> 0 <= k ->
  let t := shl false TW (conv (dfmt TW TI false) x (XW - XI)) k in
  let t2 := wrapu W2 (t * 2 ^ RH) in
  let Y := x * 2 ^ D * 2 ^ k * 2 ^ RH in
  t2 mod 2 ^ M = Y mod 2 ^ M /\ 0 <= t2 /\ 0 <= Y.
Proof.
  intros TW D M HXW HI HD HRH HW2 Hx Hk t t2 Y.
  assert (HTW : XW + D <= TW) by (unfold TW, D in *; lia).
  pose proof (pow2_pos D HD) as HpD; pose proof (pow2_pos k Hk) as Hpk.
  pose proof (pow2_pos RH ltac:(lia)) as HpR; pose proof (pow2_pos TW ltac:(lia)) as HpT.
  pose proof (pow2_pos M ltac:(unfold M; lia)) as HpM.
  assert (EM : 2 ^ M = 2 ^ TW * 2 ^ RH) by (unfold M; apply pow2_add; lia).
  assert (HX : 0 <= x * 2 ^ D < 2 ^ TW).
  { pose proof (pow2_le (XW + D) TW ltac:(lia)). rewrite pow2_add in * by lia. nia. }
  assert (Et : t = (x * 2 ^ D * 2 ^ k) mod 2 ^ TW).
  { unfold t, shl; simpl wrap.
    rewrite conv_dfmt_up by (unfold TW, D in *; lia). simpl wrap.
    replace (TW - TI - (XW - XI)) with D by (unfold TW, D; lia).
    rewrite (wrapu_id TW (x * 2 ^ D)) by lia.
    rewrite Z.shiftl_mul_pow2 by lia. reflexivity. }
  unfold t2; rewrite HW2.
  repeat split.
  - unfold wrapu. rewrite Z.mod_mod by lia. rewrite Et. unfold Y.
    rewrite EM. rewrite !Z.mul_mod_distr_r by lia. rewrite Z.mod_mod by lia. reflexivity.
  - apply wrapu_range; unfold M; lia.
  - unfold Y; nia.
Qed.

(** Conversion t2 = t keeps the value. *)
Lemma conv_t2 W2 I2 s t TF RH :
  W2 - I2 = TF + RH -> 0 <= RH -> conv (dfmt W2 I2 s) t TF = wrap s W2 (t * 2 ^ RH).
Proof. intros. rewrite conv_dfmt_up by lia. do 3 f_equal. lia. Qed.

Section Unsigned.
  Variables (XW XI : Z) (f : fmt) (x : Z).
  Hypothesis HXW : 1 <= XW.
  Hypothesis HOW : 1 <= fW f.
  Hypothesis HfS : fS f = false.
  Hypothesis Hx : 0 <= x < 2 ^ XW.

  Let RB := r_bit_u (fQ f).
  Let RH := r_half_u (fQ f).
  Let TF := Z.max (XW - XI) (fW f - fI f + RB).
  Let D := TF - (XW - XI).

  Lemma TF_facts : 0 <= RB <= 1 /\ 0 <= RH <= 1 /\ 0 <= D /\ fF f + RB <= TF /\ XW - XI <= TF.
  Proof.
    pose proof (r_bit_u_01 (fQ f)); pose proof (r_half_u_01 (fQ f)).
    change (r_bit_u (fQ f)) with RB in H. change (r_half_u (fQ f)) with RH in H0.
    clearbody RB RH. unfold D, TF, fF. lia.
  Qed.

  (** the exact result in terms of the temporary scale *)
  Lemma exact_right n : 0 <= n ->
    conv f x (XW - XI + n) =
    overflow (fO f) (fS f) (fW f)
      (qround (fQ f) (x * 2 ^ D / 2 ^ n * 2 ^ RH + RH * b2z (nz ((x * 2 ^ D) mod 2 ^ n)))
         (2 ^ (TF - fF f + RH))).
  Proof.
    intros Hn. destruct TF_facts as (H1 & H2 & H3 & H4 & H5).
    replace (XW - XI + n) with (XW - XI - - n) by lia.
    rewrite (conv_core f x (XW - XI) TF) by lia. f_equal. fold D.
    rewrite (pw_nonpos_eq (- n)), (pw_nonneg_eq (- - n)), Z.mul_1_r by lia.
    replace (- - n) with n by lia.
    pose proof (pow2_pos D H3). pose proof (pow2_pos n Hn).
    apply (qround_sticky_u (fQ f)); fold RB; [lia|nia|lia].
  Qed.
  Lemma exact_left k : 0 <= k ->
    conv f x (XW - XI - k) =
    overflow (fO f) (fS f) (fW f)
      (qround (fQ f) (x * 2 ^ D * 2 ^ k * 2 ^ RH) (2 ^ (TF - fF f + RH))).
  Proof.
    intros Hk. destruct TF_facts as (H1 & H2 & H3 & H4 & H5).
    rewrite (conv_core f x (XW - XI) TF) by lia. f_equal. fold D.
    rewrite (pw_nonpos_eq (- k)), (pw_nonneg_eq k) by lia.
    rewrite Z.mul_1_l.
    pose proof (pow2_pos (TF - fF f) ltac:(lia)).
    rewrite pow2_add by lia.
    symmetry. apply qround_scale; [assumption|apply pow2_pos; lia].
  Qed.

  Lemma shift_right_uu_ok n :
    0 <= n < 2 ^ 31 -> shift_right_uu XW XI f x n = conv f x (XW - XI + n).
  Proof.
    intros Hn. destruct TF_facts as (H1 & H2 & H3 & H4 & H5).
    unfold shift_right_uu. fold RB RH TF.
    assert (Hun : Z.land 2147483647 n = n).
    { rewrite Z.land_comm. change 2147483647 with (2 ^ 31 - 1).
      rewrite land_ones_mod, Z.mod_small by lia; reflexivity. }
    rewrite Hun.
    rewrite (conv_t2 (XI + TF + RH) XI false _ TF RH) by lia. change (wrap false) with wrapu.
    destruct (tmp_right_u XW XI XI (XI + TF + RH) (fQ f) x n TF) as [E _]; try (fold RH; fold D; lia).
    fold RH in E. cbv zeta in E. rewrite E. fold D.
    rewrite conv_tmp by lia. rewrite exact_right by lia. reflexivity.
  Qed.

  (** common part of the two int-count overloads: shift right by [n] of any sign *)
  Lemma unsigned_int_ok n t (mask : Z) :
    let SO := s_over_u (fO f) in
    let TI := Z.max XI (fI f) in
    let TW := TI + TF in
    let W2 := TW + RH + SO in
    t = wrapu TW (Z.shiftr (conv (dfmt TW TI false) x (XW - XI)) n) ->
    mask = shift_mask XW XI false TW TI n ->
    let t2 := conv (dfmt W2 (TI + SO) false) t TF in
    conv f (if (RH =? 0) && (SO =? 0) then t2
            else if 0 <=? n
                 then if RH =? 0 then t2 else set_bit false W2 0 (nz (Z.land x mask)) t2
                 else if SO =? 0 then t2 else set_bit false W2 (W2 - 1) (nz (Z.land x mask)) t2)
         (TF + RH) = conv f x (XW - XI + n).
  Proof.
    intros SO TI TW W2 Ht Hm t2. destruct TF_facts as (H1 & H2 & H3 & H4 & H5).
    pose proof (s_over_u_01 (fO f)) as HSO; fold SO in HSO.
    assert (HTI : XI <= TI /\ fI f <= TI) by (unfold TI; lia).
    assert (HTW : XW + D <= TW) by (unfold TW, D in *; lia).
    assert (Et2 : t2 = wrapu W2 (t * 2 ^ RH)).
    { unfold t2. rewrite (conv_t2 W2 (TI + SO) false t TF RH) by (unfold W2, TW; lia). reflexivity. }
    destruct (Z.leb_spec 0 n) as [Hn|Hn].
    - (* right shift *)
      destruct (tmp_right_u XW XI TI W2 (fQ f) x n TF) as [E B]; try (fold RH; fold D; unfold W2, TW in *; lia).
      fold RH in E. fold TW in E, B. fold D in E.
      assert (Et : t = shr false TW (conv (dfmt TW TI false) x (XW - XI)) n) by (rewrite Ht; reflexivity).
      rewrite <- Et in E, B. rewrite <- Hm in E. rewrite <- Et2 in E.
      rewrite exact_right by lia. rewrite conv_tmp by lia.
      rewrite <- E.
      destruct (Z.eqb_spec RH 0); simpl; [destruct (SO =? 0); reflexivity|reflexivity].
    - (* left shift *)
      set (k := - n). assert (Hk : 0 <= k) by (unfold k; lia).
      replace (XW - XI + n) with (XW - XI - k) by (unfold k; lia).
      rewrite exact_left by lia. rewrite conv_tmp by lia.
      assert (Et : t = shl false TW (conv (dfmt TW TI false) x (XW - XI)) k).
      { rewrite Ht. unfold shl, k. simpl wrap. rewrite Z.shiftl_opp_r. reflexivity. }
      assert (Hm' : mask = shift_mask XW XI false TW TI (- k)) by (rewrite Hm; f_equal; unfold k; lia).
      rewrite HfS.
      apply (finish _ _ _ _ (TW + RH)); try lia.
      { unfold TW, fF. lia. }
      + intros Ho. assert (HS0 : SO = 0) by (apply s_over_u_wrap; assumption).
        rewrite HS0. rewrite andb_true_r. change (0 =? 0) with true.
        destruct (tmp_left_u_wrap XW XI TI RH W2 x k TF) as (E & P1 & P2);
          try (fold D; unfold W2, TW in *; lia).
        fold TW in E, P1. fold D in E, P2. rewrite <- Et in E, P1. rewrite <- Et2 in E, P1.
        destruct (RH =? 0); (split; [exact E|intros; lia]).
      + intros Ho. assert (HS1 : SO = 1).
        { assert (SO <> 0) by (intros HS; apply Ho, s_over_u_wrap; assumption). lia. }
        rewrite HS1. rewrite andb_false_r. change (1 =? 0) with false.
        pose proof (tmp_left_u XW XI TI RH W2 x k TF) as E. fold TW in E. fold D in E.
        specialize (E ltac:(lia) ltac:(lia) ltac:(lia) ltac:(lia) ltac:(unfold W2; lia) ltac:(lia) Hk).
        cbv zeta in E. rewrite <- Et in E. rewrite <- Hm' in E. rewrite <- Et2 in E.
        replace (TW + RH) with (W2 - 1) in * by (unfold W2; lia).
        destruct E as [E|E]; [left; exact E|right; left; exact E].
  Qed.

  Lemma shift_right_ui_ok n : shift_right_ui XW XI f x n = conv f x (XW - XI + n).
  Proof.
    unfold shift_right_ui. apply unsigned_int_ok; reflexivity.
  Qed.
  Lemma shift_left_ui_ok n : shift_left_ui XW XI f x n = conv f x (XW - XI - n).
  Proof.
    unfold shift_left_ui. fold RB RH TF.
    replace (XW - XI - n) with (XW - XI + - n) by lia.
    rewrite <- (unsigned_int_ok (- n) _ _ eq_refl eq_refl).
    set (t := shl _ _ _ n). set (t' := wrapu _ (Z.shiftr _ (- n))).
    assert (Et : t = t').
    { unfold t, t', shl; simpl wrap. rewrite Z.shiftr_opp_r; reflexivity. }
    rewrite <- Et. cbv zeta.
    destruct ((RH =? 0) && (s_over_u (fO f) =? 0)); [reflexivity|].
    destruct (Z.eq_dec n 0) as [->|Hn0].
    - (* n = 0: nothing lost, nothing overflows *)
      change (0 <? 0) with false. change (0 <=? - 0) with true. cbv iota.
      destruct TF_facts as (H1 & H2 & H3 & H4 & H5).
      set (TI := Z.max XI (fI f)) in *. set (TW := TI + TF) in *. set (SO := s_over_u (fO f)) in *.
      set (W2 := TW + RH + SO) in *.
      assert (HXR : in_range false XW x) by (unfold in_range, imin, imax; lia).
      assert (HTW : XW + D <= TW) by (unfold TW, D, TI in *; lia).
      pose proof (r_half_u_01 (fQ f)) as HRH; fold RH in HRH.
      pose proof (s_over_u_01 (fO f)) as HSO; fold SO in HSO.
      assert (Em1 : nz (Z.land x (shift_mask XW XI false TW TI (- 0))) = false).
      { change (- 0) with 0.
        rewrite shift_mask_right by (unfold TW, D, TI in *; lia).
        rewrite nz_land_low by (try (unfold clamp; lia); assumption).
        replace (clamp 0 XW (0 - _)) with 0 by (unfold clamp, TW, D, TI in *; lia).
        rewrite Z.pow_0_r, Z.mod_1_r. reflexivity. }
      rewrite Em1.
      set (t2 := conv (dfmt W2 (TI + SO) false) t TF).
      assert (Et2 : t2 = wrapu W2 (t * 2 ^ RH)).
      { unfold t2. rewrite (conv_t2 W2 (TI + SO) false t TF RH) by (unfold W2, TW; lia). reflexivity. }
      assert (Bt : 0 <= t < 2 ^ TW).
      { unfold t, shl; simpl wrap. apply wrapu_range. unfold TW, D, TI in *; lia. }
      pose proof (pow2_pos RH ltac:(lia)) as HpR.
      assert (HTW0 : 0 <= TW) by lia.
      pose proof (pow2_add TW RH HTW0 ltac:(lia)) as EM.
      pose proof (pow2_le (TW + RH) W2 ltac:(unfold W2; lia)) as LM.
      assert (Bt2 : 0 <= t * 2 ^ RH < 2 ^ (TW + RH)) by nia.
      rewrite (wrapu_id W2) in Et2 by lia.
      assert (R1 : (if SO =? 0 then t2 else set_bit false W2 (W2 - 1) false t2) = t2).
      { destruct (Z.eqb_spec SO 0); [reflexivity|].
        assert (SO = 1) by lia.
        rewrite set_bit_clear.
        - simpl b2z. rewrite Z.mul_0_l, Z.add_0_r. simpl wrap. apply wrapu_id. rewrite Et2. lia.
        - unfold W2; lia.
        - replace (W2 - 1) with (TW + RH) by (unfold W2; lia). apply testbit_high_0; [rewrite Et2; lia|lia]. }
      assert (R2 : (if RH =? 0 then t2 else set_bit false W2 0 false t2) = t2).
      { destruct (Z.eqb_spec RH 0); [reflexivity|].
        assert (RH = 1) as E1 by lia. rewrite E1 in *. change (2 ^ 1) with 2 in *.
        rewrite set_bit_clear.
        - simpl b2z. rewrite Z.mul_0_l, Z.add_0_r. simpl wrap. apply wrapu_id. rewrite Et2. lia.
        - lia.
        - rewrite Et2. apply testbit_even_0. }
      rewrite R1, R2. reflexivity.
    - replace (n <? 0) with (0 <=? - n); [reflexivity|].
      destruct (Z.leb_spec 0 (- n)), (Z.ltb_spec n 0); lia.
  Qed.

  Lemma shift_left_uu_ok n : 0 <= n -> shift_left_uu XW XI f x n = conv f x (XW - XI - n).
  Proof.
    intros Hn. unfold shift_left_uu.
    (* here the temporary keeps exactly the input's fraction bits *)
    set (SO := s_over_u (fO f)). set (TI := Z.max XI (fI f)). set (TF0 := XW - XI).
    set (TW := TI + TF0). set (W2 := TW + SO).
    pose proof (s_over_u_01 (fO f)) as HSO; fold SO in HSO.
    assert (HTI : XI <= TI /\ fI f <= TI) by (unfold TI; lia).
    assert (HTW : XW <= TW) by (unfold TW, TF0 in *; lia).
    set (t := shl false TW (conv (dfmt TW TI false) x TF0) n).
    rewrite (conv_t2 W2 (TI + SO) false t TF0 0) by (unfold W2, TW; lia). change (wrap false) with wrapu.
    set (t2 := wrapu W2 (t * 2 ^ 0)).
    set (u := if SO =? 0 then t2 else _).
    set (Y := x * 2 ^ (TF0 - (XW - XI)) * 2 ^ n * 2 ^ 0).
    assert (EY : Y = x * 2 ^ n).
    { unfold Y, TF0. rewrite Z.sub_diag, !Z.pow_0_r. lia. }
    (* the value handed to the output conversion, at the input scale *)
    assert (Hu : (fO f = WRAP -> u mod 2 ^ TW = Y mod 2 ^ TW /\ 0 <= u /\ 0 <= Y) /\
                 (fO f <> WRAP -> u = Y \/ (2 ^ TW <= u /\ 2 ^ TW <= Y))).
    { split; intros Ho.
      - assert (HS0 : SO = 0) by (apply s_over_u_wrap; assumption).
        unfold u; rewrite HS0. change (0 =? 0) with true. cbv iota.
        pose proof (tmp_left_u_wrap XW XI TI 0 W2 x n TF0) as E. fold TW in E. cbv zeta in E.
        rewrite Z.add_0_r in E. apply E; unfold W2, TF0; lia.
      - assert (HS1 : SO = 1).
        { assert (SO <> 0) by (intros HS; apply Ho, s_over_u_wrap; assumption). lia. }
        unfold u; rewrite HS1. change (1 =? 0) with false. cbv iota.
        pose proof (tmp_left_u XW XI TI 0 W2 x n TF0) as E. fold TW in E. cbv zeta in E.
        rewrite Z.add_0_r in E.
        replace (W2 - 1) with TW by (unfold W2; lia).
        apply E; unfold W2, TF0; lia. }
    destruct Hu as [Hw Hs].
    (* output fraction bits may exceed the temporary's *)
    rewrite conv_unfold. rewrite (conv_unfold f x). fold TF0.
    set (F := fF f).
    assert (EQ : qround (fQ f) (x * pw (F - (TF0 - n))) (pw (TF0 - n - F)) =
                 qround (fQ f) (Y * pw (F - TF0)) (pw (TF0 - F))).
    { apply qround_eqq; try apply pw_pos. rewrite EY. unfold pw.
      transitivity (x * (2 ^ Z.max 0 (F - (TF0 - n)) * 2 ^ Z.max 0 (TF0 - F))); [ring|].
      transitivity (x * (2 ^ n * 2 ^ Z.max 0 (F - TF0) * 2 ^ Z.max 0 (TF0 - n - F))); [|ring].
      rewrite <- !pow2_add by lia. do 2 f_equal; lia. }
    rewrite EQ.
    pose proof (pw_pos (F - TF0)) as Hpw.
    assert (EM : 2 ^ (TW + Z.max 0 (F - TF0)) = 2 ^ TW * pw (F - TF0)).
    { unfold pw. apply pow2_add; lia. }
    unfold pw at 2 4.
    rewrite HfS.
    apply (finish _ _ _ _ (TW + Z.max 0 (F - TF0))); try lia.
    - unfold TW, TF0, F, fF in *. lia.
    - intros Ho. destruct (Hw Ho) as (E & P1 & P2). split.
      + rewrite EM, !Z.mul_mod_distr_r by (pose proof (pow2_pos TW ltac:(lia)); lia). rewrite E; reflexivity.
      + intros _. nia.
    - intros Ho. destruct (Hs Ho) as [E|[E1 E2]].
      + left; rewrite E; reflexivity.
      + right; left. rewrite EM. split; apply Z.mul_le_mono_nonneg_r; auto using Z.lt_le_incl.
  Qed.
End Unsigned.

(** *** Signed overloads *)

Lemma xs_sign W x : 1 <= W -> - 2 ^ (W - 1) <= x < 2 ^ (W - 1) -> Z.testbit x (W - 1) = (x <? 0).
Proof.
  intros HW Hx. pose proof (pow2_pos (W - 1) ltac:(lia)).
  pose proof (testbit_b2z x (W - 1) ltac:(lia)) as E.
  destruct (Z.ltb_spec x 0).
  - replace (x / 2 ^ (W - 1)) with (-1) in E.
    + destruct (Z.testbit x (W - 1)); [reflexivity|discriminate E].
    + symmetry. apply (div_eq _ _ _ (x + 2 ^ (W - 1))); lia.
  - rewrite Z.div_small in E by lia. destruct (Z.testbit x (W - 1)); [discriminate E|reflexivity].
Qed.

(** Writing the sign bit of a signed value. *)
Lemma set_top W b v :
  1 <= W -> set_bit true W (W - 1) b v = v mod 2 ^ (W - 1) - b2z b * 2 ^ (W - 1).
Proof.
  intros HW. rewrite set_bit_eq by lia. pose proof (pow2_pos (W - 1) ltac:(lia)) as Hp.
  pose proof (pow2_half W ltac:(lia)) as Eh.
  apply wrap_unique; [lia| |].
  - pose proof (Z.mod_pos_bound v (2 ^ (W - 1)) Hp). pose proof (b2z_01 b).
    unfold in_range, imin, imax. destruct b; simpl b2z in *; lia.
  - rewrite testbit_b2z by lia.
    pose proof (Z.div_mod v (2 ^ (W - 1)) ltac:(lia)) as E1.
    pose proof (Z.div_mod (v / 2 ^ (W - 1)) 2 ltac:(lia)) as E2.
    set (p := 2 ^ (W - 1)) in *. rewrite Eh.
    set (q := v / p) in *. set (r := v mod p) in *.
    apply (proj2 (mod_eq_add_mul _ _ (2 * p) ltac:(lia))) || idtac.
    replace (v + (b2z b - q mod 2) * p) with (r - b2z b * p + (q / 2 + b2z b) * (2 * p)) by nia.
    rewrite Z.mod_add by lia. reflexivity.
Qed.

(** Writing the bit below the sign bit. *)
Lemma set_second W b (c r : Z) :
  2 <= W -> 0 <= r < 2 ^ (W - 1) -> 0 <= c <= 1 ->
  set_bit true W (W - 2) b (r - c * 2 ^ (W - 1)) =
  r mod 2 ^ (W - 2) + b2z b * 2 ^ (W - 2) - c * 2 ^ (W - 1).
Proof.
  intros HW Hr Hc. rewrite set_bit_eq by lia. pose proof (pow2_pos (W - 2) ltac:(lia)) as Hp.
  pose proof (pow2_half W ltac:(lia)) as Eh.
  pose proof (pow2_half (W - 1) ltac:(lia)) as Eh2. replace (W - 1 - 1) with (W - 2) in Eh2 by lia.
  rewrite testbit_b2z by lia. rewrite Eh2. set (p := 2 ^ (W - 2)) in *.
  replace ((r - c * (2 * p)) / p) with (r / p + (- 2 * c)).
  2:{ rewrite <- Z.div_add by lia. f_equal. ring. }
  replace ((r / p + -2 * c) mod 2) with (r / p).
  2:{ replace (r / p + - 2 * c) with (r / p + (- c) * 2) by ring. rewrite Z.mod_add by lia.
      symmetry; apply Z.mod_small. split; [apply Z.div_pos; lia|apply Z.div_lt_upper_bound; lia]. }
  pose proof (Z.div_mod r p ltac:(lia)) as E1.
  pose proof (Z.mod_pos_bound r p Hp). pose proof (b2z_01 b).
  replace (r - c * (2 * p) + (b2z b - r / p) * p) with (r mod p + b2z b * p - c * (2 * p)) by nia.
  apply wrap_id; [lia|]. unfold in_range, imin, imax. rewrite Eh2. fold p.
  assert (b2z b = 0 \/ b2z b = 1) as [->| ->] by lia; assert (c = 0 \/ c = 1) as [->| ->] by lia; lia.
Qed.

Lemma wraps_mod W v : 1 <= W -> wraps W v mod 2 ^ W = v mod 2 ^ W.
Proof. intros; exact (wrap_mod true W v ltac:(lia)). Qed.

Section Signed.
  Variables (XW XI : Z) (x : Z).
  Hypothesis HXW : 1 <= XW.
  Hypothesis Hx : - 2 ^ (XW - 1) <= x < 2 ^ (XW - 1).

  (** right shift *)
  Lemma tmp_right_s (TI W2 : Z) q n TF :
    let RH := r_half_s q in let TW := TI + TF in let D := TF - (XW - XI) in
    XI <= TI -> 0 <= D -> TW + RH <= W2 -> 0 <= n ->
    let t := shr true TW (conv (dfmt TW TI true) x (XW - XI)) n in
    let t2 := wraps W2 (t * 2 ^ RH) in
    (if RH =? 0 then t2
     else set_bit true W2 0 (nz (Z.land x (shift_mask XW XI true TW TI n))) t2) =
    (x * 2 ^ D) / 2 ^ n * 2 ^ RH + RH * b2z (nz ((x * 2 ^ D) mod 2 ^ n)).
  Proof.
    intros RH TW D HI HD HW2 Hn t t2.
    pose proof (r_half_s_01 q) as HRH; fold RH in HRH.
    assert (HTW : XW + D <= TW) by (unfold TW, D in *; lia).
    pose proof (pow2_pos D HD) as HpD; pose proof (pow2_pos n Hn) as Hpn.
    assert (HX : - 2 ^ (TW - 1) <= x * 2 ^ D < 2 ^ (TW - 1)).
    { pose proof (pow2_le (XW - 1 + D) (TW - 1) ltac:(lia)). rewrite pow2_add in * by lia. nia. }
    assert (Bd : - 2 ^ (TW - 1) <= x * 2 ^ D / 2 ^ n < 2 ^ (TW - 1)).
    { split; [apply Z.div_le_lower_bound; [lia|]|apply Z.div_lt_upper_bound; [lia|]]; nia. }
    assert (Et : t = x * 2 ^ D / 2 ^ n).
    { unfold t, shr; change (wrap true) with wraps.
      rewrite conv_dfmt_up by (unfold TW, D in *; lia). change (wrap true) with wraps.
      replace (TW - TI - (XW - XI)) with D by (unfold TW, D; lia).
      rewrite (wraps_id TW (x * 2 ^ D)) by lia.
      rewrite Z.shiftr_div_pow2 by lia. apply wraps_id; lia. }
    rewrite <- Et in Bd.
    assert (HpR := pow2_pos RH ltac:(lia)).
    assert (Bt2 : - 2 ^ (W2 - 1) <= t * 2 ^ RH /\ t * 2 ^ RH + 2 ^ RH <= 2 ^ (W2 - 1)).
    { pose proof (pow2_le (TW - 1 + RH) (W2 - 1) ltac:(lia)). rewrite pow2_add in * by lia. nia. }
    assert (Et2 : t2 = t * 2 ^ RH) by (unfold t2; apply wraps_id; lia).
    rewrite Et2, <- Et.
    destruct (Z.eqb_spec RH 0) as [H0|H1].
    - rewrite H0, Z.mul_0_l, Z.add_0_r. reflexivity.
    - assert (E1 : RH = 1) by lia. rewrite E1 in *. change (2 ^ 1) with 2 in *.
      rewrite set_bit_clear by (try lia; apply testbit_even_0).
      rewrite Z.pow_0_r, Z.mul_1_r, Z.mul_1_l.
      rewrite shift_mask_right by (unfold TW, D in *; lia).
      replace (TW - TI - (XW - XI)) with D by (unfold TW, D; lia).
      rewrite nz_land_low by (try (unfold clamp; lia); unfold in_range, imin, imax; lia).
      rewrite (nz_mod_shift true XW) by (try lia; unfold in_range, imin, imax; lia).
      change (wrap true) with wraps. apply wraps_id; [lia|].
      pose proof (b2z_01 (nz ((x * 2 ^ D) mod 2 ^ n))). lia.
  Qed.

  (** left shift *)
  Lemma tmp_left_s (TI RH W2 : Z) k TF :
    let TW := TI + TF in let D := TF - (XW - XI) in let M := TW + RH in
    XI <= TI -> 0 <= D -> 0 <= RH -> M + 1 <= W2 -> 0 <= k ->
    let t := shl true TW (conv (dfmt TW TI true) x (XW - XI)) k in
    let t2 := wraps W2 (t * 2 ^ RH) in
    let Y := x * 2 ^ D * 2 ^ k * 2 ^ RH in
    t2 mod 2 ^ M = Y mod 2 ^ M /\ t2 = t * 2 ^ RH /\ - 2 ^ (M - 1) <= t2 < 2 ^ (M - 1) /\
    t = wraps TW (x * 2 ^ D * 2 ^ k).
  Proof.
    intros TW D M HI HD HRH HW2 Hk t t2 Y.
    assert (HTW : XW + D <= TW) by (unfold TW, D in *; lia).
    pose proof (pow2_pos D HD) as HpD; pose proof (pow2_pos k Hk) as Hpk.
    pose proof (pow2_pos RH ltac:(lia)) as HpR; pose proof (pow2_pos TW ltac:(lia)) as HpT.
    assert (EM : 2 ^ M = 2 ^ TW * 2 ^ RH) by (unfold M; apply pow2_add; lia).
    assert (EM1 : 2 ^ (M - 1) = 2 ^ (TW - 1) * 2 ^ RH).
    { unfold M. replace (TW + RH - 1) with (TW - 1 + RH) by lia. apply pow2_add; lia. }
    assert (HX : - 2 ^ (TW - 1) <= x * 2 ^ D < 2 ^ (TW - 1)).
    { pose proof (pow2_le (XW - 1 + D) (TW - 1) ltac:(lia)). rewrite pow2_add in * by lia. nia. }
    assert (Et : t = wraps TW (x * 2 ^ D * 2 ^ k)).
    { unfold t, shl; change (wrap true) with wraps.
      rewrite conv_dfmt_up by (unfold TW, D in *; lia). change (wrap true) with wraps.
      replace (TW - TI - (XW - XI)) with D by (unfold TW, D; lia).
      rewrite (wraps_id TW (x * 2 ^ D)) by lia.
      rewrite Z.shiftl_mul_pow2 by lia. reflexivity. }
    pose proof (wraps_range TW (x * 2 ^ D * 2 ^ k) ltac:(lia)) as Bt. rewrite <- Et in Bt.
    pose proof (pow2_le (M - 1) (W2 - 1) ltac:(lia)) as LM.
    assert (Bt2 : - 2 ^ (M - 1) <= t * 2 ^ RH < 2 ^ (M - 1)) by nia.
    assert (Et2 : t2 = t * 2 ^ RH) by (unfold t2; apply wraps_id; lia).
    rewrite Et2. split; [|repeat split; first [assumption|lia]].
    rewrite Et. unfold Y. rewrite EM. rewrite !Z.mul_mod_distr_r by lia.
    rewrite wraps_mod by lia. reflexivity.
  Qed.

  Lemma over_wrap (M mask t2 Y : Z) :
    1 <= M -> t2 mod 2 ^ M = Y mod 2 ^ M ->
    (x < 0 <-> Y < 0) ->
    let u := set_over_s XW x mask (M + 1) false t2 in
    u mod 2 ^ M = Y mod 2 ^ M /\ (u < 0 <-> Y < 0).
  Proof.
    intros HM Hm HY u. unfold u, set_over_s. cbn [andb].
    rewrite set_top by lia. replace (M + 1 - 1) with M by lia.
    pose proof (pow2_pos M ltac:(lia)) as Hp.
    pose proof (Z.mod_pos_bound t2 (2 ^ M) Hp) as B.
    rewrite xs_sign by assumption. split.
    - replace (t2 mod 2 ^ M - b2z (x <? 0) * 2 ^ M) with (t2 mod 2 ^ M + (- b2z (x <? 0)) * 2 ^ M) by ring.
      rewrite Z.mod_add, Z.mod_mod by lia. assumption.
    - destruct (Z.ltb_spec x 0); simpl b2z; lia.
  Qed.

  Lemma over_sat (TI RH TF k : Z) t2 :
    let TW := TI + TF in let D := TF - (XW - XI) in let M := TW + RH in
    XI <= TI -> 0 <= D -> 0 <= RH -> 0 <= k ->
    let Y := x * 2 ^ D * 2 ^ k * 2 ^ RH in
    t2 mod 2 ^ M = Y mod 2 ^ M -> - 2 ^ (M - 1) <= t2 < 2 ^ (M - 1) ->
    let u := set_over_s XW x (shift_mask XW XI true TW TI (- k)) (M + 2) true t2 in
    u = Y \/ (2 ^ M <= u /\ 2 ^ M <= Y) \/ (u <= - 2 ^ M /\ Y <= - 2 ^ M).
  Proof.
    intros TW D M HI HD HRH Hk Y Hm Bt u.
    assert (HTW : XW + D <= TW) by (unfold TW, D in *; lia).
    pose proof (pow2_pos D HD) as HpD; pose proof (pow2_pos k Hk) as Hpk.
    pose proof (pow2_pos RH ltac:(lia)) as HpR; pose proof (pow2_pos TW ltac:(lia)) as HpT.
    assert (EM : 2 ^ M = 2 ^ TW * 2 ^ RH) by (unfold M; apply pow2_add; lia).
    assert (HM : 1 <= M) by (unfold M; lia).
    pose proof (pow2_pos M ltac:(lia)) as HpM.
    pose proof (pow2_half M ltac:(lia)) as EhM.
    pose proof (pow2_succ M ltac:(lia)) as EsM.
    pose proof (pow2_half XW ltac:(lia)) as EhX.
    assert (HXR : in_range true XW x) by (unfold in_range, imin, imax; lia).
    assert (HXR' : in_range true XW (Z.lnot x)) by (unfold in_range, imin, imax, Z.lnot; lia).
    unfold u, set_over_s. rewrite set_top by lia. replace (M + 2 - 1) with (M + 1) by lia.
    rewrite xs_sign by assumption.
    rewrite shift_mask_left by (unfold TW, D in *; lia).
    set (e := clamp 0 XW (TI + (XW - XI) - k)) in *.
    assert (He : 0 <= e <= XW) by (unfold e, clamp; lia).
    rewrite !nz_land_high, !nz_high_mask by (try lia; assumption).
    pose proof (pow2_pos e ltac:(lia)) as Hpe.
    destruct (Z.eqb_spec e XW) as [Ee|Ee]; cbn [andb negb].
    - (* nothing can be shifted out: exact *)
      left.
      assert (Hb : XW + D + k <= TW) by (unfold e, clamp, TW, D in *; lia).
      pose proof (pow2_le (XW + D + k) TW ltac:(lia)) as L. rewrite !pow2_add in L by lia.
      assert (BY : - 2 ^ (M - 1) <= Y < 2 ^ (M - 1)).
      { unfold Y.
        assert (P : 0 < 2 ^ D * 2 ^ k * 2 ^ RH) by (apply Z.mul_pos_pos; [nia|lia]).
        assert (L2 : 2 ^ (XW - 1) * (2 ^ D * 2 ^ k * 2 ^ RH) <= 2 ^ (M - 1)).
        { rewrite <- !pow2_add by lia. apply pow2_le. unfold M. lia. }
        replace (x * 2 ^ D * 2 ^ k * 2 ^ RH) with (x * (2 ^ D * 2 ^ k * 2 ^ RH)) by ring. nia. }
      assert (EtY : t2 = Y).
      { assert (exists c, t2 = Y + c * 2 ^ M) as [c Ec].
        { exists (t2 / 2 ^ M - Y / 2 ^ M).
          pose proof (Z.div_mod t2 (2 ^ M) ltac:(lia)). pose proof (Z.div_mod Y (2 ^ M) ltac:(lia)). nia. }
        assert (c = 0); [|lia]. assert (c <= -1 \/ c = 0 \/ 1 <= c) as [|[|]] by lia; nia. }
      rewrite EtY in *.
      assert (HxY : x < 0 <-> Y < 0).
      { unfold Y. assert (P : 0 < 2 ^ D * 2 ^ k * 2 ^ RH) by (apply Z.mul_pos_pos; [nia|lia]).
        replace (x * 2 ^ D * 2 ^ k * 2 ^ RH) with (x * (2 ^ D * 2 ^ k * 2 ^ RH)) by ring. nia. }
      destruct (Z.ltb_spec x 0); simpl b2z.
      + rewrite (mod_eq Y (2 ^ (M + 1)) (-1) (Y + 2 ^ (M + 1))); lia.
      + rewrite Z.mod_small; lia.
    - (* the mask selects at least the sign bit *)
      pose proof (Z.mod_pos_bound t2 (2 ^ (M + 1)) ltac:(lia)) as Br.
      replace (M + 2 - 2) with (M + 2 - 2) by lia.
      pose proof (set_second (M + 2) (nz (x / 2 ^ e) && negb (nz (Z.lnot x / 2 ^ e) && (x <? 0)))
                    (b2z (x <? 0)) (t2 mod 2 ^ (M + 1))) as E.
      replace (M + 2 - 1) with (M + 1) in E by lia.
      rewrite E by (try lia; apply b2z_01). clear E.
      replace (M + 2 - 2) with M by lia.
      assert (Er : (t2 mod 2 ^ (M + 1)) mod 2 ^ M = Y mod 2 ^ M).
      { rewrite <- Hm. apply (mod_pow2_sub (M + 1)); [lia|]. apply Z.mod_mod; lia. }
      rewrite Er. pose proof (Z.mod_pos_bound Y (2 ^ M) HpM) as BY.
      assert (P : 0 < 2 ^ D * 2 ^ k) by nia.
      assert (EY : Y = x * (2 ^ D * 2 ^ k) * 2 ^ RH) by (unfold Y; ring).
      assert (Hsc : (0 <= TI + (XW - XI) - k /\ 2 ^ TW = 2 ^ e * (2 ^ D * 2 ^ k)) \/
                    (e = 0 /\ 2 ^ TW < 2 ^ D * 2 ^ k)).
      { destruct (Z.le_gt_cases 0 (TI + (XW - XI) - k)) as [H0|H0].
        - left; split; [lia|]. assert (Ee' : e = TI + (XW - XI) - k) by (unfold e, clamp in *; lia).
          rewrite <- !pow2_add by lia. f_equal. rewrite Ee'. unfold TW, D; lia.
        - right. split; [unfold e, clamp; lia|]. rewrite <- pow2_add by lia.
          apply Z.pow_lt_mono_r; unfold TW, D in *; lia. }
      destruct (Z.ltb_spec x 0) as [Hneg|Hpos]; simpl (b2z true); simpl (b2z false).
      + (* negative *)
        assert (Hd : nz (x / 2 ^ e) = true).
        { unfold nz. destruct (Z.eqb_spec (x / 2 ^ e) 0) as [E0|]; [|reflexivity].
          apply Z.div_small_iff in E0; lia. }
        rewrite Hd. rewrite andb_true_r. cbn [andb].
        unfold Z.lnot. destruct (Z.lt_ge_cases (Z.pred (- x)) (2 ^ e)) as [Hin|Hout].
        * rewrite (Z.div_small (Z.pred (- x))) by lia. change (negb (nz 0)) with true. change (b2z true) with 1.
          destruct Hsc as [[H0 ES]|[E0 ES]].
          -- left. assert (BYn : - 2 ^ M <= Y < 0) by (rewrite EM, ES, EY; nia).
             rewrite (mod_eq Y (2 ^ M) (-1) (Y + 2 ^ M)); lia.
          -- right; right. assert (x = -1) as -> by (rewrite E0 in Hin; change (2 ^ 0) with 1 in Hin; lia).
             assert (HYM : Y mod 2 ^ M = 0).
             { rewrite EY. rewrite <- pow2_add by lia.
               assert (HL : TW < D + k).
               { rewrite <- pow2_add in ES by lia. apply Z.pow_lt_mono_r_iff in ES; lia. }
               replace (2 ^ (D + k)) with (2 ^ TW * 2 ^ (D + k - TW)) by (rewrite <- pow2_add by lia; f_equal; lia).
               rewrite EM. replace (-1 * (2 ^ TW * 2 ^ (D + k - TW)) * 2 ^ RH) with (- 2 ^ (D + k - TW) * (2 ^ TW * 2 ^ RH)) by ring.
               apply Z.mod_mul; nia. }
             rewrite HYM. split; [lia|]. rewrite EY, EM. nia.
        * right; right.
          assert (Hn1 : nz (Z.pred (- x) / 2 ^ e) = true).
          { unfold nz. destruct (Z.eqb_spec (Z.pred (- x) / 2 ^ e) 0) as [E0|]; [|reflexivity].
            apply Z.div_small_iff in E0; lia. }
          rewrite Hn1. change (b2z (negb true)) with 0. split; [lia|].
          assert (x * (2 ^ D * 2 ^ k) <= - 2 ^ TW).
          { set (P2 := 2 ^ D * 2 ^ k) in *. destruct Hsc as [[H0 ES]|[E0 ES]]; [rewrite ES|]; nia. }
          rewrite EY, EM. nia.
      + (* non-negative *)
        rewrite andb_false_r. change (negb false) with true. rewrite andb_true_r.
        destruct (Z.lt_ge_cases x (2 ^ e)) as [Hin|Hout].
        * left. rewrite (Z.div_small x) by lia. change (b2z (nz 0)) with 0.
          assert (0 <= Y < 2 ^ M).
          { rewrite EY, EM. destruct Hsc as [[H0 ES]|[E0 ES]]; [rewrite ES; nia|].
            rewrite E0 in Hin; change (2 ^ 0) with 1 in Hin. assert (x = 0) as -> by lia. nia. }
          rewrite Z.mod_small; lia.
        * right; left.
          assert (Hn1 : nz (x / 2 ^ e) = true).
          { unfold nz. destruct (Z.eqb_spec (x / 2 ^ e) 0) as [E0|]; [|reflexivity].
            apply Z.div_small_iff in E0; lia. }
          rewrite Hn1. change (b2z true) with 1. split; [lia|].
          assert (2 ^ TW <= x * (2 ^ D * 2 ^ k)).
          { set (P2 := 2 ^ D * 2 ^ k) in *. destruct Hsc as [[H0 ES]|[E0 ES]]; [rewrite ES|]; nia. }
          rewrite EY, EM. nia.
  Qed.

  Variable f : fmt.
  Hypothesis HOW : 1 <= fW f.
  Hypothesis HfS : fS f = true.

  Let RB := r_bit_s (fQ f).
  Let RH := r_half_s (fQ f).
  Let TF := Z.max (XW - XI) (fW f - fI f + RB).
  Let D := TF - (XW - XI).

  Lemma TFs_facts : 0 <= RB <= 1 /\ 0 <= RH <= 1 /\ 0 <= D /\ fF f + RB <= TF /\ XW - XI <= TF.
  Proof.
    pose proof (r_bit_s_01 (fQ f)); pose proof (r_half_s_01 (fQ f)).
    change (r_bit_s (fQ f)) with RB in H. change (r_half_s (fQ f)) with RH in H0.
    clearbody RB RH. unfold D, TF, fF. lia.
  Qed.

  Lemma exact_right_s n : 0 <= n ->
    conv f x (XW - XI + n) =
    overflow (fO f) (fS f) (fW f)
      (qround (fQ f) (x * 2 ^ D / 2 ^ n * 2 ^ RH + RH * b2z (nz ((x * 2 ^ D) mod 2 ^ n)))
         (2 ^ (TF - fF f + RH))).
  Proof.
    intros Hn. destruct TFs_facts as (H1 & H2 & H3 & H4 & H5).
    replace (XW - XI + n) with (XW - XI - - n) by lia.
    rewrite (conv_core f x (XW - XI) TF) by lia. f_equal. fold D.
    rewrite (pw_nonpos_eq (- n)), (pw_nonneg_eq (- - n)), Z.mul_1_r by lia.
    replace (- - n) with n by lia.
    pose proof (pow2_pos D H3). pose proof (pow2_pos n Hn).
    apply (qround_sticky_s (fQ f)); fold RB; lia.
  Qed.
  Lemma exact_left_s k : 0 <= k ->
    conv f x (XW - XI - k) =
    overflow (fO f) (fS f) (fW f)
      (qround (fQ f) (x * 2 ^ D * 2 ^ k * 2 ^ RH) (2 ^ (TF - fF f + RH))).
  Proof.
    intros Hk. destruct TFs_facts as (H1 & H2 & H3 & H4 & H5).
    rewrite (conv_core f x (XW - XI) TF) by lia. f_equal. fold D.
    rewrite (pw_nonpos_eq (- k)), (pw_nonneg_eq k) by lia.
    rewrite Z.mul_1_l.
    pose proof (pow2_pos (TF - fF f) ltac:(lia)).
    rewrite pow2_add by lia.
    symmetry. apply qround_scale; [assumption|apply pow2_pos; lia].
  Qed.

  Lemma shift_right_su_ok n :
    0 <= n < 2 ^ 31 -> shift_right_su XW XI f x n = conv f x (XW - XI + n).
  Proof.
    intros Hn. destruct TFs_facts as (H1 & H2 & H3 & H4 & H5).
    unfold shift_right_su. fold RB RH TF.
    assert (Hun : Z.land 2147483647 n = n).
    { rewrite Z.land_comm. change 2147483647 with (2 ^ 31 - 1).
      rewrite land_ones_mod, Z.mod_small by lia; reflexivity. }
    rewrite Hun.
    rewrite (conv_t2 (XI + TF + RH) XI true _ TF RH) by lia. change (wrap true) with wraps.
    pose proof (tmp_right_s XI (XI + TF + RH) (fQ f) n TF) as E.
    fold RH D in E. cbv zeta in E. rewrite E by lia.
    rewrite conv_tmp by lia. rewrite exact_right_s by lia. reflexivity.
  Qed.

  Let SO := s_over_s (fO f).
  Let TI := Z.max XI (fI f).
  Let TW := TI + TF.
  Let W2 := TW + RH + SO.

  Lemma sgn_right_branch n : 0 <= n ->
    let t := shr true TW (conv (dfmt TW TI true) x (XW - XI)) n in
    let t2 := conv (dfmt W2 (TI + SO) true) t TF in
    conv f (if RH =? 0 then t2
            else set_bit true W2 0 (nz (Z.land x (shift_mask XW XI true TW TI n))) t2)
         (TF + RH) = conv f x (XW - XI + n).
  Proof.
    intros Hn t t2. destruct TFs_facts as (H1 & H2 & H3 & H4 & H5).
    pose proof (s_over_s_12 (fO f)) as HSO; fold SO in HSO.
    assert (HTI : XI <= TI /\ fI f <= TI) by (unfold TI; lia).
    assert (Et2 : t2 = wraps W2 (t * 2 ^ RH)).
    { unfold t2. rewrite (conv_t2 W2 (TI + SO) true t TF RH) by (unfold W2, TW; lia). reflexivity. }
    pose proof (tmp_right_s TI W2 (fQ f) n TF) as E. fold TW D RH in E. cbv zeta in E.
    specialize (E ltac:(lia) ltac:(lia) ltac:(unfold W2; lia) Hn). fold t in E. rewrite <- Et2 in E.
    rewrite E. rewrite conv_tmp by lia. rewrite exact_right_s by lia. reflexivity.
  Qed.

  Lemma sgn_left_branch k : 0 <= k ->
    let t := shl true TW (conv (dfmt TW TI true) x (XW - XI)) k in
    let t2 := conv (dfmt W2 (TI + SO) true) t TF in
    conv f (if (RH =? 0) && negb (SO =? 2) then t2
            else set_over_s XW x (shift_mask XW XI true TW TI (- k)) W2 (SO =? 2) t2)
         (TF + RH) = conv f x (XW - XI - k).
  Proof.
    intros Hk t t2. destruct TFs_facts as (H1 & H2 & H3 & H4 & H5).
    pose proof (s_over_s_12 (fO f)) as HSO; fold SO in HSO.
    assert (HTI : XI <= TI /\ fI f <= TI) by (unfold TI; lia).
    assert (HTW : XW + D <= TW) by (unfold TW, D in *; lia).
    assert (Et2 : t2 = wraps W2 (t * 2 ^ RH)).
    { unfold t2. rewrite (conv_t2 W2 (TI + SO) true t TF RH) by (unfold W2, TW; lia). reflexivity. }
    pose proof (tmp_left_s TI RH W2 k TF) as E. fold TW D in E. cbv zeta in E.
    specialize (E ltac:(lia) ltac:(lia) ltac:(lia) ltac:(unfold W2; lia) Hk). fold t in E.
    rewrite <- Et2 in E. destruct E as (Em & _ & Eb & _).
    rewrite exact_left_s by lia. rewrite conv_tmp by lia. rewrite HfS.
    set (Y := x * 2 ^ D * 2 ^ k * 2 ^ RH) in *.
    assert (HxY : x < 0 <-> Y < 0).
    { assert (P : 0 < 2 ^ D * 2 ^ k * 2 ^ RH).
      { pose proof (pow2_pos D H3); pose proof (pow2_pos k Hk); pose proof (pow2_pos RH ltac:(lia)).
        apply Z.mul_pos_pos; [nia|lia]. }
      unfold Y. replace (x * 2 ^ D * 2 ^ k * 2 ^ RH) with (x * (2 ^ D * 2 ^ k * 2 ^ RH)) by ring. nia. }
    apply (finish _ _ _ _ (TW + RH)); try lia.
    { unfold TW, fF. lia. }
    - intros Ho. assert (HS1 : SO = 1) by (apply s_over_s_wrap; assumption).
      replace (SO =? 2) with false by lia. cbn [negb]. rewrite andb_true_r.
      destruct (Z.eqb_spec RH 0) as [H0|H0].
      + split; [assumption|]. unfold RH in H0. destruct (fQ f); try discriminate H0; discriminate.
      + pose proof (over_wrap (TW + RH) (shift_mask XW XI true TW TI (- k)) t2 Y ltac:(lia) Em HxY) as E.
        cbv zeta in E. replace (TW + RH + 1) with W2 in E by (unfold W2; lia).
        destruct E; split; [assumption|intros _; assumption].
    - intros Ho. assert (HS2 : SO = 2).
      { assert (SO <> 1) by (intros HS; apply Ho, s_over_s_wrap; assumption). lia. }
      replace (SO =? 2) with true by lia. cbn [negb]. rewrite andb_false_r.
      pose proof (over_sat TI RH TF k t2) as E. fold TW D in E. cbv zeta in E. fold Y in E.
      replace (TW + RH + 2) with W2 in E by (unfold W2; lia).
      apply E; lia.
  Qed.

  Lemma shift_right_si_ok n : shift_right_si XW XI f x n = conv f x (XW - XI + n).
  Proof.
    unfold shift_right_si. fold RB RH TF SO TI TW W2. cbv zeta.
    destruct (Z.leb_spec 0 n) as [Hn|Hn].
    - pose proof (sgn_right_branch n Hn) as E. cbv zeta in E.
      destruct (RH =? 0); [|exact E].
      destruct (negb (SO =? 2)); exact E.
    - pose proof (sgn_left_branch (- n) ltac:(lia)) as E. cbv zeta in E.
      replace (XW - XI - - n) with (XW - XI + n) in E by lia. rewrite Z.opp_involutive in E.
      rewrite <- E. do 2 f_equal.
  Qed.
  Lemma shift_left_si_ok n : shift_left_si XW XI f x n = conv f x (XW - XI - n).
  Proof.
    unfold shift_left_si. fold RB RH TF SO TI TW W2. cbv zeta.
    destruct (Z.ltb_spec n 0) as [Hn|Hn].
    - pose proof (sgn_right_branch (- n) ltac:(lia)) as E. cbv zeta in E.
      replace (XW - XI - n) with (XW - XI + - n) by lia.
      assert (Et : shl true TW (conv (dfmt TW TI true) x (XW - XI)) n =
                   shr true TW (conv (dfmt TW TI true) x (XW - XI)) (- n)).
      { unfold shl, shr. rewrite Z.shiftr_opp_r. reflexivity. }
      rewrite Et.
      destruct (RH =? 0); [|exact E].
      destruct (negb (SO =? 2)); exact E.
    - apply (sgn_left_branch n Hn).
  Qed.

  Lemma shift_left_su_ok n :
    0 <= n -> fO f <> WRAP \/ sign_dep (fQ f) = false ->
    shift_left_su XW XI f x n = conv f x (XW - XI - n).
  Proof.
    intros Hn Hq. unfold shift_left_su. fold SO TI.
    set (TF0 := XW - XI). set (TW0 := TI + TF0). set (W20 := TW0 + SO).
    pose proof (s_over_s_12 (fO f)) as HSO; fold SO in HSO.
    assert (HTI : XI <= TI /\ fI f <= TI) by (unfold TI; lia).
    assert (HTW : XW <= TW0) by (unfold TW0, TF0 in *; lia).
    set (t := shl true TW0 (conv (dfmt TW0 TI true) x TF0) n).
    rewrite (conv_t2 W20 (TI + SO) true t TF0 0) by (unfold W20, TW0; lia). change (wrap true) with wraps.
    set (t2 := wraps W20 (t * 2 ^ 0)).
    set (u := if SO =? 2 then _ else t2).
    set (Y := x * 2 ^ (TF0 - (XW - XI)) * 2 ^ n * 2 ^ 0).
    assert (EY : Y = x * 2 ^ n).
    { unfold Y, TF0. rewrite Z.sub_diag, !Z.pow_0_r. lia. }
    pose proof (tmp_left_s TI 0 W20 n TF0) as E. fold TW0 in E. cbv zeta in E. fold t t2 Y in E.
    specialize (E ltac:(lia) ltac:(unfold TF0; lia) ltac:(lia) ltac:(unfold W20; lia) Hn).
    fold TF0 in E. fold t t2 in E.
    rewrite Z.add_0_r in E. destruct E as (Em & _ & Eb & _).
    assert (Hu : (fO f = WRAP -> u mod 2 ^ TW0 = Y mod 2 ^ TW0) /\
                 (fO f <> WRAP -> u = Y \/ (2 ^ TW0 <= u /\ 2 ^ TW0 <= Y) \/ (u <= - 2 ^ TW0 /\ Y <= - 2 ^ TW0))).
    { split; intros Ho.
      - assert (HS1 : SO = 1) by (apply s_over_s_wrap; assumption).
        unfold u. replace (SO =? 2) with false by lia. assumption.
      - assert (HS2 : SO = 2).
        { assert (SO <> 1) by (intros HS; apply Ho, s_over_s_wrap; assumption). lia. }
        unfold u. replace (SO =? 2) with true by lia.
        pose proof (over_sat TI 0 TF0 n t2) as E. fold TW0 in E. cbv zeta in E. fold Y in E.
        rewrite Z.add_0_r in E. replace (TW0 + 2) with W20 in E by (unfold W20; lia).
        apply E; unfold TF0 in *; lia. }
    destruct Hu as [Hw Hs].
    rewrite conv_unfold. rewrite (conv_unfold f x). fold TF0.
    set (F := fF f).
    assert (EQ : qround (fQ f) (x * pw (F - (TF0 - n))) (pw (TF0 - n - F)) =
                 qround (fQ f) (Y * pw (F - TF0)) (pw (TF0 - F))).
    { apply qround_eqq; try apply pw_pos. rewrite EY. unfold pw.
      transitivity (x * (2 ^ Z.max 0 (F - (TF0 - n)) * 2 ^ Z.max 0 (TF0 - F))); [ring|].
      transitivity (x * (2 ^ n * 2 ^ Z.max 0 (F - TF0) * 2 ^ Z.max 0 (TF0 - n - F))); [|ring].
      rewrite <- !pow2_add by lia. do 2 f_equal; lia. }
    rewrite EQ.
    pose proof (pw_pos (F - TF0)) as Hpw.
    assert (EM : 2 ^ (TW0 + Z.max 0 (F - TF0)) = 2 ^ TW0 * pw (F - TF0)).
    { unfold pw. apply pow2_add; lia. }
    unfold pw at 2 4.
    rewrite HfS.
    apply (finish _ _ _ _ (TW0 + Z.max 0 (F - TF0))); [assumption|apply Z.le_max_l| | |].
    - unfold TW0, TF0, F, fF in *. lia.
    - intros Ho. specialize (Hw Ho). split.
      + rewrite EM, !Z.mul_mod_distr_r by (pose proof (pow2_pos TW0 ltac:(lia)); lia). rewrite Hw; reflexivity.
      + intros Hsd. destruct Hq as [Hq|Hq]; [contradiction|congruence].
    - intros Ho. rewrite EM. pose proof (pow2_pos TW0 ltac:(lia)).
      destruct (Hs Ho) as [E|[[E1 E2]|[E1 E2]]].
      + left; rewrite E; reflexivity.
      + right; left. split; apply Z.mul_le_mono_nonneg_r; auto using Z.lt_le_incl.
      + right; right. rewrite <- Z.mul_opp_l. split; apply Z.mul_le_mono_nonneg_r; auto using Z.lt_le_incl.
  Qed.
End Signed.

Lemma sign_dep_false q : q <> TRN_ZERO /\ q <> RND_ZERO /\ q <> RND_INF -> sign_dep q = false.
Proof. destruct q; simpl; intuition congruence. Qed.

(** *** Refutations *)
Lemma shift_left_su_refuted : exists XW XI f x n,
  1 <= XW /\ 1 <= fW f /\ fS f = true /\ - 2 ^ (XW - 1) <= x < 2 ^ (XW - 1) /\ 0 <= n /\
  ~ converts2 f x (- (XW - XI) + n) (shift_left_su XW XI f x n).
Proof.
  exists 3, (-2), (Fmt 1 (-1) true TRN_ZERO WRAP), (-3), 2.
  repeat split; try (cbn; lia). intros H. apply converts_unique in H; [|cbn; lia|cbn; lia].
  vm_compute in H. discriminate.
Qed.

(** x * 2^-e with huge e: the specified result, without computing 2^e *)
Lemma converts2_tiny f x e y :
  1 <= fW f -> 0 < fF f -> 0 <= e ->
  (fQ f = TRN /\ 0 <= x) \/ fQ f = RND_INF -> fO f = WRAP ->
  2 * Z.abs (x * 2 ^ fF f) < 2 ^ e -> converts2 f x (- e) y -> y = 0.
Proof.
  intros Hw HF He HQ HO Hsm (z & R & L). rewrite HO in L. cbn [is_limited] in L.
  replace (Z.max 0 (- e)) with 0 in R by lia. rewrite Z.opp_involutive in R.
  rewrite (Z.max_r 0 (fF f)), (Z.max_r 0 e), (Z.max_l 0 (- fF f)) in R by lia.
  rewrite Z.pow_0_r, !Z.mul_1_r in R. pose proof (pow2_pos (fF f) ltac:(lia)) as P.
  assert (Hz : z = 0).
  { assert (HN : fQ f = TRN -> 0 <= x * 2 ^ fF f) by (intros; destruct HQ as [[_ ?]|?]; [nia|congruence]).
    set (N := x * 2 ^ fF f) in *. set (E := 2 ^ e) in *. clearbody N E.
    assert (z <= -1 \/ z = 0 \/ 1 <= z) as [Hz|[Hz|Hz]] by lia; [exfalso|assumption|exfalso];
    destruct HQ as [[HQ _]|HQ]; rewrite HQ in R; cbv [is_round] in R; try specialize (HN HQ); nia. }
  subst z. destruct L as [B [k Ek]]. pose proof (pow2_pos (fW f) ltac:(lia)) as PW.
  pose proof (pow2_half (fW f) ltac:(lia)) as PH.
  unfold lowest, highest in B.
  assert (k <= -1 \/ k = 0 \/ 1 <= k) as [Hk|[Hk|Hk]] by lia; [exfalso| |exfalso]; destruct (fS f); nia.
Qed.

Lemma shift_right_uu_refuted : exists XW XI f x n,
  1 <= XW /\ 1 <= fW f /\ fS f = false /\ 0 <= x < 2 ^ XW /\ 0 <= n < 2 ^ 32 /\
  ~ converts2 f x (- (XW - XI) - n) (shift_right_uu XW XI f x n).
Proof.
  exists 8, 4, (Fmt 8 4 false TRN WRAP), 151, (2 ^ 31).
  repeat (split; [cbn; lia || reflexivity|]). intros H.
  replace (shift_right_uu 8 4 (Fmt 8 4 false TRN WRAP) 151 (2 ^ 31)) with 151 in H by (vm_compute; reflexivity).
  replace (- (8 - 4) - 2 ^ 31) with (- (2 ^ 31 + 4)) in H by lia.
  apply converts2_tiny in H; [discriminate H|cbn; lia|cbn; lia|lia| |reflexivity|].
  - left; split; [reflexivity|lia].
  - apply Z.lt_le_trans with (2 ^ 13); [reflexivity|]. apply pow2_le. lia.
Qed.

(** The signed overload shifts by the full count but looks for lost bits below the masked count. *)
Lemma shift_right_su_refuted : exists XW XI f x n,
  1 <= XW /\ 1 <= fW f /\ fS f = true /\ - 2 ^ (XW - 1) <= x < 2 ^ (XW - 1) /\ 0 <= n < 2 ^ 32 /\
  ~ converts2 f x (- (XW - XI) - n) (shift_right_su XW XI f x n).
Proof.
  exists 8, 4, (Fmt 8 4 true RND_INF WRAP), (-97), (2 ^ 31).
  repeat (split; [cbn; lia || reflexivity|]). intros H.
  assert (E : shift_right_su 8 4 (Fmt 8 4 true RND_INF WRAP) (-97) (2 ^ 31) = -1).
  { unfold shift_right_su, shr.
    match goal with |- context [Z.shiftr ?a (2 ^ 31)] =>
      replace (Z.shiftr a (2 ^ 31)) with (-1) end.
    - vm_compute. reflexivity.
    - match goal with |- context [Z.shiftr ?a _] => replace a with (-194) by (vm_compute; reflexivity) end.
      rewrite Z.shiftr_div_pow2 by lia. symmetry.
      pose proof (pow2_le 8 (2 ^ 31) ltac:(lia)) as L. change (2 ^ 8) with 256 in L.
      set (P := 2 ^ (2 ^ 31)) in *. clearbody P. apply (div_eq _ _ _ (P - 194)); lia. }
  rewrite E in H.
  replace (- (8 - 4) - 2 ^ 31) with (- (2 ^ 31 + 4)) in H by lia.
  apply converts2_tiny in H; [discriminate H|cbn; lia|cbn; lia|lia| |reflexivity|].
  - right; reflexivity.
  - apply Z.lt_le_trans with (2 ^ 13); [reflexivity|]. apply pow2_le. lia.
Qed.

(** *** Statements against the independent specification *)
Lemma shift_right_ui_spec : forall XW XI f x n,
  1 <= XW -> 1 <= fW f -> fS f = false -> 0 <= x < 2 ^ XW ->
  converts2 f x (- (XW - XI) - n) (shift_right_ui XW XI f x n).
Proof. intros; eapply conv_eq_converts2; [assumption| |apply shift_right_ui_ok; assumption]; lia. Qed.
Lemma shift_right_uu_spec : forall XW XI f x n,
  1 <= XW -> 1 <= fW f -> fS f = false -> 0 <= x < 2 ^ XW -> 0 <= n < 2 ^ 31 ->
  converts2 f x (- (XW - XI) - n) (shift_right_uu XW XI f x n).
Proof. intros; eapply conv_eq_converts2; [assumption| |apply shift_right_uu_ok; assumption]; lia. Qed.
Lemma shift_right_si_spec : forall XW XI f x n,
  1 <= XW -> 1 <= fW f -> fS f = true -> - 2 ^ (XW - 1) <= x < 2 ^ (XW - 1) ->
  converts2 f x (- (XW - XI) - n) (shift_right_si XW XI f x n).
Proof. intros; eapply conv_eq_converts2; [assumption| |apply shift_right_si_ok; assumption]; lia. Qed.
Lemma shift_right_su_spec : forall XW XI f x n,
  1 <= XW -> 1 <= fW f -> fS f = true -> - 2 ^ (XW - 1) <= x < 2 ^ (XW - 1) -> 0 <= n < 2 ^ 31 ->
  converts2 f x (- (XW - XI) - n) (shift_right_su XW XI f x n).
Proof. intros; eapply conv_eq_converts2; [assumption| |apply shift_right_su_ok; assumption]; lia. Qed.
Lemma shift_left_ui_spec : forall XW XI f x n,
  1 <= XW -> 1 <= fW f -> fS f = false -> 0 <= x < 2 ^ XW ->
  converts2 f x (- (XW - XI) + n) (shift_left_ui XW XI f x n).
Proof. intros; eapply conv_eq_converts2; [assumption| |apply shift_left_ui_ok; assumption]; lia. Qed.
Lemma shift_left_uu_spec : forall XW XI f x n,
  1 <= XW -> 1 <= fW f -> fS f = false -> 0 <= x < 2 ^ XW -> 0 <= n ->
  converts2 f x (- (XW - XI) + n) (shift_left_uu XW XI f x n).
Proof. intros; eapply conv_eq_converts2; [assumption| |apply shift_left_uu_ok; assumption]; lia. Qed.
Lemma shift_left_si_spec : forall XW XI f x n,
  1 <= XW -> 1 <= fW f -> fS f = true -> - 2 ^ (XW - 1) <= x < 2 ^ (XW - 1) ->
  converts2 f x (- (XW - XI) + n) (shift_left_si XW XI f x n).
Proof. intros; eapply conv_eq_converts2; [assumption| |apply shift_left_si_ok; assumption]; lia. Qed.
Lemma shift_left_su_spec : forall XW XI f x n,
  1 <= XW -> 1 <= fW f -> fS f = true -> - 2 ^ (XW - 1) <= x < 2 ^ (XW - 1) -> 0 <= n ->
  fO f <> WRAP \/ (fQ f <> TRN_ZERO /\ fQ f <> RND_ZERO /\ fQ f <> RND_INF) ->
  converts2 f x (- (XW - XI) + n) (shift_left_su XW XI f x n).
Proof. intros XW XI f x n H1 H2 H3 H4 H5 H6; eapply conv_eq_converts2; [assumption| |apply shift_left_su_ok; try assumption]; [lia|]; destruct H6 as [|h]; [left; assumption|right; apply sign_dep_false; exact h]. Qed.
