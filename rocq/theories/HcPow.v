(** ac_exp2_cordic and ac_exp_cordic: accuracy. *)
From Coq Require Import Reals Lia Lra Psatz ZifyBool.
From Verif Require Import AcTypes AcFacts Spec SpecFacts SpecR SpecRFacts SoftFacts QrdThm MatrixProofs ShiftFacts ShiftModel ShiftProofs Atan2Proofs PwlModel PwlExpReal ActReal DetProofs HcModel HcNum HcIter HcExp HcExp2.
Local Open Scope R_scope.

(** ** The value before the final conversion stays below 2 *)
Lemma top_runs : forallb (fun e => let EW := Z.of_nat e in forallb (fun k => let v := exp2_v EW EW (2 ^ EW - Z.of_nat k) in (0 <=? v)%Z && (v <? 2 ^ (EW + 1))%Z) (seq 1 9)) (seq 4 10) = true.
Proof. vm_compute. reflexivity. Qed.
Lemma small_runs : forallb (fun e => let EW := Z.of_nat e in forallb (fun k => let v := exp2_v EW EW (Z.of_nat k) in (0 <=? v)%Z && (v <? 2 ^ (EW + 1))%Z) (seq 0 (Nat.pow 2 e))) (seq 1 3) = true.
Proof. vm_compute. reflexivity. Qed.
Lemma pow_chord X : 0 <= X <= 1 -> Rpower 2 X <= 1 + X.
Proof.
  intros H. unfold Rpower. pose proof (exp_chord 0 (ln 2) X H) as C. rewrite exp_0, exp_ln in C by lra. replace ((1 - X) * 0 + X * ln 2) with (X * ln 2) in C by ring. lra.
Qed.
Lemma exp2_v_rng AW EW x : (1 <= AW <= EW)%Z -> (EW <= 45)%Z -> (0 <= x < 2 ^ AW)%Z -> (0 <= exp2_v AW EW x < 2 ^ (EW + 1))%Z.
Proof.
  intros HA HE Hx. destruct (Z.le_gt_cases EW 3) as [G|G].
  - rewrite exp2_v_rescale by lia. assert (Hy : (0 <= x * 2 ^ (EW - AW) < 2 ^ EW)%Z). { assert (0 < 2 ^ (EW - AW))%Z by (apply Z.pow_pos_nonneg; lia). assert (2 ^ EW = 2 ^ AW * 2 ^ (EW - AW))%Z by (rewrite <- Z.pow_add_r by lia; f_equal; lia). nia. }
    set (y := (x * 2 ^ (EW - AW))%Z) in *. pose proof small_runs as R. rewrite forallb_forall in R. specialize (R (Z.to_nat EW) ltac:(apply in_seq; lia)). cbv zeta in R. rewrite Z2Nat.id in R by lia. rewrite forallb_forall in R.
    assert (Hp : Z.of_nat (Nat.pow 2 (Z.to_nat EW)) = (2 ^ EW)%Z) by (rewrite Nat2Z.inj_pow, Z2Nat.id by lia; reflexivity).
    specialize (R (Z.to_nat y) ltac:(apply in_seq; lia)). rewrite Z2Nat.id in R by lia. lia.
  - set (u := bpow2 (- EW)). assert (Pu : 0 < u) by apply bpow2_pos. assert (T2 : forall m, fxval m EW < 2 -> (m < 2 ^ (EW + 1))%Z).
    { intros m Hm. apply (fxval_lt _ _ EW). rewrite fxval_pow by lia. replace (EW + 1 - EW)%Z with 1%Z by lia. rewrite bpow2_1. exact Hm. }
    assert (Hy : (0 <= x * 2 ^ (EW - AW) < 2 ^ EW)%Z). { assert (0 < 2 ^ (EW - AW))%Z by (apply Z.pow_pos_nonneg; lia). assert (2 ^ EW = 2 ^ AW * 2 ^ (EW - AW))%Z by (rewrite <- Z.pow_add_r by lia; f_equal; lia). nia. }
    rewrite exp2_v_rescale by lia. set (y := (x * 2 ^ (EW - AW))%Z) in *. clearbody y. clear x Hx HA AW.
    destruct (exp2_v_near EW EW y ltac:(lia) ltac:(lia) Hy) as [[Lo Hi] Nn]. fold u in Lo, Hi. set (X := fxval y EW) in *.
    assert (HX : 0 <= X <= 1). { unfold X. split; [rewrite <- (fxval_0 EW); apply fxval_le; lia|]. rewrite <- (fxval_one EW) by lia. apply fxval_le. lia. }
    assert (HP : 1 <= Rpower 2 X) by (rewrite <- (Rpower_O 2) by lra; apply Rpower2_le; lra). pose proof (pow_chord X HX) as CH.
    assert (EX : forall k, (y <= 2 ^ EW - k)%Z -> X <= 1 - IZR k * u). { intros k Hk. apply fxval_le with (F := EW) in Hk. rewrite fx_sub, fxval_one in Hk by lia. unfold fxval at 2 in Hk. exact Hk. }
    destruct (Z.le_gt_cases EW 13) as [H13|H13].
    + assert (E1 : up4 EW = 9) by (unfold up4; replace (EW <=? 13)%Z with true by lia; reflexivity). assert (E2 : dn4 EW = 18) by (unfold dn4; replace (EW <=? 13)%Z with true by lia; reflexivity). rewrite E1 in Hi. rewrite E2 in Lo.
      destruct (Z.le_gt_cases y (2 ^ EW - 10)) as [K|K].
      * apply EX in K. assert (Hlt : (exp2_v EW EW y < 2 ^ (EW + 1))%Z) by (apply T2; lra). split; [|exact Hlt].
        apply (fxval_le 0 _ EW). rewrite fxval_0. exact Nn.
      * pose proof top_runs as R. rewrite forallb_forall in R. specialize (R (Z.to_nat EW) ltac:(apply in_seq; lia)). cbv zeta in R. rewrite Z2Nat.id in R by lia. rewrite forallb_forall in R.
        specialize (R (Z.to_nat (2 ^ EW - y)) ltac:(apply in_seq; lia)). rewrite Z2Nat.id in R by lia. replace (2 ^ EW - (2 ^ EW - y))%Z with y in R by lia. lia.
    + assert (E1 : up4 EW = 5 / 4) by (unfold up4; replace (EW <=? 13)%Z with false by lia; reflexivity). rewrite E1 in Hi. split; [apply (fxval_le 0 _ EW); rewrite fxval_0; exact Nn|]. apply T2.
      assert (Bu : u <= / 16384) by (unfold u; rewrite <- bpow2_m14; apply bpow2_le; lia).
      destruct (Z.le_gt_cases y (2 ^ EW - 2)) as [K|K]; [apply EX in K; lra|]. assert (K1 : X = 1 - u). { unfold X. replace y with (2 ^ EW - 1)%Z by lia. rewrite fx_sub, fxval_one by lia. unfold fxval. fold u. ring. }
      assert (T : Rpower 2 X * (1 + u * 0.6931) <= 2). { pose proof (exp_tangent X u ltac:(lra)) as T0. replace (X + u) with 1 in T0 by lra. rewrite Rpower_1 in T0 by lra. exact T0. }
      destruct (Rlt_dec (Rpower 2 X) (2 - 5 / 4 * u)) as [L|L]; [lra|]. apply Rnot_lt_le in L. assert ((2 - 5 / 4 * u) * (1 + u * 0.6931) <= 2); [|nra]. eapply Rle_trans; [|exact T]. apply Rmult_le_compat_r; lra.
Qed.
(** For every working width: both error bounds, with 18 and 9 units for the small widths. *)
Lemma exp2_v_close AW EW x : (1 <= AW <= EW)%Z -> (EW <= 45)%Z -> (0 <= x < 2 ^ AW)%Z -> let V := fxval (exp2_v AW EW x) EW in
  0 <= V < 2 /\ - (dn4 EW * bpow2 (- EW)) <= V - Rpower 2 (fxval x AW) <= up4 EW * bpow2 (- EW).
Proof.
  intros HA HE Hx V. destruct (exp2_v_rng AW EW x HA HE Hx) as [L H]. assert (BV : 0 <= V < 2).
  { apply fxval_le with (F := EW) in L. apply fxval_lt with (F := EW) in H. rewrite fxval_0 in L. rewrite fxval_pow in H by lia. replace (EW + 1 - EW)%Z with 1%Z in H by lia. rewrite bpow2_1 in H. split; assumption. }
  split; [exact BV|]. destruct (Z.le_gt_cases EW 3) as [G|G]; [|apply (exp2_v_near AW EW x); lia].
  assert (E1 : up4 EW = 9) by (unfold up4; replace (EW <=? 13)%Z with true by lia; reflexivity). assert (E2 : dn4 EW = 18) by (unfold dn4; replace (EW <=? 13)%Z with true by lia; reflexivity). rewrite E1, E2.
  assert (Bu : / 8 <= bpow2 (- EW)). { replace (/ 8) with (bpow2 (- (3))) by (rewrite bpow2_opp, bpow2_IZR by lia; reflexivity). apply bpow2_le. lia. }
  assert (HX : 0 <= fxval x AW <= 1). { split; [rewrite <- (fxval_0 AW); apply fxval_le; lia|]. rewrite <- (fxval_one AW) by lia. apply fxval_le. lia. }
  assert (HP : 1 <= Rpower 2 (fxval x AW)) by (rewrite <- (Rpower_O 2) by lra; apply Rpower2_le; lra). pose proof (pow_chord _ HX) as CH. lra.
Qed.

(** ** The truncated result *)
Lemma convR_trn0 f V m : (1 <= fW f)%Z -> fQ f = TRN \/ fQ f = TRN_ZERO -> fO f = WRAP -> 0 <= V -> convertsR f V m -> V * bpow2 (fF f) < IZR (imax (fS f) (fW f) + 1) ->
  in_range (fS f) (fW f) m /\ fxval m (fF f) <= V < fxval m (fF f) + bpow2 (- fF f).
Proof.
  intros HW HQ HO HV C B. assert (Y0 : 0 <= V * bpow2 (fF f)) by (apply Rmult_le_pos; [exact HV|apply Rlt_le, bpow2_pos]).
  apply (convR_trn (Fmt (fW f) (fI f) (fS f) TRN (fO f)) V m); cbn [fW fI fS fQ fO]; [exact HW|reflexivity|exact HO| |].
  - destruct C as (z & Hr & Hl). exists z. split; [|exact Hl]. unfold fF in *. cbn [fW fI fS fQ fO]. destruct HQ as [Q|Q]; rewrite Q in Hr; [exact Hr|]. cbn [is_roundR] in Hr |- *. apply Hr. exact Y0.
  - unfold fF in *. cbn [fW fI fS fQ fO]. split; [|exact B]. apply Rle_trans with 0; [|exact Y0]. apply IZR_le. unfold imin. destruct (fS f); [|lia]. pose proof (Z.pow_nonneg 2 (fW f - 1) ltac:(lia)). lia.
Qed.
(** With no more argument bits than result bits the value stays two half units below 2, whatever the rounding. *)
Lemma top_runs2 : forallb (fun e => let TF := Z.of_nat e in forallb (fun k => (exp2_v TF (TF + 1) (2 ^ TF - Z.of_nat k) <=? 2 ^ (TF + 2) - 2)%Z) (seq 1 5)) (seq 1 12) = true.
Proof. vm_compute. reflexivity. Qed.
Lemma exp2_v_top TF x : (1 <= TF <= 44)%Z -> (0 <= x < 2 ^ TF)%Z -> (exp2_v TF (TF + 1) x <= 2 ^ (TF + 2) - 2)%Z.
Proof.
  intros HT Hx. destruct (exp2_v_close TF (TF + 1) x ltac:(lia) ltac:(lia) Hx) as [_ [_ Hi]]. set (EW := (TF + 1)%Z) in *. set (v := exp2_v TF EW x) in *. set (X := fxval x TF) in *. set (u := bpow2 (- EW)) in *. assert (Pu : 0 < u) by apply bpow2_pos.
  assert (Eu : bpow2 (- TF) = 2 * u). { unfold u, EW. rewrite <- bpow2_1, <- bpow2_add. f_equal. lia. }
  assert (EX : forall k, (x <= 2 ^ TF - k)%Z -> X <= 1 - IZR k * (2 * u)). { intros k Hk. apply fxval_le with (F := TF) in Hk. rewrite fx_sub, fxval_one in Hk by lia. unfold fxval at 2 in Hk. rewrite Eu in Hk. exact Hk. }
  assert (HX : 0 <= X <= 1). { unfold X. split; [rewrite <- (fxval_0 TF); apply fxval_le; lia|]. rewrite <- (fxval_one TF) by lia. apply fxval_le. lia. }
  assert (T2 : fxval v EW < 2 - u -> (v <= 2 ^ (TF + 2) - 2)%Z).
  { intros H. assert (v < 2 ^ (TF + 2) - 1)%Z; [|lia]. apply (fxval_lt _ _ EW). rewrite fx_sub, fxval_pow by (unfold EW; lia). replace (TF + 2 - EW)%Z with 1%Z by (unfold EW; lia). rewrite bpow2_1. unfold fxval at 2. fold u. lra. }
  pose proof (pow_chord X HX) as CH. unfold up4 in Hi. destruct (Z.leb_spec EW 13) as [G|G].
  - destruct (Z.le_gt_cases x (2 ^ TF - 6)) as [K|K]; [apply T2; apply EX in K; lra|].
    pose proof top_runs2 as R. rewrite forallb_forall in R. specialize (R (Z.to_nat TF) ltac:(apply in_seq; unfold EW in *; lia)). cbv zeta in R. rewrite Z2Nat.id in R by lia. rewrite forallb_forall in R.
    specialize (R (Z.to_nat (2 ^ TF - x)) ltac:(apply in_seq; lia)). rewrite Z2Nat.id in R by lia. replace (2 ^ TF - (2 ^ TF - x))%Z with x in R by lia. unfold v, EW. lia.
  - apply T2. destruct (Z.le_gt_cases x (2 ^ TF - 2)) as [K|K]; [apply EX in K; lra|]. specialize (EX 1%Z ltac:(lia)). assert (Bu : u <= / 8192). { unfold u. replace (/ 8192) with (bpow2 (- (13))) by (rewrite bpow2_opp, bpow2_IZR by lia; reflexivity). apply bpow2_le. lia. }
    pose proof (exp_tangent X (2 * u) ltac:(lra)) as T. assert (T1 : Rpower 2 (X + 2 * u) <= 2) by (apply Rle_trans with (Rpower 2 1); [apply Rpower2_le; lra|rewrite Rpower_1; lra]). assert (HP : 1 <= Rpower 2 X) by (rewrite <- (Rpower_O 2) by lra; apply Rpower2_le; lra). set (p := Rpower 2 X) in *.
    assert (p < 2 - 9 / 4 * u); [|lra]. apply Rnot_le_lt. intros L. assert ((2 - 9 / 4 * u) * (1 + 2 * u * 0.6931) <= 2); [|nra]. eapply Rle_trans; [|eapply Rle_trans; [exact T|exact T1]]. apply Rmult_le_compat_r; lra.
Qed.
Definition hc_c (TF : Z) : R := if (TF <? 13)%Z then 10 else 6.
Lemma exp2_rr_close AW TF TQ x : (1 <= AW <= 45)%Z -> (0 <= TF <= 44)%Z -> TQ = TRN \/ TQ = TRN_ZERO \/ (AW <= TF)%Z -> (0 <= x < 2 ^ AW)%Z ->
  let y := exp2_rr AW (Fmt (TF + 1) 1 false TQ WRAP) x in (0 <= y < 2 ^ (TF + 1))%Z /\ Rabs (fxval y TF - Rpower 2 (fxval x AW)) <= hc_c TF * bpow2 (- TF).
Proof.
  intros HA HT HQ Hx y. unfold y. rewrite exp2_rr_v. cbn [fW]. set (EW := Z.max AW (TF + 1)). destruct (exp2_v_close AW EW x ltac:(lia) ltac:(lia) Hx) as [BV BE]. set (v := exp2_v AW EW x) in *. set (V := fxval v EW) in *.
  set (fz := Fmt (TF + 1) 1 false TQ WRAP). assert (EF : fF fz = TF) by (unfold fz, fF; cbn [fW fI]; lia). pose proof (conv_R fz v EW ltac:(unfold fz; cbn [fW]; lia)) as C. fold V in C.
  assert (RN : in_range (fS fz) (fW fz) (conv fz v EW) /\ Rabs (fxval (conv fz v EW) TF - V) <= bpow2 (- TF)).
  { assert (CQ : (TQ = TRN \/ TQ = TRN_ZERO) \/ (AW <= TF)%Z) by tauto. destruct CQ as [CQ|CQ].
    - destruct (convR_trn0 fz V _ ltac:(unfold fz; cbn [fW]; lia) CQ eq_refl ltac:(lra) C) as [R N].
      { rewrite EF. unfold fz, imax. cbn [fS fW]. replace (2 ^ (TF + 1) - 1 + 1)%Z with (2 ^ (TF + 1))%Z by lia. rewrite <- bpow2_IZR by lia. replace (TF + 1)%Z with (1 + TF)%Z by lia. rewrite bpow2_add, bpow2_1. apply Rmult_lt_compat_r; [apply bpow2_pos|lra]. }
      rewrite EF in N. split; [exact R|]. apply Rabs_le. lra.
    - rewrite <- EF. apply convR_near; [unfold fz; cbn [fW]; lia|discriminate|exact C|]. rewrite EF. unfold fz, imin, imax. cbn [fS fW]. pose proof (bpow2_pos TF) as PT. split; [apply Rmult_le_pos; lra|].
      assert (EE : EW = (TF + 1)%Z) by (unfold EW; lia). assert (Hy : (0 <= x * 2 ^ (TF - AW) < 2 ^ TF)%Z). { assert (0 < 2 ^ (TF - AW))%Z by (apply Z.pow_pos_nonneg; lia). assert (2 ^ TF = 2 ^ AW * 2 ^ (TF - AW))%Z by (rewrite <- Z.pow_add_r by lia; f_equal; lia). nia. }
      pose proof (exp2_v_top TF _ ltac:(lia) Hy) as T. rewrite <- EE in T. rewrite exp2_v_rescale in T by lia. replace (x * 2 ^ (TF - AW) * 2 ^ (EW - TF))%Z with (x * 2 ^ (EW - AW))%Z in T by (rewrite <- Z.mul_assoc, <- Z.pow_add_r by lia; do 2 f_equal; lia). rewrite <- exp2_v_rescale in T by lia. fold v in T.
      apply fxval_le with (F := EW) in T. fold V in T. apply (Rmult_le_compat_r (bpow2 TF)) in T; [|lra]. eapply Rle_trans; [exact T|]. replace (2 ^ (TF + 2) - 2)%Z with ((2 ^ (TF + 1) - 1) * 2 ^ 1)%Z by (rewrite Z.mul_sub_distr_r, <- Z.pow_add_r by lia; replace (TF + 1 + 1)%Z with (TF + 2)%Z by lia; lia). rewrite EE, fxval_shift, fxval_scale by lia. apply Rle_refl. }
  destruct RN as [R N]. apply Rabs_le_both in N.
  unfold fz, in_range, imin, imax in R. cbn [fS fW] in R. split; [unfold fz; lia|].
  set (q := bpow2 (- TF)) in *. assert (Pq : 0 < q) by apply bpow2_pos. assert (Hu : bpow2 (- EW) <= q / 2). { unfold q. replace (bpow2 (- TF) / 2) with (bpow2 (- TF + -1)); [apply bpow2_le; lia|]. rewrite bpow2_add. replace (bpow2 (-1)) with (/ 2) by (rewrite <- bpow2_1, <- bpow2_opp; reflexivity). reflexivity. }
  pose proof (bpow2_pos (- EW)) as Pu. set (u := bpow2 (- EW)) in *. apply Rabs_le. unfold hc_c, up4, dn4 in *.
  destruct (Z.ltb_spec TF 13) as [G|G]; destruct (Z.leb_spec EW 13) as [G'|G']; try lia; lra.
Qed.

(** ** ac_exp2_cordic *)
Lemma exp2_cordic_real ort TQ W I f x : let TF := hc_tf ort (fF f) in let X := fxval x (W - I) in
  (W - I <= 45)%Z -> (0 <= TF <= 44)%Z -> TQ = TRN \/ TQ = TRN_ZERO \/ (Z.max (W - I) 1 <= TF)%Z -> (1 <= fW f)%Z -> fS f = false -> - bpow2 31 <= X < bpow2 31 ->
  exists out Y, exp2_cordic ort TQ W I f x = Some out /\ convertsR f Y out /\ Rabs (Y - Rpower 2 X) <= hc_c TF * bpow2 (- TF) * Rpower 2 X.
Proof.
  intros TF X HW HT HQ HfW HfS HX. unfold exp2_cordic. fold TF. replace (45 <? W - I)%Z with false by lia. replace (44 <? TF)%Z with false by lia. cbn [orb].
  set (AW := Z.max (W - I) 1). set (xF := if (I <? W)%Z then slc (W - I) 0 x else 0%Z).
  assert (Hsplit : exists n, fx_to_int W I x = n /\ (0 <= xF < 2 ^ AW)%Z /\ X = IZR n + fxval xF AW).
  { unfold xF, AW, X, fx_to_int in *. destruct (Z.ltb_spec I W) as [G|G].
    - rewrite Z.max_l by lia. unfold slc. rewrite Z.shiftr_0_r. unfold wrapu. set (F := (W - I)%Z) in *. assert (P : (0 < 2 ^ F)%Z) by (apply Z.pow_pos_nonneg; lia). pose proof (Z.mod_pos_bound x _ P) as M. pose proof (Z.div_mod x (2 ^ F) ltac:(lia)) as D.
      replace (I - W)%Z with (- F)%Z by lia. rewrite Z.shiftl_opp_r, Z.shiftr_div_pow2 by lia. set (q := (x / 2 ^ F)%Z) in *. set (r := (x mod 2 ^ F)%Z) in *.
      assert (EX : fxval x F = IZR q + fxval r F). { rewrite D, fxval_add. f_equal. rewrite Z.mul_comm. unfold fxval. rewrite mult_IZR, <- bpow2_IZR by lia. rewrite Rmult_assoc, <- bpow2_add. replace (F + - F)%Z with 0%Z by lia. rewrite bpow2_0. ring. }
      assert (0 <= fxval r F < 1). { split; [rewrite <- (fxval_0 F); apply fxval_le; lia|]. rewrite <- (fxval_one F) by lia. apply fxval_lt. lia. }
      exists q. split; [|split; [exact M|exact EX]]. apply wraps_id; [lia|]. rewrite bpow2_IZR in HX by lia. change (2 ^ (32 - 1))%Z with (2 ^ 31)%Z. split; [|apply lt_IZR; lra].
      assert (- 2 ^ 31 < q + 1)%Z; [|lia]. apply lt_IZR. rewrite opp_IZR, plus_IZR. lra.
    - rewrite Z.max_r by lia. rewrite Z.shiftl_mul_pow2 by lia. assert (EX : fxval x (W - I) = IZR (x * 2 ^ (I - W))). { unfold fxval. rewrite mult_IZR, <- bpow2_IZR by lia. do 2 f_equal. lia. }
      exists (x * 2 ^ (I - W))%Z. rewrite EX in *. rewrite fxval_0. split; [|split; [lia|ring]]. apply wraps_id; [lia|]. rewrite bpow2_IZR in HX by lia. rewrite <- opp_IZR in HX. change (2 ^ (32 - 1))%Z with (2 ^ 31)%Z. split; [apply le_IZR; lra|apply lt_IZR; lra]. }
  destruct Hsplit as (n & -> & HxF & EX). destruct (exp2_rr_close AW TF TQ xF ltac:(lia) HT HQ HxF) as [By Ey]. set (y := exp2_rr AW (Fmt (TF + 1) 1 false TQ WRAP) xF) in *.
  exists (shift_left_ui (TF + 1) 1 f y n), (fxval y TF * bpow2 n). split; [reflexivity|]. pose proof (shift_left_ui_spec (TF + 1) 1 f y n ltac:(lia) HfW HfS By) as SP. apply converts2_R in SP.
  replace (- (TF + 1 - 1) + n)%Z with (- TF + n)%Z in SP by lia. rewrite bpow2_add, <- Rmult_assoc in SP. split; [exact SP|].
  assert (EP : Rpower 2 X = Rpower 2 (fxval xF AW) * bpow2 n) by (rewrite EX, Rpower_plus, bpow2_Rpower; ring). rewrite EP. pose proof (bpow2_pos n) as Pn. set (P := Rpower 2 (fxval xF AW)) in *.
  assert (HP : 1 <= P). { unfold P. rewrite <- (Rpower_O 2) by lra. apply Rpower2_le. rewrite <- (fxval_0 AW). apply fxval_le. lia. }
  rewrite <- Rmult_minus_distr_r, Rabs_mult, (Rabs_pos_eq (bpow2 n)) by lra. rewrite <- Rmult_assoc. apply Rmult_le_compat_r; [lra|]. eapply Rle_trans; [exact Ey|].
  assert (0 <= hc_c TF * bpow2 (- TF)) by (eapply Rle_trans; [apply Rabs_pos|exact Ey]). set (c := hc_c TF * bpow2 (- TF)) in *. nra.
Qed.

(** ** ac_exp_cordic *)
Lemma inv_ln2_Z : (Z.abs (hc_inv_ln2 * hc_ln2 - 2 ^ 317) <= 2 ^ 240)%Z. Proof. vm_compute. discriminate. Qed.
Lemma inv_ln2_bnd : 0 < fxval hc_inv_ln2 158 <= 1.443.
Proof.
  split; [rewrite <- (fxval_0 158); apply fxval_lt; reflexivity|]. assert (E : fxval hc_inv_ln2 158 * IZR (2 ^ 158) = IZR hc_inv_ln2) by (rewrite <- bpow2_IZR by lia; apply fxval_scale). assert (P : 0 < IZR (2 ^ 158)) by (apply (IZR_lt 0); reflexivity).
  assert (L : (1000 * hc_inv_ln2 <= 1443 * 2 ^ 158)%Z) by (vm_compute; discriminate). apply IZR_le in L. rewrite !mult_IZR in L. apply (Rmult_le_reg_r (IZR (2 ^ 158))); [exact P|]. lra.
Qed.
Lemma inv_ln2_near : Rabs (fxval hc_inv_ln2 158 * ln 2 - 1) <= bpow2 (-71).
Proof.
  pose proof ln2_near as N. pose proof inv_ln2_bnd as B. set (i := fxval hc_inv_ln2 158) in *. assert (A : Rabs (i * fxval hc_ln2 159 - 1) <= bpow2 (-77)).
  { pose proof inv_ln2_Z as Z. apply IZR_le in Z. rewrite abs_IZR, minus_IZR, mult_IZR, <- !bpow2_IZR in Z by lia.
    replace (i * fxval hc_ln2 159 - 1) with ((IZR hc_inv_ln2 * IZR hc_ln2 - bpow2 317) * bpow2 (-317)).
    - rewrite Rabs_mult, (Rabs_pos_eq (bpow2 (-317))) by apply Rlt_le, bpow2_pos. replace (bpow2 (-77)) with (bpow2 240 * bpow2 (-317)) by (rewrite <- bpow2_add; reflexivity). apply Rmult_le_compat_r; [apply Rlt_le, bpow2_pos|exact Z].
    - unfold i, fxval. rewrite Rmult_minus_distr_r, <- bpow2_add. change (317 + -317)%Z with 0%Z. rewrite bpow2_0. f_equal. replace (-317)%Z with (- (158) + - (159))%Z by lia. rewrite bpow2_add. ring. }
  assert (M : Rabs (i * (ln 2 - fxval hc_ln2 159)) <= 1.443 * bpow2 (-72)). { rewrite Rabs_mult, (Rabs_pos_eq i), Rabs_minus_sym by lra. apply Rmult_le_compat; try lra. apply Rabs_pos. }
  assert (bpow2 (-77) <= / 16 * bpow2 (-72)). { replace (-77)%Z with (-5 + -72)%Z by lia. rewrite bpow2_add. apply Rmult_le_compat_r; [apply Rlt_le, bpow2_pos|]. replace (/ 16) with (bpow2 (- (4))) by (rewrite bpow2_opp, bpow2_IZR by lia; reflexivity). apply bpow2_le. lia. }
  assert (bpow2 (-71) = 2 * bpow2 (-72)) by (rewrite <- bpow2_1, <- bpow2_add; reflexivity). pose proof (bpow2_pos (-72)). apply Rabs_le_both in A, M. apply Rabs_le. lra.
Qed.
Lemma convR_tz f V m : (1 <= fW f)%Z -> fQ f = TRN \/ fQ f = TRN_ZERO -> fO f = WRAP -> convertsR f V m -> IZR (imin (fS f) (fW f)) <= V * bpow2 (fF f) < IZR (imax (fS f) (fW f) + 1) ->
  in_range (fS f) (fW f) m /\ Rabs (fxval m (fF f) - V) <= bpow2 (- fF f).
Proof.
  intros HW HQ HO (z & Hr & Hl) [B1 B2]. pose proof (round_ge _ _ _ _ Hr B1) as L. assert (U : (z <= imax (fS f) (fW f))%Z).
  { assert (z < imax (fS f) (fW f) + 1)%Z; [|lia]. set (y := V * bpow2 (fF f)) in *. destruct HQ as [Q|Q]; rewrite Q in Hr; cbn [is_roundR] in Hr; [apply lt_IZR; lra|]. destruct (Rle_dec 0 y) as [P|P]; [apply lt_IZR; destruct Hr as [Hr _]; specialize (Hr P); lra|].
    apply Rnot_le_lt in P. destruct Hr as [_ Hr]. specialize (Hr P). assert (z < 1)%Z by (apply lt_IZR; lra). unfold imax. destruct (fS f); [pose proof (Z.pow_pos_nonneg 2 (fW f - 1) ltac:(lia) ltac:(lia))|pose proof (Z.pow_pos_nonneg 2 (fW f) ltac:(lia) ltac:(lia))]; lia. }
  apply is_limited_unique in Hl; [|exact HW]. rewrite overflow_id in Hl; [|exact HW|split; assumption|rewrite HO; discriminate]. subst m.
  split; [split; assumption|]. pose proof (round_near _ _ _ Hr) as N. unfold fxval. pose proof (bpow2_pos (- fF f)) as P.
  replace (IZR z * bpow2 (- fF f) - V) with ((IZR z - V * bpow2 (fF f)) * bpow2 (- fF f)).
  - rewrite Rabs_mult, (Rabs_pos_eq (bpow2 (- fF f))) by lra. nra.
  - rewrite Rmult_minus_distr_r, Rmult_assoc, <- bpow2_add. replace (fF f + - fF f)%Z with 0%Z by lia. rewrite bpow2_0. ring.
Qed.
Definition hc_ce (TF : Z) : R := if (TF <? 13)%Z then 24 else 15.
Lemma exp_cordic_real ort TQ W I S f x : let TF := hc_tf ort (fF f) in let X := fxval x (W - I) in
  (1 <= W)%Z -> in_range S W x -> (0 <= TF <= 44)%Z -> (0 <= TF + I)%Z -> TQ = TRN \/ TQ = TRN_ZERO \/ (1 <= TF /\ 2 <= TF + I)%Z -> (1 <= fW f)%Z -> fS f = false -> Rabs X + 1 <= bpow2 TF -> Rabs X <= bpow2 30 ->
  exists out Y, exp_cordic ort TQ W I S f x = Some out /\ convertsR f Y out /\ Rabs (Y - exp X) <= (hc_ce TF + 5 / 4 * Rabs X) * bpow2 (- TF) * exp X.
Proof.
  intros TF X HW Hx HT HTI HQ HfW HfS HX1 HX2. unfold exp_cordic. fold TF. replace (44 <? TF)%Z with false by lia. set (q := bpow2 (- TF)). assert (Pq : 0 < q) by apply bpow2_pos.
  pose proof inv_ln2_bnd as Bi. pose proof inv_ln2_near as Ni. set (ir := fxval hc_inv_ln2 158) in *.
  assert (Q1 : q <= 1) by (unfold q; rewrite <- bpow2_0; apply bpow2_le; lia). assert (Qq : q * bpow2 TF = 1) by (unfold q; rewrite <- bpow2_add; replace (- TF + TF)%Z with 0%Z by lia; apply bpow2_0).
  assert (Q44 : bpow2 (-44) <= q) by (unfold q; apply bpow2_le; lia). assert (T71 : bpow2 (-71) <= q * / 1048576). { apply Rle_trans with (bpow2 (-44) * / 1048576); [rewrite <- bpow2_m20, <- bpow2_add; apply bpow2_le; lia|]. apply Rmult_le_compat_r; lra. }
  assert (HX0 : 0 <= Rabs X) by apply Rabs_pos. assert (Xq : (Rabs X + 1) * q <= 1). { rewrite <- Qq, (Rmult_comm q). apply Rmult_le_compat_r; lra. }
  (* the constant *)
  pose proof (conv_R (dfmt (TF + 1) 1 false) hc_inv_ln2 158 ltac:(cbn [dfmt fW]; lia)) as C. fold ir in C. destruct (convR_dfmt (TF + 1) 1 false _ _ ltac:(lia) C) as [Ri Vi]; [rewrite bpow2_1; lra|]. replace (TF + 1 - 1)%Z with TF in Vi by lia. fold q in Vi.
  rewrite (conv_dfmt_same (TF + 1) 1 false _ TF) by lia. cbn [wrap]. rewrite wrapu_id by (unfold in_range, imin, imax in Ri; lia). set (il := conv (dfmt (TF + 1) 1 false) hc_inv_ln2 158) in *. clear C Ri. clearbody il.
  set (i := fxval il TF) in *. assert (i0 : -1 < i <= 1.443) by lra.
  assert (i00 : 0 <= i). { unfold i. rewrite <- (fxval_0 TF). apply fxval_le. assert (-1 < il)%Z; [|lia]. apply (fxval_lt (-1) il TF). fold i. replace (fxval (-1) TF) with (- q) by (unfold fxval, q; ring). lra. }
  (* the product *)
  assert (EV : fxval (x * il) (W - I + TF) = X * i) by apply fxval_mul. set (f2 := Fmt (TF + I + 1) (I + 1) S TQ WRAP). assert (EF : fF f2 = TF) by (unfold f2, fF; cbn [fW fI]; lia).
  pose proof (conv_R f2 (x * il) (W - I + TF) ltac:(unfold f2; cbn [fW]; lia)) as C. rewrite EV in C.
  pose proof (range_R S W I x HW Hx) as RX. fold X in RX. pose proof (bpow2_pos (I - 1)) as PI1. assert (EI2 : bpow2 I = 2 * bpow2 (I - 1)) by (rewrite <- bpow2_1, <- bpow2_add; f_equal; lia).
  assert (G : - (if S then bpow2 (I + 1 - 1) else 0) <= X * i < (if S then bpow2 (I + 1 - 1) else bpow2 (I + 1))).
  { replace (I + 1 - 1)%Z with (1 + (I - 1))%Z by lia. rewrite bpow2_add, bpow2_1. rewrite (bpow2_add I 1), bpow2_1. pose proof (bpow2_pos I) as P2. destruct S; [|]; nra. }
  pose proof (fits_R S (TF + I + 1) (I + 1) (X * i) ltac:(lia) G) as FR. replace (TF + I + 1 - (I + 1))%Z with TF in FR by lia.
  assert (N2 : Rabs (fxval (conv f2 (x * il) (W - I + TF)) (fF f2) - X * i) <= bpow2 (- fF f2)).
  { assert (CQ : (TQ = TRN \/ TQ = TRN_ZERO) \/ (1 <= TF /\ 2 <= TF + I)%Z) by tauto. destruct CQ as [CQ|[CQ1 CQ2]].
    - apply (convR_tz f2 _ _ ltac:(unfold f2; cbn [fW]; lia) CQ eq_refl C). rewrite EF. exact FR.
    - apply (convR_near f2 _ _ ltac:(unfold f2; cbn [fW]; lia) ltac:(discriminate) C). rewrite EF. unfold f2. cbn [fS fW]. split; [apply FR|]. pose proof (bpow2_pos TF) as PT.
      assert (E4 : bpow2 (TF + I) = bpow2 TF * bpow2 I) by apply bpow2_add. assert (L4 : 4 <= bpow2 (TF + I)). { apply Rle_trans with (bpow2 2); [rewrite bpow2_IZR by lia; change (IZR (2 ^ 2)) with 4; lra|apply bpow2_le; lia]. }
      unfold imax. replace (TF + I + 1 - 1)%Z with (TF + I)%Z by lia. assert (XI : X * i <= (if S then bpow2 (I - 1) else bpow2 I) * 1.443). { destruct (Rle_dec 0 X) as [GX|GX]; [apply Rmult_le_compat; destruct S; lra|]. apply Rle_trans with 0; [nra|]. destruct S; lra. }
      apply (Rmult_le_compat_r (bpow2 TF)) in XI; [|lra]. eapply Rle_trans; [exact XI|]. destruct S; rewrite minus_IZR, <- bpow2_IZR by lia; [|replace (TF + I + 1)%Z with (1 + (TF + I))%Z by lia; rewrite bpow2_add, bpow2_1]; rewrite E4 in *; [rewrite EI2 in *|]; nra. }
  rewrite EF in N2. fold q in N2. set (x2 := conv f2 (x * il) (W - I + TF)) in *. set (X2 := fxval x2 TF) in *.
  (* distance in the exponent *)
  assert (D : Rabs (X2 * ln 2 - X) <= 0.71 * (Rabs X + 1) * q).
  { pose proof ln2_low. pose proof ln2_hi. replace (X2 * ln 2 - X) with ((X2 - X * i) * ln 2 + (X * ((i - ir) * ln 2) + X * (ir * ln 2 - 1))) by ring. eapply Rle_trans; [apply Rabs_triang|]. eapply Rle_trans; [apply Rplus_le_compat_l, Rabs_triang|]. rewrite !Rabs_mult, (Rabs_pos_eq (ln 2)) by lra.
    assert (M1 : Rabs (X2 - X * i) * ln 2 <= q * 0.6932) by (apply Rmult_le_compat; try lra; apply Rabs_pos). assert (Di : Rabs (i - ir) <= q) by (apply Rabs_le; lra). assert (M2 : Rabs (i - ir) * ln 2 <= q * 0.6932) by (apply Rmult_le_compat; try lra; apply Rabs_pos).
    apply (Rmult_le_compat_l (Rabs X)) in M2; [|lra]. assert (M3 : Rabs X * Rabs (ir * ln 2 - 1) <= Rabs X * (q * / 1048576)) by (apply Rmult_le_compat_l; lra). assert (0 <= Rabs X * q) by (apply Rmult_le_pos; lra). lra. }
  assert (D1 : 0.71 * (Rabs X + 1) * q <= 0.71) by lra. set (dl := X2 * ln 2 - X) in *. apply Rabs_le_both in D.
  assert (HX2' : - bpow2 31 <= X2 < bpow2 31).
  { rewrite (bpow2_IZR 31), (bpow2_IZR 30) in * by lia. change (IZR (2 ^ 31)) with 2147483648. change (IZR (2 ^ 30)) with 1073741824 in HX2. apply Rabs_le_both in N2. assert (Rabs (X * i) <= 1073741824 * 1.443). { rewrite Rabs_mult, (Rabs_pos_eq i) by lra. apply Rmult_le_compat; lra. } apply Rabs_le_both in H. lra. }
  destruct (exp2_cordic_real ort TQ (TF + I + 1) (I + 1) f x2) as (out & Y & E1 & E2 & E3); try assumption; fold TF; try (replace (TF + I + 1 - (I + 1))%Z with TF by lia); try lia; [clear - HQ; intuition lia|exact HX2'|].
  exists out, Y. split; [exact E1|split; [exact E2|]]. replace (TF + I + 1 - (I + 1))%Z with TF in E3 by lia. fold TF in E3. fold X2 in E3. fold q in E3.
  assert (EP : Rpower 2 X2 = exp X * exp dl) by (unfold Rpower, dl; rewrite <- exp_plus; f_equal; ring). rewrite EP in E3. pose proof (exp_pos X) as PX. pose proof (exp_pos dl) as Pdl.
  assert (B1 : 1 + dl <= exp dl <= 1 + 1.71 * (0.71 * (Rabs X + 1) * q)).
  { split; [apply exp_ge|]. set (w := 0.71 * (Rabs X + 1) * q) in *. assert (0 <= w) by (unfold w; apply Rmult_le_pos; [apply Rmult_le_pos; lra|lra]). apply Rle_trans with (exp w); [apply exp_le_mono; lra|]. eapply Rle_trans; [apply exp_quad; lra|]. nra. }
  assert (B2 : exp dl <= 2.22) by lra.
  assert (Y1 : Rabs (Y - exp X) <= hc_c TF * q * (exp X * exp dl) + exp X * (1.22 * (Rabs X + 1) * q)).
  { replace (Y - exp X) with ((Y - exp X * exp dl) + exp X * (exp dl - 1)) by ring. eapply Rle_trans; [apply Rabs_triang|]. apply Rplus_le_compat; [exact E3|]. rewrite Rabs_mult, (Rabs_pos_eq (exp X)) by lra. apply Rmult_le_compat_l; [lra|]. assert (0 <= (Rabs X + 1) * q) by (apply Rmult_le_pos; lra). apply Rabs_le. lra. }
  eapply Rle_trans; [exact Y1|]. assert (hc_c TF * q * (exp X * exp dl) <= hc_c TF * q * (exp X * 2.22)). { apply Rmult_le_compat_l; [|apply Rmult_le_compat_l; lra]. unfold hc_c. destruct (TF <? 13)%Z; lra. }
  assert (0 <= q * exp X) by (apply Rmult_le_pos; lra). assert (0 <= Rabs X * (q * exp X)) by (apply Rmult_le_pos; lra). unfold hc_c, hc_ce in *. destruct (TF <? 13)%Z; lra.
Qed.
