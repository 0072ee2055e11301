(** The statements of PropHcFloat.v in terms of the interface, and the counterexamples. *)
From Coq Require Import Reals Lia Lra Psatz ZifyBool.
From Verif Require Import AcTypes AcFacts Spec SpecFacts SpecR SpecRFacts SoftFacts LeadingModel LeadingProofs Atan2Proofs PwlExpReal ActReal HcModel HcPow HcLog HcLn HcPowModel HcPowThm HcFloatModel HcFloat.
Local Open Scope Z.

Theorem log_float_accurate : forall ort TQ AW AI AE ZF m e x,
  let nf := match ort with Some tf => tf | None => AW - 1 end in
  let zf := match ort with Some tf => tf | None => ZF end in
  let X := (fxval m (AW - AI) * bpow2 e)%R in
  2 <= AW -> 0 < m < 2 ^ (AW - 1) -> 1 <= AE -> in_range true AE e -> 1 <= nf <= 44 -> 0 <= zf <= 44 -> AW - 1 <= nf \/ TQ = TRN \/ TQ = TRN_ZERO ->
  (bpow2 (x - 1) <= X < bpow2 x)%R ->
  exists v, log_float ort TQ AW AI AE ZF m e = Some v /\
    (Rabs (fxval v (zf + 1) - ln X) <= ((if zf <? 13 then 8 else 3) + 51 / 100 * IZR (Z.abs x) + (if AW - 1 <=? nf then 0 else 2)) * bpow2 (- zf))%R.
Proof. exact log_float_real. Qed.
Theorem log2_float_accurate : forall ort TQ AW AI AE ZF m e,
  let nf := match ort with Some tf => tf | None => AW - 1 end in
  let zf := match ort with Some tf => tf | None => ZF end in
  let X := (fxval m (AW - AI) * bpow2 e)%R in
  2 <= AW -> 0 < m < 2 ^ (AW - 1) -> 1 <= AE -> in_range true AE e -> 1 <= nf <= 44 -> 0 <= zf <= 44 -> AW - 1 <= nf \/ TQ = TRN \/ TQ = TRN_ZERO ->
  exists v, log2_float ort TQ AW AI AE ZF m e = Some v /\
    (Rabs (fxval v zf - ln X / ln 2) <= ((if zf <? 13 then 11 else 7 / 2) + (if AW - 1 <=? nf then 0 else 3)) * bpow2 (- zf))%R.
Proof. exact log2_float_real. Qed.
Lemma x65535 : (65535 / 65536 <= fxval 65535 (20 - 4) * bpow2 0 <= 65535 / 65536)%R.
Proof. unfold fxval. change (20 - 4) with 16. rewrite bpow2_0, bpow2_opp, bpow2_IZR by lia. change (IZR (2 ^ 16)) with 65536%R. lra. Qed.
Lemma ln65535 : (- 1 / 1000 <= ln (fxval 65535 (20 - 4) * bpow2 0) <= 0)%R.
Proof.
  pose proof x65535 as B. set (X := (fxval 65535 (20 - 4) * bpow2 0)%R) in *. split; [|rewrite <- ln_1; apply ln_le; lra]. pose proof (ln_le_sub1 (/ X) ltac:(apply Rinv_0_lt_compat; lra)) as L. rewrite ln_Rinv in L by lra.
  assert (/ X <= / (65535 / 65536))%R by (apply Rinv_le_contravar; lra). assert (/ (65535 / 65536) = 65536 / 65535)%R by (field; lra). lra.
Qed.
Theorem log_float_rounding_bad : ~ (forall ort TQ AW AI AE ZF m e x,
  let nf := match ort with Some tf => tf | None => AW - 1 end in
  let zf := match ort with Some tf => tf | None => ZF end in
  let X := (fxval m (AW - AI) * bpow2 e)%R in
  2 <= AW -> 0 < m < 2 ^ (AW - 1) -> 1 <= AE -> in_range true AE e -> 1 <= nf <= 44 -> 0 <= zf <= 44 ->
  (bpow2 (x - 1) <= X < bpow2 x)%R ->
  exists v, log_float ort TQ AW AI AE ZF m e = Some v /\
    (Rabs (fxval v (zf + 1) - ln X) <= ((if zf <? 13 then 8 else 3) + 51 / 100 * IZR (Z.abs x) + (if AW - 1 <=? nf then 0 else 2)) * bpow2 (- zf))%R).
Proof.
  intros H. pose proof x65535 as B. pose proof ln65535 as L. assert (P : bpow2 (0 - 1) = (/ 2)%R) by (change (0 - 1) with (- (1)); rewrite bpow2_opp, bpow2_1; reflexivity).
  destruct (H (Some 8) RND 20 4 6 16 65535 0 0 ltac:(lia) ltac:(lia) ltac:(lia) ltac:(unfold in_range, imin, imax; lia) ltac:(lia) ltac:(lia) ltac:(rewrite P; pose proof bpow2_0; set (X := (fxval 65535 (20 - 4) * bpow2 0)%R) in *; clearbody X; lra)) as (v & E & D).
  assert (E1 : log_float (Some 8) RND 20 4 6 16 65535 0 = Some (-120)) by (vm_compute; reflexivity). rewrite E1 in E. injection E as <-. change (8 <? 13) with true in D. change (20 - 1 <=? 8) with false in D. change (Z.abs 0) with 0 in D. cbv iota in D. apply Rabs_le_both in D. destruct D as [D _].
  set (l := ln _) in *. unfold fxval in D. change (8 + 1) with 9 in D. rewrite !bpow2_opp, !bpow2_IZR in D by lia. change (IZR (2 ^ 9)) with 512%R in D. change (IZR (2 ^ 8)) with 256%R in D. lra.
Qed.
Theorem log2_float_rounding_bad : ~ (forall ort TQ AW AI AE ZF m e,
  let nf := match ort with Some tf => tf | None => AW - 1 end in
  let zf := match ort with Some tf => tf | None => ZF end in
  let X := (fxval m (AW - AI) * bpow2 e)%R in
  2 <= AW -> 0 < m < 2 ^ (AW - 1) -> 1 <= AE -> in_range true AE e -> 1 <= nf <= 44 -> 0 <= zf <= 44 ->
  exists v, log2_float ort TQ AW AI AE ZF m e = Some v /\
    (Rabs (fxval v zf - ln X / ln 2) <= ((if zf <? 13 then 11 else 7 / 2) + (if AW - 1 <=? nf then 0 else 3)) * bpow2 (- zf))%R).
Proof.
  intros H. pose proof ln65535 as L. destruct (H (Some 8) RND 20 4 6 16 65535 0 ltac:(lia) ltac:(lia) ltac:(lia) ltac:(unfold in_range, imin, imax; lia) ltac:(lia) ltac:(lia)) as (v & E & D).
  assert (E1 : log2_float (Some 8) RND 20 4 6 16 65535 0 = Some 199) by (vm_compute; reflexivity). rewrite E1 in E. injection E as <-. change (8 <? 13) with true in D. change (20 - 1 <=? 8) with false in D. cbv iota in D. apply Rabs_le_both in D. destruct D as [_ D].
  set (l := ln (fxval 65535 (20 - 4) * bpow2 0)%R) in *. unfold fxval in D. rewrite !bpow2_opp, !bpow2_IZR in D by lia. change (IZR (2 ^ 8)) with 256%R in D. pose proof ln2_low as L2. assert (l / ln 2 <= 0)%R. { apply (Rmult_le_reg_r (ln 2)); [lra|]. unfold Rdiv. rewrite Rmult_assoc, Rinv_l by lra. lra. } lra.
Qed.

Theorem exp2_float_accurate : forall ort TQ AW AI ZW ZI ZE m e,
  let TF := match ort with Some tf => tf | None => ZW - ZI end in
  let TI := nbits (2 ^ (ZE - 1) + Z.max (ZI - 1) (ZW - ZI)) + 1 in
  let X := (fxval m (AW - AI) * bpow2 e)%R in
  1 <= AW -> in_range true AW m -> 1 <= TF <= 44 -> TI <= 32 ->
  exists y n eta eps, exp2_float ort TQ AW AI ZW ZI ZE m e = Some (y, n) /\
    (fxval y TF * bpow2 n = Rpower 2 (Rmax (- bpow2 (TI - 1)) (Rmin (bpow2 (TI - 1) - bpow2 (- TF)) X) + eta) * (1 + eps))%R /\
    (Rabs eta <= bpow2 (- TF))%R /\ (Rabs eps <= (if TF <? 13 then 10 else 6) * bpow2 (- TF))%R.
Proof. exact exp2_float_real. Qed.
Theorem exp_float_accurate : forall ort TQ AW AI ZW ZI ZE m e,
  let TF := match ort with Some tf => tf | None => ZW - ZI end in
  let TI := nbits (2 ^ (ZE - 1) + Z.max (ZI - 1) (ZW - ZI)) + 1 in
  let X := (fxval m (AW - AI) * bpow2 e)%R in
  1 <= AW -> in_range true AW m -> 1 <= TF <= 44 -> TI <= 32 ->
  exists y n eta eps, exp_float ort TQ AW AI ZW ZI ZE m e = Some (y, n) /\
    (fxval y TF * bpow2 n = Rpower 2 (Rmax (- bpow2 (TI - 1)) (Rmin (bpow2 (TI - 1) - bpow2 (- TF)) (X / ln 2)) + eta) * (1 + eps))%R /\
    (Rabs eta <= (1 + 101 / 100 * Rabs X) * bpow2 (- TF))%R /\ (Rabs eps <= (if TF <? 13 then 10 else 6) * bpow2 (- TF))%R.
Proof. exact exp_float_real. Qed.

(** ** Saturation *)
Lemma out_max ZW ZI ZE mz ez : 2 <= ZW -> 1 <= ZE -> in_range true ZW mz -> in_range true ZE ez -> (fxval mz (ZW - ZI) * bpow2 ez < bpow2 (ZI - 1 + 2 ^ (ZE - 1) - 1))%R.
Proof.
  intros HW HE Hm He. pose proof (range_R true ZW ZI mz ltac:(lia) Hm) as R. cbv iota in R. unfold in_range, imin, imax in He. pose proof (bpow2_pos ez) as P. pose proof (bpow2_pos (ZI - 1)) as P1.
  replace (ZI - 1 + 2 ^ (ZE - 1) - 1) with (ZI - 1 + (2 ^ (ZE - 1) - 1)) by lia. rewrite bpow2_add. apply Rlt_le_trans with (bpow2 (ZI - 1) * bpow2 ez)%R; [apply Rmult_lt_compat_r; lra|]. apply Rmult_le_compat_l; [lra|]. apply bpow2_le. lia.
Qed.
Theorem exp2_float_saturates : forall ort TQ AW AI ZW ZI ZE m e y n,
  let TF := match ort with Some tf => tf | None => ZW - ZI end in
  let TI := nbits (2 ^ (ZE - 1) + Z.max (ZI - 1) (ZW - ZI)) + 1 in
  let X := (fxval m (AW - AI) * bpow2 e)%R in
  1 <= AW -> in_range true AW m -> 2 <= ZW -> 1 <= ZE -> 5 <= TF <= 44 -> TI <= 32 ->
  exp2_float ort TQ AW AI ZW ZI ZE m e = Some (y, n) ->
  ((bpow2 (TI - 1) <= X)%R -> forall mz ez, in_range true ZW mz -> in_range true ZE ez -> (fxval mz (ZW - ZI) * bpow2 ez < fxval y TF * bpow2 n /\ fxval mz (ZW - ZI) * bpow2 ez < Rpower 2 X)%R) /\
  ((X <= - bpow2 (TI - 1))%R -> (0 <= fxval y TF * bpow2 n < fxval 1 (ZW - ZI) * bpow2 (- 2 ^ (ZE - 1)) /\ Rpower 2 X < fxval 1 (ZW - ZI) * bpow2 (- 2 ^ (ZE - 1)))%R).
Proof.
  intros ort TQ AW AI ZW ZI ZE m e y n TF TI X HW Hm HZW HZE HT HI E. destruct (exp2_float_accurate ort TQ AW AI ZW ZI ZE m e HW Hm ltac:(fold TF; lia) HI) as (y' & n' & eta & eps & E' & V & D1 & D2). rewrite E in E'. injection E' as <- <-. fold TF TI X in V, D1, D2.
  set (K := 2 ^ (ZE - 1) + Z.max (ZI - 1) (ZW - ZI)) in *. assert (PZ : 0 < 2 ^ (ZE - 1)) by (apply Z.pow_pos_nonneg; lia). assert (HK : 0 <= K) by (unfold K; lia). pose proof (nbits_ub K HK) as U. assert (ETI : TI - 1 = nbits K) by (unfold TI; lia). rewrite ETI in *.
  set (T := bpow2 (nbits K)) in *. assert (HKT : (IZR K + 1 <= T)%R). { unfold T. pose proof (nbits_nonneg K). rewrite bpow2_IZR by lia. rewrite <- plus_IZR. apply IZR_le. lia. } assert (HK0 : (0 <= IZR K)%R) by (apply IZR_le; lia).
  set (q := bpow2 (- TF)) in *. assert (Bq : (0 < q <= / 32)%R). { split; [apply bpow2_pos|]. unfold q. replace (/ 32)%R with (bpow2 (- (5))) by (rewrite bpow2_opp, bpow2_IZR by lia; reflexivity). apply bpow2_le. lia. }
  assert (De : (Rabs eps <= 10 * q)%R) by (destruct (TF <? 13); lra). apply Rabs_le_both in De, D1. set (VV := (fxval y TF * bpow2 n)%R) in *. split; intros HX.
  - assert (EC : Rmax (- T) (Rmin (T - q) X) = (T - q)%R). { rewrite Rmin_left by lra. apply Rmax_right. lra. } rewrite EC in V.
    assert (G1 : (bpow2 K <= VV)%R).
    { rewrite V. replace (bpow2 K) with (Rpower 2 (IZR K + 15 / 16) * Rpower 2 (- (15 / 16)))%R by (rewrite <- Rpower_plus, <- bpow2_Rpower; f_equal; lra). apply Rmult_le_compat; [apply Rlt_le, exp_pos|apply Rlt_le, exp_pos|apply Rpower2_le; lra|].
      pose proof (Rpower2_le2 (1 / 16) ltac:(rewrite Rabs_pos_eq; lra)) as A. rewrite Rabs_pos_eq in A by lra. replace (- (15 / 16))%R with (- (1) + 1 / 16)%R by lra. rewrite Rpower_plus, Rpower_Ropp, Rpower_1 by lra. lra. }
    intros mz ez Hmz Hez. pose proof (out_max ZW ZI ZE mz ez HZW HZE Hmz Hez) as M. assert (G2 : (bpow2 (ZI - 1 + 2 ^ (ZE - 1) - 1) <= bpow2 K)%R) by (apply bpow2_le; unfold K; lia). assert (G3 : (bpow2 K <= Rpower 2 X)%R) by (rewrite <- bpow2_Rpower; apply Rpower2_le; lra). lra.
  - assert (EC : Rmax (- T) (Rmin (T - q) X) = (- T)%R). { apply Rmax_left. eapply Rle_trans; [apply Rmin_r|exact HX]. } rewrite EC in V.
    assert (Emin : (bpow2 (- K) <= fxval 1 (ZW - ZI) * bpow2 (- 2 ^ (ZE - 1)))%R). { unfold fxval. rewrite Rmult_1_l, <- bpow2_add. apply bpow2_le. unfold K. lia. } assert (G0 : (Rpower 2 (- IZR K - 1) = bpow2 (- K) * / 2)%R). { replace (- IZR K - 1)%R with (IZR (- K) + - (1))%R by (rewrite opp_IZR; lra). rewrite Rpower_plus, bpow2_Rpower, Rpower_Ropp, Rpower_1 by lra. reflexivity. } pose proof (bpow2_pos (- K)) as PK.
    split; [split|].
    + rewrite V. apply Rmult_le_pos; [apply Rlt_le, exp_pos|lra].
    + eapply Rlt_le_trans; [|exact Emin]. rewrite V. assert (A : (Rpower 2 (- T + eta) <= bpow2 (- K) * / 2 * Rpower 2 (1 / 32))%R). { rewrite <- G0, <- Rpower_plus. apply Rpower2_le. lra. }
      pose proof (Rpower2_le2 (1 / 32) ltac:(rewrite Rabs_pos_eq; lra)) as A2. rewrite Rabs_pos_eq in A2 by lra. assert (A3 : (Rpower 2 (- T + eta) <= bpow2 (- K) * / 2 * (34 / 32))%R) by (eapply Rle_trans; [exact A|]; apply Rmult_le_compat_l; lra). apply Rle_lt_trans with (bpow2 (- K) * / 2 * (34 / 32) * (42 / 32))%R; [|lra]. apply Rmult_le_compat; [apply Rlt_le, exp_pos|lra|exact A3|lra].
    + eapply Rlt_le_trans; [|exact Emin]. apply Rle_lt_trans with (Rpower 2 (- IZR K - 1)); [apply Rpower2_le; lra|]. rewrite G0. lra.
Qed.

(** ** Powers *)
Theorem pow_float_accurate : forall ort TQ AW AI AE BW BI ZW ZI ZE mA eA mB eB,
  let nf := match ort with Some tf => tf | None => AW - 1 end in
  let lF := match ort with Some tf => tf | None => ZW end in
  let TF := match ort with Some tf => tf | None => ZW - ZI end in
  let TI := nbits (2 ^ (ZE - 1) + Z.max (ZI - 1) (ZW - ZI)) + 1 in
  let A := (fxval mA (AW - AI) * bpow2 eA)%R in let B := (fxval mB (BW - BI) * bpow2 eB)%R in
  2 <= AW -> 0 < mA < 2 ^ (AW - 1) -> 1 <= AE -> in_range true AE eA -> 1 <= BW -> in_range true BW mB -> 1 <= nf <= 44 -> 4 <= lF <= 44 -> 1 <= TF <= 44 -> TI <= 32 ->
  AW - 1 <= nf \/ TQ = TRN \/ TQ = TRN_ZERO -> A <> 1%R ->
  exists y n eta eps, pow_float ort TQ AW AI AE BW BI ZW ZI ZE mA eA mB eB = Some (PNum y n) /\
    (fxval y TF * bpow2 n = Rpower 2 (Rmax (- bpow2 (TI - 1)) (Rmin (bpow2 (TI - 1) - bpow2 (- TF)) (B * (ln A / ln 2))) + eta) * (1 + eps))%R /\
    (Rabs eta <= Rabs B * (((if lF <? 13 then 11 else 7 / 2) + (if AW - 1 <=? nf then 0 else 3)) * bpow2 (- lF)) + bpow2 (- TF))%R /\ (Rabs eps <= (if TF <? 13 then 10 else 6) * bpow2 (- TF))%R.
Proof. exact pow_float_real. Qed.
Theorem pow_float_special : forall ort TQ AW AI AE BW BI ZW ZI ZE mA eA mB eB,
  let nf := match ort with Some tf => tf | None => AW - 1 end in
  let lF := match ort with Some tf => tf | None => ZW end in
  let TF := match ort with Some tf => tf | None => ZW - ZI end in
  nf <= 44 -> lF <= 44 -> 1 <= TF <= 44 ->
  ((fxval mA (AW - AI) * bpow2 eA = 1)%R -> pow_float ort TQ AW AI AE BW BI ZW ZI ZE mA eA mB eB = Some (PInt 1)) /\
  ((fxval mA (AW - AI) * bpow2 eA = 0)%R -> (fxval mB (BW - BI) * bpow2 eB <> 0)%R -> pow_float ort TQ AW AI AE BW BI ZW ZI ZE mA eA mB eB = Some (PInt 0)) /\
  ((fxval mA (AW - AI) * bpow2 eA = 0)%R -> (fxval mB (BW - BI) * bpow2 eB = 0)%R -> pow_float ort TQ AW AI AE BW BI ZW ZI ZE mA eA mB eB = Some (PInt 1)).
Proof.
  intros ort TQ AW AI AE BW BI ZW ZI ZE mA eA mB eB nf lF TF Hn Hl HT. unfold pow_float. change (hc_tf ort ZW) with lF. change (hc_tf ort (ZW - ZI)) with TF. replace ((1 <=? TF) && (TF <=? 44)) with true by lia. cbn [negb].
  assert (S : exists l, flt_log2_a ort TQ AW AI AE ZW mA eA = Some l). { unfold flt_log2_a. destruct (flt_norm AW AI mA eA) as [E0 n0]. change (hc_tf ort (AW - 1)) with nf. change (hc_tf ort ZW) with lF. replace ((44 <? nf) || (44 <? lF)) with false by lia. eexists. reflexivity. }
  assert (Z0 : forall k F x, (fxval k F * bpow2 x = 0)%R -> k = 0). { intros k F x H0. unfold fxval in H0. pose proof (bpow2_pos (- F)). pose proof (bpow2_pos x). apply eq_IZR. apply Rmult_integral in H0. destruct H0 as [H0|H0]; [|lra]. apply Rmult_integral in H0. destruct H0 as [H0|H0]; lra. }
  assert (N0 : mA = 0 -> flt_is_one AW AI mA eA = false). { intros ->. apply not_true_is_false. intros C. apply flt_is_one_R in C. unfold fltval in C. rewrite fxval_0 in C. lra. }
  destruct S as (l & ->). destruct (flt_exp2 _ _ _ _) as [y n]. refine (conj _ (conj _ _)).
  - intros H. replace (flt_is_one AW AI mA eA) with true by (symmetry; apply flt_is_one_R; exact H). reflexivity.
  - intros H HB. apply Z0 in H. rewrite N0 by exact H. replace (mA =? 0) with true by lia.
    destruct (mB =? 0) eqn:EB; [|reflexivity]. exfalso. apply HB. replace mB with 0 by lia. rewrite fxval_0. ring.
  - intros H HB. apply Z0 in H. apply Z0 in HB. rewrite N0 by exact H. replace (mA =? 0) with true by lia. replace (mB =? 0) with true by lia. reflexivity.
Qed.
Theorem pow_float_zero_exponent_bad : ~ (forall ort TQ AW AI AE BW BI ZW ZI ZE mA eA eB y n,
  let nf := match ort with Some tf => tf | None => AW - 1 end in
  let lF := match ort with Some tf => tf | None => ZW end in
  let TF := match ort with Some tf => tf | None => ZW - ZI end in
  let TI := nbits (2 ^ (ZE - 1) + Z.max (ZI - 1) (ZW - ZI)) + 1 in
  2 <= AW -> 0 < mA < 2 ^ (AW - 1) -> 1 <= AE -> in_range true AE eA -> 1 <= BW -> 1 <= nf <= 44 -> 4 <= lF <= 44 -> 1 <= TF <= 44 -> TI <= 32 ->
  pow_float ort TQ AW AI AE BW BI ZW ZI ZE mA eA 0 eB = Some (PNum y n) -> (fxval y TF * bpow2 n = 1)%R).
Proof.
  intros H. specialize (H None TRN 18 2 6 18 2 18 2 6 (2 ^ 15 * 3) 0 0 65535 0 ltac:(lia) ltac:(lia) ltac:(lia) ltac:(unfold in_range, imin, imax; lia) ltac:(lia) ltac:(lia) ltac:(lia) ltac:(lia) ltac:(vm_compute; discriminate) ltac:(vm_compute; reflexivity)).
  cbv iota in H. unfold fxval in H. change (18 - 2) with 16 in H. rewrite bpow2_0, bpow2_opp, bpow2_IZR in H by lia. change (IZR (2 ^ 16)) with 65536%R in H. lra.
Qed.
