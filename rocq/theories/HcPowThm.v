(** ac_pow_cordic: accuracy, and the special cases it does not have. *)
From Coq Require Import Reals Lia Lra Psatz ZifyBool.
From Verif Require Import AcTypes AcFacts Spec SpecFacts SpecR SpecRFacts SoftFacts QrdThm MatrixProofs ShiftFacts LeadingModel LeadingProofs Atan2Proofs PwlExpReal ActReal DetProofs HcModel HcNum HcIter HcExp HcExp2 HcPow HcLog HcLn HcPowModel.
Local Open Scope R_scope.

Lemma fx_range_both (F : Z) x (S : bool) W : (1 <= W)%Z -> in_range S W x -> Rabs (fxval x F) <= fxval (2 ^ W) F.
Proof.
  intros HW H. assert (Z.abs x <= 2 ^ W)%Z. { unfold in_range, imin, imax in H. assert (2 ^ W = 2 * 2 ^ (W - 1))%Z by (rewrite <- Z.pow_succ_r by lia; f_equal; lia). assert (0 < 2 ^ (W - 1))%Z by (apply Z.pow_pos_nonneg; lia). destruct S; lia. }
  apply Rabs_le. split; [rewrite <- fxval_opp; apply fxval_le; lia|apply fxval_le; lia].
Qed.

(** ** The logarithm of the base *)
Definition pow_kq (AW nf : Z) : R := if (AW <=? nf)%Z then 0 else 3.
Lemma pow_LI_ub AW AI : (0 <= AI <= AW)%Z -> (1 <= pow_LI AW AI /\ AW - AI < 2 ^ (pow_LI AW AI - 1) /\ AI < 2 ^ (pow_LI AW AI - 1))%Z.
Proof.
  intros H. unfold pow_LI. replace (Z.max (nbits (AW - AI)) (nbits AI) + 1 - 1)%Z with (Z.max (nbits (AW - AI)) (nbits AI)) by lia. pose proof (nbits_nonneg (AW - AI)). pose proof (nbits_nonneg AI).
  pose proof (nbits_ub (AW - AI) ltac:(lia)) as U1. pose proof (nbits_ub AI ltac:(lia)) as U2. pose proof (Z.pow_le_mono_r 2 (nbits (AW - AI)) (Z.max (nbits (AW - AI)) (nbits AI)) ltac:(lia) ltac:(lia)). pose proof (Z.pow_le_mono_r 2 (nbits AI) (Z.max (nbits (AW - AI)) (nbits AI)) ltac:(lia) ltac:(lia)). lia.
Qed.
Lemma pow_log2_real ort TQ AW AI AO ZW a : let nf := hc_tf ort AW in let lF := hc_tf ort ZW in let L := pow_LI AW AI in let X := fxval a (AW - AI) in
  (1 <= AW)%Z -> (0 <= AI <= AW)%Z -> (0 < a < 2 ^ AW)%Z -> (1 <= nf <= 44)%Z -> (4 <= lF <= 44)%Z -> (AW <= nf)%Z \/ TQ = TRN \/ TQ = TRN_ZERO ->
  exists l, pow_log2 ort TQ AW AI AO ZW a = Some l /\ in_range true lF l /\ Rabs (fxval l (lF - L) - ln X / ln 2) <= (kl2 lF + pow_kq AW nf) * bpow2 (- lF) + bpow2 (L - lF).
Proof.
  intros nf lF L X HW HI Hx Hnf Hzf HQ. destruct (norm_R AW AI AO a HW Hx) as (e & n & En & He & Hn & EX). fold X in EX. unfold pow_log2. rewrite En. fold nf lF L. replace ((44 <? nf)%Z || (44 <? lF)%Z) with false by lia.
  destruct (mant_R AW nf TQ n HW ltac:(lia) HQ Hn) as [Hn2 Mn]. set (n2 := conv (Fmt nf 0 false TQ WRAP) n AW) in *.
  pose proof (log2_rr_near nf lF n2 ltac:(lia) ltac:(lia) Hn2) as N. set (zc := log_rr hc_tab2 nf (dfmt (lF + 2) 2 true) n2) in *.
  pose proof ln2_low as LL. set (w := bpow2 (- lF)) in *. assert (Pw : 0 < w) by apply bpow2_pos.
  assert (W16 : w <= / 16). { unfold w. replace (/ 16) with (bpow2 (- (4))) by (rewrite bpow2_opp, bpow2_IZR by lia; reflexivity). apply bpow2_le. lia. }
  eexists. split; [reflexivity|].
  assert (EV : fxval (zc + e * 2 ^ lF) lF = IZR e + fxval zc lF). { rewrite fxval_add, Rplus_comm. f_equal. unfold fxval. rewrite mult_IZR, <- bpow2_IZR, bpow2_opp by lia. field. pose proof (bpow2_pos lF). lra. }
  pose proof (half_rng n AW HW Hn) as Hh. assert (EL : ln X / ln 2 = ln (fxval n AW) / ln 2 + IZR e). { rewrite EX, ln_mult by (try apply bpow2_pos; lra). rewrite <- bpow2_Rpower. unfold Rpower at 1. rewrite ln_exp. field. lra. }
  set (Z1 := fxval zc lF) in *. set (u := ln (fxval n2 nf)) in *. set (b := ln (fxval n AW)) in *.
  assert (DM : Rabs (u - b) <= (if (AW <=? nf)%Z then 0 else 2) * w). { eapply Rle_trans; [exact Mn|]. destruct (Z.leb_spec AW nf) as [G|G]; [lra|]. assert (nf = lF) by (unfold nf, lF, hc_tf in *; destruct ort; [reflexivity|lia]). unfold w. rewrite H. lra. }
  assert (DM2 : Rabs (u / ln 2 - b / ln 2) <= pow_kq AW nf * w). { unfold pow_kq. replace (u / ln 2 - b / ln 2) with ((u - b) * / ln 2) by (field; lra). rewrite Rabs_mult, (Rabs_pos_eq (/ ln 2)) by (apply Rlt_le, Rinv_0_lt_compat; lra). apply (Rmult_le_reg_r (ln 2)); [lra|]. rewrite Rmult_assoc, Rinv_l by lra. rewrite Rmult_1_r. eapply Rle_trans; [exact DM|]. destruct (AW <=? nf)%Z; [lra|]. assert (w * 0.6931 <= w * ln 2) by (apply Rmult_le_compat_l; lra). lra. }
  assert (DT : Rabs (IZR e + Z1 - ln X / ln 2) <= (kl2 lF + pow_kq AW nf) * w). { rewrite EL. clear - DM2 N. apply Rabs_le_both in DM2, N. apply Rabs_le. lra. }
  (* the sum fits in log2_a's integer bits *)
  assert (Hb : -1 <= b / ln 2 < 0).
  { pose proof (ln_low _ Hh) as Lb. fold b in Lb. assert (b < 0) by (unfold b; rewrite <- ln_1; apply ln_increasing; lra). split.
    - apply (Rmult_le_reg_r (ln 2)); [lra|]. unfold Rdiv. rewrite Rmult_assoc, Rinv_l by lra. lra.
    - apply (Rmult_lt_reg_r (ln 2)); [lra|]. unfold Rdiv. rewrite Rmult_assoc, Rinv_l by lra. lra. }
  assert (KQ : (kl2 lF + pow_kq AW nf) * w <= 14 / 16). { unfold kl2, pow_kq. destruct (lF <? 13)%Z; destruct (AW <=? nf)%Z; lra. }
  destruct (pow_LI_ub AW AI HI) as (HL & U1 & U2). fold L in HL, U1, U2.
  assert (R1 : - bpow2 (L - 1) <= IZR e + Z1 < bpow2 (L - 1)).
  { rewrite bpow2_IZR by lia. rewrite EL in DT. apply Rabs_le_both in DT. assert (IZR e <= IZR (2 ^ (L - 1)) - 1) by (rewrite <- minus_IZR; apply IZR_le; lia). assert (- IZR (2 ^ (L - 1)) + 2 <= IZR e) by (rewrite <- opp_IZR, <- plus_IZR; apply IZR_le; lia). clear - DT KQ Hb H H0. lra. }
  pose proof (conv_R (dfmt lF L true) (zc + e * 2 ^ lF) lF ltac:(cbn [dfmt fW]; lia)) as C. rewrite EV in C. destruct (convR_dfmt lF L true _ _ ltac:(lia) C R1) as [Rl Vl]. split; [exact Rl|].
  replace (- (lF - L))%Z with (L - lF)%Z in Vl by lia. clear - Vl DT. apply Rabs_le_both in DT. pose proof (bpow2_pos (L - lF)). apply Rabs_le. lra.
Qed.

(** ** The power *)
Theorem pow_cordic_real ort TQ AW AI AO BW BI BS f a b : let nf := hc_tf ort AW in let lF := hc_tf ort (fW f) in let TF := hc_tf ort (fF f) in let L := pow_LI AW AI in
  let X := fxval a (AW - AI) in let B := fxval b (BW - BI) in
  (1 <= AW)%Z -> (0 <= AI <= AW)%Z -> (0 < a < 2 ^ AW)%Z -> (1 <= BW)%Z -> in_range BS BW b -> (1 <= nf <= 44)%Z -> (4 <= lF <= 44)%Z -> (0 <= TF <= 44)%Z ->
  TQ = TRN \/ TQ = TRN_ZERO -> (1 <= fW f)%Z -> fS f = false -> (-44 <= L + BI <= 32)%Z ->
  exists out V P, pow_cordic ort TQ AW AI AO BW BI f a b = Some out /\ convertsR f V out /\
    Rabs (P - B * (ln X / ln 2)) <= Rabs B * ((kl2 lF + pow_kq AW nf) * bpow2 (- lF) + bpow2 (L - lF)) + bpow2 (-45) /\
    Rabs (V - Rpower 2 P) <= hc_c TF * bpow2 (- TF) * Rpower 2 P.
Proof.
  intros nf lF TF L X B HW HI Ha HBW Hb Hnf HlF HTF HQ HfW HfS HLB. unfold pow_cordic. fold lF. fold L.
  destruct (pow_log2_real ort TQ AW AI AO (fW f) a HW HI Ha Hnf HlF ltac:(right; exact HQ)) as (l & El & Rl & Dl). fold lF L X nf in El, Rl, Dl. rewrite El. set (pF := (lF - L + (BW - BI))%Z). set (pf := Z.min pF 45). set (pi := (L + BI)%Z) in *.
  assert (EP : fxval (b * l) pF = B * fxval l (lF - L)). { unfold pF, B. rewrite Z.add_comm. apply fxval_mul. }
  assert (RP : - bpow2 (pi - 1) <= fxval (b * l) pF < bpow2 (pi - 1)).
  { rewrite EP. pose proof (range_R true lF L l ltac:(lia) Rl) as RL. pose proof (range_R BS BW BI b HBW Hb) as RB. fold B in RB. set (v := fxval l (lF - L)) in *. pose proof (bpow2_pos (L - 1)) as PL. replace (pi - 1)%Z with (L - 1 + BI)%Z by (unfold pi; lia). rewrite bpow2_add.
    replace BI with ((BI - 1) + 1)%Z at 1 2 by lia. rewrite bpow2_add, bpow2_1. pose proof (bpow2_pos (BI - 1)) as PB. replace (bpow2 BI) with (2 * bpow2 (BI - 1)) in RB by (rewrite <- bpow2_1, <- bpow2_add; f_equal; lia). set (p := bpow2 (L - 1)) in *. set (q := bpow2 (BI - 1)) in *. cbv iota in RL.
    assert (Hv : Rabs v <= p) by (apply Rabs_le; lra). assert (HB2 : Rabs B < 2 * q) by (apply Rabs_def1; destruct BS; lra). assert (Rabs (B * v) < p * (2 * q)). { rewrite Rabs_mult, Rmult_comm. pose proof (Rabs_pos v). pose proof (Rabs_pos B). nra. } apply Rabs_def2 in H. replace (p * (q * 2)) with (p * (2 * q)) by ring. lra. }
  assert (HW2 : (1 <= pf + pi)%Z) by (unfold pf, pF, pi in *; lia).
  pose proof (conv_R (dfmt (pf + pi) pi true) (b * l) pF ltac:(cbn [dfmt fW]; lia)) as C. set (pr := conv (dfmt (pf + pi) pi true) (b * l) pF) in *.
  destruct (convR_dfmt (pf + pi) pi true _ _ HW2 C RP) as [Rp Vp]. replace (pf + pi - pi)%Z with pf in Vp by lia.
  assert (Dp : Rabs (fxval pr pf - fxval (b * l) pF) <= bpow2 (-45)).
  { destruct (Z.le_gt_cases pF 45) as [G|G].
    - assert (Epf : pf = pF) by (unfold pf; lia). assert (Epr : pr = (b * l)%Z).
      { apply conv_exact; [cbn [dfmt fW]; lia|discriminate| |].
        - unfold fF. cbn [dfmt fW fI]. f_equal. lia.
        - cbn [dfmt fS fW]. pose proof (fits_R true (pf + pi) pi _ HW2 RP) as FR. replace (pf + pi - pi)%Z with pF in FR by lia. rewrite fxval_scale in FR. destruct FR as [F1 F2]. apply le_IZR in F1. apply lt_IZR in F2. unfold in_range. lia. }
      rewrite Epf, Epr. rewrite Rminus_diag_eq, Rabs_R0 by reflexivity. apply Rlt_le, bpow2_pos.
    - assert (Epf : pf = 45%Z) by (unfold pf; lia). rewrite Epf in *. change (- (45))%Z with (-45)%Z in Vp. apply Rabs_le. lra. }
  set (P := fxval pr pf) in *.
  assert (BP : - bpow2 31 <= fxval pr (pf + pi - pi) < bpow2 31).
  { replace (pf + pi - pi)%Z with pf by lia. fold P. pose proof (range_R true (pf + pi) pi pr HW2 Rp) as RR. replace (pf + pi - pi)%Z with pf in RR by lia. fold P in RR. cbv iota in RR. assert (bpow2 (pi - 1) <= bpow2 31) by (apply bpow2_le; unfold pi in *; lia). lra. }
  destruct (exp2_cordic_real ort TQ (pf + pi) pi f pr ltac:(unfold pf; lia) HTF ltac:(clear - HQ; tauto) HfW HfS BP) as (out & Y & E1 & E2 & E3).
  replace (pf + pi - pi)%Z with pf in E3 by lia. fold P TF in E3. exists out, Y, P. split; [exact E1|]. split; [exact E2|]. split; [|exact E3].
  replace (P - B * (ln X / ln 2)) with ((P - fxval (b * l) pF) + B * (fxval l (lF - L) - ln X / ln 2)) by (rewrite EP; ring). eapply Rle_trans; [apply Rabs_triang|]. rewrite Rabs_mult, Rplus_comm. apply Rplus_le_compat; [|exact Dp]. apply Rmult_le_compat_l; [apply Rabs_pos|exact Dl].
Qed.

(** ** In terms of the interface *)
Lemma Rpower2_ge e : -1 <= e -> 1 - Rabs e <= Rpower 2 e.
Proof.
  intros He. unfold Rpower. apply Rle_trans with (1 + e * ln 2); [|apply exp_ge]. pose proof ln2_hi. pose proof ln2_low. assert (Rabs (e * ln 2) <= Rabs e * 1). { rewrite Rabs_mult, (Rabs_pos_eq (ln 2)) by lra. apply Rmult_le_compat_l; [apply Rabs_pos|lra]. } apply Rabs_le_both in H1. lra.
Qed.
Lemma Rpower2_le2 e : Rabs e <= / 2 -> Rpower 2 e <= 1 + 2 * Rabs e.
Proof.
  intros He. pose proof (Rabs_pos e). pose proof (Rpower2_ge (- e) ltac:(apply Rabs_le_both in He; lra)) as G. rewrite Rabs_Ropp, Rpower_Ropp in G. pose proof (exp_pos (e * ln 2)) as P. fold (Rpower 2 e) in P. set (v := Rpower 2 e) in *. apply (Rmult_le_compat_r v) in G; [|lra]. rewrite Rinv_l in G by lra. nra.
Qed.
Local Open Scope Z.
Theorem pow_cordic_accurate : forall ort TQ AW AI AO BW BI BS f a b,
  let nf := match ort with Some tf => tf | None => AW end in
  let lF := match ort with Some tf => tf | None => fW f end in
  let TF := match ort with Some tf => tf | None => fF f end in
  let L := Z.max (nbits (AW - AI)) (nbits AI) + 1 in
  let A := fxval a (AW - AI) in let B := fxval b (BW - BI) in
  1 <= AW -> 0 <= AI <= AW -> 0 < a < 2 ^ AW -> 1 <= BW -> in_range BS BW b -> 1 <= nf <= 44 -> 4 <= lF <= 44 -> 0 <= TF <= 44 ->
  TQ = TRN \/ TQ = TRN_ZERO -> 1 <= fW f -> fS f = false -> -44 <= L + BI <= 32 ->
  exists out eta eps, pow_cordic ort TQ AW AI AO BW BI f a b = Some out /\
    convertsR f (Rpower A B * Rpower 2 eta * (1 + eps)) out /\
    (Rabs eta <= Rabs B * (((if lF <? 13 then 11 else 7 / 2) + (if AW <=? nf then 0 else 3)) * bpow2 (- lF) + bpow2 (L - lF)) + bpow2 (-45))%R /\
    (Rabs eps <= (if TF <? 13 then 10 else 6) * bpow2 (- TF))%R.
Proof.
  intros ort TQ AW AI AO BW BI BS f a b nf lF TF L A B HW HI Ha HBW Hb Hnf HlF HTF HQ HfW HfS HLB.
  destruct (pow_cordic_real ort TQ AW AI AO BW BI BS f a b HW HI Ha HBW Hb Hnf HlF HTF HQ HfW HfS HLB) as (out & V & P & E & C & D1 & D2). fold A B in D1. pose proof ln2_low as L1.
  assert (PP : (0 < Rpower 2 P)%R) by apply exp_pos.
  assert (EP : Rpower 2 P = (Rpower A B * Rpower 2 (P - B * (ln A / ln 2)))%R). { unfold Rpower. rewrite <- exp_plus. f_equal. field. lra. }
  exists out, (P - B * (ln A / ln 2))%R, (V / Rpower 2 P - 1)%R. split; [exact E|]. split; [|split; [exact D1|]].
  - replace (Rpower A B * Rpower 2 (P - B * (ln A / ln 2)) * (1 + (V / Rpower 2 P - 1)))%R with V; [exact C|]. rewrite <- EP. field. lra.
  - replace (V / Rpower 2 P - 1)%R with ((V - Rpower 2 P) * / Rpower 2 P)%R by (field; lra). rewrite Rabs_mult, (Rabs_pos_eq (/ Rpower 2 P)) by (apply Rlt_le, Rinv_0_lt_compat, PP). apply (Rmult_le_reg_r (Rpower 2 P)); [exact PP|]. rewrite Rmult_assoc, Rinv_l, Rmult_1_r by lra. exact D2.
Qed.
(** With the fraction bits the comment promises for log2_a. *)
Theorem pow_log2_bits_bad : ~ (forall ort TQ AW AI AO BW BI BS f a b,
  let nf := match ort with Some tf => tf | None => AW end in
  let lF := match ort with Some tf => tf | None => fW f end in
  let TF := match ort with Some tf => tf | None => fF f end in
  let L := Z.max (nbits (AW - AI)) (nbits AI) + 1 in
  let A := fxval a (AW - AI) in let B := fxval b (BW - BI) in
  1 <= AW -> 0 <= AI <= AW -> 0 < a < 2 ^ AW -> 1 <= BW -> in_range BS BW b -> 1 <= nf <= 44 -> 4 <= lF <= 44 -> 0 <= TF <= 44 ->
  TQ = TRN \/ TQ = TRN_ZERO -> 1 <= fW f -> fS f = false -> -44 <= L + BI <= 32 ->
  exists out eta eps, pow_cordic ort TQ AW AI AO BW BI f a b = Some out /\
    convertsR f (Rpower A B * Rpower 2 eta * (1 + eps)) out /\
    (Rabs eta <= Rabs B * (((if lF <? 13 then 11 else 7 / 2) + (if AW <=? nf then 0 else 3) + 1) * bpow2 (- lF)) + bpow2 (-45))%R /\
    (Rabs eps <= (if TF <? 13 then 10 else 6) * bpow2 (- TF))%R).
Proof.
  intros H. destruct (H (Some 16) TRN 12 4 WRAP 8 4 true (Fmt 28 12 false TRN SAT) 2816 48 ltac:(lia) ltac:(lia) ltac:(lia) ltac:(lia) ltac:(unfold in_range, imin, imax; lia) ltac:(lia) ltac:(lia) ltac:(lia) ltac:(left; reflexivity) ltac:(cbn; lia) eq_refl ltac:(vm_compute; split; discriminate)) as (out & eta & eps & E & C & D1 & D2).
  assert (E1 : pow_cordic (Some 16) TRN 12 4 WRAP 8 4 (Fmt 28 12 false TRN SAT) 2816 48 = Some 87145472) by (vm_compute; reflexivity). rewrite E1 in E. injection E as <-.
  assert (EA : fxval 2816 (12 - 4) = 11%R). { unfold fxval. change (12 - 4) with 8. rewrite bpow2_opp, bpow2_IZR by lia. change (IZR (2 ^ 8)) with 256%R. lra. }
  assert (EB : fxval 48 (8 - 4) = 3%R). { unfold fxval. change (8 - 4) with 4. rewrite bpow2_opp, bpow2_IZR by lia. change (IZR (2 ^ 4)) with 16%R. lra. }
  rewrite EA, EB in *. assert (EP : Rpower 11 3 = 1331%R). { replace 3%R with (INR 3) by (cbn; lra). rewrite Rpower_pow by lra. cbn. lra. } rewrite EP in C.
  change (16 <? 13) with false in *. change (12 <=? 16) with true in *. cbv iota in D1, D2. rewrite (Rabs_pos_eq 3) in D1 by lra.
  assert (P16 : bpow2 (- (16)) = (/ 65536)%R) by (rewrite bpow2_opp, bpow2_IZR by lia; reflexivity). rewrite P16 in *.
  assert (P45 : (bpow2 (-45) <= / 65536)%R) by (rewrite <- P16; apply bpow2_le; lia).
  assert (De : (Rabs eta <= 15 / 65536)%R) by lra. pose proof (Rpower2_ge eta ltac:(apply Rabs_le_both in De; lra)) as G. set (v := Rpower 2 eta) in *. apply Rabs_le_both in D2.
  destruct C as (z & R & L). cbn [fQ is_roundR] in R. unfold is_limited in L. cbn [fO fS fW] in L. unfold lowest, highest in L. change (2 ^ 28) with 268435456 in L. unfold fF in R. cbn [fW fI] in R. change (28 - 12) with 16 in R. rewrite bpow2_IZR in R by lia. change (IZR (2 ^ 16)) with 65536%R in R.
  assert (HV : (0.9995 <= v * (1 + eps))%R). { assert (0.9997 <= v)%R by lra. assert (0.9999 <= 1 + eps)%R by lra. nra. }
  assert (z = 87145472) by lia. subst z. nra.
Qed.
(** Exponent zero, result rounded to nearest. *)
Theorem pow_zero_exponent_ok : forall tf TQ AW AI AO BW BI f a,
  1 <= AW -> 0 <= AI <= AW -> 0 < a < 2 ^ AW -> 1 <= BW -> 4 <= tf <= 44 -> fF f + 5 <= tf -> 0 <= fF f -> 1 <= fI f ->
  TQ = TRN \/ TQ = TRN_ZERO -> fQ f <> TRN -> fQ f <> TRN_ZERO -> fS f = false ->
  -44 <= Z.max (nbits (AW - AI)) (nbits AI) + 1 + BI <= 32 ->
  pow_cordic (Some tf) TQ AW AI AO BW BI f a 0 = Some (2 ^ fF f).
Proof.
  intros tf TQ AW AI AO BW BI f a HW HI Ha HBW Htf HF HF0 HfI HQ Q1 Q2 HfS HLB. assert (HfW : 1 <= fW f) by (unfold fF in HF0; lia).
  assert (HR : in_range false BW 0). { unfold in_range, imin, imax. assert (0 < 2 ^ BW) by (apply Z.pow_pos_nonneg; lia). lia. }
  destruct (pow_cordic_accurate (Some tf) TQ AW AI AO BW BI false f a 0 HW HI Ha HBW HR ltac:(lia) Htf ltac:(lia) HQ HfW HfS HLB) as (out & eta & eps & E & C & D1 & D2). rewrite E. f_equal.
  rewrite fxval_0, Rabs_R0, Rmult_0_l, Rplus_0_l in *. assert (PA : (0 < fxval a (AW - AI))%R) by (rewrite <- (fxval_0 (AW - AI)); apply fxval_lt; lia). rewrite Rpower_O, Rmult_1_l in C by exact PA.
  set (F := fF f) in *. set (q := bpow2 (- (F + 5))%Z). assert (Pq : (0 < q <= / 32)%R). { split; [apply bpow2_pos|]. unfold q. replace (/ 32)%R with (bpow2 (- (5))) by (rewrite bpow2_opp, bpow2_IZR by lia; reflexivity). apply bpow2_le. lia. }
  assert (Qt : (bpow2 (- tf) <= q)%R) by (apply bpow2_le; lia). assert (P45 : (bpow2 (-45) <= / 2 * bpow2 (- tf))%R). { rewrite <- bpow2_1, <- bpow2_opp, <- bpow2_add. apply bpow2_le. lia. }
  assert (De : (Rabs eps <= 10 * q)%R). { destruct (tf <? 13); pose proof (bpow2_pos (- tf)); lra. } assert (Dn : (Rabs eta <= / 2 * q)%R) by lra.
  pose proof (Rpower2_ge eta ltac:(apply Rabs_le_both in Dn; lra)) as G1. pose proof (Rpower2_le2 eta ltac:(lra)) as G2. set (v := Rpower 2 eta) in *. apply Rabs_le_both in De.
  assert (EF : (q * bpow2 F = / 32)%R). { unfold q. rewrite <- bpow2_add. replace (- (F + 5) + F) with (- (5)) by lia. rewrite bpow2_opp, bpow2_IZR by lia. reflexivity. }
  assert (EV : (Rabs (v * (1 + eps) - 1) <= 12 * q)%R). { apply Rabs_le. nra. } pose proof (bpow2_pos F) as PF.
  assert (ED : (Rabs (v * (1 + eps) * bpow2 F - IZR (2 ^ F)) < / 2)%R). { rewrite <- bpow2_IZR by lia. replace (v * (1 + eps) * bpow2 F - bpow2 F)%R with ((v * (1 + eps) - 1) * bpow2 F)%R by ring. rewrite Rabs_mult, (Rabs_pos_eq (bpow2 F)) by lra. apply (Rmult_le_compat_r (bpow2 F)) in EV; [|lra]. rewrite Rmult_assoc, EF in EV. lra. }
  destruct C as (z & R & L). fold F in R. assert (N : (Rabs (v * (1 + eps) * bpow2 F - IZR z) <= / 2)%R) by (destruct (fQ f); try contradiction; cbn [is_roundR] in R; apply R).
  assert (Ez : z = 2 ^ F). { apply Rabs_def2 in ED. apply Rabs_le_both in N. assert (z < 2 ^ F + 1) by (apply lt_IZR; rewrite plus_IZR; lra). assert (2 ^ F - 1 < z) by (apply lt_IZR; rewrite minus_IZR; lra). lia. }
  subst z. assert (HB : lowest (fS f) (fW f) <= 2 ^ F <= highest (fS f) (fW f)). { rewrite HfS. unfold lowest, highest. assert (2 ^ (F + 1) <= 2 ^ fW f) by (apply Z.pow_le_mono_r; unfold F, fF; lia). rewrite Z.pow_add_r in H by lia. assert (0 < 2 ^ F) by (apply Z.pow_pos_nonneg; lia). lia. }
  rewrite HfS in *. destruct (fO f); unfold is_limited in L; cbn [lowest] in *.
  - destruct L as [L1 (k & Hk)]. unfold lowest, highest in *. assert (P : 0 < 2 ^ fW f) by (apply Z.pow_pos_nonneg; lia). set (t := 2 ^ F) in *. set (w := 2 ^ fW f) in *. clearbody t w. assert (k = 0) by (assert (k < 1) by nia; assert (-1 < k) by nia; lia). subst k. lia.
  - lia.
  - apply L. exact HB.
  - unfold lowest in HB. lia.
Qed.
Theorem pow_zero_exponent_bad : ~ (forall ort TQ AW AI AO BW BI f a,
  let L := Z.max (nbits (AW - AI)) (nbits AI) + 1 in
  1 <= AW -> 0 <= AI <= AW -> 0 < a < 2 ^ AW -> 1 <= BW -> 1 <= match ort with Some tf => tf | None => AW end <= 44 -> 4 <= match ort with Some tf => tf | None => fW f end <= 44 ->
  0 <= fF f <= 44 -> 1 <= fI f -> TQ = TRN \/ TQ = TRN_ZERO -> fS f = false -> -44 <= L + BI <= 32 ->
  pow_cordic ort TQ AW AI AO BW BI f a 0 = Some (2 ^ fF f)).
Proof.
  intros H. specialize (H None TRN 12 4 WRAP 8 4 (Fmt 24 12 false RND SAT) 768 ltac:(lia) ltac:(lia) ltac:(lia) ltac:(lia) ltac:(lia) ltac:(cbn; lia) ltac:(cbn; lia) ltac:(cbn; lia) ltac:(left; reflexivity) eq_refl ltac:(vm_compute; split; discriminate)).
  vm_compute in H. discriminate H.
Qed.
Theorem pow_base_one_bad : ~ (forall ort TQ AW AI AO BW BI BS f b,
  let L := Z.max (nbits (AW - AI)) (nbits AI) + 1 in
  1 <= AW -> 1 <= AI <= AW -> 1 <= BW -> in_range BS BW b -> 1 <= match ort with Some tf => tf | None => AW end <= 44 -> 4 <= match ort with Some tf => tf | None => fW f end <= 44 ->
  0 <= fF f <= 44 -> 1 <= fI f -> TQ = TRN \/ TQ = TRN_ZERO -> fS f = false -> -44 <= L + BI <= 32 ->
  pow_cordic ort TQ AW AI AO BW BI f (2 ^ (AW - AI)) b = Some (2 ^ fF f)).
Proof.
  intros H. specialize (H None TRN 12 4 WRAP 8 4 true (Fmt 24 12 false RND SAT) 48 ltac:(lia) ltac:(lia) ltac:(lia) ltac:(unfold in_range, imin, imax; lia) ltac:(lia) ltac:(cbn; lia) ltac:(cbn; lia) ltac:(cbn; lia) ltac:(left; reflexivity) eq_refl ltac:(vm_compute; split; discriminate)).
  vm_compute in H. discriminate H.
Qed.
Theorem pow_base_zero_bad : ~ (forall ort TQ AW AI AO BW BI BS f b,
  let L := Z.max (nbits (AW - AI)) (nbits AI) + 1 in
  1 <= AW -> 0 <= AI <= AW -> 1 <= BW -> in_range BS BW b -> 0 < b -> 1 <= match ort with Some tf => tf | None => AW end <= 44 -> 4 <= match ort with Some tf => tf | None => fW f end <= 44 ->
  0 <= fF f <= 44 -> 1 <= fI f -> TQ = TRN \/ TQ = TRN_ZERO -> fS f = false -> -44 <= L + BI <= 32 ->
  pow_cordic ort TQ AW AI AO BW BI f 0 b = Some 0).
Proof.
  intros H. specialize (H None TRN 12 4 WRAP 8 4 true (Fmt 24 12 false TRN SAT) 16 ltac:(lia) ltac:(lia) ltac:(lia) ltac:(unfold in_range, imin, imax; lia) ltac:(lia) ltac:(lia) ltac:(cbn; lia) ltac:(cbn; lia) ltac:(cbn; lia) ltac:(left; reflexivity) eq_refl ltac:(vm_compute; split; discriminate)).
  vm_compute in H. discriminate H.
Qed.
