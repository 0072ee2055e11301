(** The ac_float overloads of ac_hcordic.h: accuracy of what is handed to the ac_float constructor. *)
From Coq Require Import Reals Lia Lra Psatz ZifyBool.
From Verif Require Import AcTypes AcFacts Spec SpecFacts SpecR SpecRFacts SoftFacts QrdThm MatrixProofs ShiftFacts ShiftModel ShiftProofs LeadingModel LeadingProofs Atan2Proofs PwlModel PwlExpReal ActReal DetProofs HcModel HcNum HcIter HcExp HcExp2 HcPow HcLog HcLn HcPowModel HcPowThm HcFloatModel.
Local Open Scope R_scope.

Definition fltval (F m e : Z) : R := fxval m F * bpow2 e.

(** ** Normalisation of the argument *)
Lemma flt_norm_R AW AI m e : (2 <= AW)%Z -> (0 < m < 2 ^ (AW - 1))%Z -> exists E n, flt_norm AW AI m e = (E, n) /\ (e + (AI - AW + 1) <= E <= e + (AI - 1))%Z /\ (2 ^ (AW - 1 - 1) <= n < 2 ^ (AW - 1))%Z /\ fltval (AW - AI) m e = fxval n (AW - 1) * bpow2 E.
Proof.
  intros HW Hm. unfold flt_norm. rewrite conv_dfmt_same by lia. cbn [wrap]. rewrite wrapu_id by lia. destruct (norm_R (AW - 1) (AI - 1) WRAP m ltac:(lia) Hm) as (ne & n & En & Hn & Hr & Ev). rewrite En. exists (e + ne)%Z, n. split; [reflexivity|]. split; [lia|]. split; [exact Hr|].
  unfold fltval. replace (AW - AI)%Z with (AW - 1 - (AI - 1))%Z by lia. rewrite Ev, Rmult_assoc, <- bpow2_add. do 2 f_equal. lia.
Qed.
Lemma flt_off_bnd AW AI AE e E : (2 <= AW)%Z -> (1 <= AE)%Z -> in_range true AE e -> (e + (AI - AW + 1) <= E <= e + (AI - 1))%Z -> (Z.abs E <= Z.max (AI - 1) (AW - AI - 1) + 2 ^ (AE - 1))%Z.
Proof. intros HW HE He H. unfold in_range, imin, imax in He. lia. Qed.
Lemma flt_K AW AI AE : (2 <= AW)%Z -> (1 <= AE)%Z -> (1 <= Z.max (AI - 1) (AW - AI - 1) + 2 ^ (AE - 1))%Z.
Proof. intros. assert (0 < 2 ^ (AE - 1))%Z by (apply Z.pow_pos_nonneg; lia). lia. Qed.

(** ** Logarithms *)
Theorem log_float_real ort TQ AW AI AE ZF m e x : let nf := hc_tf ort (AW - 1) in let zf := hc_tf ort ZF in let X := fltval (AW - AI) m e in
  (2 <= AW)%Z -> (0 < m < 2 ^ (AW - 1))%Z -> (1 <= AE)%Z -> in_range true AE e -> (1 <= nf <= 44)%Z -> (0 <= zf <= 44)%Z -> (AW - 1 <= nf)%Z \/ TQ = TRN \/ TQ = TRN_ZERO -> bpow2 (x - 1) <= X < bpow2 x ->
  exists v, log_float ort TQ AW AI AE ZF m e = Some v /\ Rabs (fxval v (zf + 1) - ln X) <= (kl1 zf + 51 / 100 * IZR (Z.abs x) + (if (AW - 1 <=? nf)%Z then 0 else 2)) * bpow2 (- zf).
Proof.
  intros nf zf X HW Hm HAE He Hnf Hzf HQ Hx. destruct (flt_norm_R AW AI m e HW Hm) as (E & n & En & HE & Hn & EX). fold X in EX. pose proof (flt_off_bnd AW AI AE e E HW HAE He HE) as Be0. unfold log_float. rewrite En. fold nf zf. replace ((44 <? nf)%Z || (44 <? zf)%Z) with false by lia.
  assert (HW1 : (1 <= AW - 1)%Z) by lia. clear HW. set (W := (AW - 1)%Z) in *. assert (Ee : E = x). { apply (exp_unique X); [rewrite EX; apply norm_exp; assumption|exact Hx]. } subst x. destruct (mant_R W nf TQ n HW1 ltac:(lia) HQ Hn) as [Hn2 Mn]. set (n2 := conv (Fmt nf 0 false TQ WRAP) n W) in *.
  pose proof (ln_rr_near nf zf n2 ltac:(lia) ltac:(lia) Hn2) as N. set (zc := log_rr hc_tab nf (dfmt (zf + 1) 1 true) n2) in *. unfold flt_OFW. fold W in Be0 |- *. set (K := (Z.max (AI - 1) (AW - AI - 1) + 2 ^ (AE - 1))%Z) in *. assert (HK : (0 <= K)%Z) by lia. pose proof (nbits_ub K HK) as Be. set (OFW := nbits K) in *. assert (HO0 : (0 <= OFW)%Z) by apply nbits_nonneg.
  set (fo := dfmt (zf + 1 + OFW + 1) (OFW + 1) true) in *. set (l := conv (dfmt (zf + 1) 0 false) hc_ln2 159) in *. set (off := conv fo (conv fo l (zf + 1) * E) (zf + 1)) in *.
  pose proof ln2_near as N2. pose proof ln2_hi as LH. pose proof ln2_low as LL. apply Rabs_le_both in N2. assert (P72 : bpow2 (-72) <= 1 / 100 * bpow2 (- zf)). { apply Rle_trans with (bpow2 (- (7)) * bpow2 (- zf)); [rewrite <- bpow2_add; apply bpow2_le; lia|]. apply Rmult_le_compat_r; [apply Rlt_le, bpow2_pos|]. rewrite bpow2_opp, bpow2_IZR by lia. change (IZR (2 ^ 7)) with 128. lra. }
  assert (S72 : bpow2 (-72) <= / 1000). { apply Rle_trans with (bpow2 (- (10))); [apply bpow2_le; lia|]. rewrite bpow2_opp, bpow2_IZR by lia. change (IZR (2 ^ 10)) with 1024. lra. } set (w := bpow2 (- zf)) in *. assert (Pw : 0 < w) by apply bpow2_pos.
  pose proof (conv_R (dfmt (zf + 1) 0 false) hc_ln2 159 ltac:(cbn [dfmt fW]; lia)) as C. fold l in C. apply convR_dfmt in C; [|lia|rewrite bpow2_0; lra]. destruct C as [Rl Cl]. rewrite Z.sub_0_r in Cl. assert (Ew : bpow2 (- (zf + 1)) = w / 2) by (unfold w; replace (- (zf + 1))%Z with (- zf + - (1))%Z by lia; rewrite bpow2_add, (bpow2_opp 1), bpow2_1; reflexivity). rewrite Ew in Cl.
  unfold in_range, imin, imax in Rl. assert (PO : (0 < 2 ^ OFW)%Z) by (apply Z.pow_pos_nonneg; lia). assert (PZ : (0 < 2 ^ (zf + 1))%Z) by (apply Z.pow_pos_nonneg; lia). assert (EO : (2 ^ (zf + 1 + OFW + 1 - 1) = 2 ^ (zf + 1) * 2 ^ OFW)%Z) by (rewrite <- Z.pow_add_r by lia; f_equal; lia).
  assert (E1 : conv fo l (zf + 1) = l). { unfold fo. rewrite conv_dfmt_same by lia. apply wraps_id; [lia|]. rewrite EO. nia. }
  assert (E2 : off = (l * E)%Z). { unfold off. rewrite E1. unfold fo. rewrite conv_dfmt_same by lia. apply wraps_id; [lia|]. rewrite EO. assert (Z.abs (l * E) < 2 ^ (zf + 1) * 2 ^ OFW)%Z; [|lia]. rewrite Z.abs_mul, (Z.abs_eq l) by lia. nia. }
  exists (off + zc * 2)%Z. split; [reflexivity|].
  assert (EV : fxval (off + zc * 2) (zf + 1) = fxval l (zf + 1) * IZR E + fxval zc zf). { rewrite fxval_add, E2. f_equal; [unfold fxval; rewrite mult_IZR; ring|]. replace (zc * 2)%Z with (zc * 2 ^ 1)%Z by lia. apply fxval_shift. lia. }
  pose proof (half_rng n W HW1 Hn) as Hh. assert (EL : ln X = ln (fxval n W) + IZR E * ln 2). { rewrite EX, ln_mult by (try apply bpow2_pos; lra). f_equal. rewrite <- bpow2_Rpower. unfold Rpower. rewrite ln_exp. reflexivity. }
  rewrite EV, EL. set (L := fxval l (zf + 1)) in *. set (Z1 := fxval zc zf) in *. set (a := ln (fxval n2 nf)) in *. set (b := ln (fxval n W)) in *.
  assert (DL : Rabs (L - ln 2) <= 51 / 100 * w) by (apply Rabs_le; lra). assert (DE : Rabs (IZR E * (L - ln 2)) <= 51 / 100 * IZR (Z.abs E) * w). { rewrite Rabs_mult, <- abs_IZR. assert (0 <= IZR (Z.abs E)) by (apply IZR_le; lia). apply Rle_trans with (IZR (Z.abs E) * (51 / 100 * w)); [apply Rmult_le_compat_l; lra|lra]. }
  assert (DM : Rabs (a - b) <= (if (W <=? nf)%Z then 0 else 2) * w). { eapply Rle_trans; [exact Mn|]. destruct (Z.leb_spec W nf) as [G|G]; [lra|]. assert (nf = zf) by (unfold nf, zf, hc_tf in *; destruct ort; [reflexivity|lia]). unfold w. rewrite H. lra. }
  set (q := if (W <=? nf)%Z then 0 else 2) in *. clear - DE DM N. apply Rabs_le_both in DE, DM, N. apply Rabs_le. lra.
Qed.
(** The common part of the two base-two logarithms. *)
Lemma flt_log2_near AW AI ort TQ ZF m e E n : let nf := hc_tf ort (AW - 1) in let zf := hc_tf ort ZF in let X := fltval (AW - AI) m e in
  (2 <= AW)%Z -> (1 <= nf <= 44)%Z -> (0 <= zf <= 44)%Z -> (AW - 1 <= nf)%Z \/ TQ = TRN \/ TQ = TRN_ZERO -> (2 ^ (AW - 1 - 1) <= n < 2 ^ (AW - 1))%Z -> X = fxval n (AW - 1) * bpow2 E ->
  let zc := log_rr hc_tab2 nf (dfmt (zf + 2) 2 true) (conv (Fmt nf 0 false TQ WRAP) n (AW - 1)) in
  (IZR E - 1 <= ln X / ln 2 < IZR E) /\ Rabs (IZR E + fxval zc zf - ln X / ln 2) <= (kl2 zf + pow_kq (AW - 1) nf) * bpow2 (- zf).
Proof.
  intros nf zf X HW Hnf Hzf HQ Hn EX zc. assert (HW1 : (1 <= AW - 1)%Z) by lia. set (W := (AW - 1)%Z) in *. destruct (mant_R W nf TQ n HW1 ltac:(lia) HQ Hn) as [Hn2 Mn]. set (n2 := conv (Fmt nf 0 false TQ WRAP) n W) in *.
  pose proof (log2_rr_near nf zf n2 ltac:(lia) ltac:(lia) Hn2) as N. fold zc in N. pose proof ln2_low as LL. set (w := bpow2 (- zf)) in *. assert (Pw : 0 < w) by apply bpow2_pos.
  pose proof (half_rng n W HW1 Hn) as Hh. assert (EL : ln X / ln 2 = ln (fxval n W) / ln 2 + IZR E). { rewrite EX, ln_mult by (try apply bpow2_pos; lra). rewrite <- bpow2_Rpower. unfold Rpower at 1. rewrite ln_exp. field. lra. }
  rewrite EL. set (Z1 := fxval zc zf) in *. set (u := ln (fxval n2 nf)) in *. set (b := ln (fxval n W)) in *.
  assert (DM : Rabs (u - b) <= (if (W <=? nf)%Z then 0 else 2) * w). { eapply Rle_trans; [exact Mn|]. destruct (Z.leb_spec W nf) as [G|G]; [lra|]. assert (nf = zf) by (unfold nf, zf, hc_tf in *; destruct ort; [reflexivity|lia]). unfold w. rewrite H. lra. }
  assert (DM2 : Rabs (u / ln 2 - b / ln 2) <= pow_kq W nf * w). { unfold pow_kq. replace (u / ln 2 - b / ln 2) with ((u - b) * / ln 2) by (field; lra). rewrite Rabs_mult, (Rabs_pos_eq (/ ln 2)) by (apply Rlt_le, Rinv_0_lt_compat; lra). apply (Rmult_le_reg_r (ln 2)); [lra|]. rewrite Rmult_assoc, Rinv_l by lra. rewrite Rmult_1_r. eapply Rle_trans; [exact DM|]. destruct (W <=? nf)%Z; [lra|]. assert (w * 0.6931 <= w * ln 2) by (apply Rmult_le_compat_l; lra). lra. }
  assert (Hb : -1 <= b / ln 2 < 0).
  { pose proof (ln_low _ Hh) as Lb. fold b in Lb. assert (b < 0) by (unfold b; rewrite <- ln_1; apply ln_increasing; lra). split.
    - apply (Rmult_le_reg_r (ln 2)); [lra|]. unfold Rdiv. rewrite Rmult_assoc, Rinv_l by lra. lra.
    - apply (Rmult_lt_reg_r (ln 2)); [lra|]. unfold Rdiv. rewrite Rmult_assoc, Rinv_l by lra. lra. }
  split; [lra|]. clear - DM2 N. apply Rabs_le_both in DM2, N. apply Rabs_le. lra.
Qed.
Theorem log2_float_real ort TQ AW AI AE ZF m e : let nf := hc_tf ort (AW - 1) in let zf := hc_tf ort ZF in let X := fltval (AW - AI) m e in
  (2 <= AW)%Z -> (0 < m < 2 ^ (AW - 1))%Z -> (1 <= AE)%Z -> in_range true AE e -> (1 <= nf <= 44)%Z -> (0 <= zf <= 44)%Z -> (AW - 1 <= nf)%Z \/ TQ = TRN \/ TQ = TRN_ZERO ->
  exists v, log2_float ort TQ AW AI AE ZF m e = Some v /\ Rabs (fxval v zf - ln X / ln 2) <= (kl2 zf + pow_kq (AW - 1) nf) * bpow2 (- zf).
Proof.
  intros nf zf X HW Hm HAE He Hnf Hzf HQ. destruct (flt_norm_R AW AI m e HW Hm) as (E & n & En & HE & Hn & EX). fold X in EX. pose proof (flt_off_bnd AW AI AE e E HW HAE He HE) as Be0. unfold log2_float. rewrite En. fold nf zf. replace ((44 <? nf)%Z || (44 <? zf)%Z) with false by lia.
  destruct (flt_log2_near AW AI ort TQ ZF m e E n HW Hnf Hzf HQ Hn EX) as [_ N]. fold nf zf X in N. set (zc := log_rr hc_tab2 nf (dfmt (zf + 2) 2 true) (conv (Fmt nf 0 false TQ WRAP) n (AW - 1))) in *.
  unfold flt_OFW. pose proof (nbits_ub (Z.max (AI - 1) (AW - AI - 1) + 2 ^ (AE - 1)) ltac:(lia)) as Be. set (OFW := nbits (Z.max (AI - 1) (AW - AI - 1) + 2 ^ (AE - 1))) in *. assert (HO0 : (0 <= OFW)%Z) by apply nbits_nonneg.
  assert (E2 : conv (dfmt (OFW + 1) (OFW + 1) true) E 0 = E). { rewrite conv_dfmt_same by lia. apply wraps_id; [lia|]. replace (OFW + 1 - 1)%Z with OFW by lia. lia. } rewrite E2.
  eexists. split; [reflexivity|]. rewrite fxval_add. replace (fxval (E * 2 ^ zf) zf) with (IZR E); [exact N|]. unfold fxval. rewrite mult_IZR, <- bpow2_IZR, bpow2_opp by lia. field. pose proof (bpow2_pos zf). lra.
Qed.
Lemma flt_log2_a_real ort TQ AW AI AE ZW m e : let nf := hc_tf ort (AW - 1) in let lF := hc_tf ort ZW in let LI := flt_LI AW AI AE in let X := fltval (AW - AI) m e in
  (2 <= AW)%Z -> (0 < m < 2 ^ (AW - 1))%Z -> (1 <= AE)%Z -> in_range true AE e -> (1 <= nf <= 44)%Z -> (4 <= lF <= 44)%Z -> (AW - 1 <= nf)%Z \/ TQ = TRN \/ TQ = TRN_ZERO ->
  exists l, flt_log2_a ort TQ AW AI AE ZW m e = Some l /\ in_range true (LI + lF) l /\ Rabs (fxval l lF - ln X / ln 2) <= (kl2 lF + pow_kq (AW - 1) nf) * bpow2 (- lF).
Proof.
  intros nf lF LI X HW Hm HAE He Hnf HlF HQ. destruct (flt_norm_R AW AI m e HW Hm) as (E & n & En & HE & Hn & EX). fold X in EX. pose proof (flt_off_bnd AW AI AE e E HW HAE He HE) as Be0. unfold flt_log2_a. rewrite En. fold nf lF LI. replace ((44 <? nf)%Z || (44 <? lF)%Z) with false by lia.
  destruct (flt_log2_near AW AI ort TQ ZW m e E n HW Hnf ltac:(fold lF; lia) HQ Hn EX) as [Hb N]. fold nf lF X in N, Hb. set (zc := log_rr hc_tab2 nf (dfmt (lF + 2) 2 true) (conv (Fmt nf 0 false TQ WRAP) n (AW - 1))) in *.
  pose proof (nbits_ub (Z.max (AI - 1) (AW - AI - 1) + 2 ^ (AE - 1) + 1) ltac:(lia)) as Be. assert (ELI : (LI - 1 = nbits (Z.max (AI - 1) (AW - AI - 1) + 2 ^ (AE - 1) + 1))%Z) by (unfold LI, flt_LI; lia). rewrite <- ELI in Be. assert (HLI : (1 <= LI)%Z) by (pose proof (nbits_nonneg (Z.max (AI - 1) (AW - AI - 1) + 2 ^ (AE - 1) + 1)); lia). clearbody LI.
  assert (E2 : conv (dfmt LI LI true) E 0 = E). { rewrite conv_dfmt_same by lia. apply wraps_id; [lia|]. lia. } rewrite E2. eexists. split; [reflexivity|].
  assert (EV : fxval (zc + E * 2 ^ lF) lF = IZR E + fxval zc lF). { rewrite fxval_add, Rplus_comm. f_equal. unfold fxval. rewrite mult_IZR, <- bpow2_IZR, bpow2_opp by lia. field. pose proof (bpow2_pos lF). lra. }
  set (w := bpow2 (- lF)) in *. assert (W16 : 0 < w <= / 16). { split; [apply bpow2_pos|]. unfold w. replace (/ 16) with (bpow2 (- (4))) by (rewrite bpow2_opp, bpow2_IZR by lia; reflexivity). apply bpow2_le. lia. }
  assert (KQ : (kl2 lF + pow_kq (AW - 1) nf) * w <= 14 / 16). { unfold kl2, pow_kq. destruct (lF <? 13)%Z; destruct (AW - 1 <=? nf)%Z; lra. }
  assert (R1 : - bpow2 (LI - 1) <= IZR E + fxval zc lF < bpow2 (LI - 1)).
  { rewrite bpow2_IZR by lia. apply Rabs_le_both in N. assert (H1 : IZR E <= IZR (2 ^ (LI - 1)) - 2) by (rewrite <- minus_IZR; apply IZR_le; lia). assert (H2 : - IZR (2 ^ (LI - 1)) + 2 <= IZR E) by (rewrite <- opp_IZR, <- plus_IZR; apply IZR_le; lia). clear - N KQ Hb H1 H2. lra. }
  assert (E3 : conv (dfmt (LI + lF) LI true) (zc + E * 2 ^ lF) lF = (zc + E * 2 ^ lF)%Z).
  { rewrite conv_dfmt_same by lia. cbn [wrap]. pose proof (fits_R true (LI + lF) LI _ ltac:(lia) R1) as F. replace (LI + lF - LI)%Z with lF in F by lia. rewrite <- EV, fxval_scale in F. destruct F as [F1 F2]. apply le_IZR in F1. apply lt_IZR in F2. unfold imin, imax in F1, F2. apply wraps_id; lia. }
  pose proof (conv_range (dfmt (LI + lF) LI true) (zc + E * 2 ^ lF) lF ltac:(cbn [dfmt fW]; lia)) as CR. cbn [dfmt fS fW] in CR. split; [exact CR|]. rewrite E3, EV. exact N.
Qed.

(** ** Powers of two *)
(** The interval of arguments the fixed-point input of ac_exp2_rr can hold. *)
Definition clampR (lo hi x : R) : R := Rmax lo (Rmin hi x).
Lemma clampR_lip lo hi x y : Rabs (clampR lo hi x - clampR lo hi y) <= Rabs (x - y).
Proof. unfold clampR, Rmax, Rmin. apply Rabs_le. destruct (Rle_dec hi x), (Rle_dec hi y); repeat destruct (Rle_dec lo _); unfold Rabs; destruct (Rcase_abs (x - y)); lra. Qed.
Lemma sat_R TF TI TQ X x : (1 <= TF)%Z -> (1 <= TI)%Z -> convertsR (Fmt (TF + TI) TI true TQ SAT) X x ->
  in_range true (TF + TI) x /\ Rabs (fxval x TF - clampR (- bpow2 (TI - 1)) (bpow2 (TI - 1) - bpow2 (- TF)) X) <= bpow2 (- TF).
Proof.
  intros HF HI (z & Hr & Hl). unfold fF in Hr. cbn [fQ fW fI] in Hr. replace (TF + TI - TI)%Z with TF in Hr by lia. cbn [fO fS fW is_limited] in Hl. unfold lowest, highest in Hl. set (M := (2 ^ (TF + TI - 1))%Z) in *. assert (HM : (0 < M)%Z) by (apply Z.pow_pos_nonneg; lia).
  split; [unfold in_range, imin, imax; fold M; lia|]. pose proof (bpow2_pos (- TF)) as P. pose proof (bpow2_pos TF) as P'. set (t := bpow2 TF) in *. assert (Et : bpow2 (- TF) = / t) by apply bpow2_opp. assert (EM : IZR M = bpow2 (TI - 1) * t). { unfold M. rewrite <- bpow2_IZR by lia. unfold t. rewrite <- bpow2_add. f_equal. lia. }
  assert (N : Rabs (X * t - IZR z) <= 1) by (rewrite Rabs_minus_sym; exact (round_near _ _ _ Hr)).
  assert (Ex : fxval x TF = IZR x * / t) by (unfold fxval; rewrite Et; reflexivity). rewrite Ex, Et. set (B := bpow2 (TI - 1)) in *. replace (clampR (- B) (B - / t) X) with (clampR (- IZR M) (IZR M - 1) (X * t) * / t).
  - rewrite <- Rmult_minus_distr_r, Rabs_mult, (Rabs_pos_eq (/ t)) by lra. rewrite <- (Rmult_1_l (/ t)) at 2. apply Rmult_le_compat_r; [lra|].
    assert (Ezx : IZR x = clampR (- IZR M) (IZR M - 1) (IZR z)). { rewrite Hl. unfold clampR, Rmax, Rmin. destruct (Rle_dec (IZR M - 1) (IZR z)) as [G|G]; rewrite <- minus_IZR in *; [apply le_IZR in G|apply Rnot_le_lt, lt_IZR in G]; rewrite <- opp_IZR in *.
      - destruct (Rle_dec (IZR (- M)) (IZR (M - 1))) as [G'|G']; [f_equal; lia|apply Rnot_le_lt, lt_IZR in G'; lia].
      - destruct (Rle_dec (IZR (- M)) (IZR z)) as [G'|G']; [apply le_IZR in G'; f_equal; lia|apply Rnot_le_lt, lt_IZR in G'; f_equal; lia]. }
    rewrite Ezx, Rabs_minus_sym. eapply Rle_trans; [apply clampR_lip|]. lra.
  - unfold clampR. rewrite EM. rewrite (Rmult_comm _ (/ t)). assert (P2 : 0 <= / t) by lra. rewrite <- RmaxRmult by exact P2. unfold Rmin, Rmax. destruct (Rle_dec (B * t - 1) (X * t)) as [G|G]; destruct (Rle_dec (B - / t) X) as [G'|G'].
    + replace (/ t * - (B * t)) with (- B) by (field; lra). replace (/ t * (B * t - 1)) with (B - / t) by (field; lra). reflexivity.
    + exfalso. apply G'. apply (Rmult_le_reg_r t); [lra|]. rewrite Rmult_minus_distr_r, Rinv_l by lra. exact G.
    + exfalso. apply G. apply (Rmult_le_compat_r t) in G'; [|lra]. rewrite Rmult_minus_distr_r, Rinv_l in G' by lra. exact G'.
    + replace (/ t * - (B * t)) with (- B) by (field; lra). replace (/ t * (X * t)) with X by (field; lra). reflexivity.
Qed.
Lemma flt_TI_pos ZW ZI ZE : (1 <= flt_TI ZW ZI ZE)%Z.
Proof. unfold flt_TI. pose proof (nbits_nonneg (2 ^ (ZE - 1) + Z.max (ZI - 1) (ZW - ZI))). lia. Qed.
Lemma flt_exp2_real TF TI TQ x : (1 <= TF <= 44)%Z -> (1 <= TI <= 32)%Z -> in_range true (TF + TI) x ->
  exists y n, flt_exp2 TF TI TQ x = (y, n) /\ (0 <= y < 2 ^ (TF + 1))%Z /\ (n = x / 2 ^ TF)%Z /\ Rabs (fltval TF y n - Rpower 2 (fxval x TF)) <= hc_c TF * bpow2 (- TF) * Rpower 2 (fxval x TF).
Proof.
  intros HT HI Hx. unfold flt_exp2. set (xF := slc TF 0 x). set (P := fxval x TF).
  assert (P0 : (0 < 2 ^ TF)%Z) by (apply Z.pow_pos_nonneg; lia). assert (PI : (0 < 2 ^ (TI - 1))%Z) by (apply Z.pow_pos_nonneg; lia). pose proof (Z.mod_pos_bound x _ P0) as M. pose proof (Z.div_mod x (2 ^ TF) ltac:(lia)) as D.
  assert (ExF : xF = (x mod 2 ^ TF)%Z) by (unfold xF, slc; rewrite Z.shiftr_0_r; reflexivity). set (q := (x / 2 ^ TF)%Z) in *. set (r := (x mod 2 ^ TF)%Z) in *.
  assert (Hq : (- 2 ^ (TI - 1) <= q < 2 ^ (TI - 1))%Z). { unfold in_range, imin, imax in Hx. replace (TF + TI - 1)%Z with (TF + (TI - 1))%Z in Hx by lia. rewrite Z.pow_add_r in Hx by lia. clearbody q r. nia. }
  assert (En : wraps TI (fx_to_int (TF + TI) TI x) = q).
  { unfold fx_to_int. replace (TI - (TF + TI))%Z with (- TF)%Z by lia. rewrite Z.shiftl_opp_r, Z.shiftr_div_pow2 by lia. fold q. assert (2 ^ (TI - 1) <= 2 ^ (32 - 1))%Z by (apply Z.pow_le_mono_r; lia). rewrite (wraps_id 32) by lia. apply wraps_id; lia. }
  assert (EX : P = IZR q + fxval r TF). { unfold P. rewrite D, fxval_add. f_equal. rewrite Z.mul_comm. unfold fxval. rewrite mult_IZR, <- bpow2_IZR by lia. rewrite Rmult_assoc, <- bpow2_add. replace (TF + - TF)%Z with 0%Z by lia. rewrite bpow2_0. ring. }
  destruct (exp2_rr_close TF TF TQ xF ltac:(lia) ltac:(lia) ltac:(right; right; lia) ltac:(rewrite ExF; lia)) as [By Ey]. set (y := exp2_rr TF (Fmt (TF + 1) 1 false TQ WRAP) xF) in *. rewrite En. exists y, q. split; [reflexivity|]. split; [exact By|]. split; [reflexivity|].
  rewrite ExF in Ey. assert (EP : Rpower 2 P = Rpower 2 (fxval r TF) * bpow2 q) by (rewrite EX, Rpower_plus, bpow2_Rpower; ring). rewrite EP. pose proof (bpow2_pos q) as Pn. set (A := Rpower 2 (fxval r TF)) in *.
  assert (HP : 1 <= A). { unfold A. rewrite <- (Rpower_O 2) by lra. apply Rpower2_le. rewrite <- (fxval_0 TF). apply fxval_le. lia. }
  unfold fltval. rewrite <- Rmult_minus_distr_r, Rabs_mult, (Rabs_pos_eq (bpow2 q)) by lra. rewrite <- Rmult_assoc. apply Rmult_le_compat_r; [lra|]. eapply Rle_trans; [exact Ey|].
  assert (0 <= hc_c TF * bpow2 (- TF)) by (eapply Rle_trans; [apply Rabs_pos|exact Ey]). set (c := hc_c TF * bpow2 (- TF)) in *. nra.
Qed.
(** From an exact argument X through the saturating shift to the result. *)
Lemma flt_shift_exp2 TF TI TQ XW XI m e : let X := fltval (XW - XI) m e in (1 <= XW)%Z -> in_range true XW m -> (1 <= TF <= 44)%Z -> (1 <= TI <= 32)%Z ->
  exists y n P, flt_exp2 TF TI TQ (shift_left_si XW XI (Fmt (TF + TI) TI true TQ SAT) m e) = (y, n) /\
    Rabs (P - clampR (- bpow2 (TI - 1)) (bpow2 (TI - 1) - bpow2 (- TF)) X) <= bpow2 (- TF) /\ Rabs (fltval TF y n - Rpower 2 P) <= hc_c TF * bpow2 (- TF) * Rpower 2 P.
Proof.
  intros X HW Hm HT HI. unfold in_range, imin, imax in Hm. pose proof (shift_left_si_spec XW XI (Fmt (TF + TI) TI true TQ SAT) m e HW ltac:(cbn [fW]; lia) eq_refl ltac:(lia)) as SP. apply converts2_R in SP. replace (IZR m * bpow2 (- (XW - XI) + e)) with X in SP by (unfold X, fltval, fxval; rewrite bpow2_add; ring).
  set (x := shift_left_si XW XI (Fmt (TF + TI) TI true TQ SAT) m e) in *. destruct (sat_R TF TI TQ X x ltac:(lia) ltac:(lia) SP) as [Rx Dx]. destruct (flt_exp2_real TF TI TQ x HT HI Rx) as (y & n & E & _ & _ & B). exists y, n, (fxval x TF). split; [exact E|]. split; [exact Dx|exact B].
Qed.
Lemma eta_eps TF C P V d c : Rabs (P - C) <= d -> Rabs (V - Rpower 2 P) <= c * bpow2 (- TF) * Rpower 2 P -> exists eta eps, V = Rpower 2 (C + eta) * (1 + eps) /\ Rabs eta <= d /\ Rabs eps <= c * bpow2 (- TF).
Proof.
  intros D B. assert (PP : 0 < Rpower 2 P) by apply exp_pos. exists (P - C), (V / Rpower 2 P - 1). replace (C + (P - C)) with P by ring. split; [field; lra|]. split; [exact D|].
  replace (V / Rpower 2 P - 1) with ((V - Rpower 2 P) * / Rpower 2 P) by (field; lra). rewrite Rabs_mult, (Rabs_pos_eq (/ Rpower 2 P)) by (apply Rlt_le, Rinv_0_lt_compat, PP). apply (Rmult_le_reg_r (Rpower 2 P)); [exact PP|]. rewrite Rmult_assoc, Rinv_l, Rmult_1_r by lra. exact B.
Qed.
Definition flt_lo (ZW ZI ZE : Z) : R := - bpow2 (flt_TI ZW ZI ZE - 1).
Definition flt_hi (ZW ZI ZE TF : Z) : R := bpow2 (flt_TI ZW ZI ZE - 1) - bpow2 (- TF).
Theorem exp2_float_real ort TQ AW AI ZW ZI ZE m e : let TF := hc_tf ort (ZW - ZI) in let X := fltval (AW - AI) m e in
  (1 <= AW)%Z -> in_range true AW m -> (1 <= TF <= 44)%Z -> (flt_TI ZW ZI ZE <= 32)%Z ->
  exists y n eta eps, exp2_float ort TQ AW AI ZW ZI ZE m e = Some (y, n) /\ fltval TF y n = Rpower 2 (clampR (flt_lo ZW ZI ZE) (flt_hi ZW ZI ZE TF) X + eta) * (1 + eps) /\ Rabs eta <= bpow2 (- TF) /\ Rabs eps <= hc_c TF * bpow2 (- TF).
Proof.
  intros TF X HW Hm HT HI. unfold exp2_float. fold TF. replace ((1 <=? TF)%Z && (TF <=? 44)%Z) with true by lia. cbn [negb]. pose proof (flt_TI_pos ZW ZI ZE) as HI0.
  destruct (flt_shift_exp2 TF (flt_TI ZW ZI ZE) TQ AW AI m e HW Hm HT ltac:(lia)) as (y & n & P & E & D & B). destruct (eta_eps TF _ P _ _ _ D B) as (eta & eps & E1 & D1 & D2). exists y, n, eta, eps. rewrite E. repeat split; assumption.
Qed.
Lemma il_R TF : (1 <= TF <= 44)%Z -> let il := conv (dfmt (TF + 1) 1 false) (conv (dfmt (TF + 1) 1 false) hc_inv_ln2 158) TF in
  (0 <= il < 2 ^ (TF + 1))%Z /\ Rabs (fxval il TF - / ln 2) <= 101 / 100 * bpow2 (- TF).
Proof.
  intros HT il. pose proof inv_ln2_bnd as Bi. pose proof inv_ln2_near as Ni. set (ir := fxval hc_inv_ln2 158) in *. set (q := bpow2 (- TF)). assert (Pq : 0 < q) by apply bpow2_pos.
  pose proof (conv_R (dfmt (TF + 1) 1 false) hc_inv_ln2 158 ltac:(cbn [dfmt fW]; lia)) as C. fold ir in C. destruct (convR_dfmt (TF + 1) 1 false _ _ ltac:(lia) C) as [Ri Vi]; [rewrite bpow2_1; lra|]. replace (TF + 1 - 1)%Z with TF in Vi by lia. fold q in Vi.
  assert (Eil : il = conv (dfmt (TF + 1) 1 false) hc_inv_ln2 158). { unfold il. rewrite (conv_dfmt_same (TF + 1) 1 false _ TF) by lia. cbn [wrap]. apply wrapu_id; unfold in_range, imin, imax in Ri; lia. } rewrite <- Eil in *. unfold in_range, imin, imax in Ri. split; [lia|].
  pose proof ln2_low as LL. assert (S : bpow2 (-71) <= / 1000 * q). { apply Rle_trans with (bpow2 (- (10)) * q); [unfold q; rewrite <- bpow2_add; apply bpow2_le; lia|]. apply Rmult_le_compat_r; [lra|]. rewrite bpow2_opp, bpow2_IZR by lia. change (IZR (2 ^ 10)) with 1024. lra. }
  assert (DI : Rabs (ir - / ln 2) <= 1 / 100 * q). { replace (ir - / ln 2) with ((ir * ln 2 - 1) * / ln 2) by (field; lra). rewrite Rabs_mult, (Rabs_pos_eq (/ ln 2)) by (apply Rlt_le, Rinv_0_lt_compat; lra). apply (Rmult_le_reg_r (ln 2)); [lra|]. rewrite Rmult_assoc, Rinv_l, Rmult_1_r by lra. assert (q * 0.6931 <= q * ln 2) by (apply Rmult_le_compat_l; lra). lra. }
  apply Rabs_le_both in DI. apply Rabs_le. lra.
Qed.
Theorem exp_float_real ort TQ AW AI ZW ZI ZE m e : let TF := hc_tf ort (ZW - ZI) in let X := fltval (AW - AI) m e in
  (1 <= AW)%Z -> in_range true AW m -> (1 <= TF <= 44)%Z -> (flt_TI ZW ZI ZE <= 32)%Z ->
  exists y n eta eps, exp_float ort TQ AW AI ZW ZI ZE m e = Some (y, n) /\ fltval TF y n = Rpower 2 (clampR (flt_lo ZW ZI ZE) (flt_hi ZW ZI ZE TF) (X / ln 2) + eta) * (1 + eps) /\ Rabs eta <= (1 + 101 / 100 * Rabs X) * bpow2 (- TF) /\ Rabs eps <= hc_c TF * bpow2 (- TF).
Proof.
  intros TF X HW Hm HT HI. unfold exp_float. fold TF. replace ((1 <=? TF)%Z && (TF <=? 44)%Z) with true by lia. cbn [negb]. pose proof (flt_TI_pos ZW ZI ZE) as HI0. destruct (il_R TF HT) as [Ri Di]. cbv zeta in *. set (il := conv (dfmt (TF + 1) 1 false) (conv (dfmt (TF + 1) 1 false) hc_inv_ln2 158) TF) in *. clearbody il.
  assert (RM : in_range true (AW + (TF + 1)) (m * il)). { unfold in_range, imin, imax in *. replace (AW + (TF + 1) - 1)%Z with ((AW - 1) + (TF + 1))%Z by lia. rewrite Z.pow_add_r by lia. assert (0 < 2 ^ (AW - 1))%Z by (apply Z.pow_pos_nonneg; lia). set (A := (2 ^ (AW - 1))%Z) in *. set (B := (2 ^ (TF + 1))%Z) in *. clearbody A B. clear - Hm Ri H. split; [|assert (m * il < A * B)%Z; [|lia]]; nia. }
  destruct (flt_shift_exp2 TF (flt_TI ZW ZI ZE) TQ (AW + (TF + 1)) (AI + 1) (m * il) e ltac:(lia) RM HT ltac:(lia)) as (y & n & P & E & D & B). rewrite E. fold (flt_lo ZW ZI ZE) in D. fold (flt_hi ZW ZI ZE TF) in D.
  assert (EX : fltval (AW + (TF + 1) - (AI + 1)) (m * il) e = X * fxval il TF). { unfold X, fltval. replace (AW + (TF + 1) - (AI + 1))%Z with ((AW - AI) + TF)%Z by lia. rewrite fxval_mul. ring. } rewrite EX in D.
  assert (D' : Rabs (P - clampR (flt_lo ZW ZI ZE) (flt_hi ZW ZI ZE TF) (X / ln 2)) <= (1 + 101 / 100 * Rabs X) * bpow2 (- TF)).
  { set (c1 := clampR _ _ (X * fxval il TF)) in *. set (c2 := clampR _ _ (X / ln 2)). replace (P - c2) with ((P - c1) + (c1 - c2)) by ring. eapply Rle_trans; [apply Rabs_triang|]. rewrite Rmult_plus_distr_r, Rmult_1_l. apply Rplus_le_compat; [exact D|]. unfold c1, c2. eapply Rle_trans; [apply clampR_lip|].
    replace (X * fxval il TF - X / ln 2) with (X * (fxval il TF - / ln 2)) by (unfold Rdiv; ring). rewrite Rabs_mult. replace (101 / 100 * Rabs X * bpow2 (- TF)) with (Rabs X * (101 / 100 * bpow2 (- TF))) by ring. apply Rmult_le_compat_l; [apply Rabs_pos|exact Di]. }
  destruct (eta_eps TF _ P _ _ _ D' B) as (eta & eps & E1 & D1 & D2). exists y, n, eta, eps. repeat split; assumption.
Qed.

(** ** Powers *)
Lemma flt_is_one_R AW AI m e : flt_is_one AW AI m e = true <-> fltval (AW - AI) m e = 1.
Proof.
  unfold flt_is_one, fltval, fxval. rewrite Rmult_assoc, <- bpow2_add. replace (- (AW - AI) + e)%Z with (e - (AW - AI))%Z by lia. set (k := (e - (AW - AI))%Z). destruct (Z.leb_spec 0 k) as [G|G].
  - rewrite Z.eqb_eq, bpow2_IZR, <- mult_IZR by lia. split; [intros ->; reflexivity|]. intros H. apply eq_IZR in H. exact H.
  - rewrite Z.eqb_eq. pose proof (bpow2_pos (- k)) as P. replace (bpow2 k) with (/ bpow2 (- k)) by (rewrite <- bpow2_opp; f_equal; lia). rewrite bpow2_IZR in * by lia. split; [intros ->; field; lra|]. intros H. apply eq_IZR. apply (Rmult_eq_reg_r (/ IZR (2 ^ (- k)))); [rewrite H; field; lra|]. apply Rinv_neq_0_compat. lra.
Qed.
Theorem pow_float_real ort TQ AW AI AE BW BI ZW ZI ZE mA eA mB eB : let nf := hc_tf ort (AW - 1) in let lF := hc_tf ort ZW in let TF := hc_tf ort (ZW - ZI) in let A := fltval (AW - AI) mA eA in let B := fltval (BW - BI) mB eB in
  (2 <= AW)%Z -> (0 < mA < 2 ^ (AW - 1))%Z -> (1 <= AE)%Z -> in_range true AE eA -> (1 <= BW)%Z -> in_range true BW mB -> (1 <= nf <= 44)%Z -> (4 <= lF <= 44)%Z -> (1 <= TF <= 44)%Z -> (flt_TI ZW ZI ZE <= 32)%Z -> (AW - 1 <= nf)%Z \/ TQ = TRN \/ TQ = TRN_ZERO ->
  A <> 1 ->
  exists y n eta eps, pow_float ort TQ AW AI AE BW BI ZW ZI ZE mA eA mB eB = Some (PNum y n) /\ fltval TF y n = Rpower 2 (clampR (flt_lo ZW ZI ZE) (flt_hi ZW ZI ZE TF) (B * (ln A / ln 2)) + eta) * (1 + eps) /\
    Rabs eta <= Rabs B * ((kl2 lF + pow_kq (AW - 1) nf) * bpow2 (- lF)) + bpow2 (- TF) /\ Rabs eps <= hc_c TF * bpow2 (- TF).
Proof.
  intros nf lF TF A B HW HmA HAE HeA HBW HmB Hnf HlF HT HI HQ HA1. unfold pow_float. fold TF lF. destruct (flt_log2_a_real ort TQ AW AI AE ZW mA eA HW HmA HAE HeA Hnf HlF HQ) as (l & El & Rl & Dl). fold nf lF A in El, Rl, Dl. rewrite El. replace ((1 <=? TF)%Z && (TF <=? 44)%Z) with true by lia. cbn [negb]. pose proof (flt_TI_pos ZW ZI ZE) as HI0.
  set (LI := flt_LI AW AI AE) in *. assert (HLI : (1 <= LI)%Z) by (unfold LI, flt_LI; pose proof (nbits_nonneg (Z.max (AI - 1) (AW - AI - 1) + 2 ^ (AE - 1) + 1)); lia).
  assert (RM : in_range true (BW + (LI + lF)) (mB * l)).
  { unfold in_range, imin, imax in *. replace (BW + (LI + lF) - 1)%Z with ((BW - 1) + (LI + lF - 1) + 1)%Z by lia. rewrite !Z.pow_add_r by lia. assert (0 < 2 ^ (BW - 1))%Z by (apply Z.pow_pos_nonneg; lia). assert (0 < 2 ^ (LI + lF - 1))%Z by (apply Z.pow_pos_nonneg; lia). rewrite Z.pow_1_r. replace (2 ^ LI * 2 ^ lF)%Z with (2 * 2 ^ (LI + lF - 1))%Z in * by (rewrite <- Z.pow_add_r, <- Z.pow_succ_r by lia; f_equal; lia). set (U := (2 ^ (BW - 1))%Z) in *. set (V := (2 ^ (LI + lF - 1))%Z) in *. clearbody U V. clear - HmB Rl H H0. assert (Z.abs (mB * l) <= U * V)%Z by (rewrite Z.abs_mul; apply Z.mul_le_mono_nonneg; lia). nia. }
  destruct (flt_shift_exp2 TF (flt_TI ZW ZI ZE) TQ (BW + (LI + lF)) (BI + LI) (mB * l) eB ltac:(lia) RM HT ltac:(lia)) as (y & n & P & E & D & Bd). rewrite E. fold (flt_lo ZW ZI ZE) in D. fold (flt_hi ZW ZI ZE TF) in D.
  replace (flt_is_one AW AI mA eA) with false by (symmetry; apply not_true_is_false; intros H; apply flt_is_one_R in H; apply HA1; exact H). replace (mA =? 0)%Z with false by lia.
  assert (EX : fltval (BW + (LI + lF) - (BI + LI)) (mB * l) eB = B * fxval l lF). { unfold B, fltval. replace (BW + (LI + lF) - (BI + LI))%Z with ((BW - BI) + lF)%Z by lia. rewrite fxval_mul. ring. } rewrite EX in D.
  assert (D' : Rabs (P - clampR (flt_lo ZW ZI ZE) (flt_hi ZW ZI ZE TF) (B * (ln A / ln 2))) <= Rabs B * ((kl2 lF + pow_kq (AW - 1) nf) * bpow2 (- lF)) + bpow2 (- TF)).
  { set (c1 := clampR _ _ (B * fxval l lF)) in *. set (c2 := clampR _ _ (B * (ln A / ln 2))). replace (P - c2) with ((c1 - c2) + (P - c1)) by ring. eapply Rle_trans; [apply Rabs_triang|]. apply Rplus_le_compat; [|exact D]. unfold c1, c2. eapply Rle_trans; [apply clampR_lip|].
    rewrite <- Rmult_minus_distr_l, Rabs_mult. apply Rmult_le_compat_l; [apply Rabs_pos|exact Dl]. }
  destruct (eta_eps TF _ P _ _ _ D' Bd) as (eta & eps & E1 & D1 & D2). exists y, n, eta, eps. repeat split; assumption.
Qed.
