(** ac_log_cordic and ac_log2_cordic: accuracy. *)
From Coq Require Import Reals Lia Lra Psatz ZifyBool.
From Verif Require Import AcTypes AcFacts Spec SpecFacts SpecR SpecRFacts SoftFacts QrdThm MatrixProofs ShiftFacts LeadingModel LeadingProofs Atan2Proofs PwlExpReal ActReal DetProofs HcModel HcNum HcIter HcExp HcExp2 HcPow HcLog.
Local Open Scope R_scope.

(** ** Normalisation *)
Lemma norm_R W I O x : (1 <= W)%Z -> (0 < x < 2 ^ W)%Z -> exists e n, normalize W I false O x = (e, n) /\ (I - W + 1 <= e <= I)%Z /\ (2 ^ (W - 1) <= n < 2 ^ W)%Z /\ fxval x (W - I) = fxval n W * bpow2 e.
Proof.
  intros HW Hx. pose proof (normalize_u_ok W I O x HW Hx) as N. destruct (normalize W I false O x) as [e n]. destruct N as (He & En & Hn). exists e, n. split; [reflexivity|].
  assert (G : (I - W + 1 <= e)%Z). { destruct (Z.le_gt_cases (I - W + 1) e) as [L|L]; [exact L|exfalso]. assert (2 ^ W <= 2 ^ (I - e))%Z by (apply Z.pow_le_mono_r; lia). nia. }
  split; [lia|]. split; [exact Hn|]. rewrite En. unfold fxval. rewrite mult_IZR, <- bpow2_IZR by lia. rewrite !Rmult_assoc, <- !bpow2_add. do 2 f_equal. lia.
Qed.
Lemma half_rng n F : (1 <= F)%Z -> (2 ^ (F - 1) <= n < 2 ^ F)%Z -> / 2 <= fxval n F < 1.
Proof.
  intros HF [L H]. apply fxval_le with (F := F) in L. apply fxval_lt with (F := F) in H. rewrite fxval_one in H by lia. rewrite fxval_pow in L by lia. replace (F - 1 - F)%Z with (- (1))%Z in L by lia. rewrite bpow2_opp, bpow2_1 in L. lra.
Qed.
Lemma exp_unique X e e' : bpow2 (e - 1) <= X < bpow2 e -> bpow2 (e' - 1) <= X < bpow2 e' -> e = e'.
Proof.
  intros [A B] [C D]. destruct (Z.lt_trichotomy e e') as [L|[L|L]]; [exfalso|exact L|exfalso].
  - pose proof (bpow2_le e (e' - 1) ltac:(lia)). lra.
  - pose proof (bpow2_le e' (e - 1) ltac:(lia)). lra.
Qed.
Lemma norm_exp n W e : (1 <= W)%Z -> (2 ^ (W - 1) <= n < 2 ^ W)%Z -> bpow2 (e - 1) <= fxval n W * bpow2 e < bpow2 e.
Proof.
  intros HW Hn. pose proof (half_rng n W HW Hn) as H. pose proof (bpow2_pos e) as P. replace (bpow2 (e - 1)) with (/ 2 * bpow2 e) by (unfold Z.sub; rewrite bpow2_add; change (- (1))%Z with (-(1))%Z; rewrite (bpow2_opp 1), bpow2_1; ring). split; [apply Rmult_le_compat_r; lra|]. rewrite <- (Rmult_1_l (bpow2 e)) at 2. apply Rmult_lt_compat_r; lra.
Qed.
(** ** The mantissa cut to the internal precision *)
Lemma mant_R W nf TQ n : (1 <= W)%Z -> (1 <= nf)%Z -> (W <= nf)%Z \/ TQ = TRN \/ TQ = TRN_ZERO -> (2 ^ (W - 1) <= n < 2 ^ W)%Z -> let n2 := conv (Fmt nf 0 false TQ WRAP) n W in
  (2 ^ (nf - 1) <= n2 < 2 ^ nf)%Z /\ Rabs (ln (fxval n2 nf) - ln (fxval n W)) <= (if (W <=? nf)%Z then 0 else 2 * bpow2 (- nf)).
Proof.
  intros HW Hnf HQ Hn n2. pose proof (half_rng n W HW Hn) as H. destruct (Z.leb_spec W nf) as [G|G].
  - assert (E : n2 = (n * 2 ^ (nf - W))%Z).
    { apply conv_exact; [exact Hnf|discriminate| |].
      - unfold fF. cbn [fW fI]. replace (nf - 0)%Z with (W + (nf - W))%Z by lia. rewrite fxval_shift by lia. reflexivity.
      - unfold in_range, imin, imax. cbn [fS fW]. assert (P : (0 < 2 ^ (nf - W))%Z) by (apply Z.pow_pos_nonneg; lia). assert (E : (2 ^ nf = 2 ^ W * 2 ^ (nf - W))%Z) by (rewrite <- Z.pow_add_r by lia; f_equal; lia). assert (0 < 2 ^ (W - 1))%Z by (apply Z.pow_pos_nonneg; lia). nia. }
    rewrite E. split.
    + assert (P : (0 < 2 ^ (nf - W))%Z) by (apply Z.pow_pos_nonneg; lia). assert (E1 : (2 ^ nf = 2 ^ W * 2 ^ (nf - W))%Z) by (rewrite <- Z.pow_add_r by lia; f_equal; lia). assert (E2 : (2 ^ (nf - 1) = 2 ^ (W - 1) * 2 ^ (nf - W))%Z) by (rewrite <- Z.pow_add_r by lia; f_equal; lia). rewrite E1, E2. nia.
    + replace (fxval (n * 2 ^ (nf - W)) nf) with (fxval n W); [rewrite Rminus_diag_eq by reflexivity; rewrite Rabs_R0; lra|]. symmetry. replace nf with (W + (nf - W))%Z at 2 by lia. apply fxval_shift. lia.
  - destruct HQ as [HQ|HQ]; [lia|]. pose proof (conv_R (Fmt nf 0 false TQ WRAP) n W Hnf) as C. fold n2 in C. destruct (convR_trn0 (Fmt nf 0 false TQ WRAP) (fxval n W) n2 Hnf HQ eq_refl ltac:(lra) C) as [R V].
    { unfold fF. cbn [fW fI fS]. unfold imax. replace (2 ^ nf - 1 + 1)%Z with (2 ^ nf)%Z by lia. rewrite <- bpow2_IZR, Z.sub_0_r by lia. rewrite <- (Rmult_1_l (bpow2 nf)) at 2. apply Rmult_lt_compat_r; [apply bpow2_pos|lra]. }
    unfold fF in V. cbn [fW fI] in V. rewrite Z.sub_0_r in V. unfold in_range, imin, imax in R. cbn [fS fW] in R.
    assert (L : (2 ^ (nf - 1) <= n2)%Z). { assert (P : (2 ^ (nf - 1) < n2 + 1)%Z); [|lia]. apply (fxval_lt _ _ nf). rewrite fxval_pow by lia. replace (nf - 1 - nf)%Z with (- (1))%Z by lia. rewrite bpow2_opp, bpow2_1, fxval_add. unfold fxval at 2. lra. }
    split; [lia|]. pose proof (half_rng n2 nf Hnf ltac:(lia)) as H2. set (a := fxval n2 nf) in *. set (b := fxval n W) in *. set (d := bpow2 (- nf)) in *. assert (Pd : 0 < d) by apply bpow2_pos.
    pose proof (ln_le a b ltac:(lra) ltac:(lra)) as L1. assert (L2 : ln b - ln a <= 2 * d).
    { rewrite <- ln_div by lra. pose proof (ln_le_sub1 (b / a) ltac:(apply Rdiv_lt_0_compat; lra)) as S. eapply Rle_trans; [exact S|]. apply (Rmult_le_reg_r a); [lra|]. unfold Rdiv. rewrite Rmult_minus_distr_r, Rmult_assoc, Rinv_l by lra. assert (d * / 2 <= d * a) by (apply Rmult_le_compat_l; lra). lra. }
    apply Rabs_le. lra.
Qed.
(** ** The reduced logarithm in its result type *)
Lemma ln_low m : / 2 <= m < 1 -> - ln 2 <= ln m <= 0.
Proof. intros H. pose proof (ln_le (/ 2) m ltac:(lra) ltac:(lra)) as L. rewrite ln_Rinv in L by lra. pose proof (ln_le_sub1 m ltac:(lra)). lra. Qed.
Definition kl1 (zf : Z) : R := if (zf <? 13)%Z then 8 else 3.
Definition kl2 (zf : Z) : R := if (zf <? 13)%Z then 11 else 7 / 2.
Lemma u_le5 EW : (5 <= EW)%Z -> 0 < bpow2 (- EW) <= / 32.
Proof. intros H. split; [apply bpow2_pos|]. replace (/ 32) with (bpow2 (- (5))) by (rewrite bpow2_opp, bpow2_IZR by lia; reflexivity). apply bpow2_le. lia. Qed.
Lemma u_le1 EW : (1 <= EW)%Z -> 0 < bpow2 (- EW) <= / 2.
Proof. intros H. split; [apply bpow2_pos|]. replace (/ 2) with (bpow2 (- (1))) by (rewrite bpow2_opp, bpow2_1; reflexivity). apply bpow2_le. lia. Qed.
Lemma small_low tab l0 l1 EW M : (1 <= EW)%Z -> small_ok tab l0 l1 EW M = true -> - (if (l0 =? 10000)%Z then 1 else 2) <= fxval (log_v tab EW M) (EW + 1).
Proof.
  intros HE H. apply andb_prop in H. destruct H as [_ H]. apply Z.leb_le in H. apply fxval_le with (F := (EW + 1)%Z) in H. eapply Rle_trans; [|exact H]. apply Req_le. unfold fxval.
  replace (- (2 * 2 ^ EW) * (if l0 =? 10000 then 1 else 2))%Z with (2 ^ (EW + 1) * (- (if l0 =? 10000 then 1 else 2)))%Z by (rewrite Z.pow_add_r by lia; lia). rewrite mult_IZR, opp_IZR, <- bpow2_IZR, bpow2_opp by lia. pose proof (bpow2_pos (EW + 1)). destruct (l0 =? 10000)%Z; field; lra.
Qed.
Lemma ln_rr_near nf zf n2 : (1 <= nf <= 44)%Z -> (0 <= zf <= 44)%Z -> (2 ^ (nf - 1) <= n2 < 2 ^ nf)%Z ->
  Rabs (fxval (log_rr hc_tab nf (dfmt (zf + 1) 1 true) n2) zf - ln (fxval n2 nf)) <= kl1 zf * bpow2 (- zf).
Proof.
  intros Hnf Hzf Hn. assert (P1 : (0 < 2 ^ (nf - 1))%Z) by (apply Z.pow_pos_nonneg; lia). rewrite log_rr_v by lia. replace (fF (dfmt (zf + 1) 1 true)) with zf by (unfold fF; cbn; lia). set (EW := Z.max nf zf). assert (HE : (1 <= EW <= 44)%Z) by (unfold EW; lia).
  set (M := (n2 * 2 ^ (EW - nf))%Z). assert (HM : (2 ^ (EW - 1) <= M < 2 ^ EW)%Z). { assert (P : (0 < 2 ^ (EW - nf))%Z) by (apply Z.pow_pos_nonneg; unfold EW; lia). assert (E1 : (2 ^ EW = 2 ^ nf * 2 ^ (EW - nf))%Z) by (rewrite <- Z.pow_add_r by (unfold EW; lia); f_equal; lia). assert (E2 : (2 ^ (EW - 1) = 2 ^ (nf - 1) * 2 ^ (EW - nf))%Z) by (rewrite <- Z.pow_add_r by (unfold EW; lia); f_equal; lia). unfold M. rewrite E1, E2. nia. }
  assert (Em : fxval M EW = fxval n2 nf). { unfold M. replace EW with (nf + (EW - nf))%Z at 2 by lia. apply fxval_shift. unfold EW. lia. }
  pose proof (ln_v_near EW M HE HM) as N. rewrite Em in N. pose proof (ln_low _ (half_rng n2 nf ltac:(lia) Hn)) as L. pose proof ln2_hi as L2. set (v := log_v hc_tab EW M) in *. set (V := fxval v (EW + 1)) in *. set (u := bpow2 (- EW)) in *.
  assert (Hu : 0 < u <= bpow2 (- zf)). { unfold u. split; [apply bpow2_pos|apply bpow2_le; unfold EW; lia]. }
  assert (BV : -1 <= V < 1).
  { apply Rabs_le_both in N. destruct (Z.le_gt_cases EW 4) as [G|G].
    - destruct (small_log EW M ltac:(lia) HM) as [S1 _]. pose proof (small_low hc_tab 10000 10000 EW M ltac:(lia) S1) as SL. change (10000 =? 10000)%Z with true in SL. fold v V in SL. pose proof (small_val hc_tab 10000 10000 1 EW M ltac:(lia) HM ltac:(lia) ltac:(lia) ltac:(lra) S1) as SV. fold v V u in SV. rewrite Em in SV. unfold Rdiv in SV. rewrite Rinv_1, Rmult_1_r in SV. apply Rabs_le_both in SV. pose proof (half_rng n2 nf ltac:(lia) Hn) as Hh.
      split; [lra|]. destruct (Rlt_dec V 1) as [Q|Q]; [exact Q|exfalso]. pose proof (u_le1 EW ltac:(lia)) as U1. fold u in U1. assert (ln (fxval n2 nf) < 0) by (rewrite <- ln_1; apply ln_increasing; lra). lra.
    - pose proof (u_le5 EW ltac:(lia)) as U5. fold u in U5. assert (IZR (k1 EW) <= 14) by (apply IZR_le; unfold k1; destruct (EW <? 13)%Z; lia). assert (IZR (k1 EW) / 2 * u <= 7 * / 32) by (apply Rmult_le_compat; try lra; unfold k1; destruct (EW <? 13)%Z; lra). lra. }
  pose proof (conv_R (dfmt (zf + 1) 1 true) v (EW + 1) ltac:(cbn [dfmt fW]; lia)) as C. fold V in C. apply convR_dfmt in C; [|lia|change (1 - 1)%Z with 0%Z; rewrite bpow2_0; lra]. destruct C as [_ C]. replace (zf + 1 - 1)%Z with zf in C by lia.
  set (zc := fxval (conv _ v _) zf) in *. set (w := bpow2 (- zf)) in *. apply Rabs_le_both in N. assert (K : IZR (k1 EW) / 2 * u <= (kl1 zf - 1) * w). { unfold k1, kl1. destruct (Z.ltb_spec EW 13), (Z.ltb_spec zf 13); try (unfold EW in *; lia); lra. }
  apply Rabs_le. lra.
Qed.
Lemma log2_rr_near nf zf n2 : (1 <= nf <= 44)%Z -> (0 <= zf <= 44)%Z -> (2 ^ (nf - 1) <= n2 < 2 ^ nf)%Z ->
  Rabs (fxval (log_rr hc_tab2 nf (dfmt (zf + 2) 2 true) n2) zf - ln (fxval n2 nf) / ln 2) <= kl2 zf * bpow2 (- zf).
Proof.
  intros Hnf Hzf Hn. assert (P1 : (0 < 2 ^ (nf - 1))%Z) by (apply Z.pow_pos_nonneg; lia). rewrite log_rr_v by lia. replace (fF (dfmt (zf + 2) 2 true)) with zf by (unfold fF; cbn; lia). set (EW := Z.max nf zf). assert (HE : (1 <= EW <= 44)%Z) by (unfold EW; lia).
  set (M := (n2 * 2 ^ (EW - nf))%Z). assert (HM : (2 ^ (EW - 1) <= M < 2 ^ EW)%Z). { assert (P : (0 < 2 ^ (EW - nf))%Z) by (apply Z.pow_pos_nonneg; unfold EW; lia). assert (E1 : (2 ^ EW = 2 ^ nf * 2 ^ (EW - nf))%Z) by (rewrite <- Z.pow_add_r by (unfold EW; lia); f_equal; lia). assert (E2 : (2 ^ (EW - 1) = 2 ^ (nf - 1) * 2 ^ (EW - nf))%Z) by (rewrite <- Z.pow_add_r by (unfold EW; lia); f_equal; lia). unfold M. rewrite E1, E2. nia. }
  assert (Em : fxval M EW = fxval n2 nf). { unfold M. replace EW with (nf + (EW - nf))%Z at 2 by lia. apply fxval_shift. unfold EW. lia. }
  pose proof (log2_v_near EW M HE HM) as N. rewrite Em in N. pose proof (ln_low _ (half_rng n2 nf ltac:(lia) Hn)) as L. pose proof ln2_hi as L2. pose proof ln2_low as L1. set (v := log_v hc_tab2 EW M) in *. set (V := fxval v (EW + 1)) in *. set (u := bpow2 (- EW)) in *. set (g := ln (fxval n2 nf) / ln 2) in *.
  assert (Hg : -1 <= g <= 0). { unfold g. split; apply (Rmult_le_reg_r (ln 2)); try lra; unfold Rdiv; rewrite Rmult_assoc, Rinv_l by lra; lra. }
  assert (Hu : 0 < u <= bpow2 (- zf)). { unfold u. split; [apply bpow2_pos|apply bpow2_le; unfold EW; lia]. }
  assert (BV : -2 <= V < 2).
  { apply Rabs_le_both in N. destruct (Z.le_gt_cases EW 4) as [G|G].
    - destruct (small_log EW M ltac:(lia) HM) as [_ S1]. pose proof (small_val hc_tab2 6931 6932 (ln 2) EW M ltac:(lia) HM ltac:(lia) ltac:(lia) ltac:(lra) S1) as SV. fold v V u in SV. rewrite Em in SV. fold g in SV. apply Rabs_le_both in SV. pose proof (u_le1 EW ltac:(lia)) as U1. fold u in U1. lra.
    - pose proof (u_le5 EW ltac:(lia)) as U5. fold u in U5. assert (IZR (k2 EW) <= 20) by (apply IZR_le; unfold k2; destruct (EW <? 13)%Z; lia). assert (IZR (k2 EW) / 2 * u <= 10 * / 32) by (apply Rmult_le_compat; try lra; unfold k2; destruct (EW <? 13)%Z; lra). lra. }
  pose proof (conv_R (dfmt (zf + 2) 2 true) v (EW + 1) ltac:(cbn [dfmt fW]; lia)) as C. fold V in C. apply convR_dfmt in C; [|lia|change (2 - 1)%Z with 1%Z; rewrite bpow2_1; lra]. destruct C as [_ C]. replace (zf + 2 - 2)%Z with zf in C by lia.
  set (zc := fxval (conv _ v _) zf) in *. set (w := bpow2 (- zf)) in *. apply Rabs_le_both in N. assert (K : IZR (k2 EW) / 2 * u <= (kl2 zf - 1) * w). { unfold k2, kl2. destruct (Z.ltb_spec EW 13), (Z.ltb_spec zf 13); try (unfold EW in *; lia); lra. }
  apply Rabs_le. lra.
Qed.

(** ** The output *)
Definition hc_fmt (f : fmt) : fmt := Fmt (fW f) (fI f) (fS f) (fQ f) (if fS f then WRAP else SAT).
Lemma hc_out_R f v F : (1 <= fW f)%Z -> fO f <> SAT_SYM -> convertsR (hc_fmt f) (fxval v F) (hc_out f v F).
Proof.
  intros HW HO. unfold hc_out. fold (hc_fmt f). pose proof (conv_R (hc_fmt f) v F HW) as C. rewrite (conv_exact f (conv (hc_fmt f) v F) (fF f) (conv (hc_fmt f) v F)); [exact C|exact HW|exact HO|reflexivity|].
  exact (conv_range (hc_fmt f) v F HW).
Qed.
Lemma off_bnd W I e : (I - W + 1 <= e <= I)%Z -> (Z.abs e < 2 ^ nbits (Z.max (W - I) I))%Z.
Proof. intros He. eapply Z.le_lt_trans; [|apply nbits_ub]; lia. Qed.
Theorem log_cordic_real ort TQ W I XO f x e : let nf := hc_tf ort W in let zf := hc_tf ort (fF f) in let X := fxval x (W - I) in
  (1 <= W)%Z -> (0 < x < 2 ^ W)%Z -> (1 <= nf <= 44)%Z -> (0 <= zf <= 44)%Z -> (W <= nf)%Z \/ TQ = TRN \/ TQ = TRN_ZERO -> (1 <= fW f)%Z -> fO f <> SAT_SYM -> bpow2 (e - 1) <= X < bpow2 e ->
  exists out V, log_cordic ort TQ W I XO f x = Some out /\ convertsR (hc_fmt f) V out /\ Rabs (V - ln X) <= (kl1 zf + 51 / 100 * IZR (Z.abs e) + (if (W <=? nf)%Z then 0 else 2)) * bpow2 (- zf).
Proof.
  intros nf zf X HW Hx Hnf Hzf HQ HfW HO He. destruct (norm_R W I XO x HW Hx) as (e' & n & En & He' & Hn & EX). fold X in EX. unfold log_cordic. rewrite En. fold nf zf. replace ((44 <? nf)%Z || (44 <? zf)%Z) with false by lia.
  assert (Ee : e' = e). { apply (exp_unique X); [rewrite EX; apply norm_exp; assumption|exact He]. } subst e'. destruct (mant_R W nf TQ n HW ltac:(lia) HQ Hn) as [Hn2 Mn]. set (n2 := conv (Fmt nf 0 false TQ WRAP) n W) in *.
  pose proof (ln_rr_near nf zf n2 ltac:(lia) ltac:(lia) Hn2) as N. set (zc := log_rr hc_tab nf (dfmt (zf + 1) 1 true) n2) in *. set (OFW := nbits (Z.max (W - I) I)) in *. pose proof (off_bnd W I e He') as Be. fold OFW in Be. assert (HO0 : (0 <= OFW)%Z) by apply nbits_nonneg.
  set (fo := dfmt (zf + 1 + OFW + 1) (OFW + 1) true) in *. set (l := conv (dfmt (zf + 1) 0 false) hc_ln2 159) in *. set (off := conv fo (conv fo l (zf + 1) * e) (zf + 1)) in *.
  pose proof ln2_near as N2. pose proof ln2_hi as LH. pose proof ln2_low as LL. apply Rabs_le_both in N2. assert (P72 : bpow2 (-72) <= 1 / 100 * bpow2 (- zf)). { apply Rle_trans with (bpow2 (- (7)) * bpow2 (- zf)); [rewrite <- bpow2_add; apply bpow2_le; lia|]. apply Rmult_le_compat_r; [apply Rlt_le, bpow2_pos|]. rewrite bpow2_opp, bpow2_IZR by lia. change (IZR (2 ^ 7)) with 128. lra. }
  assert (S72 : bpow2 (-72) <= / 1000). { apply Rle_trans with (bpow2 (- (10))); [apply bpow2_le; lia|]. rewrite bpow2_opp, bpow2_IZR by lia. change (IZR (2 ^ 10)) with 1024. lra. } set (w := bpow2 (- zf)) in *. assert (Pw : 0 < w) by apply bpow2_pos.
  pose proof (conv_R (dfmt (zf + 1) 0 false) hc_ln2 159 ltac:(cbn [dfmt fW]; lia)) as C. fold l in C. apply convR_dfmt in C; [|lia|rewrite bpow2_0; lra]. destruct C as [Rl Cl]. rewrite Z.sub_0_r in Cl. assert (Ew : bpow2 (- (zf + 1)) = w / 2) by (unfold w; replace (- (zf + 1))%Z with (- zf + - (1))%Z by lia; rewrite bpow2_add, (bpow2_opp 1), bpow2_1; reflexivity). rewrite Ew in Cl.
  unfold in_range, imin, imax in Rl. assert (PO : (0 < 2 ^ OFW)%Z) by (apply Z.pow_pos_nonneg; lia). assert (PZ : (0 < 2 ^ (zf + 1))%Z) by (apply Z.pow_pos_nonneg; lia). assert (EO : (2 ^ (zf + 1 + OFW + 1 - 1) = 2 ^ (zf + 1) * 2 ^ OFW)%Z) by (rewrite <- Z.pow_add_r by lia; f_equal; lia).
  assert (E1 : conv fo l (zf + 1) = l). { unfold fo. rewrite conv_dfmt_same by lia. apply wraps_id; [lia|]. rewrite EO. nia. }
  assert (E2 : off = (l * e)%Z). { unfold off. rewrite E1. unfold fo. rewrite conv_dfmt_same by lia. apply wraps_id; [lia|]. rewrite EO. assert (Z.abs (l * e) < 2 ^ (zf + 1) * 2 ^ OFW)%Z; [|lia]. rewrite Z.abs_mul, (Z.abs_eq l) by lia. nia. }
  exists (hc_out f (off + zc * 2) (zf + 1)), (fxval (off + zc * 2) (zf + 1)). split; [reflexivity|]. split; [apply hc_out_R; assumption|].
  assert (EV : fxval (off + zc * 2) (zf + 1) = fxval l (zf + 1) * IZR e + fxval zc zf). { rewrite fxval_add, E2. f_equal; [unfold fxval; rewrite mult_IZR; ring|]. replace (zc * 2)%Z with (zc * 2 ^ 1)%Z by lia. apply fxval_shift. lia. }
  pose proof (half_rng n W HW Hn) as Hh. assert (EL : ln X = ln (fxval n W) + IZR e * ln 2). { rewrite EX, ln_mult by (try apply bpow2_pos; lra). f_equal. rewrite <- bpow2_Rpower. unfold Rpower. rewrite ln_exp. reflexivity. }
  rewrite EV, EL. set (L := fxval l (zf + 1)) in *. set (Z1 := fxval zc zf) in *. set (a := ln (fxval n2 nf)) in *. set (b := ln (fxval n W)) in *.
  assert (DL : Rabs (L - ln 2) <= 51 / 100 * w) by (apply Rabs_le; lra). assert (DE : Rabs (IZR e * (L - ln 2)) <= 51 / 100 * IZR (Z.abs e) * w). { rewrite Rabs_mult, <- abs_IZR. assert (0 <= IZR (Z.abs e)) by (apply IZR_le; lia). apply Rle_trans with (IZR (Z.abs e) * (51 / 100 * w)); [apply Rmult_le_compat_l; lra|lra]. }
  assert (DM : Rabs (a - b) <= (if (W <=? nf)%Z then 0 else 2) * w). { eapply Rle_trans; [exact Mn|]. destruct (Z.leb_spec W nf) as [G|G]; [lra|]. assert (nf = zf) by (unfold nf, zf, hc_tf in *; destruct ort; [reflexivity|lia]). unfold w. rewrite H. lra. }
  set (q := if (W <=? nf)%Z then 0 else 2) in *. clear - DE DM N. apply Rabs_le_both in DE, DM, N. apply Rabs_le. lra.
Qed.
Theorem log2_cordic_real ort TQ W I XO f x : let nf := hc_tf ort W in let zf := hc_tf ort (fF f) in let X := fxval x (W - I) in
  (1 <= W)%Z -> (0 < x < 2 ^ W)%Z -> (1 <= nf <= 44)%Z -> (0 <= zf <= 44)%Z -> (W <= nf)%Z \/ TQ = TRN \/ TQ = TRN_ZERO -> (1 <= fW f)%Z -> fO f <> SAT_SYM ->
  exists out V, log2_cordic ort TQ W I XO f x = Some out /\ convertsR (hc_fmt f) V out /\ Rabs (V - ln X / ln 2) <= (kl2 zf + (if (W <=? nf)%Z then 0 else 3)) * bpow2 (- zf).
Proof.
  intros nf zf X HW Hx Hnf Hzf HQ HfW HO. destruct (norm_R W I XO x HW Hx) as (e & n & En & He & Hn & EX). fold X in EX. unfold log2_cordic. rewrite En. fold nf zf. replace ((44 <? nf)%Z || (44 <? zf)%Z) with false by lia.
  destruct (mant_R W nf TQ n HW ltac:(lia) HQ Hn) as [Hn2 Mn]. set (n2 := conv (Fmt nf 0 false TQ WRAP) n W) in *.
  pose proof (log2_rr_near nf zf n2 ltac:(lia) ltac:(lia) Hn2) as N. set (zc := log_rr hc_tab2 nf (dfmt (zf + 2) 2 true) n2) in *. set (OFW := nbits (Z.max (W - I) I)) in *. pose proof (off_bnd W I e He) as Be. fold OFW in Be. assert (HO0 : (0 <= OFW)%Z) by apply nbits_nonneg.
  assert (E2 : conv (dfmt (OFW + 1) (OFW + 1) true) e 0 = e). { rewrite conv_dfmt_same by lia. apply wraps_id; [lia|]. replace (OFW + 1 - 1)%Z with OFW by lia. lia. } rewrite E2.
  pose proof ln2_low as LL. set (w := bpow2 (- zf)) in *. assert (Pw : 0 < w) by apply bpow2_pos.
  exists (hc_out f (e * 2 ^ zf + zc) zf), (fxval (e * 2 ^ zf + zc) zf). split; [reflexivity|]. split; [apply hc_out_R; assumption|].
  assert (EV : fxval (e * 2 ^ zf + zc) zf = IZR e + fxval zc zf). { rewrite fxval_add. f_equal. unfold fxval. rewrite mult_IZR, <- bpow2_IZR, bpow2_opp by lia. field. pose proof (bpow2_pos zf). lra. }
  pose proof (half_rng n W HW Hn) as Hh. assert (EL : ln X / ln 2 = ln (fxval n W) / ln 2 + IZR e). { rewrite EX, ln_mult by (try apply bpow2_pos; lra). rewrite <- bpow2_Rpower. unfold Rpower at 1. rewrite ln_exp. field. lra. }
  rewrite EV, EL. set (Z1 := fxval zc zf) in *. set (a := ln (fxval n2 nf)) in *. set (b := ln (fxval n W)) in *.
  assert (DM : Rabs (a - b) <= (if (W <=? nf)%Z then 0 else 2) * w). { eapply Rle_trans; [exact Mn|]. destruct (Z.leb_spec W nf) as [G|G]; [lra|]. assert (nf = zf) by (unfold nf, zf, hc_tf in *; destruct ort; [reflexivity|lia]). unfold w. rewrite H. lra. }
  assert (DM2 : Rabs (a / ln 2 - b / ln 2) <= (if (W <=? nf)%Z then 0 else 3) * w). { replace (a / ln 2 - b / ln 2) with ((a - b) * / ln 2) by (field; lra). rewrite Rabs_mult, (Rabs_pos_eq (/ ln 2)) by (apply Rlt_le, Rinv_0_lt_compat; lra). apply (Rmult_le_reg_r (ln 2)); [lra|]. rewrite Rmult_assoc, Rinv_l by lra. rewrite Rmult_1_r. eapply Rle_trans; [exact DM|]. destruct (W <=? nf)%Z; [lra|]. assert (w * 0.6931 <= w * ln 2) by (apply Rmult_le_compat_l; lra). lra. }
  set (q := if (W <=? nf)%Z then 0 else 3) in *. clear - DM2 N. apply Rabs_le_both in DM2, N. apply Rabs_le. lra.
Qed.
