(** The statements of PropHc.v: the accuracy theorems in terms of the interface, and the counterexamples. *)
From Coq Require Import Reals Lia Lra Psatz ZifyBool.
From Verif Require Import AcTypes AcFacts Spec SpecFacts SpecR SpecRFacts SoftFacts QrdThm MatrixProofs ShiftFacts Atan2Proofs PwlExpReal ActReal HcModel HcNum HcIter HcExp HcExp2 HcPow HcLog HcLn.
Local Open Scope Z.

Theorem log_cordic_accurate : forall ort TQ W I XO f x e,
  let nf := match ort with Some tf => tf | None => W end in
  let zf := match ort with Some tf => tf | None => fF f end in
  1 <= W -> 0 < x < 2 ^ W -> 1 <= nf <= 44 -> 0 <= zf <= 44 -> W <= nf \/ TQ = TRN \/ TQ = TRN_ZERO -> 1 <= fW f -> fO f <> SAT_SYM ->
  (bpow2 (e - 1) <= fxval x (W - I) < bpow2 e)%R ->
  exists out V, log_cordic ort TQ W I XO f x = Some out /\
    (Rabs (V - ln (fxval x (W - I))) <= ((if zf <? 13 then 8 else 3) + 51 / 100 * IZR (Z.abs e) + (if W <=? nf then 0 else 2)) * bpow2 (- zf))%R /\
    convertsR (Fmt (fW f) (fI f) (fS f) (fQ f) (if fS f then WRAP else SAT)) V out.
Proof.
  intros ort TQ W I XO f x e nf zf HW Hx Hn Hz HQ Hf HO He. destruct (log_cordic_real ort TQ W I XO f x e HW Hx Hn Hz HQ Hf HO He) as (out & V & E & C & B). exists out, V. split; [exact E|]. split; [exact B|exact C].
Qed.
Theorem log2_cordic_accurate : forall ort TQ W I XO f x,
  let nf := match ort with Some tf => tf | None => W end in
  let zf := match ort with Some tf => tf | None => fF f end in
  1 <= W -> 0 < x < 2 ^ W -> 1 <= nf <= 44 -> 0 <= zf <= 44 -> W <= nf \/ TQ = TRN \/ TQ = TRN_ZERO -> 1 <= fW f -> fO f <> SAT_SYM ->
  exists out V, log2_cordic ort TQ W I XO f x = Some out /\
    (Rabs (V - ln (fxval x (W - I)) / ln 2) <= ((if zf <? 13 then 11 else 7 / 2) + (if W <=? nf then 0 else 3)) * bpow2 (- zf))%R /\
    convertsR (Fmt (fW f) (fI f) (fS f) (fQ f) (if fS f then WRAP else SAT)) V out.
Proof.
  intros ort TQ W I XO f x nf zf HW Hx Hn Hz HQ Hf HO. destruct (log2_cordic_real ort TQ W I XO f x HW Hx Hn Hz HQ Hf HO) as (out & V & E & C & B). exists out, V. split; [exact E|]. split; [exact B|exact C].
Qed.
Theorem log2_overflow_ok : forall TQ W I XO f x,
  1 <= W <= 44 -> 0 < x < 2 ^ W -> 0 <= fF f <= 44 -> 1 <= fW f -> fO f = (if fS f then WRAP else SAT) ->
  exists out V, log2_cordic None TQ W I XO f x = Some out /\ (Rabs (V - ln (fxval x (W - I)) / ln 2) <= 11 * bpow2 (- fF f))%R /\ convertsR f V out.
Proof.
  intros TQ W I XO f x HW Hx Hz Hf HO. destruct (log2_cordic_accurate None TQ W I XO f x ltac:(lia) Hx ltac:(lia) Hz ltac:(left; lia) Hf ltac:(rewrite HO; destruct (fS f); discriminate)) as (out & V & E & B & C). exists out, V. split; [exact E|]. split.
  - eapply Rle_trans; [exact B|]. apply Rmult_le_compat_r; [apply Rlt_le, bpow2_pos|]. replace (W <=? W) with true by lia. destruct (fF f <? 13); lra.
  - rewrite <- HO in C. destruct f. exact C.
Qed.
Theorem exp2_cordic_accurate : forall ort TQ W I f x,
  let TF := match ort with Some tf => tf | None => fF f end in
  W - I <= 45 -> 0 <= TF <= 44 -> TQ = TRN \/ TQ = TRN_ZERO \/ Z.max (W - I) 1 <= TF -> 1 <= fW f -> fS f = false ->
  (- bpow2 31 <= fxval x (W - I) < bpow2 31)%R ->
  exists out V, exp2_cordic ort TQ W I f x = Some out /\ convertsR f V out /\
    (Rabs (V - Rpower 2 (fxval x (W - I))) <= (if (TF <? 13)%Z then 10 else 6) * bpow2 (- TF) * Rpower 2 (fxval x (W - I)))%R.
Proof. exact exp2_cordic_real. Qed.
Theorem exp_cordic_accurate : forall ort TQ W I S f x,
  let TF := match ort with Some tf => tf | None => fF f end in
  1 <= W -> in_range S W x -> 0 <= TF <= 44 -> 0 <= TF + I -> TQ = TRN \/ TQ = TRN_ZERO \/ 1 <= TF /\ 2 <= TF + I -> 1 <= fW f -> fS f = false ->
  (Rabs (fxval x (W - I)) + 1 <= bpow2 TF)%R -> (Rabs (fxval x (W - I)) <= bpow2 30)%R ->
  exists out V, exp_cordic ort TQ W I S f x = Some out /\ convertsR f V out /\
    (Rabs (V - exp (fxval x (W - I))) <= ((if (TF <? 13)%Z then 24 else 15) + 5 / 4 * Rabs (fxval x (W - I))) * bpow2 (- TF) * exp (fxval x (W - I)))%R.
Proof. exact exp_cordic_real. Qed.

(** ** Counterexamples *)
Lemma fx4095 F : fxval 4095 F = (bpow2 (12 - F) * (4095 / 4096))%R.
Proof. unfold fxval. replace (12 - F) with (12 + - F) by lia. rewrite bpow2_add, (bpow2_IZR 12) by lia. change (IZR (2 ^ 12)) with 4096%R. lra. Qed.
Lemma ln4095 : (4 * ln 2 - / 4000 <= ln (fxval 4095 (12 - 4)) <= 4 * ln 2)%R.
Proof.
  rewrite fx4095. replace (12 - (12 - 4)) with 4 by lia. rewrite ln_mult by (try apply bpow2_pos; lra). rewrite <- bpow2_Rpower. unfold Rpower. rewrite ln_exp.
  pose proof (ln_le_sub1 (4095 / 4096) ltac:(lra)) as U. pose proof (ln_le_sub1 (/ (4095 / 4096)) ltac:(apply Rinv_0_lt_compat; lra)) as L. rewrite ln_Rinv in L by lra. replace (/ (4095 / 4096) - 1)%R with (/ 4095)%R in L by field. lra.
Qed.
Lemma bp n : 0 <= n -> bpow2 n = IZR (2 ^ n). Proof. apply bpow2_IZR. Qed.
Theorem log_cordic_rounding_bad : ~ (forall ort TQ W I XO f x,
  let nf := match ort with Some tf => tf | None => W end in
  let zf := match ort with Some tf => tf | None => fF f end in
  1 <= W -> 0 < x < 2 ^ W -> 1 <= nf <= 44 -> 0 <= zf <= 44 -> 1 <= fW f ->
  exists out V, log_cordic ort TQ W I XO f x = Some out /\ (Rabs (V - ln (fxval x (W - I))) <= / 10)%R /\
    convertsR (Fmt (fW f) (fI f) (fS f) (fQ f) (if fS f then WRAP else SAT)) V out).
Proof.
  intros H. destruct (H (Some 8) RND 12 4 WRAP (Fmt 16 4 true TRN WRAP) 4095 ltac:(lia) ltac:(lia) ltac:(lia) ltac:(lia) ltac:(cbn; lia)) as (out & V & E & B & C).
  assert (E1 : log_cordic (Some 8) RND 12 4 WRAP (Fmt 16 4 true TRN WRAP) 4095 = Some 10368) by (vm_compute; reflexivity). rewrite E1 in E. injection E as <-. destruct C as (z & R & L). cbn [fQ is_roundR] in R. destruct L as [_ (k & Hk)]. cbn [fW] in Hk.
  unfold fF in R. cbn [fW fI] in R. change (16 - 4) with 12 in R. rewrite bp in R by lia. change (IZR (2 ^ 12)) with 4096%R in R. pose proof ln4095 as L1. pose proof ln2_low as L2. pose proof ln2_hi as L3. apply Rabs_le_both in B.
  assert (10900 <= z) by (apply Z.lt_succ_r, lt_IZR; unfold Z.succ; rewrite plus_IZR; lra). assert (z <= 12000) by (apply le_IZR; lra). change (2 ^ 16) with 65536 in Hk. lia.
Qed.
Theorem log2_cordic_rounding_bad : ~ (forall ort TQ W I XO f x,
  let nf := match ort with Some tf => tf | None => W end in
  let zf := match ort with Some tf => tf | None => fF f end in
  1 <= W -> 0 < x < 2 ^ W -> 1 <= nf <= 44 -> 0 <= zf <= 44 -> 1 <= fW f ->
  exists out V, log2_cordic ort TQ W I XO f x = Some out /\ (Rabs (V - ln (fxval x (W - I)) / ln 2) <= / 10)%R /\
    convertsR (Fmt (fW f) (fI f) (fS f) (fQ f) (if fS f then WRAP else SAT)) V out).
Proof.
  intros H. destruct (H (Some 8) RND 12 4 WRAP (Fmt 16 4 true TRN WRAP) 4095 ltac:(lia) ltac:(lia) ltac:(lia) ltac:(lia) ltac:(cbn; lia)) as (out & V & E & B & C).
  assert (E1 : log2_cordic (Some 8) RND 12 4 WRAP (Fmt 16 4 true TRN WRAP) 4095 = Some 19568) by (vm_compute; reflexivity). rewrite E1 in E. injection E as <-. destruct C as (z & R & L). cbn [fQ is_roundR] in R. destruct L as [_ (k & Hk)]. cbn [fW] in Hk.
  unfold fF in R. cbn [fW fI] in R. change (16 - 4) with 12 in R. rewrite bp in R by lia. change (IZR (2 ^ 12)) with 4096%R in R. pose proof ln4095 as L1. pose proof ln2_low as L2. pose proof ln2_hi as L3. apply Rabs_le_both in B.
  assert (G : (3.99 <= ln (fxval 4095 (12 - 4)) / ln 2 <= 4)%R). { split; apply (Rmult_le_reg_r (ln 2)); try lra; unfold Rdiv; rewrite Rmult_assoc, Rinv_l by lra; lra. }
  assert (15000 <= z) by (apply Z.lt_succ_r, lt_IZR; unfold Z.succ; rewrite plus_IZR; lra). assert (z <= 17000) by (apply le_IZR; lra). change (2 ^ 16) with 65536 in Hk. lia.
Qed.
Theorem log2_overflow_bad : ~ (forall TQ W I XO f x,
  1 <= W <= 44 -> 0 < x < 2 ^ W -> 0 <= fF f <= 44 -> 1 <= fW f ->
  exists out V, log2_cordic None TQ W I XO f x = Some out /\ (Rabs (V - ln (fxval x (W - I)) / ln 2) <= 11 * bpow2 (- fF f))%R /\ convertsR f V out).
Proof.
  intros H. destruct (H TRN 12 11 WRAP (Fmt 8 2 true TRN SAT) 1024 ltac:(lia) ltac:(lia) ltac:(cbn; lia) ltac:(cbn; lia)) as (out & V & E & B & C).
  assert (E1 : log2_cordic None TRN 12 11 WRAP (Fmt 8 2 true TRN SAT) 1024 = Some 63) by (vm_compute; reflexivity). rewrite E1 in E. injection E as <-. destruct C as (z & R & L). cbn [fQ is_roundR] in R. cbn [fO fS fW] in L. unfold is_limited, lowest, highest in L. cbn [fW] in L.
  change (fF _) with 6 in R, B. rewrite bp in R by lia. rewrite bpow2_opp, bp in B by lia. change (IZR (2 ^ 6)) with 64%R in R, B. pose proof ln2_low as L2. apply Rabs_le_both in B.
  assert (G : (ln (fxval 1024 (12 - 11)) / ln 2 = 9)%R). { replace (fxval 1024 (12 - 11)) with (bpow2 9) by (change 1024 with (2 ^ 10); rewrite fxval_pow by lia; reflexivity). rewrite <- bpow2_Rpower. unfold Rpower. rewrite ln_exp. field. lra. } rewrite G in B.
  assert (500 <= z) by (apply Z.lt_succ_r, lt_IZR; unfold Z.succ; rewrite plus_IZR; lra). change (2 ^ (8 - 1)) with 128 in L. lia.
Qed.
Theorem log2_exact_bad : ~ (forall W I XO f x k,
  1 <= W <= 44 -> 0 < x < 2 ^ W -> 0 <= fF f <= 44 -> 1 <= fW f -> in_range (fS f) (fW f) (k * 2 ^ fF f) ->
  fxval x (W - I) = bpow2 k -> log2_cordic None TRN W I XO f x = Some (k * 2 ^ fF f)).
Proof.
  intros H. specialize (H 12 4 WRAP (Fmt 16 4 true TRN WRAP) 1 (-8) ltac:(lia) ltac:(lia) ltac:(unfold fF; cbn; lia) ltac:(cbn; lia) ltac:(split; discriminate) ltac:(unfold fxval; rewrite Rmult_1_l; reflexivity)).
  assert (E1 : log2_cordic None TRN 12 4 WRAP (Fmt 16 4 true TRN WRAP) 1 = Some 32767) by (vm_compute; reflexivity). rewrite E1 in H. discriminate H.
Qed.
Theorem exp2_cordic_rounding_bad : ~ (forall ort TQ W I f x,
  let TF := match ort with Some tf => tf | None => fF f end in
  W - I <= 45 -> 0 <= TF <= 44 -> 1 <= fW f -> fS f = false ->
  (- bpow2 31 <= fxval x (W - I) < bpow2 31)%R ->
  exists out V, exp2_cordic ort TQ W I f x = Some out /\ convertsR f V out /\
    (Rabs (V - Rpower 2 (fxval x (W - I))) <= (if (TF <? 13)%Z then 10 else 6) * bpow2 (- TF) * Rpower 2 (fxval x (W - I)))%R).
Proof.
  intros H. assert (X : (0 <= fxval 4095 (16 - 4) <= 1)%R) by (rewrite fx4095; change (12 - (16 - 4)) with 0; rewrite bpow2_0; lra). assert (P31 : (2 <= bpow2 31)%R) by (rewrite <- bpow2_1; apply bpow2_le; lia).
  destruct (H (Some 8) RND 16 4 (Fmt 20 8 false TRN WRAP) 4095 ltac:(lia) ltac:(lia) ltac:(cbn; lia) eq_refl ltac:(lra)) as (out & V & E & C & B).
  assert (E1 : exp2_cordic (Some 8) RND 16 4 (Fmt 20 8 false TRN WRAP) 4095 = Some 0) by (vm_compute; reflexivity). rewrite E1 in E. injection E as <-. destruct C as (z & R & L). cbn [fQ is_roundR] in R. destruct L as [_ (k & Hk)]. cbn [fW] in Hk.
  unfold fF in R. cbn [fW fI] in R. change (20 - 8) with 12 in R. rewrite bp in R by lia. change (IZR (2 ^ 12)) with 4096%R in R. change (8 <? 13) with true in B. cbv iota in B. rewrite bpow2_opp, bp in B by lia. change (IZR (2 ^ 8)) with 256%R in B.
  assert (P1 : (1 <= Rpower 2 (fxval 4095 (16 - 4)))%R) by (rewrite <- (Rpower_O 2) by lra; apply Rpower2_le; lra). assert (P2 : (Rpower 2 (fxval 4095 (16 - 4)) <= 2)%R) by (rewrite <- (Rpower_1 2) at 2 by lra; apply Rpower2_le; lra). apply Rabs_le_both in B.
  assert (1000 <= z) by (apply Z.lt_succ_r, lt_IZR; unfold Z.succ; rewrite plus_IZR; lra). assert (z <= 10000) by (apply le_IZR; lra). change (2 ^ 20) with 1048576 in Hk. lia.
Qed.
Theorem log_monotone_bad : ~ (forall ort W I XO f x y a b,
  1 <= W -> 0 <= I <= W -> 0 < x <= y -> y < 2 ^ W -> log_cordic ort TRN W I XO f x = Some a -> log_cordic ort TRN W I XO f y = Some b ->
  fS f = true -> fO f = WRAP -> 0 <= fF f <= 44 -> 2 + nbits W < fI f -> a <= b).
Proof.
  intros H. assert (E1 : log_cordic (Some 44) TRN 45 1 WRAP (Fmt 64 20 true TRN WRAP) (2 ^ 44 - 1) = Some (-1)) by (vm_compute; reflexivity). assert (E2 : log_cordic (Some 44) TRN 45 1 WRAP (Fmt 64 20 true TRN WRAP) (2 ^ 44) = Some (-2)) by (vm_compute; reflexivity).
  specialize (H (Some 44) 45 1 WRAP (Fmt 64 20 true TRN WRAP) (2 ^ 44 - 1) (2 ^ 44) (-1) (-2) ltac:(lia) ltac:(lia) ltac:(lia) ltac:(lia) E1 E2 eq_refl eq_refl ltac:(unfold fF; cbn; lia) ltac:(cbn; lia)). lia.
Qed.
