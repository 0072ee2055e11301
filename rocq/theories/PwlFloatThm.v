(** The statements about the ac_float overloads of the piecewise-linear functions and of ac_div. *)
From Coq Require Import Reals Lia Lra Psatz ZifyBool.
From Verif Require Import AcTypes AcFacts Spec SpecR SpecRFacts PwlModel TanPwlModel HcFloat PwlFloatModel PwlFloat PwlFloat2 PwlFloat3.
Open Scope Z.

Theorem sqrt_flt_accurate : forall pQ W I m e,
  let X := (fxval m (W - I) * bpow2 e)%R in
  2 <= W -> 2 ^ (W - 2) <= m < 2 ^ (W - 1) ->
  exists v n, sqrt_flt pQ W I m e = Some (v, n) /\ (Rabs (fxval v ((W - I) / 2 + 22) * bpow2 n - sqrt X) <= 0.0013 * sqrt X)%R.
Proof. intros pQ W I m e X HW Hm. exact (sqrt_flt_real pQ W I m e HW Hm). Qed.

Lemma sqrt_bpow2_le k x : (x <= bpow2 (2 * k) -> sqrt x <= bpow2 k)%R.
Proof. intros H. apply sqrt_le_1_alt in H. replace (2 * k) with (k + k) in H by lia. rewrite bpow2_add, sqrt_square in H by (apply Rlt_le, bpow2_pos). exact H. Qed.

Theorem sqrt_flt_subnormal_bad : ~ (forall pQ W I E m e,
  let X := (fxval m (W - I) * bpow2 e)%R in
  2 <= W -> 1 <= E -> 0 < m < 2 ^ (W - 1) -> in_range true E e -> (2 ^ (W - 2) <= m \/ e = - 2 ^ (E - 1)) ->
  exists v n, sqrt_flt pQ W I m e = Some (v, n) /\ (Rabs (fxval v ((W - I) / 2 + 22) * bpow2 n - sqrt X) <= 0.0013 * sqrt X)%R).
Proof.
  intros H. destruct (H TRN 16 2 6 8192 (-32) ltac:(lia) ltac:(lia) ltac:(lia) ltac:(unfold in_range, imin, imax; lia) ltac:(lia)) as (v & n & E & D). clear H.
  assert (E0 : sqrt_flt TRN 16 2 8192 (-32) = Some (657899424, -16)) by (vm_compute; reflexivity). rewrite E0 in E. injection E as <- <-. clear E0.
  revert D. set (X := (fxval 8192 (16 - 2) * bpow2 (-32))%R). intros D. pose proof (bpow2_pos (-16)) as P. assert (S : (sqrt X <= bpow2 (-16))%R).
  { apply sqrt_bpow2_le. change (2 * -16) with (-32). unfold X. rewrite <- (Rmult_1_l (bpow2 (-32))) at 2. apply Rmult_le_compat_r; [apply Rlt_le, bpow2_pos|]. unfold fxval. change (- (16 - 2)) with (- (14)). rewrite bpow2_opp, bpow2_IZR by lia. change (IZR (2 ^ 14)) with 16384%R. lra. }
  assert (V : (fxval 657899424 ((16 - 2) / 2 + 22) = 657899424 / 536870912)%R). { change ((16 - 2) / 2 + 22) with 29. unfold fxval. rewrite bpow2_opp, bpow2_IZR by lia. change (IZR (2 ^ 29)) with 536870912%R. reflexivity. } rewrite V in D. apply Rabs_le_both in D. pose proof (sqrt_pos X). lra.
Qed.

Theorem isqrt_flt_accurate : forall pQ oQ W I m e,
  let X := (fxval m (W - I) * bpow2 e)%R in
  3 <= W -> 2 ^ (W - 2) <= m < 2 ^ (W - 1) ->
  exists v n, isqrt_flt pQ oQ W I m e = Some (v, n) /\ (Rabs (fxval v ((I - 1) / 2 + 24) * bpow2 n - / sqrt X) <= 0.0009 * / sqrt X)%R.
Proof. intros pQ oQ W I m e X HW Hm. exact (isqrt_flt_real pQ oQ W I m e HW Hm). Qed.

Theorem isqrt_flt_subnormal_bad : ~ (forall pQ oQ W I E m e,
  let X := (fxval m (W - I) * bpow2 e)%R in
  3 <= W -> 1 <= E -> 0 < m < 2 ^ (W - 1) -> in_range true E e -> (2 ^ (W - 2) <= m \/ e = - 2 ^ (E - 1)) ->
  exists v n, isqrt_flt pQ oQ W I m e = Some (v, n) /\ (Rabs (fxval v ((I - 1) / 2 + 24) * bpow2 n - / sqrt X) <= 0.0009 * / sqrt X)%R).
Proof.
  intros H. destruct (H TRN TRN 16 2 6 8192 (-32) ltac:(lia) ltac:(lia) ltac:(lia) ltac:(unfold in_range, imin, imax; lia) ltac:(lia)) as (v & n & E & D). clear H.
  assert (E0 : isqrt_flt TRN TRN 16 2 8192 (-32) = Some (13692288, 16)) by (vm_compute; reflexivity). rewrite E0 in E. injection E as <- <-. clear E0.
  revert D. set (X := (fxval 8192 (16 - 2) * bpow2 (-32))%R). intros D. pose proof (bpow2_pos 16) as P. assert (PX : (0 < X)%R) by (unfold X, fxval; repeat apply Rmult_lt_0_compat; try apply bpow2_pos; lra). assert (S : (sqrt X <= bpow2 (-16))%R).
  { apply sqrt_bpow2_le. change (2 * -16) with (-32). unfold X. rewrite <- (Rmult_1_l (bpow2 (-32))) at 2. apply Rmult_le_compat_r; [apply Rlt_le, bpow2_pos|]. unfold fxval. change (- (16 - 2)) with (- (14)). rewrite bpow2_opp, bpow2_IZR by lia. change (IZR (2 ^ 14)) with 16384%R. lra. }
  assert (S2 : (bpow2 16 <= / sqrt X)%R). { apply Rle_trans with (/ bpow2 (-16))%R; [change 16 with (- (-16)) at 1; rewrite bpow2_opp; apply Rle_refl|]. apply Rinv_le_contravar; [apply sqrt_lt_R0; exact PX|exact S]. }
  assert (V : (fxval 13692288 ((2 - 1) / 2 + 24) = 13692288 / 16777216)%R). { change ((2 - 1) / 2 + 24) with 24. unfold fxval. rewrite bpow2_opp, bpow2_IZR by lia. change (IZR (2 ^ 24)) with 16777216%R. reflexivity. } rewrite V in D. apply Rabs_le_both in D. lra.
Qed.

Theorem log2_flt_accurate : forall pQ W I m e,
  let X := (fxval m (W - I) * bpow2 e)%R in
  2 <= W -> 2 ^ (W - 2) <= m < 2 ^ (W - 1) ->
  exists v, log2_flt pQ W I m e = Some v /\ (Rabs (fxval v 22 - ln X / ln 2) <= 0.0015)%R.
Proof. intros pQ W I m e X HW Hm. exact (log2_flt_real pQ W I m e HW Hm). Qed.
Theorem log_flt_accurate : forall pQ W I m e,
  let X := (fxval m (W - I) * bpow2 e)%R in
  2 <= W -> 2 ^ (W - 2) <= m < 2 ^ (W - 1) ->
  exists v, log_flt pQ W I m e = Some v /\ (Rabs (fxval v 37 - ln X) <= 0.00105 + 0.0000033 * Rabs (ln X))%R.
Proof. intros pQ W I m e X HW Hm. exact (log_flt_real pQ W I m e HW Hm). Qed.

Lemma ln_witness : ln (fxval 4096 (16 - 2) * bpow2 (-32)) = (-34 * ln 2)%R.
Proof. replace (fxval 4096 (16 - 2) * bpow2 (-32))%R with (bpow2 (-34)); [apply PwlExpReal.ln_bpow2|]. unfold fxval. replace 4096%R with (bpow2 12) by (rewrite bpow2_IZR by lia; reflexivity). rewrite <- !bpow2_add. reflexivity. Qed.
Theorem log2_flt_subnormal_bad : ~ (forall pQ W I E m e,
  let X := (fxval m (W - I) * bpow2 e)%R in
  2 <= W -> 1 <= E -> 0 < m < 2 ^ (W - 1) -> in_range true E e -> (2 ^ (W - 2) <= m \/ e = - 2 ^ (E - 1)) ->
  exists v, log2_flt pQ W I m e = Some v /\ (Rabs (fxval v 22 - ln X / ln 2) <= 0.0015)%R).
Proof.
  intros H. destruct (H TRN 16 2 6 4096 (-32) ltac:(lia) ltac:(lia) ltac:(lia) ltac:(unfold in_range, imin, imax; lia) ltac:(lia)) as (v & E & D). clear H. pose proof ln2_6 as L2.
  assert (E0 : log2_flt TRN 16 2 4096 (-32) = Some (-132864000)) by (vm_compute; reflexivity). rewrite E0 in E. injection E as <-. clear E0.
  rewrite ln_witness in D. replace (-34 * ln 2 / ln 2)%R with (-34)%R in D by (field; lra). assert (V : (fxval (-132864000) 22 = -132864000 / 4194304)%R). { unfold fxval. rewrite bpow2_opp, bpow2_IZR by lia. change (IZR (2 ^ 22)) with 4194304%R. reflexivity. } rewrite V in D. apply Rabs_le_both in D. lra.
Qed.
Theorem log_flt_subnormal_bad : ~ (forall pQ W I E m e,
  let X := (fxval m (W - I) * bpow2 e)%R in
  2 <= W -> 1 <= E -> 0 < m < 2 ^ (W - 1) -> in_range true E e -> (2 ^ (W - 2) <= m \/ e = - 2 ^ (E - 1)) ->
  exists v, log_flt pQ W I m e = Some v /\ (Rabs (fxval v 37 - ln X) <= 0.00105 + 0.0000033 * Rabs (ln X))%R).
Proof.
  intros H. destruct (H TRN 16 2 6 4096 (-32) ltac:(lia) ltac:(lia) ltac:(lia) ltac:(unfold in_range, imin, imax; lia) ltac:(lia)) as (v & E & D). clear H. pose proof ln2_6 as L2.
  assert (E0 : log_flt TRN 16 2 4096 (-32) = Some (-3017740032000)) by (vm_compute; reflexivity). rewrite E0 in E. injection E as <-. clear E0.
  rewrite ln_witness in D. rewrite (Rabs_left (-34 * ln 2)) in D by lra. assert (V : (fxval (-3017740032000) 37 = -3017740032000 / 137438953472)%R). { unfold fxval. rewrite bpow2_opp, bpow2_IZR by lia. change (IZR (2 ^ 37)) with 137438953472%R. reflexivity. } rewrite V in D. apply Rabs_le_both in D. lra.
Qed.

Theorem pow2_flt_accurate : forall pQ W I oW oI oE m e,
  let TI := nbits (2 ^ (oE - 1) + Z.max (oI - 1) (oW - oI)) + 1 in
  let X := (fxval m (W - I) * bpow2 e)%R in
  1 <= W -> in_range true W m -> TI <= 32 ->
  exists y n eta eps, pow2_flt pQ W I oW oI oE m e = Some (y, n) /\
    (fxval y 20 * bpow2 n = Rpower 2 (Rmax (- bpow2 (TI - 1)) (Rmin (bpow2 (TI - 1) - bpow2 (- 12)) X) + eta) * (1 + eps) /\
     Rabs eta <= bpow2 (- 12) /\ Rabs eps <= 0.0023)%R.
Proof. intros pQ W I oW oI oE m e TI X HW Hm HT. exact (pow2_flt_real pQ W I oW oI oE m e HW Hm HT). Qed.
Theorem exp_flt_accurate : forall pQ W I oW oI oE m e,
  let TI := nbits (2 ^ (oE - 1) + Z.max (oI - 1) (oW - oI)) + 1 in
  let X := (fxval m (W - I) * bpow2 e)%R in
  1 <= W -> in_range true W m -> TI <= 32 ->
  exists y n eta eps, exp_flt pQ W I oW oI oE m e = Some (y, n) /\
    (fxval y 20 * bpow2 n = Rpower 2 (Rmax (- bpow2 (TI - 1)) (Rmin (bpow2 (TI - 1) - bpow2 (- 12)) (X / ln 2)) + eta) * (1 + eps) /\
     Rabs eta <= bpow2 (- 12) + 0.00001 * Rmin (Rabs X) (1.4 * bpow2 (TI - 1)) /\ Rabs eps <= 0.0023)%R.
Proof. intros pQ W I oW oI oE m e TI X HW Hm HT. exact (exp_flt_real pQ W I oW oI oE m e HW Hm HT). Qed.

Lemma bpow2_m12 : (bpow2 (- 12) = / 4096)%R.
Proof. change (-12) with (- (12)). rewrite bpow2_opp, bpow2_IZR by lia. reflexivity. Qed.
Theorem pow2_flt_saturates : forall pQ W I oW oI oE m e y n,
  let TI := nbits (2 ^ (oE - 1) + Z.max (oI - 1) (oW - oI)) + 1 in
  let X := (fxval m (W - I) * bpow2 e)%R in
  1 <= W -> in_range true W m -> 2 <= oW -> 1 <= oE -> TI <= 32 ->
  pow2_flt pQ W I oW oI oE m e = Some (y, n) ->
  ((bpow2 (TI - 1) <= X)%R -> forall mz ez, in_range true oW mz -> in_range true oE ez -> (fxval mz (oW - oI) * bpow2 ez < fxval y 20 * bpow2 n /\ fxval mz (oW - oI) * bpow2 ez < Rpower 2 X)%R) /\
  ((X <= - bpow2 (TI - 1))%R -> (0 <= fxval y 20 * bpow2 n < fxval 1 (oW - oI) * bpow2 (- 2 ^ (oE - 1)) /\ Rpower 2 X < fxval 1 (oW - oI) * bpow2 (- 2 ^ (oE - 1)))%R).
Proof.
  intros pQ W I oW oI oE m e y n TI X HW Hm H1 H2 HT E. destruct (pow2_flt_real pQ W I oW oI oE m e HW Hm HT) as (y' & n' & eta & eps & E' & V & D1 & D2). rewrite E in E'. injection E' as <- <-. pose proof bpow2_m12 as B.
  exact (pow_flt_limits oW oI oE X _ eta eps H1 H2 V ltac:(rewrite B in D1; lra) D2).
Qed.
Theorem exp_flt_saturates : forall pQ W I oW oI oE m e y n,
  let TI := nbits (2 ^ (oE - 1) + Z.max (oI - 1) (oW - oI)) + 1 in
  let X := (fxval m (W - I) * bpow2 e)%R in
  1 <= W -> in_range true W m -> 2 <= oW -> 1 <= oE -> TI <= 12 ->
  exp_flt pQ W I oW oI oE m e = Some (y, n) ->
  ((bpow2 (TI - 1) * ln 2 <= X)%R -> forall mz ez, in_range true oW mz -> in_range true oE ez -> (fxval mz (oW - oI) * bpow2 ez < fxval y 20 * bpow2 n /\ fxval mz (oW - oI) * bpow2 ez < exp X)%R) /\
  ((X <= - bpow2 (TI - 1) * ln 2)%R -> (0 <= fxval y 20 * bpow2 n < fxval 1 (oW - oI) * bpow2 (- 2 ^ (oE - 1)) /\ exp X < fxval 1 (oW - oI) * bpow2 (- 2 ^ (oE - 1)))%R).
Proof.
  intros pQ W I oW oI oE m e y n TI X HW Hm H1 H2 HT E. assert (HT' : TI <= 32) by lia. destruct (exp_flt_real pQ W I oW oI oE m e HW Hm HT') as (y' & n' & eta & eps & E' & V & D1 & D2). rewrite E in E'. injection E' as <- <-. pose proof bpow2_m12 as B. pose proof ln2_6 as L2.
  change (pow_flt_I oW oI oE) with TI in D1. assert (BT : (bpow2 (TI - 1) <= 2048)%R). { replace 2048%R with (bpow2 11) by (rewrite bpow2_IZR by lia; reflexivity). apply SoftFacts.bpow2_le. lia. }
  assert (D1' : (Rabs eta <= 1 / 32)%R). { rewrite B in D1. pose proof (Rmin_r (Rabs (fltval (W - I) m e)) (1.4 * bpow2 (TI - 1))). lra. }
  destruct (pow_flt_limits oW oI oE (X / ln 2) _ eta eps H1 H2 V D1' D2) as [A1 A2]. change (pow_flt_I oW oI oE) with TI in A1, A2. assert (EX : Rpower 2 (X / ln 2) = exp X) by (unfold Rpower; f_equal; field; lra). rewrite EX in A1, A2. assert (EM : (X / ln 2 * ln 2 = X)%R) by (field; lra). split; intros HX.
  - apply A1. apply Rmult_le_reg_r with (ln 2); lra.
  - apply A2. apply Rmult_le_reg_r with (ln 2); lra.
Qed.

Theorem sigmoid_flt_accurate : forall pQ W I m e,
  let X := (fxval m (W - I) * bpow2 e)%R in
  1 <= W -> in_range true W m ->
  exists v, sigmoid_flt pQ W I m e = Some v /\ 0 <= v <= 2 ^ 20 /\ (Rabs (fxval v 20 - / (1 + exp (- X))) <= 0.0072)%R.
Proof. intros pQ W I m e X HW Hm. exact (sigmoid_flt_real pQ W I m e HW Hm). Qed.

Theorem tanh_flt_accurate : forall pQ W I m e v,
  let X := (fxval m (W - I) * bpow2 e)%R in
  1 <= W -> in_range true W m -> tanh_flt pQ W I m e = Some v ->
  - 2 ^ 20 < v < 2 ^ 20 /\ (Rabs (fxval v 20 - tanh X) <= 0.0055)%R.
Proof. intros pQ W I m e v X HW Hm E. exact (tanh_flt_real pQ W I m e v HW Hm E). Qed.
Theorem tanh_flt_defined : forall pQ W I m e z,
  let X := (fxval m (W - I) * bpow2 e)%R in
  1 <= W -> in_range true W m -> is_roundR RND (X * 1024)%R z ->
  ((exists v, tanh_flt pQ W I m e = Some v) <-> Z.abs z < 3072 \/ 4096 <= z < 7168 \/ -7168 < z <= -4096 \/ z <= -8192).
Proof.
  intros pQ W I m e z X HW Hm Hz. destruct (tanh_flt_none pQ W I m e HW Hm) as (z' & Hz' & A). rewrite (is_roundR_unique _ _ _ _ Hz' Hz) in A. destruct (tanh_flt pQ W I m e) as [v|].
  - split; [|intros; exists v; reflexivity]. intros _. assert (N : ~ (3072 <= Z.abs z < 4096 \/ 7168 <= z \/ -8192 < z <= -7168)) by (intros K; apply A in K; discriminate). clear A; lia.
  - assert (Y := proj1 A eq_refl). split; [intros [v K]; discriminate|intros K; exfalso; clear A; lia].
Qed.
Theorem tanh_flt_large_bad : forall pQ W I m e,
  1 <= W -> in_range true W m -> (7 <= fxval m (W - I) * bpow2 e)%R -> tanh_flt pQ W I m e = None.
Proof.
  intros pQ W I m e HW Hm HX. destruct (tanh_flt_none pQ W I m e HW Hm) as (z & Hz & A). apply A. right. left. change (fltval (W - I) m e) with (fxval m (W - I) * bpow2 e)%R in Hz. destruct Hz as [L1 _]. apply Rabs_le_both in L1. assert (7167 < IZR z)%R by lra. apply lt_IZR in H. lia.
Qed.
Theorem tanh_flt_undefined_bad : ~ (forall pQ W I m e, 1 <= W -> in_range true W m -> exists v, tanh_flt pQ W I m e = Some v).
Proof. intros H. destruct (H TRN 16 2 24576 1 ltac:(lia) ltac:(unfold in_range, imin, imax; lia)) as [v E]. vm_compute in E. discriminate. Qed.

Theorem tan_flt_accurate : forall pQ W I m e,
  let X := (fxval m (W - I) * bpow2 e)%R in
  2 <= W -> 0 <= m < 2 ^ (W - 1) -> (X < 1594 / 1024 - bpow2 (-21))%R ->
  exists v P, tan_flt pQ W I m e = Some v /\ (0 <= P /\ Rabs (P - X) <= bpow2 (-21) /\
    Rabs (fxval v 29 - tan P) <= (if Rlt_dec P (804 / 1024) then 0.00276 else (if Rle_dec P 1.4 then 0.0121 else 0.0501) * tan P))%R.
Proof. intros pQ W I m e X HW Hm. exact (proj1 (tan_flt_real pQ W I m e HW Hm)). Qed.
Theorem tan_flt_saturates : forall pQ W I m e,
  2 <= W -> 0 <= m < 2 ^ (W - 1) -> (1594 / 1024 <= fxval m (W - I) * bpow2 e <= 2 - bpow2 (-21))%R ->
  tan_flt pQ W I m e = Some (2 ^ 36 - 1).
Proof. intros pQ W I m e HW Hm. exact (proj2 (tan_flt_real pQ W I m e HW Hm)). Qed.
Theorem tan_flt_wraps_bad : ~ (forall pQ W I m e,
  2 <= W -> 0 <= m < 2 ^ (W - 1) -> (1594 / 1024 <= fxval m (W - I) * bpow2 e)%R ->
  tan_flt pQ W I m e = Some (2 ^ 36 - 1)).
Proof.
  intros H. assert (X : (1594 / 1024 <= fxval 24576 (16 - 2) * bpow2 1)%R). { unfold fxval. change (- (16 - 2)) with (- (14)). rewrite bpow2_opp, !bpow2_IZR by lia. change (IZR (2 ^ 14)) with 16384%R. change (IZR (2 ^ 1)) with 2%R. lra. }
  specialize (H TRN 16 2 24576 1 ltac:(lia) ltac:(lia) X). vm_compute in H. discriminate.
Qed.

Theorem recip_flt_accurate : forall pQ oQ W I m e,
  let X := (fxval m (W - I) * bpow2 e)%R in
  2 <= W -> in_range true W m -> m <> 0 ->
  exists v n, recip_flt pQ oQ W I m e = Some (v, n) /\
    (Rabs (fxval v (Z.max 1 (Z.min 10 (W - 5)) + 9 + I) * bpow2 n - / X) <= 0.0025 * / Rabs X)%R.
Proof. intros pQ oQ W I m e X HW Hm H0. pose proof (recip_flt_real pQ oQ W I m e HW Hm H0) as R. unfold recip_flt_fb in R. replace (W - 4 - 1) with (W - 5) in R by lia. exact R. Qed.

Theorem div_flt_correct : forall NW NI DW DI QF NE DE mn en md ed junk tm te r,
  let N := (fxval mn (NW - NI) * bpow2 en)%R in
  let D := (fxval md (DW - DI) * bpow2 ed)%R in
  1 <= NW -> 1 <= DW -> 1 <= NE -> 1 <= DE -> in_range true NW mn -> in_range true DW md -> in_range true NE en -> in_range true DE ed -> md <> 0 ->
  1 <= NI + (DW - DI) + QF -> ~ (mn = - 2 ^ (NW - 1) /\ md = -1) ->
  div_flt NW NI DW DI QF NE DE mn en md ed junk = (tm, te, r) ->
  te = en - ed /\ (fxval tm QF * bpow2 te <= N / D < fxval tm QF * bpow2 te + bpow2 (te - QF))%R /\ (r = false <-> (fxval tm QF * bpow2 te = N / D)%R).
Proof.
  intros NW NI DW DI QF NE DE mn en md ed junk tm te r N D H1 H2 H3 H4 H5 H6 H7 H8 H9 H10 H11 E. pose proof (div_flt_real NW NI DW DI QF NE DE mn en md ed junk H1 H2 H3 H4 H5 H6 H7 H8 H9 H10 H11) as R. rewrite E in R. cbv zeta in R. destruct R as (R1 & R2 & R3). split; [exact R1|]. split; [|exact R3]. rewrite R1 at 2. rewrite R1 in R2. rewrite R1. exact R2.
Qed.
Theorem div_flt_wrap_bad : ~ (forall NW NI DW DI QF NE DE mn en md ed junk tm te r,
  1 <= NW -> 1 <= DW -> 1 <= NE -> 1 <= DE -> in_range true NW mn -> in_range true DW md -> in_range true NE en -> in_range true DE ed -> md <> 0 ->
  1 <= NI + (DW - DI) + QF -> div_flt NW NI DW DI QF NE DE mn en md ed junk = (tm, te, r) ->
  r = false -> (fxval tm QF * bpow2 te = (fxval mn (NW - NI) * bpow2 en) / (fxval md (DW - DI) * bpow2 ed))%R).
Proof.
  intros H. specialize (H 16 2 16 2 14 6 6 (-32768) 0 (-1) 0 0 (-536870912) 0 false ltac:(lia) ltac:(lia) ltac:(lia) ltac:(lia) ltac:(unfold in_range, imin, imax; lia) ltac:(unfold in_range, imin, imax; lia) ltac:(unfold in_range, imin, imax; lia) ltac:(unfold in_range, imin, imax; lia) ltac:(lia) ltac:(lia) ltac:(vm_compute; reflexivity) eq_refl).
  assert (E : ((fxval (-32768) (16 - 2) * bpow2 0) / (fxval (-1) (16 - 2) * bpow2 0) = 32768)%R). { unfold fxval. pose proof (bpow2_pos (- (16 - 2))). pose proof (bpow2_pos 0). field. lra. } rewrite E in H.
  assert (L : (fxval (-536870912) 14 * bpow2 0 <= 0)%R). { unfold fxval. pose proof (Rmult_lt_0_compat _ _ (bpow2_pos (- (14))) (bpow2_pos 0)) as P. rewrite Rmult_assoc. revert P. generalize (bpow2 (- (14)) * bpow2 0)%R. intros. lra. } lra.
Qed.
Theorem div_flt_precision_bad : ~ (forall NW NI DW DI QF NE DE mn en md ed junk tm te r,
  let Q := ((fxval mn (NW - NI) * bpow2 en) / (fxval md (DW - DI) * bpow2 ed))%R in
  1 <= NE -> 1 <= DE -> 2 ^ (NW - 2) <= mn < 2 ^ (NW - 1) -> 2 ^ (DW - 2) <= md < 2 ^ (DW - 1) -> in_range true NE en -> in_range true DE ed ->
  1 <= QF -> 1 <= NI + (DW - DI) + QF -> div_flt NW NI DW DI QF NE DE mn en md ed junk = (tm, te, r) ->
  (Rabs (fxval tm QF * bpow2 te - Q) <= / 2 * Q)%R).
Proof.
  intros H. specialize (H 16 (-10) 16 2 4 6 6 24576 0 16384 0 0 0 0 true ltac:(lia) ltac:(lia) ltac:(lia) ltac:(lia) ltac:(unfold in_range, imin, imax; lia) ltac:(unfold in_range, imin, imax; lia) ltac:(lia) ltac:(lia) ltac:(vm_compute; reflexivity)).
  cbv zeta in H. set (Q := (_ / _)%R) in H. assert (PQ : (0 < Q)%R). { unfold Q, fxval. repeat first [apply Rmult_lt_0_compat | apply Rinv_0_lt_compat | apply bpow2_pos | lra]. } unfold fxval at 1 in H. rewrite !Rmult_0_l in H. unfold Rminus in H. rewrite Rplus_0_l, Rabs_Ropp, Rabs_pos_eq in H; lra.
Qed.
