(** The ac_float overloads of the piecewise-linear logarithms, exponentials, activations, tangent and reciprocal, and of ac_div. *)
From Coq Require Import Reals Lia Lra Psatz ZifyBool.
From Verif Require Import AcTypes AcFacts Spec SpecFacts SpecR SpecRFacts SoftFacts QrdThm MatrixProofs ShiftFacts ShiftModel ShiftProofs LeadingModel LeadingProofs Atan2Proofs PwlModel PwlFacts PwlProofs PwlSqrt PwlExp PwlAct PwlReal PwlExpReal ActReal DetProofs HcModel HcNum HcExp2 HcPow HcLog HcPowThm HcFloatModel HcFloat HcFloatThm PwlFloatModel PwlFloat.
Local Open Scope R_scope.

(** ** Logarithms *)
Lemma log2_flt_eval pQ W I m e : (2 <= W)%Z -> (2 ^ (W - 2) <= m < 2 ^ (W - 1))%Z ->
  exists y, log2_flt pQ W I m e = Some (y + (I - 1 + e) * 2 ^ 22)%Z /\ Rabs (fxval y 22 - ln (fxval m (W - 1)) / ln 2) <= 0.0015.
Proof.
  intros HW Hm. unfold log2_flt. rewrite mant_id by (try lia; assert (0 < 2 ^ (W - 2))%Z by (apply Z.pow_pos_nonneg; lia); lia).
  assert (P : (0 < 2 ^ (W - 2))%Z) by (apply Z.pow_pos_nonneg; lia). assert (Es : slc (W - 1) 0 m = m) by (unfold slc; rewrite Z.shiftr_0_r; apply wrapu_id; lia). rewrite Es.
  assert (Hcn : false = true \/ (2 ^ (W - 1 - 1) <= m)%Z) by (right; replace (W - 1 - 1)%Z with (W - 2)%Z by lia; lia).
  pose proof (log2_eval pQ (W - 1) 0 WRAP (dfmt 23 1 true) false m ltac:(lia) ltac:(lia) Hcn) as E. destruct (log2_real pQ (W - 1) 0 WRAP (dfmt 23 1 true) false m ltac:(lia) ltac:(cbn; lia) ltac:(lia) Hcn) as (o & V & Eo & C & D). replace (W - 1 - 0)%Z with (W - 1)%Z in D by lia.
  pose proof (normalize_u_ok (W - 1) 0 WRAP m ltac:(lia) ltac:(lia)) as N. destruct (normalize (W - 1) 0 false WRAP m) as [en n]. destruct N as (A & B & Cn).
  assert (en = 0)%Z as ->. { destruct (Z.eq_dec en 0) as [|Ne]; [assumption|exfalso]. replace (0 - en)%Z with (1 + (- en - 1))%Z in B by lia. rewrite Z.pow_add_r in B by lia. change (2 ^ 1)%Z with 2%Z in B. assert (0 < 2 ^ (- en - 1))%Z by (apply Z.pow_pos_nonneg; lia). assert (2 ^ (W - 1) = 2 * 2 ^ (W - 2))%Z by (replace (W - 1)%Z with (1 + (W - 2))%Z by lia; rewrite Z.pow_add_r by lia; reflexivity). nia. }
  destruct (pos_bounds (W - 1) 4 11 n ltac:(lia) ltac:(lia) ltac:(lia) Cn) as [[PB PE]|]; [|lia]. change (2 ^ (4 - 1 + 11))%Z with 16384%Z in PB. set (T := pos (W - 1) 4 11 n) in *. pose proof (logY_range T PB) as YR. set (Y := pw_lin log2_m log2_c 11 T) in *.
  rewrite Z.mul_0_l, Z.add_0_r in E. rewrite E.
  assert (Ec : conv (dfmt 23 1 true) Y 22 = Y). { rewrite conv_dfmt_same by lia. cbn [wrap]. apply wraps_id; [lia|]. change (2 ^ (23 - 1))%Z with 4194304%Z. lia. } rewrite Ec.
  exists Y. split; [reflexivity|]. assert (En : n = m) by (rewrite B; change (2 ^ (0 - 0))%Z with 1%Z; lia). clear B E. subst n. change (2 ^ (4 - 1 + 11))%Z with (2 ^ 14)%Z in PE.
  set (W' := (W - 1)%Z) in *. assert (PW : 0 < IZR (2 ^ W')) by (apply (IZR_lt 0), Z.pow_pos_nonneg; lia). set (v := 2 * IZR m / IZR (2 ^ W') * IZR (2 ^ 14)).
  assert (Hv : IZR (2 ^ 14 + T) <= v <= IZR (2 ^ 14 + T + 1)).
  { destruct PE as [P1 P2]. apply IZR_le in P1. apply IZR_lt in P2. rewrite !mult_IZR, minus_IZR, mult_IZR in P1, P2. rewrite plus_IZR in P2. rewrite !plus_IZR.
    unfold v. set (k := IZR (2 ^ 14)) in *. set (w := IZR (2 ^ W')) in *. split.
    - apply Rmult_le_reg_r with w; [exact PW|]. replace (2 * IZR m / w * k * w) with (2 * IZR m * k) by (field; apply Rgt_not_eq; exact PW). lra.
    - apply Rmult_le_reg_r with w; [exact PW|]. replace (2 * IZR m / w * k * w) with (2 * IZR m * k) by (field; apply Rgt_not_eq; exact PW). lra. }
  pose proof (log_close T PB v Hv) as Q. fold Y in Q. replace (v / IZR (2 ^ 14)) with (2 * IZR m / IZR (2 ^ W')) in Q by (unfold v; field; split; [lra|apply not_0_IZR; lia]).
  assert (EX : 2 * IZR m / IZR (2 ^ W') = 2 * fxval m W') by (unfold fxval; rewrite bpow2_opp, bpow2_IZR by lia; unfold Rdiv; ring). rewrite EX in Q. pose proof ln_lt_2 as L0. assert (Pm : 0 < fxval m W') by (unfold fxval; apply Rmult_lt_0_compat; [apply (IZR_lt 0); lia|apply bpow2_pos]).
  rewrite ln_mult in Q by lra. replace ((ln 2 + ln (fxval m W')) / ln 2 - 1) with (ln (fxval m W') / ln 2) in Q by (field; lra). exact Q.
Qed.
Lemma log2_flt_real pQ W I m e : (2 <= W)%Z -> (2 ^ (W - 2) <= m < 2 ^ (W - 1))%Z -> let X := fltval (W - I) m e in
  exists v, log2_flt pQ W I m e = Some v /\ Rabs (fxval v 22 - ln X / ln 2) <= 0.0015.
Proof.
  intros HW Hm X. destruct (log2_flt_eval pQ W I m e HW Hm) as (y & E & D). rewrite E. eexists. split; [reflexivity|]. set (k := (I - 1 + e)%Z) in *.
  assert (P : (0 < 2 ^ (W - 2))%Z) by (apply Z.pow_pos_nonneg; lia). assert (Pm : 0 < fxval m (W - 1)) by (unfold fxval; apply Rmult_lt_0_compat; [apply (IZR_lt 0); lia|apply bpow2_pos]). pose proof ln_lt_2 as L0.
  assert (EX : X = fxval m (W - 1) * bpow2 k). { unfold X, fltval, fxval. rewrite !Rmult_assoc, <- !bpow2_add. do 2 f_equal. unfold k. lia. }
  assert (EL : ln X / ln 2 = ln (fxval m (W - 1)) / ln 2 + IZR k) by (rewrite EX, ln_mult, ln_bpow2 by (assumption || apply bpow2_pos); field; lra).
  assert (EV : fxval (y + k * 2 ^ 22) 22 = fxval y 22 + IZR k). { unfold fxval. rewrite plus_IZR, mult_IZR, (bpow2_opp 22), (bpow2_IZR 22) by lia. field. apply not_0_IZR. lia. }
  rewrite EL, EV. replace (fxval y 22 + IZR k - (ln (fxval m (W - 1)) / ln 2 + IZR k)) with (fxval y 22 - ln (fxval m (W - 1)) / ln 2) by ring. exact D.
Qed.
Lemma ln2_6 : 0.693147 <= ln 2 <= 0.693148.
Proof.
  pose proof ln2_near as N. apply Rabs_le_both in N. assert (E : fxval hc_ln2 159 * IZR (2 ^ 159) = IZR hc_ln2) by (rewrite <- bpow2_IZR by lia; apply fxval_scale). assert (P : 0 < IZR (2 ^ 159)) by (apply (IZR_lt 0); reflexivity).
  assert (L : (6931471 * 2 ^ 159 <= 10000000 * hc_ln2 <= 6931472 * 2 ^ 159)%Z) by (vm_compute; split; discriminate). destruct L as [L H]. apply IZR_le in L, H. rewrite !mult_IZR in L, H.
  assert (0.6931471 <= fxval hc_ln2 159 <= 0.6931472). { split; apply (Rmult_le_reg_r (IZR (2 ^ 159))); try exact P; lra. }
  assert (bpow2 (-72) <= / 1073741824). { replace (/ 1073741824) with (bpow2 (- (30))) by (rewrite bpow2_opp, bpow2_IZR by lia; reflexivity). apply bpow2_le. lia. } lra.
Qed.
Lemma log_flt_real pQ W I m e : (2 <= W)%Z -> (2 ^ (W - 2) <= m < 2 ^ (W - 1))%Z -> let X := fltval (W - I) m e in
  exists v, log_flt pQ W I m e = Some v /\ Rabs (fxval v 37 - ln X) <= 0.00105 + 0.0000033 * Rabs (ln X).
Proof.
  intros HW Hm X. destruct (log2_flt_real pQ W I m e HW Hm) as (v & E & D). fold X in D. unfold log_flt. rewrite E. eexists. split; [reflexivity|]. pose proof ln2_6 as L2.
  assert (EV : fxval (v * 22713) 37 = fxval v 22 * (22713 / 32768)). { change 37%Z with (22 + 15)%Z. rewrite fxval_mul. f_equal. unfold fxval. rewrite bpow2_opp, bpow2_IZR by lia. change (IZR (2 ^ 15)) with 32768. lra. } rewrite EV.
  set (g := ln X / ln 2) in *. assert (Eg : ln X = g * ln 2) by (unfold g; field; lra). rewrite Eg. replace (fxval v 22 * (22713 / 32768) - g * ln 2) with ((fxval v 22 - g) * (22713 / 32768) + g * (22713 / 32768 - ln 2)) by ring. eapply Rle_trans; [apply Rabs_triang|]. apply Rplus_le_compat.
  - rewrite Rabs_mult, (Rabs_pos_eq (22713 / 32768)) by lra. lra.
  - rewrite !Rabs_mult, (Rabs_pos_eq (ln 2)) by lra. assert (Rabs (22713 / 32768 - ln 2) <= 0.0000033 * ln 2) by (apply Rabs_le; lra). pose proof (Rabs_pos g). nra.
Qed.

(** ** Powers *)
Lemma pow_flt_end_real pQ TI x : (1 <= TI <= 32)%Z -> in_range true (12 + TI) x ->
  exists y n, pow_flt_end pQ TI x = Some (y, n) /\ (0 <= y < 2 ^ 21)%Z /\ (n = x / 2 ^ 12)%Z /\ Rabs (fltval 20 y n - Rpower 2 (fxval x 12)) <= 0.0023 * Rpower 2 (fxval x 12).
Proof.
  intros HI Hx. unfold pow_flt_end. pose proof (Z.mod_pos_bound x (2 ^ 12) ltac:(lia)) as M. pose proof (Z.div_mod x (2 ^ 12) ltac:(lia)) as D. assert (Es : slc 12 0 x = (x mod 2 ^ 12)%Z) by (unfold slc; rewrite Z.shiftr_0_r; reflexivity). rewrite Es. set (r := (x mod 2 ^ 12)%Z) in *. set (q := (x / 2 ^ 12)%Z) in *.
  assert (Hq : (- 2 ^ (TI - 1) <= q < 2 ^ (TI - 1))%Z). { unfold in_range, imin, imax in Hx. replace (12 + TI - 1)%Z with (12 + (TI - 1))%Z in Hx by lia. rewrite Z.pow_add_r in Hx by lia. clearbody q r. nia. }
  assert (En : wraps TI (fx_to_int (TI + 12) TI x) = q). { unfold fx_to_int. replace (TI - (TI + 12))%Z with (- (12))%Z by lia. rewrite Z.shiftl_opp_r, Z.shiftr_div_pow2 by lia. fold q. assert (2 ^ (TI - 1) <= 2 ^ (32 - 1))%Z by (apply Z.pow_le_mono_r; lia). rewrite (wraps_id 32) by lia. apply wraps_id; lia. } rewrite En.
  assert (I0 : ipart (12 - 0) r = 0%Z). { unfold ipart. change (pw (- (12 - 0))) with 1%Z. change (pw (12 - 0)) with (2 ^ 12)%Z. rewrite Z.mul_1_r. apply Z.div_small. exact M. }
  assert (F0 : fpart (12 - 0) r = r). { unfold fpart. change (pw (- (12 - 0))) with 1%Z. change (pw (12 - 0)) with (2 ^ 12)%Z. rewrite Z.mul_1_r, Z.mod_small by exact M. apply Z.div_mul. lia. }
  destruct (pow2_eval pQ 12 0 false (dfmt 21 1 false) r ltac:(lia) ltac:(cbn; lia) eq_refl ltac:(unfold in_range, imin, imax; lia) ltac:(rewrite I0; lia)) as (o & E & C). rewrite E. exists o, q. rewrite I0, F0 in C. change (0 - 20)%Z with (- (20))%Z in C.
  pose proof (powY_range r ltac:(lia)) as YR. set (Y := pw_lin pow2_m pow2_c 10 r) in *. assert (Eo : o = Y).
  { apply converts2_R in C. fold (fxval Y 20) in C. destruct (convR_dfmt 21 1 false _ _ ltac:(lia) C) as [_ V].
    - cbv iota. rewrite bpow2_1. unfold fxval. rewrite bpow2_opp, bpow2_IZR by lia. change (IZR (2 ^ 20)) with 1048576. destruct YR as [Y1 Y2]. apply IZR_le in Y1, Y2. lra.
    - change (21 - 1)%Z with 20%Z in V. unfold fxval in V. pose proof (bpow2_pos (-20)) as P. assert (IZR o <= IZR Y) as V1 by (apply Rmult_le_reg_r with (bpow2 (-20)); [exact P|exact (proj1 V)]). assert (IZR Y < IZR (o + 1)) as V2 by (rewrite plus_IZR; apply Rmult_lt_reg_r with (bpow2 (-20)); [exact P|]; rewrite Rmult_plus_distr_r, Rmult_1_l; exact (proj2 V)). apply le_IZR in V1. apply lt_IZR in V2. lia. }
  subst o. split; [reflexivity|]. split; [lia|]. split; [reflexivity|]. assert (EX : fxval x 12 = IZR q + IZR r / 4096). { unfold fxval. rewrite bpow2_opp, bpow2_IZR by lia. change (IZR (2 ^ 12)) with 4096. rewrite D at 1. rewrite plus_IZR, mult_IZR. change (IZR (2 ^ 12)) with 4096. field. }
  pose proof (pow_close r ltac:(lia) (IZR r / 4096)) as Q. cbv zeta in Q. rewrite EX, Rpower_plus, bpow2_Rpower. set (g := Rpower 2 (IZR r / 4096)) in *. unfold fltval. fold Y in Q. pose proof (bpow2_pos q) as Pq.
  replace (fxval Y 20 * bpow2 q - bpow2 q * g) with (bpow2 q * (fxval Y 20 - g)) by ring. rewrite Rabs_mult, (Rabs_pos_eq (bpow2 q)) by lra. replace (0.0023 * (bpow2 q * g)) with (bpow2 q * (0.0023 * g)) by ring. apply Rmult_le_compat_l; [lra|]. apply Q. rewrite plus_IZR. lra.
Qed.
Lemma pow_flt_shift pQ TI XW XI m e : let X := fltval (XW - XI) m e in (1 <= XW)%Z -> in_range true XW m -> (1 <= TI <= 32)%Z ->
  exists y n P, pow_flt_end pQ TI (shift_left_si XW XI (Fmt (TI + 12) TI true pQ SAT) m e) = Some (y, n) /\
    Rabs (P - clampR (- bpow2 (TI - 1)) (bpow2 (TI - 1) - bpow2 (- 12)) X) <= bpow2 (- 12) /\ Rabs (fltval 20 y n - Rpower 2 P) <= 0.0023 * Rpower 2 P.
Proof.
  intros X HW Hm HI. replace (TI + 12)%Z with (12 + TI)%Z by lia. unfold in_range, imin, imax in Hm. pose proof (shift_left_si_spec XW XI (Fmt (12 + TI) TI true pQ SAT) m e HW ltac:(cbn [fW]; lia) eq_refl ltac:(lia)) as SP. apply converts2_R in SP. replace (IZR m * bpow2 (- (XW - XI) + e)) with X in SP by (unfold X, fltval, fxval; rewrite bpow2_add; ring).
  set (x := shift_left_si XW XI (Fmt (12 + TI) TI true pQ SAT) m e) in *. destruct (sat_R 12 TI pQ X x ltac:(lia) ltac:(lia) SP) as [Rx Dx]. destruct (pow_flt_end_real pQ TI x HI Rx) as (y & n & E & _ & _ & B). exists y, n, (fxval x 12). split; [exact E|]. split; [exact Dx|exact B].
Qed.
Lemma eta_eps0 C P V d c : Rabs (P - C) <= d -> Rabs (V - Rpower 2 P) <= c * Rpower 2 P -> exists eta eps, V = Rpower 2 (C + eta) * (1 + eps) /\ Rabs eta <= d /\ Rabs eps <= c.
Proof.
  intros D B. assert (PP : 0 < Rpower 2 P) by apply exp_pos. exists (P - C), (V / Rpower 2 P - 1). replace (C + (P - C)) with P by ring. split; [field; lra|]. split; [exact D|].
  replace (V / Rpower 2 P - 1) with ((V - Rpower 2 P) * / Rpower 2 P) by (field; lra). rewrite Rabs_mult, (Rabs_pos_eq (/ Rpower 2 P)) by (apply Rlt_le, Rinv_0_lt_compat, PP). apply (Rmult_le_reg_r (Rpower 2 P)); [exact PP|]. rewrite Rmult_assoc, Rinv_l, Rmult_1_r by lra. exact B.
Qed.
Lemma pow2_flt_real pQ W I oW oI oE m e : let TI := pow_flt_I oW oI oE in let X := fltval (W - I) m e in (1 <= W)%Z -> in_range true W m -> (TI <= 32)%Z ->
  exists y n eta eps, pow2_flt pQ W I oW oI oE m e = Some (y, n) /\ fltval 20 y n = Rpower 2 (clampR (- bpow2 (TI - 1)) (bpow2 (TI - 1) - bpow2 (- 12)) X + eta) * (1 + eps) /\ Rabs eta <= bpow2 (- 12) /\ Rabs eps <= 0.0023.
Proof.
  intros TI X HW Hm HI. unfold pow2_flt. fold TI. pose proof (flt_TI_pos oW oI oE) as H0. change (flt_TI oW oI oE) with TI in H0. destruct (pow_flt_shift pQ TI W I m e HW Hm ltac:(lia)) as (y & n & P & E & D & B). destruct (eta_eps0 _ P _ _ _ D B) as (eta & eps & E1 & D1 & D2). exists y, n, eta, eps. rewrite E. repeat split; assumption.
Qed.
Lemma exp_clamp_lip T q X : 0.693147 <= ln 2 <= 0.693148 -> 0 < q <= T -> Rabs (clampR (- T) (T - q) (X * (23637 / 16384)) - clampR (- T) (T - q) (X / ln 2)) <= 0.00001 * Rmin (Rabs X) (1.4 * T).
Proof.
  intros L2 Hq. assert (HL : Rabs (clampR (- T) (T - q) (X * (23637 / 16384)) - clampR (- T) (T - q) (X / ln 2)) <= 0.00001 * Rabs X).
  { eapply Rle_trans; [apply clampR_lip|].
    replace (X * (23637 / 16384) - X / ln 2) with ((23637 / 16384 * ln 2 - 1) * / ln 2 * X) by (field; lra). rewrite !Rabs_mult, (Rabs_pos_eq (/ ln 2)) by (apply Rlt_le, Rinv_0_lt_compat; lra). apply Rmult_le_compat_r; [apply Rabs_pos|]. apply Rmult_le_reg_r with (ln 2); [lra|]. rewrite Rmult_assoc, Rinv_l, Rmult_1_r by lra. apply Rabs_le. lra. }
  unfold Rmin. destruct (Rle_dec (Rabs X) (1.4 * T)) as [C|C]; [exact HL|]. apply Rnot_le_lt in C. clear HL.
  assert (E : X / ln 2 * ln 2 = X) by (field; lra). set (Y := X / ln 2) in *. unfold clampR.
  destruct (Rle_lt_dec 0 X) as [S|S].
  - rewrite Rabs_pos_eq in C by exact S. assert (HY : T <= Y). { apply Rmult_le_reg_r with (ln 2); [lra|]. rewrite E. nra. }
    rewrite !(Rmin_left (T - q)) by lra. unfold Rminus at 1. rewrite Rplus_opp_r, Rabs_R0. lra.
  - rewrite Rabs_left in C by exact S. assert (HY : Y <= - T). { apply Rmult_le_reg_r with (ln 2); [lra|]. rewrite E. nra. }
    rewrite !(Rmax_left (- T)) by (eapply Rle_trans; [apply Rmin_r|lra]). unfold Rminus. rewrite Rplus_opp_r, Rabs_R0. lra.
Qed.
Lemma exp_flt_real pQ W I oW oI oE m e : let TI := pow_flt_I oW oI oE in let X := fltval (W - I) m e in (1 <= W)%Z -> in_range true W m -> (TI <= 32)%Z ->
  exists y n eta eps, exp_flt pQ W I oW oI oE m e = Some (y, n) /\ fltval 20 y n = Rpower 2 (clampR (- bpow2 (TI - 1)) (bpow2 (TI - 1) - bpow2 (- 12)) (X / ln 2) + eta) * (1 + eps) /\ Rabs eta <= bpow2 (- 12) + 0.00001 * Rmin (Rabs X) (1.4 * bpow2 (TI - 1)) /\ Rabs eps <= 0.0023.
Proof.
  intros TI X HW Hm HI. unfold exp_flt. fold TI. pose proof (flt_TI_pos oW oI oE) as H0. change (flt_TI oW oI oE) with TI in H0.
  assert (RM : in_range true (W + 17) (m * 23637)). { unfold in_range, imin, imax in *. replace (W + 17 - 1)%Z with ((W - 1) + 17)%Z by lia. rewrite Z.pow_add_r by lia. lia. }
  destruct (pow_flt_shift pQ TI (W + 17) (I + 3) (m * 23637) e ltac:(lia) RM ltac:(lia)) as (y & n & P & E & D & B). rewrite E.
  assert (EX : fltval (W + 17 - (I + 3)) (m * 23637) e = X * (23637 / 16384)). { unfold X, fltval. replace (W + 17 - (I + 3))%Z with ((W - I) + 14)%Z by lia. rewrite fxval_mul. replace (fxval 23637 14) with (23637 / 16384); [ring|]. unfold fxval. rewrite bpow2_opp, bpow2_IZR by lia. change (IZR (2 ^ 14)) with 16384. lra. } rewrite EX in D. pose proof ln2_6 as L2.
  assert (D' : Rabs (P - clampR (- bpow2 (TI - 1)) (bpow2 (TI - 1) - bpow2 (- 12)) (X / ln 2)) <= bpow2 (- 12) + 0.00001 * Rmin (Rabs X) (1.4 * bpow2 (TI - 1))).
  { set (c1 := clampR _ _ (X * (23637 / 16384))) in *. set (c2 := clampR _ _ (X / ln 2)). replace (P - c2) with ((P - c1) + (c1 - c2)) by ring. eapply Rle_trans; [apply Rabs_triang|]. apply Rplus_le_compat; [exact D|]. apply exp_clamp_lip; [exact L2|split; [apply bpow2_pos|apply bpow2_le; lia]]. }
  destruct (eta_eps0 _ P _ _ _ D' B) as (eta & eps & E1 & D1 & D2). exists y, n, eta, eps. repeat split; assumption.
Qed.

(** Where the limit acts, the result is beyond the output's largest value or below its smallest positive one. *)
Lemma pow_flt_limits oW oI oE X V eta eps : (2 <= oW)%Z -> (1 <= oE)%Z -> let TI := pow_flt_I oW oI oE in
  V = Rpower 2 (clampR (- bpow2 (TI - 1)) (bpow2 (TI - 1) - bpow2 (- 12)) X + eta) * (1 + eps) -> Rabs eta <= 1 / 32 -> Rabs eps <= 0.0023 ->
  (bpow2 (TI - 1) <= X -> forall mz ez, in_range true oW mz -> in_range true oE ez -> fltval (oW - oI) mz ez < V /\ fltval (oW - oI) mz ez < Rpower 2 X) /\
  (X <= - bpow2 (TI - 1) -> 0 <= V < fltval (oW - oI) 1 (- 2 ^ (oE - 1)) /\ Rpower 2 X < fltval (oW - oI) 1 (- 2 ^ (oE - 1))).
Proof.
  intros HZW HZE TI V0 D1 De. set (K := (2 ^ (oE - 1) + Z.max (oI - 1) (oW - oI))%Z) in *. assert (PZ : (0 < 2 ^ (oE - 1))%Z) by (apply Z.pow_pos_nonneg; lia). assert (HK : (0 <= K)%Z) by (unfold K; lia). pose proof (nbits_ub K HK) as U. assert (ETI : (TI - 1 = nbits K)%Z) by (unfold TI, pow_flt_I; fold K; lia). rewrite ETI in *.
  set (T := bpow2 (nbits K)) in *. assert (HKT : IZR K + 1 <= T). { unfold T. pose proof (nbits_nonneg K). rewrite bpow2_IZR by lia. rewrite <- plus_IZR. apply IZR_le. lia. } assert (HK0 : 0 <= IZR K) by (apply IZR_le; lia).
  set (q := bpow2 (- 12)) in *. assert (Bq : 0 < q <= / 32). { split; [apply bpow2_pos|]. unfold q. replace (/ 32) with (bpow2 (- (5))) by (rewrite bpow2_opp, bpow2_IZR by lia; reflexivity). apply bpow2_le. lia. }
  apply Rabs_le_both in De, D1. unfold fltval. unfold clampR in V0. split; intros HX.
  - assert (EC : Rmax (- T) (Rmin (T - q) X) = T - q). { rewrite Rmin_left by lra. apply Rmax_right. lra. } rewrite EC in V0.
    assert (G1 : bpow2 K <= V).
    { rewrite V0. replace (bpow2 K) with (Rpower 2 (IZR K + 15 / 16) * Rpower 2 (- (15 / 16))) by (rewrite <- Rpower_plus, <- bpow2_Rpower; f_equal; lra). apply Rmult_le_compat; [apply Rlt_le, exp_pos|apply Rlt_le, exp_pos|apply Rpower2_le; lra|].
      pose proof (Rpower2_le2 (1 / 16) ltac:(rewrite Rabs_pos_eq; lra)) as A. rewrite Rabs_pos_eq in A by lra. replace (- (15 / 16)) with (- (1) + 1 / 16) by lra. rewrite Rpower_plus, Rpower_Ropp, Rpower_1 by lra. lra. }
    intros mz ez Hmz Hez. pose proof (HcFloatThm.out_max oW oI oE mz ez HZW HZE Hmz Hez) as M. assert (G2 : bpow2 (oI - 1 + 2 ^ (oE - 1) - 1) <= bpow2 K) by (apply bpow2_le; unfold K; lia). assert (G3 : bpow2 K <= Rpower 2 X) by (rewrite <- bpow2_Rpower; apply Rpower2_le; lra). lra.
  - assert (EC : Rmax (- T) (Rmin (T - q) X) = - T). { apply Rmax_left. eapply Rle_trans; [apply Rmin_r|exact HX]. } rewrite EC in V0.
    assert (Emin : bpow2 (- K) <= fxval 1 (oW - oI) * bpow2 (- 2 ^ (oE - 1))). { unfold fxval. rewrite Rmult_1_l, <- bpow2_add. apply bpow2_le. unfold K. lia. } assert (G0 : Rpower 2 (- IZR K - 1) = bpow2 (- K) * / 2). { replace (- IZR K - 1) with (IZR (- K) + - (1)) by (rewrite opp_IZR; lra). rewrite Rpower_plus, bpow2_Rpower, Rpower_Ropp, Rpower_1 by lra. reflexivity. } pose proof (bpow2_pos (- K)) as PK.
    split; [split|].
    + rewrite V0. apply Rmult_le_pos; [apply Rlt_le, exp_pos|lra].
    + eapply Rlt_le_trans; [|exact Emin]. rewrite V0. assert (A : Rpower 2 (- T + eta) <= bpow2 (- K) * / 2 * Rpower 2 (1 / 32)). { rewrite <- G0, <- Rpower_plus. apply Rpower2_le. lra. }
      pose proof (Rpower2_le2 (1 / 32) ltac:(rewrite Rabs_pos_eq; lra)) as A2. rewrite Rabs_pos_eq in A2 by lra. assert (A3 : Rpower 2 (- T + eta) <= bpow2 (- K) * / 2 * (34 / 32)) by (eapply Rle_trans; [exact A|]; apply Rmult_le_compat_l; lra). apply Rle_lt_trans with (bpow2 (- K) * / 2 * (34 / 32) * (42 / 32)); [|lra]. apply Rmult_le_compat; [apply Rlt_le, exp_pos|lra|exact A3|lra].
    + eapply Rlt_le_trans; [|exact Emin]. apply Rle_lt_trans with (Rpower 2 (- IZR K - 1)); [apply Rpower2_le; lra|]. rewrite G0. lra.
Qed.

(** ** Sigmoid and hyperbolic tangent *)
Lemma act_round XW XI m e : (1 <= XW)%Z -> in_range true XW m -> let X := fltval (XW - XI) m e in let x := shift_left_si XW XI (Fmt 14 4 true RND SAT) m e in
  exists z, is_roundR RND (X * 1024) z /\ x = (Z.max (-8192) (Z.min 8191 z))%Z.
Proof.
  intros HW Hm X x. unfold in_range, imin, imax in Hm. pose proof (shift_left_si_spec XW XI (Fmt 14 4 true RND SAT) m e HW ltac:(cbn [fW]; lia) eq_refl ltac:(lia)) as SP. apply converts2_R in SP. replace (IZR m * bpow2 (- (XW - XI) + e)) with X in SP by (unfold X, fltval, fxval; rewrite bpow2_add; ring). fold x in SP.
  destruct SP as (z & Hr & Hl). exists z. unfold fF in Hr. cbn [fQ fW fI] in Hr. replace (bpow2 (14 - 4)) with 1024 in Hr by (rewrite bpow2_IZR by lia; reflexivity). split; [exact Hr|]. cbn [fO fS fW is_limited] in Hl. unfold lowest, highest in Hl. change (2 ^ (14 - 1))%Z with 8192%Z in Hl. lia.
Qed.
Lemma th_lip x y : Rabs (th x - th y) <= Rabs (x - y).
Proof.
  assert (P : forall a b, 0 <= a <= b -> th a <= th b <= th a + (b - a)) by (intros; apply th_step; assumption).
  assert (Q : forall a b, a <= b -> th a <= th b <= th a + (b - a)).
  { intros a b H. destruct (Rle_lt_dec 0 a) as [A|A]; [apply P; lra|]. destruct (Rle_lt_dec b 0) as [B|B].
    - pose proof (P (- b) (- a) ltac:(lra)) as G. rewrite !th_opp in G. lra.
    - pose proof (P 0 b ltac:(lra)) as G1. pose proof (P 0 (- a) ltac:(lra)) as G2. rewrite th_opp in G2. rewrite th_0 in *. lra. }
  destruct (Rle_lt_dec x y) as [H|H]; [pose proof (Q x y H)|pose proof (Q y x ltac:(lra))]; [rewrite (Rabs_minus_sym x y), (Rabs_pos_eq (y - x)) by lra|rewrite (Rabs_pos_eq (x - y)) by lra]; apply Rabs_le; lra.
Qed.
Lemma sg_lip x y : Rabs (sg x - sg y) <= / 4 * Rabs (x - y).
Proof.
  rewrite !sg_th. pose proof (th_lip (x / 2) (y / 2)) as H. replace (x / 2 - y / 2) with (/ 2 * (x - y)) in H by lra. rewrite Rabs_mult, (Rabs_pos_eq (/ 2)) in H by lra. replace ((1 + th (x / 2)) / 2 - (1 + th (y / 2)) / 2) with (/ 2 * (th (x / 2) - th (y / 2))) by lra. rewrite Rabs_mult, (Rabs_pos_eq (/ 2)) by lra. lra.
Qed.
Lemma sg_opp x : sg (- x) = 1 - sg x.
Proof. rewrite !sg_th. replace (- x / 2) with (- (x / 2)) by lra. rewrite th_opp. lra. Qed.
Lemma sg_top x : 6 <= x -> 0.9975 <= sg x < 1.
Proof. intros H. rewrite sg_th. pose proof (th_mono 3 (x / 2) ltac:(lra)). pose proof th3. pose proof (th_lt1 (x / 2)). lra. Qed.
Lemma fx20 y : fxval y 20 = IZR y / 1048576.
Proof. unfold fxval. rewrite bpow2_opp, bpow2_IZR by lia. reflexivity. Qed.
Lemma fx10 y : fxval y 10 = IZR y / 1024.
Proof. unfold fxval. rewrite bpow2_opp, bpow2_IZR by lia. reflexivity. Qed.
Lemma sig_val_close F x : Rabs (fxval (sig_val F x) 20 - sg (fxval x F)) <= 0.007.
Proof.
  unfold sig_val. destruct (Z.ltb_spec x 0) as [L|L].
  - destruct (sig_pos_close F (- x) ltac:(lia)) as [A _]. rewrite fxval_opp, sg_opp in A. rewrite !fx20 in *. rewrite minus_IZR. change (IZR (2 ^ 20)) with 1048576. apply Rabs_le_both in A. apply Rabs_le. lra.
  - apply sig_pos_close. exact L.
Qed.
Lemma tanh_val_close F x : Rabs (fxval (tanh_val F x) 20 - th (fxval x F)) <= 0.005.
Proof.
  unfold tanh_val. destruct (Z.ltb_spec x 0) as [L|L].
  - destruct (tanh_pos_close F (- x) ltac:(lia)) as [A _]. rewrite fxval_opp, th_opp in A. rewrite fxval_opp. apply Rabs_le_both in A. apply Rabs_le. lra.
  - apply tanh_pos_close. exact L.
Qed.
Lemma sigmoid_flt_real pQ W I m e : (1 <= W)%Z -> in_range true W m -> let X := fltval (W - I) m e in
  exists v, sigmoid_flt pQ W I m e = Some v /\ (0 <= v <= 2 ^ 20)%Z /\ Rabs (fxval v 20 - / (1 + exp (- X))) <= 0.0072.
Proof.
  intros HW Hm X. unfold sigmoid_flt. destruct (act_round W I m e HW Hm) as (z & Hz & Ex). fold X in Hz. set (x := shift_left_si W I (Fmt 14 4 true RND SAT) m e) in *. clearbody x.
  rewrite sigmoid_eval by (try lia; unfold in_range, imin, imax; change (2 ^ (14 - 1))%Z with 8192%Z; lia). change (14 - 4)%Z with 10%Z. pose proof (sig_val_range 10 x) as R. assert (Ec : conv (dfmt 21 1 false) (sig_val 10 x) 20 = sig_val 10 x) by (rewrite conv_dfmt_same by lia; cbn [wrap]; apply wrapu_id; lia). rewrite Ec. eexists. split; [reflexivity|]. split; [exact R|]. fold (sg X). cbn [is_roundR] in Hz. destruct Hz as [Hz _]. apply Rabs_le_both in Hz.
  destruct (Z.lt_ge_cases 8191 z) as [G|G]; [|destruct (Z.lt_ge_cases z (-8192)) as [G'|G']].
  - assert (x = 8191)%Z as -> by lia. change (sig_val 10 8191) with 1048575%Z. rewrite fx20. apply (IZR_lt 8191) in G. pose proof (sg_top X ltac:(lra)). apply Rabs_le. lra.
  - assert (x = -8192)%Z as -> by lia. change (sig_val 10 (-8192)) with 1%Z. rewrite fx20. apply (IZR_lt _ (-8192)) in G'. pose proof (sg_top (- X) ltac:(lra)) as H. rewrite sg_opp in H. apply Rabs_le. lra.
  - assert (x = z) as -> by lia. pose proof (sig_val_close 10 z) as A. pose proof (sg_lip (fxval z 10) X) as B. assert (Hd : Rabs (fxval z 10 - X) <= / 2048) by (rewrite fx10; apply Rabs_le; lra). apply Rabs_le_both in A. assert (B' : Rabs (sg (fxval z 10) - sg X) <= / 8192) by lra. apply Rabs_le_both in B'. apply Rabs_le. lra.
Qed.
Lemma tanh_flt_real pQ W I m e v : (1 <= W)%Z -> in_range true W m -> let X := fltval (W - I) m e in
  tanh_flt pQ W I m e = Some v -> (- 2 ^ 20 < v < 2 ^ 20)%Z /\ Rabs (fxval v 20 - tanh X) <= 0.0055.
Proof.
  intros HW Hm X. unfold tanh_flt. destruct (act_round W I m e HW Hm) as (z & Hz & Ex). fold X in Hz. set (x := shift_left_si W I (Fmt 14 4 true RND SAT) m e) in *. clearbody x. intros E.
  apply tanh_eval in E; [|lia|unfold in_range, imin, imax; change (2 ^ (14 - 1))%Z with 8192%Z; lia]. change (14 - 4)%Z with 10%Z in E. pose proof (tanh_val_range 10 x) as R. assert (Ec : conv (dfmt 21 1 true) (tanh_val 10 x) 20 = tanh_val 10 x). { rewrite conv_dfmt_same by lia. cbn [wrap]. apply wraps_id; [lia|]. change (2 ^ (21 - 1))%Z with (2 ^ 20)%Z. lia. } rewrite Ec in E. subst v. split; [exact R|]. rewrite <- th_tanh. cbn [is_roundR] in Hz. destruct Hz as [Hz _]. apply Rabs_le_both in Hz.
  destruct (Z.lt_ge_cases 8191 z) as [G|G]; [|destruct (Z.lt_ge_cases z (-8192)) as [G'|G']].
  - assert (x = 8191)%Z as -> by lia. change (tanh_val 10 8191) with 1048575%Z. rewrite fx20. apply (IZR_lt 8191) in G. pose proof (th_mono 3 X ltac:(lra)). pose proof th3. pose proof (th_lt1 X). apply Rabs_le. lra.
  - assert (x = -8192)%Z as -> by lia. change (tanh_val 10 (-8192)) with (-1048575)%Z. rewrite fx20. apply (IZR_lt _ (-8192)) in G'. pose proof (th_mono 3 (- X) ltac:(lra)) as H. pose proof th3. pose proof (th_lt1 (- X)). rewrite th_opp in *. apply Rabs_le. lra.
  - assert (x = z) as -> by lia. pose proof (tanh_val_close 10 z) as A. pose proof (th_lip (fxval z 10) X) as B. assert (Hd : Rabs (fxval z 10 - X) <= / 2048) by (rewrite fx10; apply Rabs_le; lra). apply Rabs_le_both in A. assert (B' : Rabs (th (fxval z 10) - th X) <= / 2048) by lra. apply Rabs_le_both in B'. apply Rabs_le. lra.
Qed.
Lemma tanh_flt_none pQ W I m e : (1 <= W)%Z -> in_range true W m -> let X := fltval (W - I) m e in
  exists z, is_roundR RND (X * 1024) z /\ (tanh_flt pQ W I m e = None <-> 3072 <= Z.abs z < 4096 \/ 7168 <= z \/ -8192 < z <= -7168)%Z.
Proof.
  intros HW Hm X. unfold tanh_flt. destruct (act_round W I m e HW Hm) as (z & Hz & Ex). fold X in Hz. set (x := shift_left_si W I (Fmt 14 4 true RND SAT) m e) in *. clearbody x. exists z. split; [exact Hz|].
  rewrite tanh_oob_iff by (try lia; unfold in_range, imin, imax; change (2 ^ (14 - 1))%Z with 8192%Z; lia). change (pw (14 - 4)) with 1024%Z. change (pw (- (14 - 4))) with 1%Z. split.
  - intros (j & Hj & B). assert (j = 0 \/ j = 1)%Z as [->| ->] by lia; lia.
  - intros [B|[B|B]]; [exists 0%Z|exists 1%Z|exists 1%Z]; lia.
Qed.
