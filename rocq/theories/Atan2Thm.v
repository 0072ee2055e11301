(** The accuracy of the CORDIC arctangent of two arguments. *)
From Coq Require Import Reals Lia Lra Psatz.
From Verif Require Import AcTypes AcFacts Spec SpecFacts SpecR SpecRFacts SpecLin SpecTrig SoftFacts AbsProofs CholReal CholThm QrdThm CordicModel CordicNum CordicProofs CordicThm Atan2Model Atan2Num Atan2Proofs.
Local Open Scope R_scope.

Lemma pi_4_lt : 3 < PI < 32 / 10.
Proof.
  pose proof pi_m as P. apply Rabs_le_both in P. assert (B : bpow2 (- (52)) <= / 100) by (apply Rle_trans with (bpow2 (- (7))); [apply bpow2_le; lia|rewrite bpow2_opp, bpow2_IZR by lia; change (2 ^ 7)%Z with 128%Z; lra]).
  assert (E : fxval m_pi 48 = 884279719003555 / 281474976710656) by (unfold fxval, m_pi; rewrite bpow2_opp, bpow2_IZR by lia; reflexivity). rewrite E in P. lra.
Qed.
(** A point with x >= 0 has an angle in [-pi/2, pi/2]. *)
Lemma half_plane r th : 0 < r -> - PI < th <= PI -> 0 <= r * cos th -> - (PI / 2) <= th <= PI / 2.
Proof.
  intros R0 H C. assert (0 <= cos th) by nra. split; apply Rnot_lt_le; intros X.
  - assert (cos (- th) < 0) by (apply cos_lt_0; lra). rewrite cos_neg in H1. lra.
  - assert (cos th < 0) by (apply cos_lt_0; lra). lra.
Qed.
Lemma upper th : - PI < th <= PI -> 0 < sin th -> 0 < th < PI.
Proof.
  intros H S. split; [apply Rnot_le_lt; intros X; assert (0 <= sin (- th)) by (apply sin_ge_0; lra); rewrite sin_neg in H0; lra|]. destruct (Rle_lt_or_eq_dec th PI ltac:(lra)) as [L|L]; [exact L|]. rewrite L, sin_PI in S. lra.
Qed.
Lemma lower th : - PI < th <= PI -> sin th < 0 -> - PI < th < 0.
Proof. intros H S. split; [lra|]. apply Rnot_le_lt. intros X. assert (0 <= sin th) by (apply sin_ge_0; lra). lra. Qed.

Section Thm.
Variables (YI YF XI XF : Z) (fo : fmt) (y x : Z).
Hypotheses (HY : (1 <= YI + YF)%Z) (HX : (1 <= XI + XF)%Z) (HO : (0 <= fF fo <= 67)%Z) (HW : (1 <= fW fo)%Z).
Hypotheses (Ry : in_range true (YI + YF) y) (Rx : in_range true (XI + XF) x).
Let yr := fxval y YF.
Let xr := fxval x XF.
Let r := sqrt (xr * xr + yr * yr).
Hypothesis (Hr : bpow2 (- (fF fo + 3)) <= r).
Let Nz := (fF fo + 3)%Z.
Let N := Z.to_nat Nz.
Let m := Z.max YI XI.
Let icw := cd_icw Nz.
Let F := a2_F Nz.
Let q := bpow2 (- F).

Lemma a2_N : Z.of_nat N = Nz /\ (2 <= N <= 70)%nat.
Proof. unfold N, Nz. lia. Qed.
Lemma in_abs W k z : in_range true (W + k) z -> (1 <= W + k)%Z -> Rabs (fxval z k) <= bpow2 (W - 1).
Proof.
  intros R H. unfold in_range, imin, imax in R. assert (A : (- 2 ^ (W + k - 1) <= z <= 2 ^ (W + k - 1))%Z) by lia. destruct A as [A B]. apply IZR_le in A, B. rewrite opp_IZR, <- bpow2_IZR in * by lia. unfold fxval.
  replace (bpow2 (W - 1)) with (bpow2 (W + k - 1) * bpow2 (- k)) by (rewrite <- bpow2_add; f_equal; lia). pose proof (bpow2_pos (- k)). apply Rabs_le. split; nra.
Qed.
Lemma xy_m : Rabs xr <= bpow2 (m - 1) /\ Rabs yr <= bpow2 (m - 1).
Proof. pose proof (in_abs XI XF x Rx HX) as A. pose proof (in_abs YI YF y Ry HY) as B. fold xr in A. fold yr in B. split; (eapply Rle_trans; [eassumption|]; apply bpow2_le; unfold m; lia). Qed.
Lemma r_facts : 0 < r /\ r * r = xr * xr + yr * yr.
Proof. split; [pose proof (bpow2_pos (- (fF fo + 3))); lra|]. apply sqrt_sqrt. nra. Qed.
Lemma r_up : bpow2 (- Nz) <= r <= 14143 / 10000 * bpow2 (m - 1).
Proof.
  split; [exact Hr|]. destruct xy_m as [A B]. pose proof (bpow2_pos (m - 1)) as P. destruct r_facts as [R0 RR]. apply sq_le; [lra|]. rewrite RR. apply Rabs_le_both in A, B. assert (xr * xr <= bpow2 (m - 1) * bpow2 (m - 1)) by nra. assert (yr * yr <= bpow2 (m - 1) * bpow2 (m - 1)) by nra. nra.
Qed.
Lemma m_ok : (- Nz <= m)%Z.
Proof.
  destruct r_up as [A B]. destruct (Z_le_gt_dec (- Nz) m) as [L|L]; [exact L|exfalso]. assert (bpow2 m <= bpow2 (- Nz)) by (apply bpow2_le; lia). pose proof (bpow2_pos (m - 1)). assert (bpow2 m = 2 * bpow2 (m - 1)) by (rewrite <- bpow2_1, <- bpow2_add; f_equal; lia). lra.
Qed.
Let ax := if (x <? 0)%Z then (- x)%Z else x.
Let x1 := conv (a2_xy1 Nz m) ax XF.
Let y1 := conv (a2_xy Nz m) y YF.
Lemma ax_R : fxval ax XF = Rabs xr /\ 0 <= fxval ax XF.
Proof.
  assert (E : fxval ax XF = Rabs xr); [|rewrite E; split; [reflexivity|apply Rabs_pos]]. unfold ax, xr. destruct (Z.ltb_spec x 0).
  - rewrite fxval_opp, Rabs_left1; [reflexivity|]. rewrite <- (fxval_0 XF). apply fxval_le. lia.
  - rewrite Rabs_pos_eq; [reflexivity|]. rewrite <- (fxval_0 XF). apply fxval_le. lia.
Qed.
Lemma F_big : (Nz + 8 <= F)%Z /\ (Nz + 4 <= icw)%Z.
Proof. destruct a2_N as [A B]. pose proof (log_ok Nz N A B). unfold F, a2_F, icw, cd_icw. lia. Qed.
Lemma x1_R : (0 <= x1)%Z /\ fxval x1 F <= Rabs xr < fxval x1 F + q.
Proof.
  destruct ax_R as [A A0]. destruct xy_m as [B _]. pose proof m_ok as M. destruct F_big as [F8 _]. assert (FE : fF (a2_xy1 Nz m) = F) by (unfold fF, a2_xy1, dfmt; cbn [fW fI]; fold F; lia). assert (W1 : (1 <= fW (a2_xy1 Nz m))%Z) by (unfold a2_xy1, dfmt; cbn [fW]; fold F; lia).
  pose proof (conv_R (a2_xy1 Nz m) ax XF W1) as C. fold x1 in C. rewrite A in C. pose proof (bpow2_pos (m - 1)).
  destruct (convR_trn (a2_xy1 Nz m) _ _ W1 eq_refl eq_refl C) as [I T].
  { rewrite FE. unfold imin, imax. change (fS (a2_xy1 Nz m)) with false. cbv iota. replace (2 ^ fW (a2_xy1 Nz m) - 1 + 1)%Z with (2 ^ fW (a2_xy1 Nz m))%Z by lia. rewrite <- bpow2_IZR by lia. replace (bpow2 (fW (a2_xy1 Nz m))) with (4 * bpow2 (m - 1) * bpow2 F).
    - pose proof (bpow2_pos F). pose proof (Rabs_pos xr). split; [apply Rmult_le_pos; lra|]. apply Rmult_lt_compat_r; lra.
    - change 4 with (IZR (2 ^ 2)). rewrite <- bpow2_IZR by lia. rewrite <- !bpow2_add. f_equal. unfold a2_xy1, dfmt. cbn [fW]. fold F. lia. }
  rewrite FE in T. fold q in T. split; [|exact T]. unfold in_range, imin in I. change (fS (a2_xy1 Nz m)) with false in I. cbv iota in I. lia.
Qed.
Lemma y1_R : fxval y1 F <= yr < fxval y1 F + q.
Proof.
  destruct xy_m as [_ B]. pose proof m_ok as M. destruct F_big as [F8 _]. assert (FE : fF (a2_xy Nz m) = F) by (unfold fF, a2_xy, dfmt; cbn [fW fI]; fold F; lia). assert (W1 : (1 <= fW (a2_xy Nz m))%Z) by (unfold a2_xy, dfmt; cbn [fW]; fold F; lia).
  pose proof (conv_R (a2_xy Nz m) y YF W1) as C. fold y1 yr in C. pose proof (bpow2_pos (m - 1)).
  destruct (convR_trn (a2_xy Nz m) _ _ W1 eq_refl eq_refl C) as [I T].
  { rewrite FE. unfold imin, imax. change (fS (a2_xy Nz m)) with true. cbv iota. replace (2 ^ (fW (a2_xy Nz m) - 1) - 1 + 1)%Z with (2 ^ (fW (a2_xy Nz m) - 1))%Z by lia. rewrite opp_IZR, <- bpow2_IZR by lia. replace (bpow2 (fW (a2_xy Nz m) - 1)) with (4 * bpow2 (m - 1) * bpow2 F).
    - pose proof (bpow2_pos F). apply Rabs_le_both in B. split; [|apply Rmult_lt_compat_r; lra]. replace (- (4 * bpow2 (m - 1) * bpow2 F)) with (- (4 * bpow2 (m - 1)) * bpow2 F) by ring. apply Rmult_le_compat_r; lra.
    - change 4 with (IZR (2 ^ 2)). rewrite <- bpow2_IZR by lia. rewrite <- !bpow2_add. f_equal. unfold a2_xy, dfmt. cbn [fW]. fold F. lia. }
  rewrite FE in T. exact T.
Qed.
Let acc := snd (fold_left (a2_step Nz m) (seq 0 N) (x1, y1, 0%Z)).
Lemma acc_near th0 : - (PI / 2) <= th0 <= PI / 2 -> Rabs xr = r * cos th0 -> yr = r * sin th0 ->
  Rabs (th0 - fxval acc (icw + 1)) <= 2 * bpow2 (- Nz) + 8 / 100 * bpow2 (- Nz) / r + INR N * bpow2 (- icw) + bpow2 (- (51)).
Proof.
  intros Ht Hx Hy. destruct a2_N as [N1 N2]. destruct x1_R as [X0 X1]. pose proof y1_R as Y1. destruct (delta_small Nz m N N1 N2 r r_up) as ((D0 & D1) & _). destruct xy_m as [XM YM]. destruct r_facts as [R0 RR]. pose proof PI_RGT_0 as PP.
  assert (A : v_inv Nz m N r th0 0 (x1, y1, 0%Z)).
  { split; [exact X0|]. split; [intros _; fold F; lra|]. exists th0. split; [|split; [|split]].
    - rewrite Nat.sub_0_r. pose proof (vrem_N Nz N N2) as V. apply Rabs_le. lra.
    - intros _. split; [reflexivity|]. split; intros Hs.
      + apply Rnot_lt_le. intros T. assert (S : sin th0 < 0) by (apply sin_lt_0_var; lra). assert (Y0 : 0 <= fxval y1 F) by (rewrite <- (fxval_0 F); apply fxval_le; exact Hs). assert (0 <= r * sin th0) by lra. nra.
      + apply Rnot_lt_le. intros T. assert (S : 0 < sin th0) by (apply sin_gt_0; lra). assert (Y0 : fxval y1 F <= - q). { replace (- q) with (fxval (-1) F) by (unfold fxval, q; ring). apply fxval_le. lia. } assert (r * sin th0 < 0) by lra. nra.
    - rewrite fxval_0. replace (th0 - th0 - 0) with 0 by ring. rewrite Rabs_R0. cbn [verr]. lra.
    - cbv zeta. fold F. change (gain2 0) with 1. rewrite sqrt_1. change (0 - 1)%nat with 0%nat. cbn [INR]. rewrite Rmult_1_r, <- Hx, <- Hy. fold q. assert (Q0 : 0 < q) by apply bpow2_pos.
      assert (U : (fxval x1 F - Rabs xr) * (fxval x1 F - Rabs xr) <= q * q) by nra. assert (V : (fxval y1 F - yr) * (fxval y1 F - yr) <= q * q) by nra. assert (0 <= q * q) by nra. nra. }
  pose proof (v_acc Nz m N N1 N2 m_ok r th0 r_up Ht _ A) as B. fold acc icw in B. eapply Rle_trans; [exact B|]. lra.
Qed.

Lemma pi_conv : forall (sg k : Z), (sg = 1 \/ sg = -1)%Z -> (48 <= k <= 49)%Z -> Rabs (fxval (conv (a2_fa Nz) (sg * m_pi) k) (icw + 1) - IZR sg * PI * bpow2 (48 - k)) <= bpow2 (- (icw + 1)) + bpow2 (- (52)).
Proof.
  intros sg k Hs Hk. destruct F_big as [_ I1]. assert (FE : fF (a2_fa Nz) = (icw + 1)%Z) by (unfold fF, a2_fa, dfmt; cbn [fW fI]; fold icw; lia). assert (W1 : (1 <= fW (a2_fa Nz))%Z) by (unfold a2_fa, dfmt; cbn [fW]; fold icw; lia).
  pose proof (conv_R (a2_fa Nz) (sg * m_pi) k W1) as C. assert (E : fxval (sg * m_pi) k = IZR sg * fxval m_pi 48 * bpow2 (48 - k)). { unfold fxval. rewrite mult_IZR. replace (- k)%Z with (- (48) + (48 - k))%Z by lia. rewrite bpow2_add. ring. } rewrite E in C. clear E.
  set (c := conv (a2_fa Nz) (sg * m_pi) k) in *. pose proof pi_m as PM. pose proof pi_4_lt as P4. assert (BK : / 2 <= bpow2 (48 - k) <= 1). { split; [rewrite <- bpow2_1, <- bpow2_opp; apply bpow2_le; lia|rewrite <- bpow2_0; apply bpow2_le; lia]. }
  assert (B52 : bpow2 (- (52)) <= / 4) by (apply Rle_trans with (bpow2 (- (2))); [apply bpow2_le; lia|rewrite bpow2_opp, bpow2_IZR by lia; change (2 ^ 2)%Z with 4%Z; lra]). apply Rabs_le_both in PM.
  assert (VB : Rabs (IZR sg * fxval m_pi 48 * bpow2 (48 - k)) <= 35 / 10). { rewrite !Rabs_mult. assert (Rabs (IZR sg) = 1) as -> by (destruct Hs as [-> | ->]; [apply Rabs_R1|rewrite Rabs_left; lra]). rewrite (Rabs_pos_eq (fxval m_pi 48)), (Rabs_pos_eq (bpow2 (48 - k))) by lra. nra. }
  destruct (convR_near (a2_fa Nz) _ _ W1 ltac:(discriminate) C) as [_ T].
  { rewrite FE. unfold imin, imax. change (fS (a2_fa Nz)) with true. cbv iota. rewrite minus_IZR, opp_IZR, <- bpow2_IZR by lia. replace (bpow2 (fW (a2_fa Nz) - 1)) with (4 * bpow2 (icw + 1)) by (change 4 with (IZR (2 ^ 2)); rewrite <- bpow2_IZR by lia; rewrite <- !bpow2_add; f_equal; unfold a2_fa, dfmt; cbn [fW]; fold icw; lia).
    apply Rabs_le_both in VB. assert (32 <= bpow2 (icw + 1)) by (change 32 with (IZR (2 ^ 5)); rewrite <- bpow2_IZR by lia; apply bpow2_le; unfold Nz in *; lia). split; nra. }
  rewrite FE in T. apply Rabs_le_both in T. apply Rabs_le. destruct Hs as [-> | ->]; nra.
Qed.

Lemma err_sum : INR N * bpow2 (- icw) + bpow2 (- (icw + 1)) <= bpow2 (- Nz) /\ 8 * bpow2 (- Nz) = bpow2 (- fF fo) /\ bpow2 (- Nz) <= / 8 /\ 0 < bpow2 (- icw) /\ bpow2 (- (51)) + bpow2 (- (52)) <= bpow2 (-50) /\ bpow2 (-50) <= / 128.
Proof.
  destruct a2_N as [N1 N2]. pose proof (n_hq Nz N N1 N2) as (A & _ & B). fold icw in A, B. assert (E : bpow2 (- icw) = 2 * bpow2 (- (icw + 1))) by (rewrite <- bpow2_1, <- bpow2_add; f_equal; lia). split; [lra|]. split; [change 8 with (IZR (2 ^ 3)); rewrite <- bpow2_IZR by lia; rewrite <- bpow2_add; f_equal; unfold Nz; lia|].
  split; [change 8 with (IZR (2 ^ 3)); rewrite <- bpow2_IZR, <- bpow2_opp by lia; apply bpow2_le; unfold Nz; lia|]. split; [exact B|]. split.
  - assert (E1 : bpow2 (-50) = 2 * bpow2 (- (51))) by (rewrite <- bpow2_1, <- bpow2_add; f_equal). assert (E2 : bpow2 (- (51)) = 2 * bpow2 (- (52))) by (rewrite <- bpow2_1, <- bpow2_add; f_equal). pose proof (bpow2_pos (- (52))). lra.
  - change 128 with (IZR (2 ^ 7)). rewrite <- bpow2_IZR, <- bpow2_opp by lia. apply bpow2_le. lia.
Qed.
Lemma x_sign : (x < 0)%Z -> xr < 0. Proof. intros H. unfold xr. rewrite <- (fxval_0 XF). apply fxval_lt, H. Qed.
Lemma x_sign' : (0 <= x)%Z -> 0 <= xr. Proof. intros H. unfold xr. rewrite <- (fxval_0 XF). apply fxval_le, H. Qed.
Lemma y_sign : (y < 0)%Z -> yr < 0. Proof. intros H. unfold yr. rewrite <- (fxval_0 YF). apply fxval_lt, H. Qed.
Lemma y_sign' : (0 < y)%Z -> 0 < yr. Proof. intros H. unfold yr. rewrite <- (fxval_0 YF). apply fxval_lt, H. Qed.

Lemma atan2_near th : is_atan2 yr xr th -> exists V, convertsR fo V (atan2_cordic YI YF XI XF fo y x) /\ Rabs (V - th) <= atan2_err fo r.
Proof.
  intros (TH & EX & EY). fold r in EX, EY. destruct r_facts as [R0 RR]. destruct err_sum as (S1 & S2 & S3 & S4 & S5 & S6). pose proof pi_4_lt as P4. assert (RI : 0 < / r) by (apply Rinv_0_lt_compat, R0).
  assert (BE : atan2_err fo r = 3 * bpow2 (- Nz) + 8 / 100 * bpow2 (- Nz) / r + bpow2 (-50)) by (unfold atan2_err; rewrite <- S2; field; lra).
  assert (B8 : 8 / 100 * bpow2 (- Nz) / r <= 8 / 100 /\ 0 <= 8 / 100 * bpow2 (- Nz) / r). { pose proof (bpow2_pos (- Nz)) as P. fold Nz in Hr. split; [apply (Rmult_le_reg_r r); [exact R0|]; unfold Rdiv; rewrite !Rmult_assoc, Rinv_l by lra; lra|apply Rmult_le_pos; lra]. }
  assert (PI_I : bpow2 (- (icw + 1)) <= bpow2 (- Nz)) by (pose proof (pos_INR N); nra). pose proof (bpow2_pos (- (52))) as P52. pose proof (bpow2_pos (- (51))) as P51. pose proof (bpow2_pos (- Nz)) as PN.
  unfold atan2_cordic. fold Nz m N. cbv zeta. fold ax x1 y1. fold icw. pose proof acc_near as AN. pose proof pi_conv as PCV. pose proof a2_N as [N1 N2]. pose proof x_sign as XSG. pose proof x_sign' as XSG'. pose proof y_sign as YSG. pose proof y_sign' as YSG'. fold acc. destruct (fold_left (a2_step Nz m) (seq 0 N) (x1, y1, 0%Z)) as [[xN yN] acc'] eqn:EF. change acc with acc' in *. clear EF.
  match goal with |- context [conv fo ?z _] => set (res := z) end.
  enough (K : Rabs (fxval res (icw + 1) - th) <= atan2_err fo r) by (exists (fxval res (icw + 1)); split; [apply conv_R; exact HW|exact K]). rewrite BE. unfold res. clear res BE.
  destruct (Z.eqb_spec y 0) as [Y0|Y0].
  { assert (yr = 0) by (unfold yr; rewrite Y0; apply fxval_0). assert (SN : sin th = 0) by nra. destruct (Z.ltb_spec x 0) as [X0|X0].
    - pose proof (XSG X0). assert (cos th < 0) by nra. assert (TP : th = PI).
      { destruct (Rle_lt_or_eq_dec th PI ltac:(lra)) as [L|L]; [exfalso|exact L]. destruct (Rtotal_order th 0) as [Z|[Z|Z]]; [pose proof (sin_lt_0_var th ltac:(lra) Z); lra|rewrite Z, cos_0 in *; lra|pose proof (sin_gt_0 th Z L); lra]. }
      pose proof (PCV 1%Z 48%Z ltac:(lia) ltac:(lia)) as PC. rewrite Z.mul_1_l in PC. change (48 - 48)%Z with 0%Z in PC. rewrite bpow2_0, TP in *. apply Rabs_le_both in PC. apply Rabs_le. lra.
    - pose proof (XSG' X0). assert (r = xr) as ER by (unfold r; rewrite H, Rmult_0_l, Rplus_0_r, sqrt_square by lra; reflexivity). assert (cos th = 1) by nra. assert (TP : th = 0).
      { destruct (Rtotal_order th 0) as [Z|[Z|Z]]; [pose proof (sin_lt_0_var th ltac:(lra) Z); lra|exact Z|]. destruct (Rle_lt_or_eq_dec th PI ltac:(lra)) as [L|L]; [pose proof (sin_gt_0 th Z L); lra|rewrite L, cos_PI in *; lra]. }
      rewrite fxval_0, TP. apply Rabs_le. lra. }
  assert (YS : (y < 0)%Z /\ sin th < 0 \/ (0 < y)%Z /\ 0 < sin th). { destruct (Z_lt_le_dec y 0) as [L|L]; [left; split; [exact L|pose proof (YSG L); nra]|right; split; [lia|pose proof (YSG' ltac:(lia)); nra]]. }
  destruct (Z.eqb_spec x 0) as [X0|X0].
  { assert (xr = 0) by (unfold xr; rewrite X0; apply fxval_0). assert (CN : cos th = 0) by nra. assert (HB : bpow2 (48 - 49) = / 2) by (change (48 - 49)%Z with (- (1))%Z; rewrite bpow2_opp, bpow2_1; reflexivity). destruct YS as [[YN YS]|[YN YS]].
    - destruct (Z.ltb_spec y 0); [|lia]. destruct (lower th TH YS) as [L1 L2]. assert (TP : th = - (PI / 2)).
      { destruct (Rtotal_order th (- (PI / 2))) as [Z|[Z|Z]]; [|exact Z|]; exfalso; [assert (cos (- th) < 0) by (apply cos_lt_0; lra); rewrite cos_neg in *; lra|assert (0 < cos th) by (apply cos_gt_0; lra); lra]. }
      pose proof (PCV (-1)%Z 49%Z ltac:(lia) ltac:(lia)) as PC. replace (-1 * m_pi)%Z with (- m_pi)%Z in PC by lia. rewrite HB, TP in *. apply Rabs_le_both in PC. apply Rabs_le. lra.
    - destruct (Z.ltb_spec y 0); [lia|]. destruct (upper th TH YS) as [L1 L2]. assert (TP : th = PI / 2).
      { destruct (Rtotal_order th (PI / 2)) as [Z|[Z|Z]]; [|exact Z|]; exfalso; [assert (0 < cos th) by (apply cos_gt_0; lra); lra|assert (cos th < 0) by (apply cos_lt_0; lra); lra]. }
      pose proof (PCV 1%Z 49%Z ltac:(lia) ltac:(lia)) as PC. rewrite Z.mul_1_l in PC. rewrite HB, TP in *. apply Rabs_le_both in PC. apply Rabs_le. lra. }
  destruct (Z.ltb_spec x 0) as [XN|XN].
  - pose proof (XSG XN) as XS. assert (CN : cos th < 0) by nra. rewrite Rabs_left in AN by exact XS.
    assert (FR : forall z, Rabs (fxval z (icw + 1)) <= 39 / 10 -> conv (a2_fa Nz) z (icw + 1) = z) by exact (free_a Nz N N1 N2).
    destruct YS as [[YN YS]|[YN YS]].
    + destruct (Z.ltb_spec y 0); [|lia]. destruct (lower th TH YS) as [L1 L2]. assert (T2 : th < - (PI / 2)). { apply Rnot_le_lt. intros Z. assert (0 <= cos th) by (apply cos_ge_0; lra). lra. }
      specialize (AN (- PI - th) ltac:(lra)). assert (EC : cos (- PI - th) = - cos th) by (replace (- PI - th) with (- (th + PI)) by ring; rewrite cos_neg, neg_cos; reflexivity). assert (ES : sin (- PI - th) = sin th) by (replace (- PI - th) with (- (th + PI)) by ring; rewrite sin_neg, neg_sin; ring).
      rewrite EC, ES in AN. specialize (AN ltac:(lra) EY). pose proof (PCV (-1)%Z 48%Z ltac:(lia) ltac:(lia)) as PC. replace (-1 * m_pi)%Z with (- m_pi)%Z in PC by lia. change (48 - 48)%Z with 0%Z in PC. rewrite bpow2_0 in PC. set (cp := conv (a2_fa Nz) (- m_pi) 48) in *.
      apply Rabs_le_both in AN, PC. assert (VE : fxval (cp - acc') (icw + 1) = fxval cp (icw + 1) - fxval acc' (icw + 1)) by (unfold Z.sub; rewrite fxval_add, fxval_opp; ring). rewrite FR by (rewrite VE; apply Rabs_le; lra). rewrite VE. apply Rabs_le. lra.
    + destruct (Z.ltb_spec y 0); [lia|]. destruct (upper th TH YS) as [L1 L2]. assert (T2 : PI / 2 < th). { apply Rnot_le_lt. intros Z. assert (0 <= cos th) by (apply cos_ge_0; lra). lra. }
      specialize (AN (PI - th) ltac:(lra)). assert (EC : cos (PI - th) = - cos th) by (rewrite cos_minus, cos_PI, sin_PI; ring). assert (ES : sin (PI - th) = sin th) by (rewrite sin_PI_x; reflexivity).
      rewrite EC, ES in AN. specialize (AN ltac:(lra) EY). pose proof (PCV 1%Z 48%Z ltac:(lia) ltac:(lia)) as PC. rewrite Z.mul_1_l in PC. change (48 - 48)%Z with 0%Z in PC. rewrite bpow2_0 in PC. set (cp := conv (a2_fa Nz) m_pi 48) in *.
      apply Rabs_le_both in AN, PC. assert (VE : fxval (cp - acc') (icw + 1) = fxval cp (icw + 1) - fxval acc' (icw + 1)) by (unfold Z.sub; rewrite fxval_add, fxval_opp; ring). rewrite FR by (rewrite VE; apply Rabs_le; lra). rewrite VE. apply Rabs_le. lra.
  - pose proof (XSG' XN) as XS. rewrite Rabs_pos_eq in AN by exact XS. pose proof (half_plane r th R0 TH ltac:(lra)) as HP. specialize (AN th HP EX EY). apply Rabs_le_both in AN. pose proof (bpow2_pos (- (icw + 1))). apply Rabs_le. lra.
Qed.
End Thm.

(** Every point but the origin has an angle. *)
Lemma atan2_exists y x : 0 < x * x + y * y -> exists th, is_atan2 y x th.
Proof.
  intros H. set (r := sqrt (x * x + y * y)). assert (R0 : 0 < r) by (apply sqrt_lt_R0, H). assert (RR : r * r = x * x + y * y) by (apply sqrt_sqrt; lra). pose proof PI_RGT_0 as PP.
  assert (RH : forall a b, 0 < a -> a * a + b * b = r * r -> a = r * cos (atan (b / a)) /\ b = r * sin (atan (b / a))).
  { intros a b Ha E. assert (W : sqrt (1 + (b / a)²) = r / a). { unfold Rsqr. apply Rsqr_inj; [apply sqrt_pos|apply Rlt_le, Rdiv_lt_0_compat; lra|]. unfold Rsqr at 1. rewrite sqrt_sqrt by (pose proof (Rle_0_sqr (b / a)) as Z; unfold Rsqr in Z; lra). unfold Rsqr. replace (r / a * (r / a)) with (r * r / (a * a)) by (field; lra). rewrite <- E. field. lra. }
    rewrite cos_atan, sin_atan, W. split; field; lra. }
  destruct (Rtotal_order x 0) as [X|[X|X]].
  - destruct (RH (- x) y ltac:(lra) ltac:(rewrite RR; ring)) as [A B]. set (t := atan (y / - x)) in *. pose proof (atan_bound (y / - x)) as T. fold t in T. destruct (Rle_lt_dec 0 y) as [Y|Y].
    + assert (T0 : 0 <= t). { apply Rnot_lt_le. intros Z. assert (sin t < 0) by (apply sin_lt_0_var; lra). nra. }
      exists (PI - t). split; [lra|]. fold r. rewrite cos_minus, sin_minus, cos_PI, sin_PI. split; lra.
    + assert (T0 : t < 0). { apply Rnot_le_lt. intros Z. assert (0 <= sin t) by (apply sin_ge_0; lra). nra. }
      exists (- PI - t). split; [lra|]. fold r. rewrite cos_minus, sin_minus, cos_neg, sin_neg, cos_PI, sin_PI. split; lra.
  - subst x. assert (YY : y <> 0) by (intros ->; lra). destruct (Rle_lt_dec 0 y) as [Y|Y].
    + exists (PI / 2). split; [lra|]. fold r. rewrite cos_PI2, sin_PI2. assert (r = y) by (unfold r; rewrite Rmult_0_l, Rplus_0_l; apply sqrt_square, Y). split; lra.
    + exists (- (PI / 2)). split; [lra|]. fold r. rewrite cos_neg, sin_neg, cos_PI2, sin_PI2. assert (r = - y) by (unfold r; rewrite Rmult_0_l, Rplus_0_l; replace (y * y) with (- y * - y) by ring; apply sqrt_square; lra). split; lra.
  - destruct (RH x y X ltac:(rewrite RR; ring)) as [A B]. exists (atan (y / x)). pose proof (atan_bound (y / x)) as T. split; [lra|]. fold r. split; [exact A|exact B].
Qed.
Lemma atan2_acc YI YF XI XF fo y x th : (1 <= YI + YF)%Z -> (1 <= XI + XF)%Z -> fS fo = true -> (3 <= fI fo)%Z -> (2 <= fF fo <= 67)%Z -> fO fo <> SAT_SYM -> in_range true (YI + YF) y -> in_range true (XI + XF) x ->
  let r := sqrt (fxval x XF * fxval x XF + fxval y YF * fxval y YF) in bpow2 (- (fF fo + 3)) <= r -> is_atan2 (fxval y YF) (fxval x XF) th ->
  Rabs (fxval (atan2_cordic YI YF XI XF fo y x) (fF fo) - th) <= bpow2 (- fF fo) + atan2_err fo r.
Proof.
  intros HY HX HS HI HF HO Ry Rx r Hr HA. destruct (atan2_near YI YF XI XF fo y x HY HX ltac:(lia) ltac:(unfold fF in HF; lia) Ry Rx Hr th HA) as (V & C & E). fold r in E. assert (R0 : 0 < r) by (pose proof (bpow2_pos (- (fF fo + 3))); lra).
  assert (AE : atan2_err fo r <= 1 / 5).
  { unfold atan2_err. assert (U : bpow2 (- fF fo) <= / 4) by (apply Rle_trans with (bpow2 (- (2))); [apply bpow2_le; lia|rewrite bpow2_opp, bpow2_IZR by lia; change (2 ^ 2)%Z with 4%Z; lra]). assert (B50 : bpow2 (-50) <= / 128) by (change 128 with (IZR (2 ^ 7)); rewrite <- bpow2_IZR, <- bpow2_opp by lia; apply bpow2_le; lia).
    assert (E8 : bpow2 (- (fF fo + 3)) = / 8 * bpow2 (- fF fo)) by (replace (- (fF fo + 3))%Z with (- (3) + - fF fo)%Z by lia; rewrite bpow2_add, bpow2_opp, (bpow2_IZR 3) by lia; change (2 ^ 3)%Z with 8%Z; reflexivity).
    assert (Q : / (100 * r) * bpow2 (- fF fo) <= 8 / 100). { apply (Rmult_le_reg_l (100 * r)); [lra|]. rewrite <- Rmult_assoc, Rinv_r by lra. lra. } pose proof (bpow2_pos (- fF fo)). nra. }
  destruct HA as ((T1 & T2) & _). pose proof pi_4_lt as P4. apply Rabs_le_both in E. assert (W1 : (1 <= fW fo)%Z) by (unfold fF in HF; lia).
  destruct (convR_near fo V _ W1 HO C) as [_ N].
  { unfold imin, imax. rewrite HS. rewrite minus_IZR, opp_IZR, <- bpow2_IZR by lia. replace (bpow2 (fW fo - 1)) with (bpow2 (fI fo - 1) * bpow2 (fF fo)) by (rewrite <- bpow2_add; f_equal; unfold fF; lia).
    assert (4 <= bpow2 (fI fo - 1)) by (change 4 with (IZR (2 ^ 2)); rewrite <- bpow2_IZR by lia; apply bpow2_le; lia). assert (4 <= bpow2 (fF fo)) by (change 4 with (IZR (2 ^ 2)); rewrite <- bpow2_IZR by lia; apply bpow2_le; lia). split; nra. }
  apply Rabs_le_both in N. apply Rabs_le. lra.
Qed.
Lemma atan2_origin YI YF XI XF fo : (1 <= fW fo)%Z -> atan2_cordic YI YF XI XF fo 0 0 = 0%Z.
Proof. intros H. unfold atan2_cordic. cbv zeta. destruct (fold_left _ _ _) as [[u v] w]. cbn [Z.eqb Z.ltb Z.compare]. apply conv_0; exact H. Qed.

(** Points close to the origin lose their fraction bits before the loop. *)
Lemma atan2_small_false : ~ (forall YI YF XI XF fo y x th, (1 <= YI + YF)%Z -> (1 <= XI + XF)%Z -> fS fo = true -> (3 <= fI fo)%Z -> (2 <= fF fo <= 67)%Z -> fO fo <> SAT_SYM -> in_range true (YI + YF) y -> in_range true (XI + XF) x ->
  (0 < x)%Z -> is_atan2 (fxval y YF) (fxval x XF) th -> Rabs (fxval (atan2_cordic YI YF XI XF fo y x) (fF fo) - th) <= 1 / 2).
Proof.
  intros H. specialize (H 0 32 0 32 (dfmt 8 3 true) 4 4 (PI / 4)%R)%Z. unfold in_range in H. change (imin true (0 + 32)) with (- 2 ^ 31)%Z in H. change (imax true (0 + 32)) with (2 ^ 31 - 1)%Z in H.
  specialize (H ltac:(lia) ltac:(lia) eq_refl ltac:(cbn; lia) ltac:(unfold fF, dfmt; cbn; lia) ltac:(discriminate) ltac:(lia) ltac:(lia) ltac:(lia)). assert (E : atan2_cordic 0 32 0 32 (dfmt 8 3 true) 4 4 = 55%Z) by (vm_compute; reflexivity). rewrite E in H. pose proof pi_4_lt as P4.
  assert (A : is_atan2 (fxval 4 32) (fxval 4 32) (PI / 4)).
  { pose proof PI_RGT_0. set (v := fxval 4 32). assert (V0 : 0 < v) by (unfold v, fxval; pose proof (bpow2_pos (- (32))); lra). assert (S : sqrt (v * v + v * v) = v * sqrt 2) by (replace (v * v + v * v) with (v * v * 2) by ring; rewrite sqrt_mult by nra; rewrite sqrt_square by lra; reflexivity).
    split; [lra|]. rewrite S, cos_PI4, sin_PI4. assert (0 < sqrt 2) by (apply sqrt_lt_R0; lra). split; field; lra. }
  specialize (H A). assert (EV : fxval 55 (fF (dfmt 8 3 true)) = 55 / 32) by (change (fF (dfmt 8 3 true)) with 5%Z; unfold fxval; rewrite bpow2_opp, bpow2_IZR by lia; reflexivity). rewrite EV in H. apply Rabs_le_both in H. lra.
Qed.
Lemma is_atan2_neg : is_atan2 (fxval 0 2) (fxval (-4) 2) PI.
Proof.
  assert (E : fxval (-4) 2 = -1) by (unfold fxval; rewrite bpow2_opp, bpow2_IZR by lia; change (2 ^ 2)%Z with 4%Z; lra). rewrite E, fxval_0. pose proof PI_RGT_0. split; [lra|]. replace (-1 * -1 + 0 * 0) with 1 by ring. rewrite sqrt_1, cos_PI, sin_PI. lra.
Qed.
(** With two integer bits the half plane of negative x wraps. *)
Lemma atan2_two_int_false : ~ (forall YI YF XI XF fo y x th, (1 <= YI + YF)%Z -> (1 <= XI + XF)%Z -> fS fo = true -> (2 <= fI fo)%Z -> (2 <= fF fo <= 67)%Z -> in_range true (YI + YF) y -> in_range true (XI + XF) x ->
  1 <= sqrt (fxval x XF * fxval x XF + fxval y YF * fxval y YF) -> is_atan2 (fxval y YF) (fxval x XF) th -> Rabs (fxval (atan2_cordic YI YF XI XF fo y x) (fF fo) - th) <= 3).
Proof.
  intros H. specialize (H 2 2 2 2 (dfmt 8 2 true) 0 (-4) PI%R)%Z. specialize (H ltac:(lia) ltac:(lia) eq_refl ltac:(cbn; lia) ltac:(unfold fF, dfmt; cbn; lia) ltac:(vm_compute; split; discriminate) ltac:(vm_compute; split; discriminate)).
  assert (E : atan2_cordic 2 2 2 2 (dfmt 8 2 true) 0 (-4) = (-55)%Z) by (vm_compute; reflexivity). rewrite E in H. pose proof pi_4_lt as P4.
  assert (EX : fxval (-4) 2 = -1) by (unfold fxval; rewrite bpow2_opp, bpow2_IZR by lia; change (2 ^ 2)%Z with 4%Z; lra). specialize (H ltac:(rewrite EX, fxval_0; replace (-1 * -1 + 0 * 0) with 1 by ring; rewrite sqrt_1; lra) is_atan2_neg).
  assert (EV : fxval (-55) (fF (dfmt 8 2 true)) = -55 / 64) by (change (fF (dfmt 8 2 true)) with 6%Z; unfold fxval; rewrite bpow2_opp, bpow2_IZR by lia; reflexivity). rewrite EV in H. apply Rabs_le_both in H. lra.
Qed.
(** M_PI is a double: no more than 53 bits of pi. *)
Lemma atan2_wide_false : ~ (forall YI YF XI XF fo y x th, (1 <= YI + YF)%Z -> (1 <= XI + XF)%Z -> fS fo = true -> (3 <= fI fo)%Z -> (2 <= fF fo <= 67)%Z -> in_range true (YI + YF) y -> in_range true (XI + XF) x ->
  1 <= sqrt (fxval x XF * fxval x XF + fxval y YF * fxval y YF) -> is_atan2 (fxval y YF) (fxval x XF) th -> Rabs (fxval (atan2_cordic YI YF XI XF fo y x) (fF fo) - th) <= 100 * bpow2 (- fF fo)).
Proof.
  intros H. specialize (H 2 2 2 2 (dfmt 63 3 true) 0 (-4) PI%R)%Z. specialize (H ltac:(lia) ltac:(lia) eq_refl ltac:(cbn; lia) ltac:(unfold fF, dfmt; cbn; lia) ltac:(vm_compute; split; discriminate) ltac:(vm_compute; split; discriminate)).
  assert (E : atan2_cordic 2 2 2 2 (dfmt 63 3 true) 0 (-4) = (m_pi * 2 ^ 12)%Z) by (vm_compute; reflexivity). rewrite E in H.
  assert (EX : fxval (-4) 2 = -1) by (unfold fxval; rewrite bpow2_opp, bpow2_IZR by lia; change (2 ^ 2)%Z with 4%Z; lra). specialize (H ltac:(rewrite EX, fxval_0; replace (-1 * -1 + 0 * 0) with 1 by ring; rewrite sqrt_1; lra) is_atan2_neg).
  change (fF (dfmt 63 3 true)) with 60%Z in H. apply Rabs_le_both in H. pose proof pi_Z as [L U]. assert (A : (m_pi * 2 ^ 42 + 101 * 2 ^ 30 <= pi_lo)%Z) by (vm_compute; discriminate). apply IZR_le in A. rewrite plus_IZR, !mult_IZR in A. unfold fxval in H. rewrite mult_IZR in H. unfold B90 in *. rewrite <- !bpow2_IZR in * by lia.
  destruct H as [H _]. apply (Rmult_le_compat_l (bpow2 90)) in H; [|apply Rlt_le, bpow2_pos]. replace (bpow2 90 * (IZR m_pi * bpow2 12 * bpow2 (- (60)) - PI)) with (IZR m_pi * (bpow2 90 * bpow2 12 * bpow2 (- (60))) - bpow2 90 * PI) in H by ring. replace (bpow2 90 * - (100 * bpow2 (- (60)))) with (- 100 * (bpow2 90 * bpow2 (- (60)))) in H by ring.
  rewrite <- !bpow2_add in H. change (90 + 12 + - (60))%Z with 42%Z in H. change (90 + - (60))%Z with 30%Z in H. pose proof (bpow2_pos 30). lra.
Qed.
