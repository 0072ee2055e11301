(** The iterations of the CORDIC arcsine and arccosine: two rotations at once keep the vector, the scaled target and the angle within their error bounds. *)
From Coq Require Import ZArith Reals Lia Lra Psatz List.
From Verif Require Import AcTypes AcFacts Spec SpecFacts SpecR SpecRFacts SoftFacts CholReal CholThm QrdThm CordicModel CordicNum CordicProofs CordicThm Atan2Proofs Atan2Num ArcModel ArcNum.
Local Open Scope R_scope.

Lemma PI_lo : 314 / 100 <= PI.
Proof.
  destruct ppi_Z as [A _]. assert (C : (314 * BB <=? 100 * ppi_lo)%Z = true) by (vm_compute; reflexivity). apply Z.leb_le, IZR_le in C. rewrite !mult_IZR in C.
  assert (B : 0 < IZR BB) by (apply IZR_lt; reflexivity). apply (Rmult_le_reg_l (IZR BB)); [exact B|]. lra.
Qed.
Lemma PI_hi : PI <= 315 / 100.
Proof.
  destruct ppi_Z as [_ A]. assert (C : (100 * ppi_hi <=? 315 * BB)%Z = true) by (vm_compute; reflexivity). apply Z.leb_le, IZR_le in C. rewrite !mult_IZR in C.
  assert (B : 0 < IZR BB) by (apply IZR_lt; reflexivity). apply (Rmult_le_reg_l (IZR BB)); [exact B|]. lra.
Qed.
(** Two equal exact rotations. *)
Lemma rot2_cs (sg : R) i th : sg = 1 \/ sg = -1 -> let s := / 2 ^ i in
  (1 + s * s) * cos (th + sg * ang i) = (1 - s * s) * cos th - sg * (2 * s) * sin th /\ (1 + s * s) * sin (th + sg * ang i) = (1 - s * s) * sin th + sg * (2 * s) * cos th.
Proof.
  intros Hs s. destruct (rot_cs sg i th Hs) as [C1 S1]. destruct (rot_cs sg i (th + sg * atan (/ 2 ^ i)) Hs) as [C2 S2]. cbv zeta in *. fold s in C1, S1, C2, S2. set (w := sqrt (1 + / 4 ^ i)) in *.
  assert (WW : w * w = 1 + s * s). { unfold w. rewrite sqrt_sqrt; [unfold s; rewrite <- four_pow; reflexivity|]. pose proof (Rinv_0_lt_compat _ (pow_lt 4 i ltac:(lra))). lra. }
  assert (E : th + sg * ang i = th + sg * atan s + sg * atan s) by (unfold ang; fold s; ring). rewrite E, <- WW. assert (SQ : sg * sg = 1) by (destruct Hs as [-> | ->]; ring). split.
  - rewrite Rmult_assoc, C2. replace (w * (cos (th + sg * atan s) - sg * s * sin (th + sg * atan s))) with (w * cos (th + sg * atan s) - sg * s * (w * sin (th + sg * atan s))) by ring. rewrite C1, S1. replace (sg * s * (sin th + sg * s * cos th)) with (sg * s * sin th + (sg * sg) * s * s * cos th) by ring. rewrite SQ. ring.
  - rewrite Rmult_assoc, S2. replace (w * (sin (th + sg * atan s) + sg * s * cos (th + sg * atan s))) with (w * sin (th + sg * atan s) + sg * s * (w * cos (th + sg * atan s))) by ring. rewrite C1, S1. replace (sg * s * (cos th - sg * s * sin th)) with (sg * s * cos th - (sg * sg) * s * s * sin th) by ring. rewrite SQ. ring.
Qed.
Lemma rot2_norm a b s sg : sg * sg = 1 -> ((1 - s * s) * a - sg * (2 * s) * b) * ((1 - s * s) * a - sg * (2 * s) * b) + ((1 - s * s) * b + sg * (2 * s) * a) * ((1 - s * s) * b + sg * (2 * s) * a) = ((1 + s * s) * (1 + s * s)) * (a * a + b * b).
Proof. intros SQ. replace (((1 - s * s) * a - sg * (2 * s) * b) * ((1 - s * s) * a - sg * (2 * s) * b) + ((1 - s * s) * b + sg * (2 * s) * a) * ((1 - s * s) * b + sg * (2 * s) * a)) with (((1 - s * s) * (1 - s * s) + (sg * sg) * (4 * (s * s))) * (a * a + b * b)) by ring. rewrite SQ. ring. Qed.

Section Iter.
Variables pf it : Z.
Hypothesis Hpf : (4 <= pf <= 128)%Z.
Hypothesis Hit : (1 <= it)%Z.
Definition F2 : Z := (pf + 2)%Z.
Definition q : R := bpow2 (- F2).
Definition h : R := bpow2 (- pf).
Definition N : nat := Z.to_nat (pf + 2).
Lemma q_pos : 0 < q. Proof. apply bpow2_pos. Qed.
Lemma h_pos : 0 < h. Proof. apply bpow2_pos. Qed.
Lemma q_h : h = 4 * q.
Proof. unfold h, q, F2. replace (- pf)%Z with (2 + - (pf + 2))%Z by lia. rewrite bpow2_add. change 4 with (IZR (2 ^ 2)). rewrite (bpow2_IZR 2) by lia. reflexivity. Qed.
Lemma kq : (IZR pf + 1) * q <= 5 / 64.
Proof.
  assert (E : bpow2 (pf + 2) * q = 1) by (unfold q, F2; rewrite <- bpow2_add, Z.add_opp_diag_r; reflexivity). assert (B : 64 * (IZR pf + 1) <= 5 * bpow2 (pf + 2)).
  { rewrite (bpow2_IZR (pf + 2)) by lia. rewrite <- (plus_IZR pf 1), <- !mult_IZR. apply IZR_le. replace (pf + 2)%Z with ((pf - 4) + 6)%Z at 1 by lia. rewrite Z.pow_add_r by lia. change (2 ^ 6)%Z with 64%Z. pose proof (Z.pow_gt_lin_r 2 (pf - 4) ltac:(lia) ltac:(lia)). lia. }
  pose proof q_pos as Q. nra.
Qed.
Lemma N_nat i : (i <= N)%nat -> (1 <= i)%nat -> INR (i - 1) <= IZR pf + 1.
Proof. intros H1 H2. rewrite INR_IZR_INZ, <- (plus_IZR pf 1). apply IZR_le. unfold N in H1. lia. Qed.

Definition G (i : nat) : R := gain2 i.
Definition E (i : nat) : R := G i * (9 / 10 * INR (i - 1) * q).
Definition Et (i : nat) : R := G i * (4 / 10 * INR (i - 1) * q).
Lemma G_pos i : 1 <= G i. Proof. apply gain2_ge. Qed.
Lemma G_hi i : (1 <= i)%nat -> G i <= 272 / 100.
Proof. intros H. destruct (Nat.eq_dec i 1) as [->|]; [unfold G; rewrite gain_1; lra|apply gain_bounds; lia]. Qed.
Lemma E_pos i : 0 <= E i.
Proof. unfold E. pose proof (G_pos i). pose proof (pos_INR (i - 1)). pose proof q_pos. apply Rmult_le_pos; [lra|apply Rmult_le_pos; lra]. Qed.
Lemma Et_pos i : 0 <= Et i.
Proof. unfold Et. pose proof (G_pos i). pose proof (pos_INR (i - 1)). pose proof q_pos. apply Rmult_le_pos; [lra|apply Rmult_le_pos; lra]. Qed.
Lemma room i : (1 <= i <= N)%nat -> G i + E i <= 3 /\ Et i <= 1 / 10.
Proof.
  intros H. pose proof (N_nat i ltac:(lia) ltac:(lia)) as A. pose proof kq as K. pose proof q_pos as Q. pose proof (G_hi i ltac:(lia)) as U. pose proof (G_pos i) as L. pose proof (pos_INR (i - 1)) as P. unfold E, Et.
  assert (B : INR (i - 1) * q <= 5 / 64) by nra. set (k := INR (i - 1) * q) in *. assert (0 <= k) by (apply Rmult_le_pos; lra). replace (9 / 10 * INR (i - 1) * q) with (9 / 10 * k) by (unfold k; ring). replace (4 / 10 * INR (i - 1) * q) with (4 / 10 * k) by (unfold k; ring).
  split.
  - assert (G i * (9 / 10 * k) <= 272 / 100 * (9 / 10 * (5 / 64))) by (apply Rmult_le_compat; lra). lra.
  - assert (G i * (4 / 10 * k) <= 272 / 100 * (4 / 10 * (5 / 64))) by (apply Rmult_le_compat; lra). lra.
Qed.

Definition T (i : nat) : Z := nth i arc_tab 0%Z.
Definition base (t0 : R) (i : nat) (st : Z * Z * Z * Z) (th : R) (m : Z) : Prop :=
  let '(x, y, tn, a) := st in
  (fxval x F2 - G i * cos th) * (fxval x F2 - G i * cos th) + (fxval y F2 - G i * sin th) * (fxval y F2 - G i * sin th) <= E i * E i /\
  G i * t0 - Et i <= fxval tn F2 <= G i * t0 /\
  Rabs (fxval a pf - fxval m 128) <= INR (i - 1) * h /\
  Rabs (PI * fxval m 128 - th) <= INR (i - 1) * bpow2 (- (100)).

Lemma q_small : q <= 1 / 64.
Proof. unfold q. replace (1 / 64) with (bpow2 (- (6))) by (rewrite bpow2_opp, (bpow2_IZR 6) by lia; change (2 ^ 6)%Z with 64%Z; lra). apply bpow2_le. unfold F2. lia. Qed.
Lemma fx_fF : fF (arc_fx pf) = F2. Proof. unfold fF, arc_fx, dfmt, F2; cbn [fW fI]; lia. Qed.
Lemma ft_fF : fF (dfmt (pf + it) it true) = pf. Proof. unfold fF, dfmt; cbn [fW fI]; lia. Qed.
Lemma fx_range z : Rabs (fxval z F2) <= 4 - q -> in_range true (pf + 5) z.
Proof. intros H. apply (range_of (arc_fx pf) z); [reflexivity|unfold arc_fx, dfmt; cbn [fW]; lia|]. rewrite fx_fF. unfold arc_fx, dfmt; cbn [fI]. change (3 - 1)%Z with 2%Z. rewrite (bpow2_IZR 2) by lia. exact H. Qed.
Lemma fx_free z : Rabs (fxval z F2) <= 4 - q -> conv (arc_fx pf) z (pf + 2) = z.
Proof. intros H. apply conv_exact; [unfold arc_fx, dfmt; cbn [fW]; lia|discriminate|rewrite fx_fF; reflexivity|apply fx_range, H]. Qed.
Lemma ft_free z : Rabs (fxval z pf) <= bpow2 (it - 1) - h -> conv (dfmt (pf + it) it true) z pf = z.
Proof. intros H. apply conv_exact; [unfold dfmt; cbn [fW]; lia|discriminate|rewrite ft_fF; reflexivity|]. apply range_of; [reflexivity|unfold dfmt; cbn [fW]; lia|]. rewrite ft_fF. exact H. Qed.
Lemma shr_free z k : Rabs (fxval z F2) <= 3 -> shr true (pf + 5) z (Z.of_nat k) = Z.shiftr z (Z.of_nat k) /\
  exists r, 0 <= r <= q /\ fxval (Z.shiftr z (Z.of_nat k)) F2 = fxval z F2 * / 2 ^ k - r.
Proof.
  intros H. destruct (shr_fx F2 z k) as (r & R0 & _ & Er). fold q in R0. split; [|exists r; split; assumption]. unfold shr. apply wrap_id; [lia|]. apply fx_range. rewrite Er. destruct (two_pow_pos k) as [A B]. pose proof q_small as Q.
  assert (AB : Rabs (fxval z F2 * / 2 ^ k) <= 3 * 1) by (rewrite Rabs_mult, (Rabs_pos_eq (/ 2 ^ k)) by lra; apply Rmult_le_compat; [apply Rabs_pos|lra|exact H|lra]). apply Rabs_le_both in AB. apply Rabs_le. lra.
Qed.
Lemma entry i : (1 <= i < N)%nat -> let d := conv (dfmt (pf + it) it true) (arc_2mi pf i) pf in fxval (T i) 128 - h <= fxval d pf <= fxval (T i) 128.
Proof.
  intros Hi. cbv zeta. assert (LT : Nat.ltb 129 i = false) by (apply Nat.ltb_ge; unfold N in Hi; lia). unfold arc_2mi. rewrite LT. fold (T i). pose proof (arc_tab_range i) as [T0 T1]. fold (T i) in T0, T1. set (z := T i) in *.
  assert (EF : fF (dfmt pf 0 false) = pf) by (unfold fF, dfmt; cbn [fW fI]; lia).
  assert (TB : fxval z 128 <= 1 / 2). { unfold fxval. apply IZR_le in T1. rewrite <- (bpow2_IZR 127) in T1 by lia. pose proof (bpow2_pos (- (128))) as P. apply Rle_trans with (bpow2 127 * bpow2 (- (128))); [apply Rmult_le_compat_r; lra|]. rewrite <- bpow2_add. change (127 + - (128))%Z with (- (1))%Z. rewrite bpow2_opp, (bpow2_IZR 1) by lia. change (2 ^ 1)%Z with 2%Z. lra. }
  assert (TP : 0 <= fxval z 128) by (rewrite <- (fxval_0 128); apply fxval_le; lia).
  assert (W1 : (1 <= fW (dfmt pf 0 false))%Z) by (unfold dfmt; cbn [fW]; lia). pose proof (conv_R (dfmt pf 0 false) z 128 W1) as C. destruct (convR_trn (dfmt pf 0 false) _ _ W1 eq_refl eq_refl C) as [_ TT].
  { rewrite EF. unfold imin, imax, dfmt. cbn [fS fW]. replace (2 ^ pf - 1 + 1)%Z with (2 ^ pf)%Z by lia. rewrite <- bpow2_IZR by lia. pose proof (bpow2_pos pf). split; nra. }
  rewrite EF in TT. fold h in TT. set (d := conv _ z 128) in *.
  assert (DP : 0 <= fxval d pf). { assert (0 <= d)%Z; [|rewrite <- (fxval_0 pf); apply fxval_le; assumption]. assert (fxval (-1) pf < fxval d pf) as L by (unfold fxval at 1; unfold h in TT; lra). apply fxval_lt in L. lia. }
  assert (HS : h <= 1 / 16) by (pose proof q_h; pose proof q_small; lra). assert (1 <= bpow2 (it - 1)) by (rewrite <- bpow2_0; apply bpow2_le; lia).
  rewrite ft_free; [lra|]. rewrite Rabs_pos_eq by exact DP. lra.
Qed.

(** One iteration after the first. *)
Lemma arc_step t0 i st th m (sel : bool) : let sg := if sel then 1 else -1 in
  (1 <= i < N)%nat -> 0 <= t0 <= 1 -> base t0 i st th m ->
  Rabs (th + sg * ang i) <= 314 / 100 * (bpow2 (it - 1) - h - INR i * h) - 1 / 1000 ->
  base t0 (S i) (arc_rot pf it sel i st) (th + sg * ang i) (if sel then m + T i else m - T i)%Z.
Proof.
  intros sg Hi Ht. destruct st as [[[x y] tn] a]. intros (HV & HN & HA & HM) HB. cbn [base arc_rot].
  pose proof (E_pos i) as E0. pose proof (Et_pos i) as Et0. destruct (room i ltac:(lia)) as [RM RT]. destruct (room (S i) ltac:(lia)) as [RM' RT']. pose proof q_small as QS. pose proof q_pos as Q0. pose proof h_pos as H0. pose proof (G_pos i) as GP.
  set (xr := fxval x F2) in *. set (yr := fxval y F2) in *. set (tr := fxval tn F2) in *.
  assert (GA : Rabs (G i) = G i) by (apply Rabs_pos_eq; lra).
  pose proof (Rle_0_sqr (xr - G i * cos th)) as SX. pose proof (Rle_0_sqr (yr - G i * sin th)) as SY. unfold Rsqr in SX, SY.
  pose proof (comp_bound xr (G i) (cos th) (E i) E0 (COS_bound th) ltac:(lra)) as BX. pose proof (comp_bound yr (G i) (sin th) (E i) E0 (SIN_bound th) ltac:(lra)) as BY. rewrite GA in BX, BY.
  assert (BT : Rabs tr <= 3). { apply Rabs_le. pose proof (G_hi i ltac:(lia)). assert (0 <= G i * t0 <= G i * 1) by (split; [apply Rmult_le_pos; lra|apply Rmult_le_compat_l; lra]). lra. }
  replace (Z.of_nat i - 1)%Z with (Z.of_nat (i - 1)) by lia. replace (2 * Z.of_nat i)%Z with (Z.of_nat (2 * i)) by lia.
  destruct (shr_free x (2 * i) ltac:(fold xr; lra)) as (-> & r1 & R1 & E1). destruct (shr_free y (i - 1) ltac:(fold yr; lra)) as (-> & r2 & R2 & E2'). destruct (shr_free y (2 * i) ltac:(fold yr; lra)) as (-> & r3 & R3 & E3).
  destruct (shr_free x (i - 1) ltac:(fold xr; lra)) as (-> & r4 & R4 & E4). destruct (shr_free tn (2 * i) ltac:(fold tr; lra)) as (-> & r5 & R5 & E5). fold xr in E1, E4. fold yr in E2', E3. fold tr in E5.
  set (s := / 2 ^ i) in *. destruct (two_pow_pos i) as [S0 S1]. fold s in S0, S1.
  assert (SH : s <= / 2). { unfold s. destruct i as [|i']; [lia|]. cbn [pow]. rewrite Rinv_mult. pose proof (two_pow_pos i'). lra. }
  assert (P2 : / 2 ^ (2 * i) = s * s). { unfold s. replace (2 * i)%nat with (i + i)%nat by lia. rewrite pow_add, Rinv_mult. reflexivity. }
  assert (P1 : / 2 ^ (i - 1) = 2 * s). { unfold s. destruct i as [|i']; [lia|]. replace (S i' - 1)%nat with i' by lia. cbn [pow]. rewrite Rinv_mult. lra. }
  rewrite P2 in E1, E3, E5. rewrite P1 in E2', E4. assert (SS : 0 < s * s <= / 4) by nra.
  set (xs := Z.shiftr x (Z.of_nat (2 * i))) in *. set (ys := Z.shiftr y (Z.of_nat (2 * i))) in *. set (ts := Z.shiftr tn (Z.of_nat (2 * i))) in *. set (xd := Z.shiftr y (Z.of_nat (i - 1))) in *. set (yd := Z.shiftr x (Z.of_nat (i - 1))) in *.
  assert (X1 : fxval (x - xs) F2 = xr - (xr * (s * s) - r1)) by (unfold Z.sub; rewrite fxval_add, fxval_opp, E1; fold xr; ring).
  assert (Y1 : fxval (y - ys) F2 = yr - (yr * (s * s) - r3)) by (unfold Z.sub; rewrite fxval_add, fxval_opp, E3; fold yr; ring).
  assert (N1 : fxval (tn + ts) F2 = tr + (tr * (s * s) - r5)) by (rewrite fxval_add, E5; reflexivity).
  apply Rabs_le_both in BX, BY, BT.
  rewrite (fx_free (x - xs)) by (rewrite X1; apply Rabs_le; clear - BX RM E0 GP R1 QS SS; nra). rewrite (fx_free (y - ys)) by (rewrite Y1; apply Rabs_le; clear - BY RM E0 GP R3 QS SS; nra).
  assert (GS : G (S i) = G i * (1 + s * s)) by (unfold G; cbn [gain2]; rewrite four_pow; reflexivity). destruct (gain_bounds (S i) ltac:(lia)) as [GL GU]. fold (G (S i)) in GL, GU.
  assert (IS : INR (S i - 1) = INR (i - 1) + 1) by (replace (S i - 1)%nat with (S (i - 1)) by lia; apply S_INR). pose proof (pos_INR (i - 1)) as IP. set (k := INR (i - 1)) in *.
  assert (TN' : G (S i) * t0 - Et (S i) <= fxval (tn + ts) F2 <= G (S i) * t0).
  { rewrite N1. unfold Et. rewrite IS. fold k. replace (tr + (tr * (s * s) - r5)) with (tr * (1 + s * s) - r5) by ring. assert (HT1 : tr * (1 + s * s) <= G i * t0 * (1 + s * s)) by (apply Rmult_le_compat_r; lra). assert (HT2 : (G i * t0 - Et i) * (1 + s * s) <= tr * (1 + s * s)) by (apply Rmult_le_compat_r; lra).
    assert (EQ1 : G i * t0 * (1 + s * s) = G (S i) * t0) by (rewrite GS; ring). assert (EQ2 : (G i * t0 - Et i) * (1 + s * s) = G (S i) * t0 - G (S i) * (4 / 10 * k * q)) by (rewrite GS; unfold Et; fold k; ring).
    assert (EQ3 : G (S i) * (4 / 10 * (k + 1) * q) = G (S i) * (4 / 10 * k * q) + 4 / 10 * G (S i) * q) by ring. assert (1 * q <= 4 / 10 * G (S i) * q) by (apply Rmult_le_compat_r; lra). lra. }
  assert (BT' : Rabs (fxval (tn + ts) F2) <= 4 - q). { apply Rabs_le. assert (0 <= G (S i) * t0 <= G (S i) * 1) by (split; [apply Rmult_le_pos; lra|apply Rmult_le_compat_l; lra]). lra. }
  rewrite (fx_free (tn + ts) BT').
  assert (D := entry i Hi). cbv zeta in D. set (d := conv (dfmt (pf + it) it true) (arc_2mi pf i) pf) in *.
  assert (Hsg : sg = 1 \/ sg = -1) by (unfold sg; destruct sel; tauto). assert (SQ : sg * sg = 1) by (destruct Hsg as [-> | ->]; ring).
  destruct (rot2_cs sg i th Hsg) as [RC RS]. cbv zeta in RC, RS. fold s in RC, RS. set (th' := th + sg * ang i) in *.
  set (u := xr - G i * cos th) in *. set (v := yr - G i * sin th) in *.
  set (x' := if sel then (x - xs - xd)%Z else (x - xs + xd)%Z). set (y' := if sel then (y - ys + yd)%Z else (y - ys - yd)%Z). set (m' := if sel then (m + T i)%Z else (m - T i)%Z). set (a' := if sel then (a + d)%Z else (a - d)%Z).
  assert (XE : fxval x' F2 = xr - (xr * (s * s) - r1) - sg * (yr * (2 * s) - r2)). { unfold x', sg. destruct sel; [unfold Z.sub at 1|]; rewrite fxval_add, ?fxval_opp, X1, E2'; ring. }
  assert (YE : fxval y' F2 = yr - (yr * (s * s) - r3) + sg * (xr * (2 * s) - r4)). { unfold y', sg. destruct sel; [|unfold Z.sub at 1]; rewrite fxval_add, ?fxval_opp, Y1, E4; ring. }
  assert (ME : fxval m' 128 = fxval m 128 + sg * fxval (T i) 128). { unfold m', sg. destruct sel; [|unfold Z.sub]; rewrite fxval_add, ?fxval_opp; ring. }
  assert (AE : fxval a' pf = fxval a pf + sg * fxval d pf). { unfold a', sg. destruct sel; [|unfold Z.sub]; rewrite fxval_add, ?fxval_opp; ring. }
  assert (N2 : ((1 - s * s) * u - sg * (2 * s) * v) * ((1 - s * s) * u - sg * (2 * s) * v) + ((1 - s * s) * v + sg * (2 * s) * u) * ((1 - s * s) * v + sg * (2 * s) * u) <= ((1 + s * s) * E i) * ((1 + s * s) * E i)).
  { rewrite (rot2_norm u v s sg SQ). replace ((1 + s * s) * E i * ((1 + s * s) * E i)) with ((1 + s * s) * (1 + s * s) * (E i * E i)) by ring. apply Rmult_le_compat_l; [apply Rmult_le_pos; lra|exact HV]. }
  assert (N3 : (r1 + sg * r2) * (r1 + sg * r2) + (r3 - sg * r4) * (r3 - sg * r4) <= (22361 / 10000 * q) * (22361 / 10000 * q)).
  { assert (0 <= q * q) by (apply Rmult_le_pos; lra). destruct Hsg as [-> | ->].
    - assert ((r1 + 1 * r2) * (r1 + 1 * r2) <= (2 * q) * (2 * q)) by (apply Rmult_le_compat; lra). assert ((r3 - 1 * r4) * (r3 - 1 * r4) <= q * q) by (clear - R3 R4 Q0; nra). lra.
    - assert ((r3 - -1 * r4) * (r3 - -1 * r4) <= (2 * q) * (2 * q)) by (apply Rmult_le_compat; lra). assert ((r1 + -1 * r2) * (r1 + -1 * r2) <= q * q) by (clear - R1 R2 Q0; nra). lra. }
  assert (PE : 0 <= (1 + s * s) * E i) by (apply Rmult_le_pos; lra). assert (PQ : 0 <= 22361 / 10000 * q) by lra. pose proof (norm_tri _ _ _ _ _ _ PE PQ N2 N3) as N4.
  assert (XD : (1 - s * s) * u - sg * (2 * s) * v + (r1 + sg * r2) = fxval x' F2 - G (S i) * cos th'). { rewrite XE, GS. replace (G i * (1 + s * s) * cos th') with (G i * ((1 + s * s) * cos th')) by ring. rewrite RC. unfold u, v. ring. }
  assert (YD : (1 - s * s) * v + sg * (2 * s) * u + (r3 - sg * r4) = fxval y' F2 - G (S i) * sin th'). { rewrite YE, GS. replace (G i * (1 + s * s) * sin th') with (G i * ((1 + s * s) * sin th')) by ring. rewrite RS. unfold u, v. ring. }
  rewrite XD, YD in N4. assert (ES : (1 + s * s) * E i + 22361 / 10000 * q <= E (S i)).
  { unfold E. rewrite IS. fold k. replace ((1 + s * s) * (G i * (9 / 10 * k * q))) with (G (S i) * (9 / 10 * k * q)) by (rewrite GS; ring). replace (G (S i) * (9 / 10 * (k + 1) * q)) with (G (S i) * (9 / 10 * k * q) + 9 / 10 * G (S i) * q) by ring. assert (22361 / 10000 * q <= 9 / 10 * G (S i) * q) by (apply Rmult_le_compat_r; lra). lra. }
  pose proof (E_pos (S i)) as E0'.
  assert (N5 : (fxval x' F2 - G (S i) * cos th') * (fxval x' F2 - G (S i) * cos th') + (fxval y' F2 - G (S i) * sin th') * (fxval y' F2 - G (S i) * sin th') <= E (S i) * E (S i)).
  { assert (0 <= (1 + s * s) * E i) by (apply Rmult_le_pos; lra). eapply Rle_trans; [exact N4|]. apply Rmult_le_compat; lra. }
  pose proof (Rle_0_sqr (fxval x' F2 - G (S i) * cos th')) as SX'. pose proof (Rle_0_sqr (fxval y' F2 - G (S i) * sin th')) as SY'. unfold Rsqr in SX', SY'.
  assert (GA' : Rabs (G (S i)) = G (S i)) by (apply Rabs_pos_eq; lra).
  pose proof (comp_bound (fxval x' F2) (G (S i)) (cos th') (E (S i)) E0' (COS_bound th') ltac:(lra)) as BX'. pose proof (comp_bound (fxval y' F2) (G (S i)) (sin th') (E (S i)) E0' (SIN_bound th') ltac:(lra)) as BY'. rewrite GA' in BX', BY'.
  assert (TNR := ang_near i ltac:(unfold N in Hi; lia)). fold (T i) in TNR. pose proof PI_lo as PL. pose proof PI_hi as PH.
  assert (HM' : Rabs (PI * fxval m' 128 - th') <= INR (S i - 1) * bpow2 (- (100))).
  { rewrite ME, IS. fold k. unfold th'. replace (PI * (fxval m 128 + sg * fxval (T i) 128) - (th + sg * ang i)) with ((PI * fxval m 128 - th) + sg * (PI * fxval (T i) 128 - ang i)) by ring. apply Rabs_le_both in HM, TNR. apply Rabs_le. destruct Hsg as [-> | ->]; lra. }
  assert (HA' : Rabs (fxval a' pf - fxval m' 128) <= INR (S i - 1) * h).
  { rewrite ME, AE, IS. fold k. apply Rabs_le_both in HA. apply Rabs_le. destruct Hsg as [-> | ->]; lra. }
  assert (FA : Rabs (fxval a' pf) <= bpow2 (it - 1) - h).
  { assert (KI : k + 1 = INR i) by (rewrite <- IS; f_equal; lia). rewrite IS in HM', HA'. fold k in HM', HA'. rewrite KI in HM', HA'. assert (TI : INR i * bpow2 (- (100)) <= 1 / 1000).
    { assert (INR i <= 130) by (rewrite INR_IZR_INZ; apply IZR_le; unfold N in Hi; lia). pose proof (bpow2_pos (- (100))). assert (bpow2 (- (100)) <= / 1000000) by (replace (/ 1000000) with (/ IZR 1000000) by reflexivity; rewrite bpow2_opp; apply Rinv_le_contravar; [lra|rewrite (bpow2_IZR 100) by lia; apply IZR_le; discriminate]). pose proof (pos_INR i). assert (INR i * bpow2 (- (100)) <= 130 * / 1000000) by (apply Rmult_le_compat; lra). lra. }
    set (M := bpow2 (it - 1) - h - INR i * h) in *. set (mm := fxval m' 128) in *. assert (PB : Rabs (PI * mm) <= 314 / 100 * M). { apply Rabs_le_both in HM', HB. apply Rabs_le. lra. }
    assert (MB : Rabs mm <= M). { rewrite Rabs_mult, (Rabs_pos_eq PI) in PB by lra. pose proof (Rabs_pos mm). apply Rnot_lt_le. intros X. assert (314 / 100 * M < 314 / 100 * Rabs mm) by lra. assert (314 / 100 * Rabs mm <= PI * Rabs mm) by (apply Rmult_le_compat_r; lra). lra. }
    apply Rabs_le_both in MB, HA'. apply Rabs_le. unfold M in MB. lra. }
  assert (BX4 : Rabs (fxval x' F2) <= 4 - q) by lra. assert (BY4 : Rabs (fxval y' F2) <= 4 - q) by lra.
  assert (RES : (if sel then (conv (arc_fx pf) (x - xs - xd) (pf + 2), conv (arc_fx pf) (y - ys + yd) (pf + 2), (tn + ts)%Z, conv (dfmt (pf + it) it true) (a + d) pf)
    else (conv (arc_fx pf) (x - xs + xd) (pf + 2), conv (arc_fx pf) (y - ys - yd) (pf + 2), (tn + ts)%Z, conv (dfmt (pf + it) it true) (a - d) pf)) = (x', y', (tn + ts)%Z, a')).
  { unfold x', y', a' in BX4, BY4, FA |- *. destruct sel; rewrite !fx_free, ft_free by assumption; reflexivity. }
  rewrite RES. refine (conj N5 (conj TN' (conj HA' HM'))).
Qed.

(** What the comparisons tell: [ta] is the real argument, of which t0 is the truncation. *)
Section Choose.
Variables (ta t0 : R) (i : nat) (x y tn a : Z) (th : R) (m : Z).
Hypothesis Hi : (1 <= i < N)%nat.
Hypothesis Hta : t0 <= ta < t0 + q.
Hypothesis HB : base t0 i (x, y, tn, a) th m.
Definition eps : R := (13 / 10 * INR (i - 1) + 1) * q.
Lemma vec_near : G i * cos th - E i <= fxval x F2 <= G i * cos th + E i /\ G i * sin th - E i <= fxval y F2 <= G i * sin th + E i.
Proof.
  destruct HB as (HV & _). pose proof (E_pos i) as E0. set (u := fxval x F2 - G i * cos th) in *. set (v := fxval y F2 - G i * sin th) in *. pose proof (Rle_0_sqr u) as SU. pose proof (Rle_0_sqr v) as SV. unfold Rsqr in SU, SV.
  assert (u <= E i) by (apply sq_le; lra). assert (- u <= E i) by (apply sq_le; lra). assert (v <= E i) by (apply sq_le; lra). assert (- v <= E i) by (apply sq_le; lra). unfold u, v in *. lra.
Qed.
Lemma div_G b c : G i * b <= G i * c -> b <= c.
Proof. pose proof (G_pos i). intros H1. apply (Rmult_le_reg_l (G i)); lra. Qed.
Lemma E_as : E i = G i * (9 / 10 * INR (i - 1) * q). Proof. reflexivity. Qed.
Lemma lo_cmp z c : G i * c - E i <= fxval z F2 <= G i * c + E i -> (z <= tn)%Z -> c <= ta + eps.
Proof.
  intros Hz L. destruct HB as (_ & HN & _). apply fxval_le with (F := F2) in L. pose proof q_pos. pose proof (pos_INR (i - 1)) as P. assert (0 <= INR (i - 1) * q) by (apply Rmult_le_pos; lra). rewrite E_as in Hz.
  assert (c <= t0 + 9 / 10 * INR (i - 1) * q) by (apply div_G; lra). unfold eps. lra.
Qed.
Lemma hi_cmp z c : G i * c - E i <= fxval z F2 <= G i * c + E i -> (tn <= z)%Z -> ta - eps <= c.
Proof.
  intros Hz L. destruct HB as (_ & HN & _). apply fxval_le with (F := F2) in L. pose proof q_pos. pose proof (pos_INR (i - 1)) as P. assert (0 <= INR (i - 1) * q) by (apply Rmult_le_pos; lra). rewrite E_as in Hz. unfold Et in HN.
  assert (t0 - 13 / 10 * INR (i - 1) * q <= c) by (apply div_G; lra). unfold eps. lra.
Qed.
Lemma pos_cmp z c : G i * c - E i <= fxval z F2 <= G i * c + E i -> (0 <= z)%Z -> - (9 / 10 * INR (i - 1) * q) <= c.
Proof. intros Hz L. apply fxval_le with (F := F2) in L. rewrite fxval_0 in L. rewrite E_as in Hz. apply div_G. lra. Qed.
Lemma neg_cmp z c : G i * c - E i <= fxval z F2 <= G i * c + E i -> (z < 0)%Z -> c <= 9 / 10 * INR (i - 1) * q.
Proof. intros Hz L. assert (L' : (z <= 0)%Z) by lia. apply fxval_le with (F := F2) in L'. rewrite fxval_0 in L'. rewrite E_as in Hz. apply div_G. lra. Qed.
Lemma eps_ge : 9 / 10 * INR (i - 1) * q <= eps.
Proof. unfold eps. pose proof q_pos. pose proof (pos_INR (i - 1)) as P. assert (0 <= INR (i - 1) * q) by (apply Rmult_le_pos; lra). lra. Qed.
End Choose.

(** The first iteration turns (1, 0) into (0, 2). *)
Lemma arc_first (a0 : Z) : (0 <= a0 <= 2 ^ F2)%Z -> base (fxval a0 F2) 1 (arc_rot pf it true 0 (2 ^ F2, 0, a0, 0)%Z) (PI / 2) (2 ^ 127).
Proof.
  intros Ha. pose proof h_pos as H0. pose proof q_pos as Q0. pose proof q_small as QS.
  assert (ONE : fxval (2 ^ F2) F2 = 1) by (rewrite fxval_pow by (unfold F2; lia); rewrite Z.sub_diag; apply bpow2_0). assert (A0 : 0 <= fxval a0 F2 <= 1) by (rewrite <- ONE, <- (fxval_0 F2) at 1; split; apply fxval_le; lia).
  unfold arc_rot. cbv zeta. change (Z.of_nat 0) with 0%Z. change (2 * 0)%Z with 0%Z. change (0 - 1)%Z with (-1)%Z.
  assert (SH0 : forall z, Rabs (fxval z F2) <= 4 - q -> shr true (pf + 5) z 0 = z) by (intros z Hz; unfold shr; rewrite Z.shiftr_0_r; apply wrap_id; [lia|apply fx_range, Hz]).
  assert (SH1 : shr true (pf + 5) (2 ^ F2) (-1) = (2 ^ F2 + 2 ^ F2)%Z). { unfold shr. change (Z.shiftr (2 ^ F2) (-1)) with (Z.shiftl (2 ^ F2) 1). rewrite Z.shiftl_mul_pow2 by lia. replace (2 ^ F2 * 2 ^ 1)%Z with (2 ^ F2 + 2 ^ F2)%Z by lia. apply wrap_id; [lia|]. apply fx_range. rewrite fxval_add, ONE. apply Rabs_le. lra. }
  assert (SH2 : shr true (pf + 5) 0 (-1) = 0%Z). { unfold shr. rewrite Z.shiftr_0_l. apply wrap_id; [lia|]. apply fx_range. rewrite fxval_0, Rabs_R0. lra. }
  rewrite (SH0 (2 ^ F2)%Z) by (rewrite ONE, Rabs_R1; lra). rewrite (SH0 0%Z) by (rewrite fxval_0, Rabs_R0; lra). rewrite (SH0 a0) by (rewrite Rabs_pos_eq; lra). rewrite SH1, SH2. rewrite Z.sub_diag. change (0 - 0)%Z with 0%Z.
  assert (Z0 : conv (arc_fx pf) 0 (pf + 2) = 0%Z) by (apply fx_free; rewrite fxval_0, Rabs_R0; lra). rewrite !Z0. change (0 - 0)%Z with 0%Z. rewrite Z0, !Z.add_0_l.
  rewrite (fx_free (2 ^ F2 + 2 ^ F2)) by (rewrite fxval_add, ONE; apply Rabs_le; lra). rewrite (fx_free (a0 + a0)) by (rewrite fxval_add; apply Rabs_le; lra).
  assert (HF : fxval (2 ^ (pf - 1)) pf = 1 / 2) by (rewrite fxval_pow by lia; replace (pf - 1 - pf)%Z with (- (1))%Z by lia; rewrite bpow2_opp, (bpow2_IZR 1) by lia; change (2 ^ 1)%Z with 2%Z; lra).
  assert (HF' : fxval (2 ^ 127) 128 = 1 / 2) by (rewrite fxval_pow by lia; replace (127 - 128)%Z with (- (1))%Z by lia; rewrite bpow2_opp, (bpow2_IZR 1) by lia; change (2 ^ 1)%Z with 2%Z; lra).
  assert (EF : fF (dfmt pf 0 false) = pf) by (unfold fF, dfmt; cbn [fW fI]; lia).
  assert (D : arc_2mi pf 0 = (2 ^ (pf - 1))%Z). { unfold arc_2mi. change (if Nat.ltb 129 0 then 0%Z else nth 0 arc_tab 0%Z) with (2 ^ 127)%Z. apply conv_exact; [unfold dfmt; cbn [fW]; lia|discriminate|rewrite EF, HF; exact HF'|]. unfold in_range, imin, imax, dfmt. cbn [fS fW]. split; [apply Z.pow_nonneg; lia|]. assert (2 ^ (pf - 1) < 2 ^ pf)%Z by (apply Z.pow_lt_mono_r; lia). lia. }
  assert (HS : h <= 1 / 16) by (pose proof q_h; lra). assert (1 <= bpow2 (it - 1)) by (rewrite <- bpow2_0; apply bpow2_le; lia).
  rewrite D. rewrite !ft_free by (rewrite ?ft_free by (rewrite HF; apply Rabs_le; lra); rewrite HF; apply Rabs_le; lra). cbn [base]. unfold E, Et, G. rewrite gain_1, cos_PI2, sin_PI2, !fxval_add, ONE, fxval_0, HF, HF'. change (INR (1 - 1)) with 0.
  refine (conj _ (conj _ (conj _ _))); [lra|lra|apply Rabs_le; lra|apply Rabs_le; pose proof (bpow2_pos (- (100))); lra].
Qed.
End Iter.
