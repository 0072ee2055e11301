(** ac_sincos_cordic: the error bound, periodicity, and where it fails. *)
From Coq Require Import Reals Lia Lra Psatz.
From Verif Require Import AcTypes AcFacts Spec SpecFacts SpecR SpecRFacts SpecLin SpecTrig SoftFacts AbsProofs MatrixProofs CholReal CholThm QrdThm CordicModel CordicNum CordicProofs.
Local Open Scope R_scope.

(** The angle is reduced modulo 2. *)
Lemma target_mod n a : (1 <= n)%Z -> conv (dfmt n 1 true) a (n - 1) = ((a + 2 ^ (n - 1)) mod 2 ^ n - 2 ^ (n - 1))%Z.
Proof. intros Hn. change (n - 1)%Z with (fF (dfmt n 1 true)) at 1. rewrite conv_same_f. reflexivity. Qed.
Lemma target_R n a : (1 <= n)%Z -> exists k, fxval a (n - 1) = fxval (conv (dfmt n 1 true) a (n - 1)) (n - 1) + 2 * IZR k /\ -1 <= fxval (conv (dfmt n 1 true) a (n - 1)) (n - 1) <= 1.
Proof.
  intros Hn. rewrite target_mod by exact Hn. set (P := (2 ^ (n - 1))%Z). assert (HP : (2 ^ n = 2 * P)%Z) by (unfold P; replace n with (n - 1 + 1)%Z at 1 by lia; rewrite Z.pow_add_r by lia; lia).
  assert (P0 : (0 < P)%Z) by (apply pow2_pos; lia). pose proof (Z.div_mod (a + P) (2 ^ n) ltac:(lia)) as DM. pose proof (Z.mod_pos_bound (a + P) (2 ^ n) ltac:(lia)) as MB. exists ((a + P) / 2 ^ n)%Z. set (k := ((a + P) / 2 ^ n)%Z) in *. set (m := ((a + P) mod 2 ^ n)%Z) in *.
  assert (E1 : fxval P (n - 1) = 1) by (apply fxval_one; lia). split.
  - replace a with (m - P + k * (2 * P))%Z at 1 by (rewrite HP in DM; lia). rewrite fxval_add. f_equal. unfold fxval in *. rewrite !mult_IZR. transitivity (2 * IZR k * (IZR P * bpow2 (- (n - 1)))); [ring|rewrite E1; ring].
  - assert (X1 : fxval (- P) (n - 1) <= fxval (m - P) (n - 1)) by (apply fxval_le; lia). assert (X2 : fxval (m - P) (n - 1) <= fxval P (n - 1)) by (apply fxval_le; lia). rewrite fxval_opp in X1. lra.
Qed.
Lemma sin_per x k : sin (PI * (x + 2 * IZR k)) = sin (PI * x) /\ cos (PI * (x + 2 * IZR k)) = cos (PI * x).
Proof.
  assert (P : forall x (n : nat), sin (PI * (x + 2 * INR n)) = sin (PI * x) /\ cos (PI * (x + 2 * INR n)) = cos (PI * x)).
  { intros y n. replace (PI * (y + 2 * INR n)) with (PI * y + 2 * INR n * PI) by ring. split; [apply sin_period|apply cos_period]. }
  destruct (Z.le_ge_cases 0 k) as [H|H].
  - rewrite <- (Z2Nat.id k) by exact H. rewrite <- INR_IZR_INZ. apply P.
  - destruct (P (x + 2 * IZR k) (Z.to_nat (- k))) as [A B]. rewrite INR_IZR_INZ, Z2Nat.id, opp_IZR in A, B by lia. replace (x + 2 * IZR k + 2 * - IZR k) with x in A, B by ring. split; symmetry; assumption.
Qed.

Lemma sin_lip a b : Rabs (sin a - sin b) <= Rabs (a - b).
Proof.
  destruct (MVT_abs sin cos b a) as (z & E & _); [intros; apply derivable_pt_lim_sin|]. rewrite E. rewrite <- (Rmult_1_l (Rabs (a - b))) at 2. apply Rmult_le_compat_r; [apply Rabs_pos|]. apply Rabs_le, COS_bound.
Qed.
Lemma cos_lip a b : Rabs (cos a - cos b) <= Rabs (a - b).
Proof.
  rewrite !cos_sin. eapply Rle_trans; [apply sin_lip|]. right. f_equal. ring.
Qed.

Section Thm.
Variables (AW AI : Z) (fo : fmt) (a C : Z).
Hypotheses (HA : (AI <= AW)%Z) (HW : (1 <= fW fo <= 68)%Z) (HI : (1 <= fI fo)%Z).
Let N := (fW fo + 1)%Z.
Let n := Z.to_nat N.
Let icw := cd_icw N.
Let fx := dfmt icw (fI fo) true.
Let u := bpow2 (- fF fo).
Let q := bpow2 (- fF fx).
Let cR := fxval C (fF fo).
Let ar := fxval a (AW - AI).
Hypothesis HC : Rabs cR * (1 + bpow2 (-51)) + 31 / 32 * u <= bpow2 (fI fo - 1).

Lemma log_val : (4 <= cd_log N <= 7)%Z /\ (N + 1 <= 2 ^ cd_log N)%Z.
Proof. unfold cd_log. destruct (Z.ltb_spec N 16), (Z.ltb_spec N 32), (Z.ltb_spec N 64); try lia; change (2 ^ 4)%Z with 16%Z; change (2 ^ 5)%Z with 32%Z; change (2 ^ 6)%Z with 64%Z; change (2 ^ 7)%Z with 128%Z; unfold N in *; lia. Qed.
Lemma n_val : Z.of_nat n = N /\ (2 <= n <= 69)%nat.
Proof. unfold n, N. lia. Qed.
Lemma uq : u = 2 * IZR (2 ^ cd_log N) * q /\ 0 < q.
Proof.
  split; [|apply bpow2_pos]. destruct log_val as [L _]. unfold u, q, fx. rewrite <- bpow2_IZR by lia. rewrite <- bpow2_1, <- !bpow2_add. f_equal. unfold fF, dfmt, icw, cd_icw, N. cbn [fW fI]. lia.
Qed.
Lemma uq_n : 2 * (INR n + 1) * q <= u /\ 32 * q <= u.
Proof.
  destruct uq as [E Q]. destruct log_val as [L1 L2]. destruct n_val as [Hn _]. rewrite E. assert (INR n + 1 <= IZR (2 ^ cd_log N)) by (rewrite INR_IZR_INZ, Hn, <- plus_IZR; apply IZR_le; exact L2).
  assert (16 <= IZR (2 ^ cd_log N)) by (apply (IZR_le 16); change 16%Z with (2 ^ 4)%Z; apply Z.pow_le_mono_r; lia). split; nra.
Qed.
Lemma g_val : sqrt (gain2 n) <= 16469 / 10000 /\ 1 <= sqrt (gain2 n) /\ Rabs (kR n * sqrt (gain2 n) - 1) <= bpow2 (-51) /\ 0 <= kR n < 3 / 4.
Proof.
  destruct n_val as [_ Hn]. destruct (gain_near n ltac:(lia)) as (A & B & D). repeat split; try apply D; [|apply sgain_pos|exact A]. apply sq_le; [lra|]. rewrite sqrt_sqrt by (pose proof (gain2_ge n); lra). lra.
Qed.
Let k := conv fx (k_val n) 71.
Let kx := conv fx (C * k) (fF fo + fF fx).
Let kxR := fxval kx (fF fx).
Lemma fx_ok : (1 <= fW fx)%Z /\ fF fx = (icw - fI fo)%Z.
Proof. unfold fx, dfmt, fF. cbn [fW fI]. unfold icw, cd_icw. destruct log_val as [L _]. unfold N in *. lia. Qed.
Lemma fx_lim V : Rabs V < bpow2 (fI fo - 1) -> IZR (imin (fS fx) (fW fx)) <= V * bpow2 (fF fx) < IZR (imax (fS fx) (fW fx) + 1).
Proof.
  intros H. destruct fx_ok as [W1 FE]. unfold imin, imax. change (fS fx) with true. cbv iota. replace (2 ^ (fW fx - 1) - 1 + 1)%Z with (2 ^ (fW fx - 1))%Z by lia. rewrite opp_IZR, <- bpow2_IZR by lia.
  replace (bpow2 (fW fx - 1)) with (bpow2 (fI fo - 1) * bpow2 (fF fx)) by (rewrite <- bpow2_add; f_equal; unfold fF; change (fI fx) with (fI fo); lia). pose proof (bpow2_pos (fF fx)). apply Rabs_def2 in H. split; nra.
Qed.
Lemma k_near : 0 <= fxval k (fF fx) <= kR n /\ kR n < fxval k (fF fx) + q.
Proof.
  destruct fx_ok as [W1 FE]. destruct g_val as (_ & _ & _ & K0). pose proof (conv_R fx (k_val n) 71 W1) as X. fold k in X. change (fxval (k_val n) 71) with (kR n) in X.
  destruct (convR_trn fx _ _ W1 eq_refl eq_refl X) as [_ T]. { apply fx_lim. rewrite Rabs_pos_eq by lra. apply Rlt_le_trans with (bpow2 0); [rewrite bpow2_0; lra|apply bpow2_le; lia]. }
  fold q in T. destruct T as [T1 T2]. split; [split; [|exact T1]|exact T2]. rewrite <- (fxval_0 (fF fx)). apply fxval_le. assert (L : fxval (-1) (fF fx) < fxval k (fF fx)) by (unfold fxval at 1; fold q; lra). apply fxval_lt in L. lia.
Qed.
Lemma c_small : Rabs cR < bpow2 (fI fo - 1).
Proof. pose proof (bpow2_pos (-51)). pose proof (Rabs_pos cR). assert (0 < u) by apply bpow2_pos. nra. Qed.
Lemma kx_near : Rabs kxR <= Rabs cR * kR n + q /\ Rabs (kxR - cR * kR n) <= q * (1 + Rabs cR).
Proof.
  destruct fx_ok as [W1 FE]. destruct g_val as (_ & _ & _ & K0). destruct k_near as [[K1 K2] K3]. pose proof c_small as CS. pose proof (conv_R fx (C * k) (fF fo + fF fx) W1) as X. fold kx in X. rewrite fxval_mul in X. fold cR in X. set (kr := fxval k (fF fx)) in *.
  assert (AC : Rabs (cR * kr) <= Rabs cR * 1) by (rewrite Rabs_mult; apply Rmult_le_compat_l; [apply Rabs_pos|rewrite Rabs_pos_eq by lra; lra]).
  destruct (convR_trn fx _ _ W1 eq_refl eq_refl X) as [_ T]; [apply fx_lim; lra|]. fold q kxR in T.
  assert (AD : Rabs (cR * kr) <= Rabs cR * kR n) by (rewrite Rabs_mult; apply Rmult_le_compat_l; [apply Rabs_pos|rewrite Rabs_pos_eq by lra; lra]). pose proof (bpow2_pos (- fF fx)) as Q0. fold q in Q0.
  split.
  - apply Rabs_le_both in AD. apply Rabs_le. lra.
  - assert (AE : Rabs (cR * (kR n - kr)) <= Rabs cR * q) by (rewrite Rabs_mult; apply Rmult_le_compat_l; [apply Rabs_pos|apply Rabs_le; lra]). apply Rabs_le_both in AE. apply Rabs_le. lra.
Qed.
Let G := sqrt (gain2 n).
Let EN := G * (895 / 1000 * q) * INR (n - 1).
Lemma kxg : Rabs kxR * G <= Rabs cR * (1 + bpow2 (-51)) + 16469 / 10000 * q /\ Rabs (kxR * G - cR) <= 16469 / 10000 * (q * (1 + Rabs cR)) + Rabs cR * bpow2 (-51).
Proof.
  destruct g_val as (G1 & G0 & KG & K0). fold G in G1, G0, KG. destruct kx_near as [A B]. pose proof (bpow2_pos (- fF fx)) as Q0. fold q in Q0. pose proof (Rabs_pos cR) as C0. pose proof (bpow2_pos (-51)) as E0. apply Rabs_le_both in KG. split.
  - apply Rle_trans with ((Rabs cR * kR n + q) * G); [apply Rmult_le_compat_r; lra|]. replace ((Rabs cR * kR n + q) * G) with (Rabs cR * (kR n * G) + q * G) by ring. apply Rplus_le_compat; [apply Rmult_le_compat_l; lra|nra].
  - replace (kxR * G - cR) with ((kxR - cR * kR n) * G + cR * (kR n * G - 1)) by ring. eapply Rle_trans; [apply Rabs_triang|]. apply Rplus_le_compat.
    + rewrite Rabs_mult, (Rabs_pos_eq G) by lra. rewrite Rmult_comm. apply Rmult_le_compat; try lra. apply Rabs_pos.
    + rewrite Rabs_mult. apply Rmult_le_compat_l; [exact C0|]. apply Rabs_le. lra.
Qed.
Lemma en_bound : EN <= 1474 / 1000 * (INR n - 1) * q.
Proof. destruct g_val as (G1 & G0 & _). fold G in G1, G0. destruct n_val as [_ Hn]. pose proof (bpow2_pos (- fF fx)) as Q0. fold q in Q0. unfold EN. rewrite minus_INR by lia. cbn [INR]. assert (2 <= INR n) by (apply (le_INR 2); lia). assert (P : 0 <= q * (INR n - 1)) by (apply Rmult_le_pos; lra). nra. Qed.
Lemma room_ok : Rabs kxR * G + EN <= bpow2 (fI fo - 1) - q.
Proof. destruct kxg as [A _]. pose proof en_bound as B. destruct uq_n as [U _]. pose proof (pos_INR n). destruct uq as [_ Q0]. assert (P : 0 <= INR n * q) by (apply Rmult_le_pos; lra). nra. Qed.

Let tt := conv (dfmt (AW - (AI - 1)) 1 true) a (AW - AI).
Let st0 := if fx_ltb 1 1 tt (AW - AI) then (0, kx, 2 ^ (icw - 1))%Z
            else if fx_ltb tt (AW - AI) (-1) 1 then (0, conv fx (- kx) (fF fx), - 2 ^ (icw - 1))%Z else (kx, 0, 0)%Z.
Let tr := fxval tt (AW - AI).
Lemma tt_R : (exists z, ar = tr + 2 * IZR z) /\ -1 <= tr <= 1.
Proof.
  pose proof (target_R (AW - (AI - 1)) a ltac:(lia)) as (z & E & B). replace (AW - (AI - 1) - 1)%Z with (AW - AI)%Z in * by lia. fold tt in E, B. fold tr in E, B. fold ar in E. split; [exists z; exact E|exact B].
Qed.
Lemma icw_ok : (Z.of_nat n + 4 <= icw)%Z.
Proof. destruct n_val as [-> _]. unfold icw, cd_icw. destruct log_val. lia. Qed.
Lemma half_R : fxval (2 ^ (icw - 1)) icw = / 2.
Proof. pose proof icw_ok. rewrite fxval_pow by lia. replace (icw - 1 - icw)%Z with (- (1))%Z by lia. rewrite bpow2_opp, bpow2_1. reflexivity. Qed.
Lemma start_ok : cd_inv n (fI fo) icw (AW - AI) tt kxR 0 st0.
Proof.
  destruct tt_R as [_ T]. destruct n_val as [_ Hn]. pose proof icw_ok as Hi. pose proof half_R as HH.
  assert (RB : / 2 <= rem n icw (n - 0) + INR n * slack icw).
  { pose proof (d_le_rem n icw Hn Hi (n - 1) ltac:(lia)) as D. destruct (d_near n icw Hn Hi 0 ltac:(lia)) as (_ & D0). rewrite angle_0 in D0. replace (n - S (n - 1))%nat with 0%nat in D by lia. replace (n - 0)%nat with (S (n - 1)) by lia. cbn [rem]. replace (n - S (n - 1))%nat with 0%nat by lia.
    assert (SL : 2 * bpow2 (- icw) <= slack icw) by (unfold slack; pose proof (bpow2_pos (- (71))); lra). assert (INR (n - 1) = INR n - 1) by (rewrite minus_INR by lia; reflexivity). nra. }
  assert (G1 : sqrt (gain2 0) = 1) by (cbn [gain2]; apply sqrt_1).
  assert (KX : conv fx (- kx) (fF fx) = (- kx)%Z). { apply (wrap_free n (fI fo) icw Hn Hi). rewrite fxval_opp, Rabs_Ropp. pose proof room_ok as RO. destruct g_val as (_ & G0 & _). fold G in G0. pose proof (Rabs_pos kxR). assert (0 <= EN) by (unfold EN; destruct uq as [_ Q0]; pose proof (pos_INR (n - 1)); apply Rmult_le_pos; [apply Rmult_le_pos; lra|assumption]). change (fF (dfmt icw (fI fo) true)) with (fF fx). fold kxR. fold q. nra. }
  unfold st0. destruct (fx_ltb 1 1 tt (AW - AI)) eqn:C1; [|destruct (fx_ltb tt (AW - AI) (-1) 1) eqn:C2].
  - apply fx_ltb_R in C1. fold tr in C1. assert (HV : fxval 1 1 = / 2) by (unfold fxval; change (- (1))%Z with (- (1))%Z; rewrite bpow2_opp, bpow2_1; ring). rewrite HV in C1. exists (PI / 2). rewrite HH. cbn [aerr]. split; [|split].
    + fold tr. apply Rabs_le. lra.
    + replace (PI / 2 - PI * / 2) with 0 by field. rewrite Rabs_R0. lra.
    + change (fF (dfmt icw (fI fo) true)) with (fF fx). fold kxR. rewrite G1, cos_PI2, sin_PI2, fxval_0. right. cbn [Nat.sub INR]. ring.
  - apply fx_ltb_R in C2. fold tr in C2. assert (HV : fxval (-1) 1 = - / 2) by (unfold fxval; rewrite bpow2_opp, bpow2_1; ring). rewrite HV in C2. exists (- (PI / 2)). rewrite KX, fxval_opp, HH. cbn [aerr]. split; [|split].
    + fold tr. apply Rabs_le. lra.
    + replace (- (PI / 2) - PI * - / 2) with 0 by field. rewrite Rabs_R0. lra.
    + change (fF (dfmt icw (fI fo) true)) with (fF fx). rewrite fxval_opp. fold kxR. rewrite G1, cos_neg, sin_neg, cos_PI2, sin_PI2, fxval_0. right. cbn [Nat.sub INR]. ring.
  - assert (B1 : tr <= / 2). { apply Rnot_lt_le. intros X. assert (Y : fx_ltb 1 1 tt (AW - AI) = true) by (apply fx_ltb_R; unfold fxval at 1; rewrite bpow2_opp, bpow2_1; fold tr; lra). rewrite Y in C1. discriminate. }
    assert (B2 : - / 2 <= tr). { apply Rnot_lt_le. intros X. assert (Y : fx_ltb tt (AW - AI) (-1) 1 = true) by (apply fx_ltb_R; unfold fxval at 2; rewrite bpow2_opp, bpow2_1; fold tr; lra). rewrite Y in C2. discriminate. }
    exists 0. rewrite fxval_0. cbn [aerr]. split; [|split].
    + fold tr. apply Rabs_le. lra.
    + replace (0 - PI * 0) with 0 by ring. rewrite Rabs_R0. lra.
    + change (fF (dfmt icw (fI fo) true)) with (fF fx). fold kxR. rewrite G1, cos_0, sin_0, fxval_0. right. cbn [Nat.sub INR]. ring.
Qed.

(** The angle error. *)
Lemma atan_le x : 0 <= x -> atan x <= x.
Proof.
  intros Hx. destruct (MVT_abs atan (fun x => / (1 + x ^ 2)) 0 x) as (z & E & _); [intros c Hc; apply derivable_pt_lim_atan|]. rewrite atan_0, !Rminus_0_r in E. apply Rle_trans with (Rabs (atan x)); [apply Rle_abs|]. rewrite E. rewrite (Rabs_pos_eq x Hx). rewrite <- (Rmult_1_l x) at 2. apply Rmult_le_compat_r; [exact Hx|].
  pose proof (pow2_ge_0 z). rewrite Rabs_pos_eq by (apply Rlt_le, Rinv_0_lt_compat; lra). rewrite <- Rinv_1. apply Rinv_le_contravar; lra.
Qed.
Lemma n_h_le : INR n * bpow2 (- icw) <= / 2 * bpow2 (- fW fo).
Proof.
  destruct n_val as [Hn _]. destruct log_val as [L1 L2]. replace (bpow2 (- icw)) with (bpow2 (- cd_log N) * (/ 2 * bpow2 (- fW fo))) by (rewrite <- bpow2_1, <- bpow2_opp, <- !bpow2_add; f_equal; unfold icw, cd_icw, N; lia).
  rewrite <- Rmult_assoc. rewrite <- (Rmult_1_l (/ 2 * bpow2 (- fW fo))) at 2. apply Rmult_le_compat_r; [pose proof (bpow2_pos (- fW fo)); lra|]. rewrite bpow2_opp, bpow2_IZR by lia. assert (P : 0 < IZR (2 ^ cd_log N)) by (apply (IZR_lt 0), pow2_pos; lia).
  apply (Rmult_le_reg_r (IZR (2 ^ cd_log N))); [exact P|]. rewrite Rmult_assoc, Rinv_l by lra. rewrite INR_IZR_INZ, Hn, Rmult_1_r, Rmult_1_l. apply IZR_le. lia.
Qed.
Lemma angle_err phi acc : Rabs (tr - acc) <= rem n icw 0 + INR n * slack icw -> Rabs (phi - PI * acc) <= aerr icw n -> Rabs (phi - PI * tr) <= 7 * bpow2 (- fW fo) + bpow2 (-50).
Proof.
  intros H1 H2. destruct n_val as [En Hn]. pose proof icw_ok as Hi. pose proof (aerr_bound n icw Hn n (le_n n)) as AB. cbn [rem] in H1. destruct (d_near n icw Hn Hi (n - 1) ltac:(lia)) as (D0 & D1 & _). set (d := fxval (dmant icw (n - 1)) icw) in *.
  pose proof (angle_near (n - 1) ltac:(lia)) as AN. pose proof PI_4 as P4. pose proof PI_RGT_0 as P0. assert (PW : / 2 ^ (n - 1) = bpow2 (- fW fo)). { rewrite bpow2_opp, bpow2_IZR by lia. f_equal. replace (fW fo) with (Z.of_nat (n - 1)) by (unfold n, N; lia). rewrite <- pow_IZR. reflexivity. }
  assert (PD : PI * d <= bpow2 (- fW fo) + bpow2 (-53) + bpow2 (-70)).
  { apply Rle_trans with (PI * angle (n - 1)); [apply Rmult_le_compat_l; lra|]. pose proof (atan_le (/ 2 ^ (n - 1))) as AL. rewrite PW in *. specialize (AL ltac:(pose proof (bpow2_pos (- fW fo)); lra)). assert (bpow2 (- (52 + Z.of_nat (n - 1))) <= bpow2 (-53)) by (apply bpow2_le; lia). apply Rabs_le_both in AN. lra. }
  pose proof n_h_le as NH. assert (NL : INR n <= 69) by (rewrite INR_IZR_INZ; apply IZR_le; lia). pose proof (pos_INR n) as N0. unfold slack in H1. set (h := bpow2 (- icw)) in *. assert (h0 : 0 < h) by apply bpow2_pos.
  assert (E70 : bpow2 (-70) = 2 * bpow2 (- (71))) by (rewrite <- bpow2_1, <- bpow2_add; reflexivity). assert (E53 : bpow2 (-53) = 262144 * bpow2 (- (71))) by (replace 262144 with (bpow2 18) by (rewrite bpow2_IZR by lia; reflexivity); rewrite <- bpow2_add; reflexivity).
  assert (E51 : bpow2 (-51) = 1048576 * bpow2 (- (71))) by (replace 1048576 with (bpow2 20) by (rewrite bpow2_IZR by lia; reflexivity); rewrite <- bpow2_add; reflexivity). assert (E50 : bpow2 (-50) = 2097152 * bpow2 (- (71))) by (replace 2097152 with (bpow2 21) by (rewrite bpow2_IZR by lia; reflexivity); rewrite <- bpow2_add; reflexivity).
  rewrite E70, E53, E51, E50 in *. assert (Z0 : 0 < bpow2 (- (71))) by apply bpow2_pos. set (z := bpow2 (- (71))) in *. pose proof (bpow2_pos (- (51 + Z.of_nat n))).
  assert (T1 : Rabs (PI * (tr - acc)) <= PI * d + 4 * (INR n * (2 * h + z))).
  { rewrite Rabs_mult, (Rabs_pos_eq PI) by lra. apply Rle_trans with (PI * (d + INR n * (2 * h + z))); [apply Rmult_le_compat_l; [lra|exact H1]|]. rewrite Rmult_plus_distr_l. apply Rplus_le_compat_l. apply Rmult_le_compat_r; [apply Rmult_le_pos; lra|exact P4]. }
  assert (NZ : INR n * z <= 69 * z) by (apply Rmult_le_compat_r; lra). replace (phi - PI * tr) with ((phi - PI * acc) - PI * (tr - acc)) by ring. apply Rabs_le_both in H2, T1. apply Rabs_le. lra.
Qed.

Lemma comp_err S X phi : (X = sin \/ X = cos) -> (S - kxR * G * X phi) * (S - kxR * G * X phi) <= EN * EN -> Rabs (phi - PI * tr) <= 7 * bpow2 (- fW fo) + bpow2 (-50) ->
  Rabs (S - cR * X (PI * ar)) <= cordic_err fo cR.
Proof.
  intros HX HS HP. destruct tt_R as ((z & ->) & _). destruct (sin_per tr z) as [P1 P2]. assert (PX : X (PI * (tr + 2 * IZR z)) = X (PI * tr)) by (destruct HX as [-> | ->]; assumption). rewrite PX.
  assert (LX : Rabs (X phi - X (PI * tr)) <= Rabs (phi - PI * tr)) by (destruct HX as [-> | ->]; [apply sin_lip|apply cos_lip]). assert (BX : -1 <= X (PI * tr) <= 1) by (destruct HX as [-> | ->]; [apply SIN_bound|apply COS_bound]).
  pose proof en_bound as EB. destruct uq_n as [U1 U2]. destruct uq as [UE Q0]. destruct kxg as [K1 K2]. destruct n_val as [_ Hn]. assert (N2 : 2 <= INR n) by (apply (le_INR 2); lia).
  destruct g_val as (_ & G0 & _). fold G in G0. assert (EN0 : 0 <= EN) by (unfold EN; pose proof (pos_INR (n - 1)); apply Rmult_le_pos; [apply Rmult_le_pos; lra|assumption]).
  assert (S1 : Rabs (S - kxR * G * X phi) <= EN) by (apply Rabs_le; split; [|apply sq_le; assumption]; assert (- (S - kxR * G * X phi) <= EN) by (apply sq_le; [assumption|nra]); lra).
  set (dl := 7 * bpow2 (- fW fo) + bpow2 (-50)) in *. assert (W0 : 0 < bpow2 (- fW fo) <= / 2) by (split; [apply bpow2_pos|]; rewrite <- bpow2_1, <- bpow2_opp; apply bpow2_le; lia).
  assert (DL : 0 < dl <= 36 / 10). { unfold dl. assert (bpow2 (-50) <= / 16) by (apply Rle_trans with (bpow2 (- (4))); [apply bpow2_le; lia|rewrite bpow2_opp, bpow2_IZR by lia; change (2 ^ 4)%Z with 16%Z; lra]). pose proof (bpow2_pos (-50)). lra. }
  assert (S2 : Rabs (kxR * G * (X phi - X (PI * tr))) <= (Rabs cR * (1 + bpow2 (-51)) + 16469 / 10000 * q) * dl).
  { rewrite Rabs_mult, Rabs_mult, (Rabs_pos_eq G) by lra. apply Rmult_le_compat; try lra; [|apply Rabs_pos]. apply Rmult_le_pos; [apply Rabs_pos|lra]. }
  assert (S3 : Rabs ((kxR * G - cR) * X (PI * tr)) <= (16469 / 10000 * (q * (1 + Rabs cR)) + Rabs cR * bpow2 (-51)) * 1) by (rewrite Rabs_mult; apply Rmult_le_compat; try apply Rabs_pos; [exact K2|apply Rabs_le; exact BX]).
  replace (S - cR * X (PI * tr)) with ((S - kxR * G * X phi) + (kxR * G * (X phi - X (PI * tr)) + (kxR * G - cR) * X (PI * tr))) by ring. eapply Rle_trans; [apply Rabs_triang|]. eapply Rle_trans; [apply Rplus_le_compat_l, Rabs_triang|].
  apply Rle_trans with (1474 / 1000 * (INR n - 1) * q + ((Rabs cR * (1 + bpow2 (-51)) + 16469 / 10000 * q) * dl + (16469 / 10000 * (q * (1 + Rabs cR)) + Rabs cR * bpow2 (-51)) * 1)); [lra|].
  unfold cordic_err. fold u. pose proof (Rabs_pos cR) as C0. set (c := Rabs cR) in *. clearbody c.
  assert (T1 : 1474 / 1000 * (INR n - 1) * q + 16469 / 10000 * q * dl + 16469 / 10000 * q <= 9 / 10 * u).
  { assert (16469 / 10000 * q * dl <= 16469 / 10000 * q * (36 / 10)) by (apply Rmult_le_compat_l; lra). rewrite UE. destruct log_val as [L1 L2]. unfold cd_log in *.
    assert (NI : INR n = IZR N) by (rewrite INR_IZR_INZ; f_equal; apply n_val). rewrite NI.
    destruct (Z.ltb_spec N 16) as [B|_]; [|destruct (Z.ltb_spec N 32) as [B|_]; [|destruct (Z.ltb_spec N 64) as [B|_]]].
    - assert (IZR N <= 15) by (apply IZR_le; lia). change (2 ^ 4)%Z with 16%Z. nra.
    - assert (IZR N <= 31) by (apply IZR_le; lia). change (2 ^ 5)%Z with 32%Z. nra.
    - assert (IZR N <= 63) by (apply IZR_le; lia). change (2 ^ 6)%Z with 64%Z. nra.
    - assert (IZR N <= 69) by (apply IZR_le; unfold N; lia). change (2 ^ 7)%Z with 128%Z. nra. }
  assert (T2 : 16469 / 10000 * (q * c) <= c / 16 * u) by (replace (16469 / 10000 * (q * c)) with (c * (16469 / 10000 * q)) by ring; replace (c / 16 * u) with (c * (u / 16)) by field; apply Rmult_le_compat_l; lra).
  assert (T3 : c * ((1 + bpow2 (-51)) * dl + bpow2 (-51)) <= c * (7 * bpow2 (- fW fo) + bpow2 (-48))).
  { apply Rmult_le_compat_l; [exact C0|]. unfold dl in *. assert (E50 : bpow2 (-50) = 2 * bpow2 (-51)) by (rewrite <- bpow2_1, <- bpow2_add; reflexivity). assert (E48 : bpow2 (-48) = 8 * bpow2 (-51)) by (replace 8 with (bpow2 3) by (rewrite bpow2_IZR by lia; reflexivity); rewrite <- bpow2_add; reflexivity).
    rewrite E50, E48 in *. set (e := bpow2 (-51)) in *. assert (0 < e) by apply bpow2_pos. assert (e * (7 * bpow2 (- fW fo) + 2 * e) <= e * (36 / 10)) by (apply Rmult_le_compat_l; lra). nra. }
  nra.
Qed.

Lemma sincos_near : exists S X, convertsR fo S (fst (sincos_cordic AW AI fo a C)) /\ convertsR fo X (snd (sincos_cordic AW AI fo a C)) /\
  Rabs (S - cR * sin (PI * ar)) <= cordic_err fo cR /\ Rabs (X - cR * cos (PI * ar)) <= cordic_err fo cR.
Proof.
  destruct n_val as [En Hn]. pose proof icw_ok as Hi. destruct tt_R as [_ T].
  pose proof (loop_ok n (fI fo) icw (AW - AI) tt kxR Hn Hi T room_ok st0 start_ok) as L.
  unfold sincos_cordic. fold N. fold n. fold icw. fold fx. fold k. fold kx. fold tt. fold st0. destruct (fold_left (cd_step icw fx (AW - AI) tt) (seq 0 n) st0) as [[x y] acc] eqn:EF.
  change (dfmt icw (fI fo) true) with fx in L. rewrite EF in L. destruct L as (phi & L1 & L2 & L3). rewrite Nat.sub_diag in L1. change (dfmt icw (fI fo) true) with fx in L3. fold tr in L1. pose proof (angle_err phi _ L1 L2) as AE.
  cbn [fst snd]. exists (fxval y (fF fx)), (fxval x (fF fx)). change (sqrt (gain2 n)) with G in L3. change (bpow2 (- fF fx)) with q in L3. fold EN in L3.
  pose proof (Rle_0_sqr (fxval x (fF fx) - kxR * G * cos phi)) as X2. pose proof (Rle_0_sqr (fxval y (fF fx) - kxR * G * sin phi)) as Y2. unfold Rsqr in X2, Y2.
  split; [apply conv_R; lia|]. split; [apply conv_R; lia|]. split; [apply (comp_err _ sin phi); [left; reflexivity|lra|exact AE]|apply (comp_err _ cos phi); [right; reflexivity|lra|exact AE]].
Qed.
End Thm.

(** ** Sine and cosine *)
Lemma one_val fo : (2 <= fI fo)%Z -> (0 <= fF fo)%Z -> fS fo = true -> fO fo <> SAT_SYM -> conv fo 1 0 = (2 ^ fF fo)%Z.
Proof.
  intros HI HF HS HO. assert (fW fo = fI fo + fF fo)%Z by (unfold fF; lia). apply conv_exact; [lia|exact HO|rewrite fxval_one by exact HF; unfold fxval; change (- 0)%Z with 0%Z; rewrite bpow2_0; ring|]. unfold in_range, imin, imax. rewrite HS. assert (2 * 2 ^ fF fo <= 2 ^ (fW fo - 1))%Z.
  { change 2%Z with (2 ^ 1)%Z at 1. rewrite <- Z.pow_add_r by lia. apply Z.pow_le_mono_r; lia. } pose proof (pow2_pos (fF fo) HF). lia.
Qed.
Lemma sincos_one AW AI fo a : (AI <= AW)%Z -> (2 <= fI fo)%Z -> (3 <= fF fo <= 46)%Z -> (fW fo <= 68)%Z -> fS fo = true -> fO fo <> SAT_SYM ->
  Rabs (fxval (sin_cordic AW AI fo a) (fF fo) - sin (PI * fxval a (AW - AI))) <= 4 * bpow2 (- fF fo) /\
  Rabs (fxval (cos_cordic AW AI fo a) (fF fo) - cos (PI * fxval a (AW - AI))) <= 4 * bpow2 (- fF fo).
Proof.
  intros HA HI HF HW HS HO. unfold sin_cordic, cos_cordic. rewrite (one_val fo HI ltac:(lia) HS HO). assert (WE : (fW fo = fI fo + fF fo)%Z) by (unfold fF; lia). set (u := bpow2 (- fF fo)). assert (E1 : fxval (2 ^ fF fo) (fF fo) = 1) by (apply fxval_one; lia).
  assert (U8 : 0 < u <= / 8) by (split; [apply bpow2_pos|]; apply Rle_trans with (bpow2 (- (3))); [apply bpow2_le; lia|rewrite bpow2_opp, bpow2_IZR by lia; change (2 ^ 3)%Z with 8%Z; lra]).
  assert (B2 : 2 <= bpow2 (fI fo - 1)) by (rewrite <- bpow2_1; apply bpow2_le; lia). assert (E51 : 0 < bpow2 (-51) <= / 8) by (split; [apply bpow2_pos|]; apply Rle_trans with (bpow2 (- (3))); [apply bpow2_le; lia|rewrite bpow2_opp, bpow2_IZR by lia; change (2 ^ 3)%Z with 8%Z; lra]).
  destruct (sincos_near AW AI fo a (2 ^ fF fo) HA ltac:(lia) ltac:(lia)) as (S & X & CS & CX & BS & BX). { rewrite E1, Rabs_pos_eq by lra. fold u. lra. }
  rewrite E1, !Rmult_1_l in *. assert (EB : cordic_err fo 1 <= 3 * u).
  { unfold cordic_err. fold u. rewrite Rabs_pos_eq by lra. assert (7 * bpow2 (- fW fo) <= 7 / 4 * u) by (replace (bpow2 (- fW fo)) with (u * bpow2 (- fI fo)) by (unfold u; rewrite <- bpow2_add; f_equal; lia); assert (bpow2 (- fI fo) <= / 4) by (apply Rle_trans with (bpow2 (- (2))); [apply bpow2_le; lia|rewrite bpow2_opp, bpow2_IZR by lia; change (2 ^ 2)%Z with 4%Z; lra]); nra).
    assert (bpow2 (-48) <= u / 4) by (replace (bpow2 (-48)) with (bpow2 (-46) * / 4) by (replace 4 with (bpow2 2) by (rewrite bpow2_IZR by lia; reflexivity); rewrite <- bpow2_opp, <- bpow2_add; reflexivity); assert (bpow2 (-46) <= u) by (apply bpow2_le; lia); lra). lra. }
  assert (K : forall V Z m, convertsR fo V m -> -1 <= Z <= 1 -> Rabs (V - Z) <= cordic_err fo 1 -> Rabs (fxval m (fF fo) - Z) <= 4 * u).
  { intros V Z m CV HZ HV. destruct (convR_near fo V m ltac:(lia) HO CV) as [_ N].
    - unfold imin, imax. rewrite HS, opp_IZR, minus_IZR, <- bpow2_IZR by lia. replace (bpow2 (fW fo - 1)) with (bpow2 (fI fo - 1) * bpow2 (fF fo)) by (rewrite <- bpow2_add; f_equal; lia). assert (UF : bpow2 (fF fo) * u = 1) by (unfold u; rewrite <- bpow2_add; replace (fF fo + - fF fo)%Z with 0%Z by lia; apply bpow2_0).
      pose proof (bpow2_pos (fF fo)) as P. apply Rabs_le_both in HV. set (p := bpow2 (fF fo)) in *. clearbody p. assert (-2 <= V <= 2 - u) by lra. split; [|replace 1 with (p * u) by exact UF]; nra.
    - fold u in N. apply Rabs_le_both in N, HV. apply Rabs_le. lra. }
  split; [apply (K S); [exact CS|apply SIN_bound|exact BS]|apply (K X); [exact CX|apply COS_bound|exact BX]].
Qed.

(** ** Periodicity *)
Lemma sincos_period AW AI AW' AI' fo a a' C : (AI <= AW)%Z -> (AW - AI = AW' - AI')%Z -> ((a - a') mod (2 ^ (AW - AI + 1)) = 0)%Z -> sincos_cordic AW AI fo a C = sincos_cordic AW' AI' fo a' C.
Proof.
  intros HA HE HM. assert (ET : conv (dfmt (AW - (AI - 1)) 1 true) a (AW - AI) = conv (dfmt (AW' - (AI' - 1)) 1 true) a' (AW' - AI')).
  { replace (AW' - (AI' - 1))%Z with (AW - (AI - 1))%Z by lia. rewrite <- HE. set (m := (AW - (AI - 1))%Z). replace (AW - AI)%Z with (m - 1)%Z by (unfold m; lia). rewrite !target_mod by (unfold m; lia). f_equal. replace (AW - AI + 1)%Z with m in HM by (unfold m; lia).
    assert (P : (0 < 2 ^ m)%Z) by (apply pow2_pos; unfold m; lia). replace (a + 2 ^ (m - 1))%Z with ((a' + 2 ^ (m - 1)) + (a - a'))%Z by ring. rewrite Z.add_mod, HM, Z.add_0_r, Z.mod_mod by lia. reflexivity. }
  unfold sincos_cordic. rewrite ET, HE. reflexivity.
Qed.

(** ** Wide outputs *)
Lemma sincos_wide AW AI fo a C : (69 <= fW fo)%Z -> sincos_cordic AW AI fo a C = (0, 0)%Z.
Proof.
  intros HW. unfold sincos_cordic. set (N := (fW fo + 1)%Z). set (icw := cd_icw N). assert (HI : (1 <= icw)%Z) by (unfold icw, cd_icw, cd_log, N; destruct (Z.ltb_spec (fW fo + 1) 16); [lia|]; destruct (Z.ltb_spec (fW fo + 1) 32); [lia|]; destruct (Z.ltb_spec (fW fo + 1) 64); lia).
  set (fx := dfmt icw (fI fo) true). assert (FW : (1 <= fW fx)%Z) by exact HI. assert (K0 : k_val (Z.to_nat N) = 0%Z) by (unfold k_val; destruct (Nat.leb_spec 70 (Z.to_nat N)); [reflexivity|unfold N in *; lia]). rewrite K0. rewrite (AbsProofs.conv_0 fx 71) by exact FW. rewrite Z.mul_0_r.
  rewrite (AbsProofs.conv_0 fx (fF fo + fF fx)) by exact FW. change (- 0)%Z with 0%Z. rewrite (AbsProofs.conv_0 fx (fF fx)) by exact FW. set (tt := conv _ a _). set (st := if fx_ltb 1 1 tt (AW - AI) then _ else _).
  assert (S0 : forall l s, fst (fst s) = 0%Z /\ snd (fst s) = 0%Z -> let r := fold_left (cd_step icw fx (AW - AI) tt) l s in fst (fst r) = 0%Z /\ snd (fst r) = 0%Z).
  { induction l as [|i l IH]; intros s Hs; [exact Hs|]. cbn [fold_left]. apply IH. destruct s as [[x y] acc]. cbn [fst snd] in Hs. destruct Hs as [-> ->]. unfold cd_step. rewrite Z.shiftr_0_l. cbv zeta. change (0 + 0)%Z with 0%Z. change (0 - 0)%Z with 0%Z. rewrite (AbsProofs.conv_0 fx (fF fx)) by exact FW. destruct (fx_ltb tt (AW - AI) acc icw); split; reflexivity. }
  specialize (S0 (seq 0 (Z.to_nat N)) st). destruct (fold_left (cd_step icw fx (AW - AI) tt) (seq 0 (Z.to_nat N)) st) as [[x y] acc]. cbv zeta in S0. cbn [fst snd] in S0. destruct S0 as [-> ->].
  - unfold st. destruct (fx_ltb 1 1 tt (AW - AI)); [split; reflexivity|]. destruct (fx_ltb tt (AW - AI) (-1) 1); split; reflexivity.
  - rewrite AbsProofs.conv_0 by lia. reflexivity.
Qed.
Lemma fx_half : fxval 1 1 = / 2.
Proof. unfold fxval. rewrite bpow2_opp, bpow2_1. ring. Qed.
Lemma cordic_wide_false : ~ (forall AW AI fo a, (AI <= AW)%Z -> (1 <= fW fo)%Z -> (2 <= fI fo)%Z -> (3 <= fF fo)%Z -> fS fo = true -> in_range true AW a ->
  Rabs (fxval (sin_cordic AW AI fo a) (fF fo) - sin (PI * fxval a (AW - AI))) <= / 2).
Proof.
  intros H. specialize (H 2%Z 1%Z (dfmt 69 2 true) 1%Z ltac:(lia) ltac:(cbv; discriminate) ltac:(cbv; discriminate) ltac:(cbv; discriminate) eq_refl ltac:(cbv; split; discriminate)).
  unfold sin_cordic in H. rewrite sincos_wide in H by (cbv; discriminate). cbn [fst] in H. rewrite fxval_0 in H. change (2 - 1)%Z with 1%Z in H. rewrite fx_half in H. replace (PI * / 2) with (PI / 2) in H by field. rewrite sin_PI2 in H. apply Rabs_le_both in H. lra.
Qed.
(** The error grows with the scale: more than 30 units in the last place. *)
Lemma cordic_scale_false : ~ (forall AW AI fo a C, (AI <= AW)%Z -> (1 <= fW fo <= 68)%Z -> (1 <= fI fo)%Z -> fS fo = true -> in_range true AW a -> in_range true (fW fo) C -> 0 <= fxval C (fF fo) ->
  Rabs (fxval (fst (sincos_cordic AW AI fo a C)) (fF fo) - fxval C (fF fo) * sin (PI * fxval a (AW - AI))) <= 30 * bpow2 (- fF fo)).
Proof.
  intros H. specialize (H 2%Z 1%Z (dfmt 24 12 true) 1%Z (2 ^ 23 - 1)%Z ltac:(lia) ltac:(cbv; split; discriminate) ltac:(cbv; discriminate) eq_refl ltac:(cbv; split; discriminate) ltac:(cbv; split; discriminate)).
  assert (E : fst (sincos_cordic 2 1 (dfmt 24 12 true) 1 (2 ^ 23 - 1)) = 8388569%Z) by (vm_compute; reflexivity). rewrite E in H. change (fF (dfmt 24 12 true)) with 12%Z in H. change (2 ^ 23 - 1)%Z with 8388607%Z in H. change (2 - 1)%Z with 1%Z in H. rewrite fx_half in H. replace (PI * / 2) with (PI / 2) in H by field. rewrite sin_PI2 in H. unfold fxval in H. pose proof (bpow2_pos (- (12))) as P.
  specialize (H ltac:(nra)). apply Rabs_le_both in H. nra.
Qed.
(** The most negative scale overflows: the cosine of 0 comes out with the wrong sign. *)
Lemma cordic_min_false : ~ (forall AW AI fo a C, (AI <= AW)%Z -> (1 <= fW fo <= 68)%Z -> (1 <= fI fo)%Z -> fS fo = true -> in_range true AW a -> in_range true (fW fo) C ->
  Rabs (fxval (snd (sincos_cordic AW AI fo a C)) (fF fo) - fxval C (fF fo) * cos (PI * fxval a (AW - AI))) <= 1).
Proof.
  intros H. specialize (H 2%Z 1%Z (dfmt 10 1 true) 0%Z (-512)%Z ltac:(lia) ltac:(cbv; split; discriminate) ltac:(cbv; discriminate) eq_refl ltac:(cbv; split; discriminate) ltac:(cbv; split; discriminate)).
  assert (E : snd (sincos_cordic 2 1 (dfmt 10 1 true) 0 (-512)) = 511%Z) by (vm_compute; reflexivity). rewrite E, fxval_0, Rmult_0_r, cos_0 in H. change (fF (dfmt 10 1 true)) with 9%Z in H. unfold fxval in H. assert (P : bpow2 (- (9)) = / 512) by (rewrite bpow2_opp, bpow2_IZR by lia; reflexivity). rewrite P in H. apply Rabs_le_both in H. lra.
Qed.
(** With one integer bit the scale 1.0 wraps to -1 and the sine has the wrong sign; with none K wraps. *)
Lemma cordic_one_int_false : ~ (forall AW AI fo a, (AI <= AW)%Z -> (1 <= fW fo <= 68)%Z -> (1 <= fI fo)%Z -> fS fo = true -> in_range true AW a ->
  Rabs (fxval (sin_cordic AW AI fo a) (fF fo) - sin (PI * fxval a (AW - AI))) <= / 2).
Proof.
  intros H. specialize (H 8%Z 2%Z (dfmt 16 1 true) 16%Z ltac:(lia) ltac:(cbv; split; discriminate) ltac:(cbv; discriminate) eq_refl ltac:(cbv; split; discriminate)).
  assert (E : sin_cordic 8 2 (dfmt 16 1 true) 16 = (-23171)%Z) by (vm_compute; reflexivity). rewrite E in H. change (fF (dfmt 16 1 true)) with 15%Z in H. assert (P : bpow2 (- (15)) = / 32768) by (rewrite bpow2_opp, bpow2_IZR by lia; reflexivity). assert (P6 : bpow2 (- (6)) = / 64) by (rewrite bpow2_opp, bpow2_IZR by lia; reflexivity). unfold fxval in H. change (8 - 2)%Z with 6%Z in H. rewrite P, P6 in H.
  replace (PI * (16 * / 64)) with (PI / 4) in H by field. assert (0 < sin (PI / 4)) by (pose proof PI_RGT_0; apply sin_gt_0; lra). apply Rabs_le_both in H. lra.
Qed.
Lemma cordic_no_int_false : ~ (forall AW AI fo a C, (AI <= AW)%Z -> (1 <= fW fo <= 68)%Z -> fS fo = true -> in_range true AW a -> in_range true (fW fo) C -> Rabs (fxval C (fF fo)) <= bpow2 (fI fo - 2) ->
  Rabs (fxval (snd (sincos_cordic AW AI fo a C)) (fF fo) - fxval C (fF fo) * cos (PI * fxval a (AW - AI))) <= Rabs (fxval C (fF fo))).
Proof.
  intros H. specialize (H 2%Z 1%Z (dfmt 16 0 true) 0%Z (2 ^ 14)%Z ltac:(lia) ltac:(cbv; split; discriminate) eq_refl ltac:(cbv; split; discriminate) ltac:(cbv; split; discriminate)).
  assert (E : snd (sincos_cordic 2 1 (dfmt 16 0 true) 0 (2 ^ 14)) = (-10597)%Z) by (vm_compute; reflexivity). rewrite E, fxval_0, Rmult_0_r, cos_0 in H. change (fF (dfmt 16 0 true)) with 16%Z in H. change (2 ^ 14)%Z with 16384%Z in H. unfold fxval in H. assert (P : bpow2 (- (16)) = / 65536) by (rewrite bpow2_opp, bpow2_IZR by lia; reflexivity). assert (P2 : bpow2 (fI (dfmt 16 0 true) - 2) = / 4) by (change (fI (dfmt 16 0 true) - 2)%Z with (- (2))%Z; rewrite bpow2_opp, bpow2_IZR by lia; reflexivity). rewrite P, P2 in H.
  rewrite Rabs_pos_eq in H by lra. specialize (H ltac:(lra)). apply Rabs_le_both in H. lra.
Qed.
