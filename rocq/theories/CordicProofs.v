(** The CORDIC iteration: the angle and the vector stay within their error bounds. *)
From Coq Require Import Reals Lia Lra Psatz.
From Verif Require Import AcTypes AcFacts Spec SpecFacts SpecR SpecRFacts SpecLin SoftFacts CholReal CholThm QrdThm CordicModel CordicNum.
Local Open Scope R_scope.

Lemma fx_ltb_R a fa b fb : fx_ltb a fa b fb = true <-> fxval a fa < fxval b fb.
Proof.
  unfold fx_ltb. cbv zeta. set (F := Z.max fa fb). rewrite Z.ltb_lt. rewrite (fxval_lt _ _ F). rewrite <- (fxval_shift a fa (F - fa)), <- (fxval_shift b fb (F - fb)) by lia.
  replace (fa + (F - fa))%Z with F by lia. replace (fb + (F - fb))%Z with F by lia. reflexivity.
Qed.
Lemma norm_tri a b p r E Q : 0 <= E -> 0 <= Q -> a * a + b * b <= E * E -> p * p + r * r <= Q * Q -> (a + p) * (a + p) + (b + r) * (b + r) <= (E + Q) * (E + Q).
Proof.
  intros HE HQ H1 H2. assert (C : a * p + b * r <= E * Q).
  { apply Rnot_lt_le. intros X. assert (P : 0 <= E * Q) by (apply Rmult_le_pos; assumption). assert (S : (a * p + b * r) * (a * p + b * r) <= (E * E) * (Q * Q)).
    - apply Rle_trans with ((a * a + b * b) * (p * p + r * r)); [|apply Rmult_le_compat; try assumption; nra]. pose proof (Rle_0_sqr (a * r - b * p)) as Z. unfold Rsqr in Z. nra.
    - nra. }
  nra.
Qed.
Lemma rot_norm a b s : (a - s * b) * (a - s * b) + (b + s * a) * (b + s * a) = (1 + s * s) * (a * a + b * b).
Proof. ring. Qed.
Lemma sq_le a b : 0 <= b -> a * a <= b * b -> a <= b.
Proof. intros Hb H. apply Rnot_lt_le. intros X. nra. Qed.
(** A vector within E of one of length A has components up to A + E. *)
Lemma comp_bound x A c E : 0 <= E -> -1 <= c <= 1 -> (x - A * c) * (x - A * c) <= E * E -> Rabs x <= Rabs A + E.
Proof.
  intros HE Hc H. assert (x - A * c <= E) by (apply sq_le; assumption). assert (- (x - A * c) <= E) by (apply sq_le; [assumption|nra]). assert (B : Rabs (A * c) <= Rabs A * 1) by (rewrite Rabs_mult; apply Rmult_le_compat_l; [apply Rabs_pos|apply Rabs_le; lra]).
  apply Rabs_le_both in B. apply Rabs_le. lra.
Qed.

Lemma gain_S i : sqrt (gain2 (S i)) = sqrt (gain2 i) * sqrt (1 + / 4 ^ i).
Proof. cbn [gain2]. apply sqrt_mult; [pose proof (gain2_ge i); lra|]. pose proof (Rinv_0_lt_compat _ (pow_lt 4 i ltac:(lra))). lra. Qed.
Lemma gain_mono i j : (i <= j)%nat -> gain2 i <= gain2 j.
Proof.
  induction 1 as [|j H IH]; [lra|]. cbn [gain2]. pose proof (gain2_ge j). pose proof (Rinv_0_lt_compat _ (pow_lt 4 j ltac:(lra))). nra.
Qed.
Lemma sgain_mono i j : (i <= j)%nat -> sqrt (gain2 i) <= sqrt (gain2 j).
Proof. intros H. apply sqrt_le_1_alt, gain_mono, H. Qed.
Lemma sgain_pos i : 1 <= sqrt (gain2 i).
Proof. rewrite <- sqrt_1. apply sqrt_le_1_alt, gain2_ge. Qed.
Lemma four_pow i : / 4 ^ i = / 2 ^ i * / 2 ^ i.
Proof. rewrite <- Rinv_mult, <- Rpow_mult_distr. replace (2 * 2) with 4 by ring. reflexivity. Qed.

(** One exact rotation. *)
Lemma rot_cs (sg : R) i phi : sg = 1 \/ sg = -1 -> let s := / 2 ^ i in let w := sqrt (1 + / 4 ^ i) in
  w * cos (phi + sg * atan s) = cos phi - sg * s * sin phi /\ w * sin (phi + sg * atan s) = sin phi + sg * s * cos phi.
Proof.
  intros Hs s w. assert (W : w = sqrt (1 + s²)) by (unfold w, s, Rsqr; rewrite four_pow; reflexivity). pose proof (cos_atan s) as C. pose proof (sin_atan s) as S. rewrite <- W in C, S.
  assert (W0 : 0 < w). { unfold w. apply sqrt_lt_R0. pose proof (Rinv_0_lt_compat _ (pow_lt 4 i ltac:(lra))). lra. }
  assert (CS : cos (sg * atan s) = 1 / w /\ sin (sg * atan s) = sg * (s / w)).
  { destruct Hs as [-> | ->]; [rewrite !Rmult_1_l; split; assumption|]. replace (-1 * atan s) with (- atan s) by ring. rewrite cos_neg, sin_neg, C, S. split; ring. }
  destruct CS as [C1 S1]. rewrite cos_plus, sin_plus, C1, S1. split; field; lra.
Qed.

Section Core.
Variables (N : nat) (OI icw AF t : Z) (kx : R).
Hypotheses (HN : (2 <= N <= 69)%nat) (Hicw : (Z.of_nat N + 4 <= icw)%Z).
Let fx := dfmt icw OI true.
Let q := bpow2 (- fF fx).
Let h := bpow2 (- icw).
Let tr := fxval t AF.
Let G i := sqrt (gain2 i).
Let c := 895 / 1000 * q.
Definition dmant (icw : Z) (i : nat) : Z := conv (dfmt (icw + 1) 1 true) (atan_pi_2mi i) 71.
Let dR i := fxval (dmant icw i) icw.
Definition slack : R := 2 * h + bpow2 (- (71)).

Lemma h_pos : 0 < h. Proof. apply bpow2_pos. Qed.
Lemma q_pos : 0 < q. Proof. apply bpow2_pos. Qed.
Lemma d_near i : (i < 70)%nat -> 0 <= dR i /\ dR i <= angle i < dR i + h.
Proof.
  intros Hi. pose proof (angle_small i Hi) as A. pose proof (conv_R (dfmt (icw + 1) 1 true) (atan_pi_2mi i) 71 ltac:(unfold dfmt; cbn [fW]; lia)) as C.
  assert (E : atan_pi_2mi i = nth i atan_tab 0%Z) by (unfold atan_pi_2mi; destruct (Nat.leb_spec 70 i); [lia|reflexivity]). assert (EA : fxval (atan_pi_2mi i) 71 = angle i) by (rewrite E; reflexivity). rewrite EA in C.
  assert (FE : fF (dfmt (icw + 1) 1 true) = icw) by (unfold fF, dfmt; cbn [fW fI]; lia).
  destruct (convR_trn (dfmt (icw + 1) 1 true) _ _ ltac:(unfold dfmt; cbn [fW]; lia) eq_refl eq_refl C) as [_ T].
  { rewrite FE. unfold imin, imax, dfmt. cbn [fS fW]. replace (icw + 1 - 1)%Z with icw by lia. replace (2 ^ icw - 1 + 1)%Z with (2 ^ icw)%Z by lia. rewrite opp_IZR, <- bpow2_IZR by lia. pose proof (bpow2_pos icw). nra. }
  rewrite FE in T. fold h in T. unfold dmant in dR. subst dR. cbv beta. unfold dmant. split; [|exact T]. set (m := conv _ _ _) in *.
  assert (0 <= m)%Z; [|rewrite <- (fxval_0 icw); apply fxval_le; assumption]. assert (fxval (-1) icw < fxval m icw) as L by (unfold fxval at 1; unfold h in T; lra). apply fxval_lt in L. lia.
Qed.
Lemma d_half i : (S i < N)%nat -> dR i <= 2 * dR (S i) + slack.
Proof. intros H. destruct (d_near i ltac:(lia)) as (_ & A). destruct (d_near (S i) ltac:(lia)) as (_ & B). destruct (angle_ratio i ltac:(lia)) as (_ & R). unfold slack. lra. Qed.

(** What is left of the angles when n steps remain. *)
Fixpoint rem (n : nat) : R := match n with O => dR (N - 1) | S n' => dR (N - S n') + rem n' end.
Lemma d_le_rem n : (S n <= N)%nat -> dR (N - S n) <= rem n + INR n * slack.
Proof.
  pose proof h_pos as H0. pose proof (bpow2_pos (- (71))) as H1. induction n as [|n IH]; intros H; cbn [rem]; [cbn [INR]; lra|]. specialize (IH ltac:(lia)). pose proof (d_half (N - S (S n)) ltac:(lia)) as D. replace (S (N - S (S n))) with (N - S n)%nat in D by lia. rewrite S_INR. lra.
Qed.
Lemma rem_bound n : (n <= N)%nat -> rem n <= 5 / 2 * angle (N - n) + 3 / 20 /\ 0 <= rem n.
Proof.
  assert (L : 0 <= dR (N - 1) <= 3 / 20).
  { destruct (d_near (N - 1) ltac:(lia)) as (A & B). replace (N - 1)%nat with (S (N - 2)) in * by lia. destruct (angle_ratio (N - 2) ltac:(lia)) as (C & _). pose proof (angle_small (N - 2) ltac:(lia)). lra. }
  induction n as [|n IH]; intros H; cbn [rem].
  - pose proof (angle_small (N - 0) ltac:(lia)). lra.
  - specialize (IH ltac:(lia)). destruct (d_near (N - S n) ltac:(lia)) as (A & B). destruct (Nat.eq_dec n 0) as [->|Hn].
    + cbn [rem] in *. pose proof (angle_small (N - 1) ltac:(lia)). lra.
    + destruct (angle_ratio (N - S n) ltac:(lia)) as (C & _). replace (S (N - S n)) with (N - n)%nat in C by lia. lra.
Qed.
Lemma n_h : INR N * h <= bpow2 (- 4) * bpow2 (- Z.of_nat N) * INR N.
Proof. rewrite Rmult_comm. apply Rmult_le_compat_r; [apply pos_INR|]. unfold h. rewrite <- bpow2_add. apply bpow2_le. lia. Qed.
Lemma pow_ge_n n : INR n * bpow2 (- Z.of_nat n) <= 1 / 2.
Proof.
  rewrite bpow2_opp, bpow2_IZR by lia. rewrite <- pow_IZR. assert (P : 0 < 2 ^ n) by (apply pow_lt; lra). apply (Rmult_le_reg_r (2 ^ n)); [exact P|]. rewrite Rmult_assoc, Rinv_l, Rmult_1_r by lra. clear - P. clear P.
  induction n as [|n IH]; [cbn; lra|]. rewrite S_INR. cbn [pow]. destruct n as [|n]; [cbn; lra|]. assert (1 <= INR (S n)) by (apply (le_INR 1); lia). lra.
Qed.

Lemma slack_sum : INR N * slack <= 1 / 10 /\ 0 < slack.
Proof.
  pose proof h_pos as H0. pose proof (bpow2_pos (- (71))) as H1. pose proof n_h as A. pose proof (pow_ge_n N) as B. assert (E4 : bpow2 (-4) = / 16) by (change (-4)%Z with (- (4))%Z; rewrite bpow2_opp, bpow2_IZR by lia; reflexivity). rewrite E4 in A.
  assert (C : bpow2 (- (71)) <= / 16384) by (apply Rle_trans with (bpow2 (- (14))); [apply bpow2_le; lia|rewrite bpow2_opp, bpow2_IZR by lia; change (2 ^ 14)%Z with 16384%Z; lra]).
  assert (D : INR N <= 69) by (rewrite INR_IZR_INZ; apply IZR_le; lia). pose proof (pos_INR N). unfold slack. split; [|lra]. nra.
Qed.
Lemma shr_R x i : exists r, 0 <= r <= q /\ (i = O -> r = 0) /\ fxval (Z.shiftr x (Z.of_nat i)) (fF fx) = fxval x (fF fx) * / 2 ^ i - r.
Proof.
  rewrite Z.shiftr_div_pow2 by lia. set (d := (2 ^ Z.of_nat i)%Z). assert (Hd : (0 < d)%Z) by (apply Z.pow_pos_nonneg; lia). assert (ED : IZR d = 2 ^ i) by (unfold d; rewrite <- pow_IZR; reflexivity).
  assert (DP : 0 < 2 ^ i) by (apply pow_lt; lra). exists (fxval x (fF fx) * / 2 ^ i - fxval (x / d) (fF fx)). split; [|split; [|ring]].
  - pose proof (Z.div_mod x d ltac:(lia)) as DM. pose proof (Z.mod_pos_bound x d Hd) as MB. unfold fxval. fold q. pose proof q_pos as Q. set (k := (x / d)%Z) in *. set (m := (x mod d)%Z) in *.
    replace (IZR x * q * / 2 ^ i - IZR k * q) with (q * (IZR m * / 2 ^ i)) by (rewrite DM, plus_IZR, mult_IZR, ED; field; lra).
    assert (0 <= IZR m * / 2 ^ i <= 1). { destruct MB as [M0 M1]. apply IZR_le in M0. apply IZR_lt in M1. rewrite ED in M1. split; [apply Rmult_le_pos; [exact M0|apply Rlt_le, Rinv_0_lt_compat, DP]|]. apply (Rmult_le_reg_r (2 ^ i)); [exact DP|]. rewrite Rmult_assoc, Rinv_l by lra. lra. }
    nra.
  - intros ->. unfold d. change (2 ^ Z.of_nat 0)%Z with 1%Z. rewrite Z.div_1_r. cbn [pow]. rewrite Rinv_1. ring.
Qed.

Fixpoint aerr (n : nat) : R := match n with O => 0 | S i => aerr i + (4 * h + bpow2 (-70) + bpow2 (- (52 + Z.of_nat i))) end.
Let E i := G i * c * INR (i - 1).
Definition cd_inv (i : nat) (st : Z * Z * Z) : Prop := let '(x, y, acc) := st in exists phi,
  Rabs (tr - fxval acc icw) <= rem (N - i) + INR N * slack /\ Rabs (phi - PI * fxval acc icw) <= aerr i /\
  (fxval x (fF fx) - kx * G i * cos phi) * (fxval x (fF fx) - kx * G i * cos phi) + (fxval y (fF fx) - kx * G i * sin phi) * (fxval y (fF fx) - kx * G i * sin phi) <= E i * E i.
Hypotheses (Htr : -1 <= tr <= 1) (Hroom : Rabs kx * G N + E N <= bpow2 (OI - 1) - q).

Lemma E_pos i : 0 <= E i.
Proof. unfold E. pose proof (sgain_pos i) as A. fold (G i) in A. pose proof q_pos. pose proof (pos_INR (i - 1)). unfold c. apply Rmult_le_pos; [|assumption]. apply Rmult_le_pos; lra. Qed.
Lemma E_step i : sqrt (1 + / 4 ^ i) * E i + (if Nat.eqb i 0 then 0 else 14143 / 10000 * q) <= E (S i).
Proof.
  unfold E. pose proof (gain_S i) as GS. fold (G i) (G (S i)) in GS. set (w := sqrt (1 + / 4 ^ i)) in *. pose proof q_pos as Q. destruct i as [|i]; cbn [Nat.eqb].
  - change (0 - 1)%nat with 0%nat. change (1 - 1)%nat with 0%nat. cbn [INR]. rewrite !Rmult_0_r. lra.
  - replace (S (S i) - 1)%nat with (S (S i - 1)) by lia. rewrite S_INR. set (n := INR (S i - 1)). rewrite GS. pose proof (sgain_mono 2 (S (S i)) ltac:(lia)) as M. fold (G (S (S i))) in M. rewrite GS in M. rewrite (Rmult_comm (G (S i)) w) in *.
    assert (G2 : 1581 / 1000 <= sqrt (gain2 2)). { apply sq_le; [apply sqrt_pos|]. rewrite sqrt_sqrt by (pose proof (gain2_ge 2); lra). cbn [gain2 pow]. lra. }
    unfold c. nra.
Qed.
Lemma E_mono i : (i <= N)%nat -> Rabs kx * G i + E i <= Rabs kx * G N + E N.
Proof.
  intros H. pose proof (sgain_mono i N H) as M. fold (G i) (G N) in M. pose proof (Rabs_pos kx). assert (E i <= E N).
  { unfold E. pose proof q_pos. pose proof (sgain_pos i) as A. fold (G i) in A. assert (INR (i - 1) <= INR (N - 1)) by (apply le_INR; lia). pose proof (pos_INR (i - 1)). unfold c. apply Rmult_le_compat; try nra. }
  nra.
Qed.
Lemma wrap_free z : Rabs (fxval z (fF fx)) <= bpow2 (OI - 1) - q -> conv fx z (fF fx) = z.
Proof. intros H. apply conv_exact; [unfold fx, dfmt; cbn [fW]; lia|discriminate|reflexivity|]. apply range_of; [reflexivity|unfold fx, dfmt; cbn [fW]; lia|exact H]. Qed.
Lemma acc_free z : Rabs (fxval z icw) <= 19 / 10 -> conv (dfmt (icw + 2) 2 true) z icw = z.
Proof.
  intros H. assert (FE : fF (dfmt (icw + 2) 2 true) = icw) by (unfold fF, dfmt; cbn [fW fI]; lia).
  apply conv_exact; [unfold dfmt; cbn [fW]; lia|discriminate|rewrite FE; reflexivity|]. apply range_of; [reflexivity|unfold dfmt; cbn [fW]; lia|]. rewrite FE. cbn [fI dfmt]. change (bpow2 (2 - 1)) with (bpow2 1). rewrite bpow2_1.
  assert (bpow2 (- icw) <= / 16) by (apply Rle_trans with (bpow2 (- (4))); [apply bpow2_le; lia|rewrite bpow2_opp, bpow2_IZR by lia; change (2 ^ 4)%Z with 16%Z; lra]). lra.
Qed.

Lemma step_ok i st : (i < N)%nat -> cd_inv i st -> cd_inv (S i) (cd_step icw fx AF t st i).
Proof.
  intros Hi. destruct st as [[x y] acc]. intros (phi & HA & HP & HV). unfold cd_step. fold (dmant icw i). set (s := / 2 ^ i). set (w := sqrt (1 + / 4 ^ i)).
  destruct (shr_R x i) as (rx & Rx & Rx0 & Ex). destruct (shr_R y i) as (ry & Ry & Ry0 & Ey). fold s in Ex, Ey. destruct (d_near i ltac:(lia)) as (D0 & D1 & D2). destruct slack_sum as [SS S0].
  set (d := dmant icw i) in *. change (dR i) with (fxval d icw) in *. set (xs := Z.shiftr x (Z.of_nat i)) in *. set (ys := Z.shiftr y (Z.of_nat i)) in *.
  assert (RM : rem (N - i) = fxval d icw + rem (N - S i)). { replace (N - i)%nat with (S (N - S i)) by lia. cbn [rem]. replace (N - S (N - S i))%nat with i by lia. reflexivity. }
  pose proof (d_le_rem (N - S i) ltac:(lia)) as DL. replace (N - S (N - S i))%nat with i in DL by lia. change (dR i) with (fxval d icw) in DL.
  assert (NS : INR (N - S i) * slack <= INR N * slack) by (apply Rmult_le_compat_r; [lra|apply le_INR; lia]).
  assert (KEY : forall sg (sz : Z), sg = IZR sz -> sg = 1 \/ sg = -1 -> Rabs (tr - (fxval acc icw + sg * fxval d icw)) <= rem (N - S i) + INR N * slack ->
    cd_inv (S i) (conv fx (x - sz * ys) (fF fx), conv fx (y + sz * xs) (fF fx), conv (dfmt (icw + 2) 2 true) (acc + sz * d) icw)).
  { intros sg sz Esg Hsg HA'. assert (MV : forall z F, fxval (sz * z) F = sg * fxval z F) by (intros z F; unfold fxval; rewrite mult_IZR, <- Esg; ring).
    assert (XE : fxval (x - sz * ys) (fF fx) = fxval x (fF fx) - sg * (fxval y (fF fx) * s - ry)) by (rewrite <- Ey, <- MV; unfold Z.sub; rewrite fxval_add, fxval_opp; ring).
    assert (YE : fxval (y + sz * xs) (fF fx) = fxval y (fF fx) + sg * (fxval x (fF fx) * s - rx)) by (rewrite <- Ex, <- MV, fxval_add; reflexivity).
    assert (AE : fxval (acc + sz * d) icw = fxval acc icw + sg * fxval d icw) by (rewrite fxval_add, MV; reflexivity).
    pose proof (rem_bound (N - S i) ltac:(lia)) as [RB _]. pose proof (angle_small (N - (N - S i)) ltac:(lia)) as AS. rewrite (acc_free (acc + sz * d)) by (rewrite AE; apply Rabs_le_both in HA'; apply Rabs_le; lra).
    destruct (rot_cs sg i phi Hsg) as [RC RS]. fold s in RC, RS. fold w in RC, RS. cbv zeta in RC, RS. set (phi' := phi + sg * atan s) in *.
    assert (GS : G (S i) = G i * w) by apply gain_S.
    set (xr := fxval x (fF fx)) in *. set (yr := fxval y (fF fx)) in *. set (a := xr - kx * G i * cos phi) in *. set (b := yr - kx * G i * sin phi) in *.
    assert (SQ : sg * sg = 1) by (destruct Hsg as [-> | ->]; ring).
    assert (WW : w * w = 1 + s * s). { unfold w. rewrite sqrt_sqrt; [unfold s; rewrite <- four_pow; reflexivity|]. pose proof (Rinv_0_lt_compat _ (pow_lt 4 i ltac:(lra))). lra. }
    assert (W0 : 0 <= w) by apply sqrt_pos. pose proof (E_pos i) as E0. pose proof q_pos as Q0.
    assert (N1 : (a - sg * s * b) * (a - sg * s * b) + (b + sg * s * a) * (b + sg * s * a) <= (w * E i) * (w * E i)).
    { rewrite rot_norm. replace (w * E i * (w * E i)) with (w * w * (E i * E i)) by ring. rewrite WW. replace (sg * s * (sg * s)) with (sg * sg * (s * s)) by ring. rewrite SQ, Rmult_1_l. apply Rmult_le_compat_l; [pose proof (Rle_0_sqr s) as Z; unfold Rsqr in Z; lra|exact HV]. }
    set (Q := if Nat.eqb i 0 then 0 else 14143 / 10000 * q).
    assert (N2 : (sg * ry) * (sg * ry) + (- (sg * rx)) * (- (sg * rx)) <= Q * Q /\ 0 <= Q).
    { replace (sg * ry * (sg * ry) + - (sg * rx) * - (sg * rx)) with (sg * sg * (ry * ry + rx * rx)) by ring. rewrite SQ. unfold Q. destruct (Nat.eqb_spec i 0) as [Ei|]; [rewrite (Rx0 Ei), (Ry0 Ei); lra|]. split; nra. }
    destruct N2 as [N2 Q1]. pose proof (norm_tri _ _ _ _ _ _ (Rmult_le_pos _ _ W0 E0) Q1 N1 N2) as N3.
    assert (XD : a - sg * s * b + sg * ry = fxval (x - sz * ys) (fF fx) - kx * G (S i) * cos phi').
    { rewrite XE, GS. replace (kx * (G i * w) * cos phi') with (kx * G i * (w * cos phi')) by ring. rewrite RC. unfold a, b. ring. }
    assert (YD : b + sg * s * a + - (sg * rx) = fxval (y + sz * xs) (fF fx) - kx * G (S i) * sin phi').
    { rewrite YE, GS. replace (kx * (G i * w) * sin phi') with (kx * G i * (w * sin phi')) by ring. rewrite RS. unfold a, b. ring. }
    rewrite XD, YD in N3. pose proof (E_step i) as ES. fold w in ES. fold Q in ES. pose proof (E_pos (S i)) as E1.
    assert (N4 : (w * E i + Q) * (w * E i + Q) <= E (S i) * E (S i)) by (apply Rmult_le_compat; try assumption; (apply Rplus_le_le_0_compat; [apply Rmult_le_pos|]; assumption)).
    pose proof (Rle_trans _ _ _ N3 N4) as N5. set (X := fxval (x - sz * ys) (fF fx)) in *. set (Y := fxval (y + sz * xs) (fF fx)) in *.
    assert (GA : Rabs (kx * G (S i)) = Rabs kx * G (S i)) by (rewrite Rabs_mult, (Rabs_pos_eq (G (S i))) by apply sqrt_pos; reflexivity). pose proof (E_mono (S i) ltac:(lia)) as EM.
    pose proof (Rle_0_sqr (X - kx * G (S i) * cos phi')) as X2. pose proof (Rle_0_sqr (Y - kx * G (S i) * sin phi')) as Y2. unfold Rsqr in X2, Y2.
    pose proof (comp_bound X (kx * G (S i)) (cos phi') (E (S i)) E1 (COS_bound phi') ltac:(lra)) as BX. pose proof (comp_bound Y (kx * G (S i)) (sin phi') (E (S i)) E1 (SIN_bound phi') ltac:(lra)) as BY. rewrite GA in BX, BY.
    rewrite (wrap_free (x - sz * ys)) by (fold X; lra). rewrite (wrap_free (y + sz * xs)) by (fold Y; lra).
    exists phi'. split; [rewrite AE; exact HA'|]. split; [|exact N5].
    rewrite AE. cbn [aerr]. unfold phi'. pose proof (angle_near i ltac:(lia)) as AN. fold s in AN. replace (phi + sg * atan s - PI * (fxval acc icw + sg * fxval d icw)) with ((phi - PI * fxval acc icw) + sg * (PI * (angle i - fxval d icw) - (PI * angle i - atan s))) by ring.
    pose proof PI_4 as P4. pose proof PI_RGT_0 as P0. assert (PD : 0 <= PI * (angle i - fxval d icw) <= 4 * h) by (split; nra). apply Rabs_le_both in HP, AN. apply Rabs_le. destruct Hsg as [-> | ->]; lra. }
  apply Rabs_le_both in HA. destruct (fx_ltb t AF acc icw) eqn:C.
  - apply fx_ltb_R in C. fold tr in C. replace (x + ys)%Z with (x - -1 * ys)%Z by ring. replace (y - xs)%Z with (y + -1 * xs)%Z by ring. replace (acc - d)%Z with (acc + -1 * d)%Z by ring. apply (KEY (-1)); [reflexivity|right; reflexivity|]. apply Rabs_le. lra.
  - assert (C' : fxval acc icw <= tr) by (apply Rnot_lt_le; intros X; apply (fx_ltb_R t AF acc icw) in X; rewrite X in C; discriminate).
    replace (x - ys)%Z with (x - 1 * ys)%Z by ring. replace (y + xs)%Z with (y + 1 * xs)%Z by ring. replace (acc + d)%Z with (acc + 1 * d)%Z by ring. apply (KEY 1); [reflexivity|left; reflexivity|]. apply Rabs_le. lra.
Qed.
Lemma loop_ok st : cd_inv 0 st -> cd_inv N (fold_left (cd_step icw fx AF t) (seq 0 N) st).
Proof.
  intros H0. enough (L : forall n, (n <= N)%nat -> cd_inv n (fold_left (cd_step icw fx AF t) (seq 0 n) st)) by (apply L; lia).
  induction n as [|n IH]; intros Hn; [exact H0|]. rewrite seq_S, fold_left_app. cbn [fold_left Nat.add]. apply step_ok; [lia|apply IH; lia].
Qed.
Lemma aerr_bound n : (n <= N)%nat -> aerr n <= INR n * (4 * h + bpow2 (-70)) + (bpow2 (-51) - bpow2 (- (51 + Z.of_nat n))).
Proof.
  intros _. induction n as [|n IH]; cbn [aerr]; [cbn; lra|]. rewrite S_INR. replace (- (51 + Z.of_nat (S n)))%Z with (- (52 + Z.of_nat n))%Z by lia. assert (E2 : bpow2 (- (51 + Z.of_nat n)) = 2 * bpow2 (- (52 + Z.of_nat n))) by (rewrite <- bpow2_1, <- bpow2_add; f_equal; lia). lra.
Qed.
End Core.
