(** Error of ac_qrd, with ac_sqrt and ac_div or with ac_inverse_sqrt_pwl. *)
From Coq Require Import Reals Lia Lra Psatz.
From Verif Require Import AcTypes AcFacts Spec SpecFacts SpecR SpecRFacts SpecLin RtTypes DivModel DivProofs DivSpecs SqrtModel SqrtProofs MatrixModel MatrixProofs SoftFacts
  CholModel CholProofs CholReal CholThm PwlModel PwlReal.
Local Open Scope R_scope.

Local Notation eta := (bpow2 (- (32))).
Local Notation v m := (fxval m 32).

Lemma eta_val : eta = / 4294967296.
Proof. rewrite bpow2_opp, bpow2_IZR by lia. reflexivity. Qed.
Lemma eta_pos : 0 < eta. Proof. apply bpow2_pos. Qed.

(** ** The rotation coefficients *)
(** The algebra: nu is the exact norm, q its truncated square, w the truncated root, r the truncated reciprocal. *)
Lemma norm_algebra h nu nu0 lam q w r : 0 < h -> 0 < nu0 <= 1 -> h <= nu0 * nu0 / 16 -> nu0 <= nu -> 1 <= lam -> nu <= 2 * lam -> lam * h <= / 32 ->
  q <= nu * nu < q + h -> w <= sqrt q < w + h -> 0 < w -> r <= / w < r + h ->
  nu / 2 <= w /\ - (4 * (lam * h)) <= (nu * r) * (nu * r) - 1 <= 7 * (h / (nu0 * nu0)) /\ 0 <= nu * r <= 12 / 10.
Proof.
  intros H0 Hn0 Ht Hn Hl Hn2 Hlh Hq Hw Hw0 Hr. set (tau := h / (nu0 * nu0)). assert (N2 : 0 < nu0 * nu0) by nra.
  assert (T0 : 0 < tau) by (apply Rdiv_lt_0_compat; lra). assert (T1 : tau <= / 16) by (apply (Rmult_le_reg_r (nu0 * nu0)); [lra|]; unfold tau; field_simplify; [lra|nra]).
  assert (TH : h = tau * (nu0 * nu0)) by (unfold tau; field; nra).
  assert (Hnn : nu0 * nu0 <= nu * nu) by nra. assert (Hnn' : nu0 * nu0 <= nu) by nra.
  (* w is at least nu (1 - 2 tau) *)
  assert (Q0 : 0 < q) by nra. assert (NP : 0 < nu) by lra.
  assert (SQ : nu - tau * nu <= sqrt q).
  { rewrite <- (sqrt_square (nu - tau * nu)) by nra. apply sqrt_le_1_alt. assert (h <= tau * (nu * nu)) by (rewrite TH; apply Rmult_le_compat_l; lra).
    assert (tau * tau * (nu * nu) <= tau * (nu * nu)) by (apply Rmult_le_compat_r; nra). nra. }
  assert (HT : h <= tau * nu) by (rewrite TH; apply Rmult_le_compat_l; lra).
  assert (W1 : nu * (1 - 2 * tau) <= w) by lra.
  assert (W2 : w <= nu). { apply Rle_trans with (sqrt q); [lra|]. rewrite <- (sqrt_square nu) by lra. apply sqrt_le_1_alt. lra. }
  assert (I0 : 0 < / w) by (apply Rinv_0_lt_compat; lra). assert (IW : w * / w = 1) by (apply Rinv_r; lra).
  (* g = nu r *)
  assert (G1 : nu * r <= 1 + 3 * tau).
  { apply Rle_trans with (nu * / w); [apply Rmult_le_compat_l; lra|]. apply (Rmult_le_reg_r w); [lra|]. rewrite Rmult_assoc, (Rmult_comm (/ w)), IW. assert (0 <= nu * tau * (1 - 6 * tau)) by (apply Rmult_le_pos; [apply Rmult_le_pos; lra|lra]). nra. }
  assert (G2 : 1 - 2 * (lam * h) <= nu * r).
  { assert (1 <= nu * / w) by (rewrite <- IW; apply Rmult_le_compat_r; lra). assert (nu * (/ w - r) <= nu * h) by (apply Rmult_le_compat_l; lra). assert (nu * h <= 2 * lam * h) by (apply Rmult_le_compat_r; lra). lra. }
  assert (0 <= lam * h) by (apply Rmult_le_pos; lra).
  split; [nra|]. split; [split; nra|lra].
Qed.

(** The coefficients c, s for a pair of elements. *)
Lemma coeff_algebra h a b r c s nu e1 e2 lam : 0 < h -> h <= / 64 -> 0 <= nu <= 2 * lam -> a * a + b * b = nu * nu ->
  - e1 <= (nu * r) * (nu * r) - 1 <= e2 -> 0 <= nu * r <= 12 / 10 -> Rabs (c - a * r) <= h -> Rabs (s - - b * r) <= h ->
  - (e1 + 6 * h) <= c * c + s * s - 1 <= e2 + 6 * h /\ Rabs c <= 3 / 2 /\ Rabs s <= 3 / 2 /\ Rabs (c * b + s * a) <= 4 * lam * h.
Proof.
  intros H0 H64 Hnu E Hg HG Hc Hs. apply Rabs_le_both in Hc, Hs. set (dc := c - a * r) in *. set (ds := s - - b * r) in *.
  assert (Aa : Rabs a <= nu) by (apply Rabs_le; nra). assert (Ab : Rabs b <= nu) by (apply Rabs_le; nra). apply Rabs_le_both in Aa, Ab.
  assert (R0 : 0 <= r \/ nu = 0). { destruct (Req_dec nu 0); [right; assumption|left]. assert (0 < nu) by lra. nra. }
  assert (AR : - (12 / 10) <= a * r <= 12 / 10 /\ - (12 / 10) <= b * r <= 12 / 10).
  { destruct R0 as [R0| ->]; [split; split; nra|]. assert (a = 0 /\ b = 0) as [-> ->] by nra. lra. }
  destruct AR as [AR BR].
  assert (EQ : c * c + s * s - 1 = ((nu * r) * (nu * r) - 1) + 2 * (a * r * dc - b * r * ds) + (dc * dc + ds * ds)).
  { replace ((nu * r) * (nu * r)) with ((nu * nu) * (r * r)) by ring. rewrite <- E. unfold dc, ds. ring. }
  assert (X1 : Rabs (a * r * dc) <= 12 / 10 * h) by (rewrite Rabs_mult; apply Rmult_le_compat; try apply Rabs_pos; apply Rabs_le; lra).
  assert (X2 : Rabs (b * r * ds) <= 12 / 10 * h) by (rewrite Rabs_mult; apply Rmult_le_compat; try apply Rabs_pos; apply Rabs_le; lra).
  apply Rabs_le_both in X1, X2. assert (D1 : 0 <= dc * dc <= h * h) by (split; nra). assert (D2 : 0 <= ds * ds <= h * h) by (split; nra). assert (h * h <= / 64 * h) by (apply Rmult_le_compat_r; lra).
  split; [rewrite EQ; lra|]. split; [apply Rabs_le; unfold dc in Hc; lra|]. split; [apply Rabs_le; unfold ds in Hs; lra|].
  replace (c * b + s * a) with (dc * b + ds * a) by (unfold dc, ds; ring). eapply Rle_trans; [apply Rabs_triang|]. rewrite !Rabs_mult.
  assert (Rabs dc * Rabs b <= h * (2 * lam)) by (apply Rmult_le_compat; try apply Rabs_pos; apply Rabs_le; lra).
  assert (Rabs ds * Rabs a <= h * (2 * lam)) by (apply Rmult_le_compat; try apply Rabs_pos; apply Rabs_le; lra). lra.
Qed.

(** The piecewise-linear root and inverse root. *)
Lemma pwl_algebra h lam nu0 nu q vr vm r m : 0 < h -> 0 < nu0 -> h <= nu0 * nu0 / 16 -> nu0 <= 1 -> 1 <= lam -> lam * h <= / 32 -> 0 < q -> nu0 <= nu <= 2 * lam -> q <= nu * nu < q + h ->
  Rabs (vr - / sqrt q) <= 75 / 100000 * / sqrt q -> Rabs (vm - sqrt q) <= 12 / 10000 * sqrt q -> r <= vr < r + h -> m <= vm < m + h ->
  - (/ 600 + 4 * (lam * h)) <= (nu * r) * (nu * r) - 1 <= / 600 + 7 * (h / (nu0 * nu0)) /\ 0 <= nu * r <= 12 / 10 /\ 0 <= r /\ 0 < m <= (1 + / 600) * nu /\
  Rabs (r * m - 1) <= 2 * / 600 + 3 * (lam * h) + 2 * (h / (nu0 * nu0)).
Proof.
  intros E0 Hn Hn1 Hn2 Hl Hl3 Q0 HN HQ HR HM Br Bm. set (z := sqrt q) in *. assert (Z0 : 0 < z) by (apply sqrt_lt_R0, Q0). assert (ZZ : z * z = q) by (apply sqrt_sqrt; lra).
  set (y := / z) in *. assert (Y0 : 0 < y) by (apply Rinv_0_lt_compat, Z0). assert (YZ : y * z = 1) by (unfold y; apply Rinv_l; lra).
  assert (R1 : Rabs (vr - y) <= 75 / 100000 * y) by exact HR. assert (M1 : Rabs (vm - z) <= 12 / 10000 * z) by exact HM. clear HR HM.
  assert (HR : - (75 / 100000 * y) <= vr - y <= 75 / 100000 * y) by (split; [pose proof (Rabs_def2 (vr - y) (75 / 100000 * y + 1)); apply Ropp_le_cancel; rewrite Ropp_involutive; eapply Rle_trans; [|exact R1]; rewrite <- Rabs_Ropp; apply RRle_abs|eapply Rle_trans; [apply RRle_abs|exact R1]]).
  assert (HM : - (12 / 10000 * z) <= vm - z <= 12 / 10000 * z) by (split; [apply Ropp_le_cancel; rewrite Ropp_involutive; eapply Rle_trans; [|exact M1]; rewrite <- Rabs_Ropp; apply RRle_abs|eapply Rle_trans; [apply RRle_abs|exact M1]]).
  clear R1 M1. clearbody y z.
  assert (NU0 : 0 < nu) by lra.
  assert (NN : nu0 * nu0 <= nu * nu) by (apply Rmult_le_compat; lra).
  assert (Q1 : 15 / 16 * (nu * nu) <= q) by lra.
  assert (ZN : z <= nu) by (apply Rnot_lt_le; intros L; assert (nu * nu < z * z) by (apply Rmult_le_0_lt_compat; lra); lra).
  assert (ZN2 : 15 / 16 * nu <= z).
  { apply Rnot_lt_le; intros L. assert (z * z < 15 / 16 * nu * (15 / 16 * nu)) by (apply Rmult_le_0_lt_compat; lra). assert (0 < nu * nu) by (apply Rmult_lt_0_compat; lra). lra. }
  set (k := h / (nu0 * nu0)). assert (N2 : 0 < nu0 * nu0) by (apply Rmult_lt_0_compat; lra). assert (K : k * (nu0 * nu0) = h) by (unfold k; field; lra). assert (K0 : 0 < k) by (unfold k; apply Rdiv_lt_0_compat; lra).
  assert (K1 : k <= / 16). { apply (Rmult_le_reg_r (nu0 * nu0)); [exact N2|]. lra. } clearbody k.
  assert (YN : 1 <= y * nu) by (rewrite <- YZ; apply Rmult_le_compat_l; lra).
  assert (YN2 : y * nu <= 16 / 15). { assert (y * (15 / 16 * nu) <= y * z) by (apply Rmult_le_compat_l; lra). lra. }
  set (w := y * nu) in *. assert (YNU : y * nu0 <= 16 / 15). { assert (y * nu0 <= y * nu) by (apply Rmult_le_compat_l; lra). unfold w in *. lra. }
  assert (YQ : w * w <= 1 + 16 / 15 * (16 / 15) * k).
  { assert (S1 : w * w = y * y * (nu * nu)) by (unfold w; ring). assert (S2 : y * y * q = 1) by (rewrite <- ZZ; replace (y * y * (z * z)) with ((y * z) * (y * z)) by ring; rewrite YZ; ring).
    assert (S3 : y * y * (nu * nu) <= y * y * (q + h)) by (apply Rmult_le_compat_l; [apply Rmult_le_pos; lra|lra]).
    assert (S4 : (y * nu0) * (y * nu0) <= 16 / 15 * (16 / 15)) by (apply Rmult_le_compat; try lra; apply Rmult_le_pos; lra).
    assert (S5 : y * y * h = k * ((y * nu0) * (y * nu0))) by (rewrite <- K; ring). assert (k * ((y * nu0) * (y * nu0)) <= k * (16 / 15 * (16 / 15))) by (apply Rmult_le_compat_l; lra). lra. }
  assert (EY : h * y <= 16 / 15 * k).
  { replace (h * y) with (k * (nu0 * (y * nu0))) by (rewrite <- K; ring). assert (nu0 * (y * nu0) <= 1 * (16 / 15)) by (apply Rmult_le_compat; try lra; apply Rmult_le_pos; lra). assert (k * (nu0 * (y * nu0)) <= k * (1 * (16 / 15))) by (apply Rmult_le_compat_l; lra). lra. }
  set (L := lam * h) in *. assert (L0 : 0 < L) by (apply Rmult_lt_0_compat; lra).
  assert (EZ : h * z <= 2 * L). { assert (h * z <= h * (2 * lam)) by (apply Rmult_le_compat_l; lra). unfold L. lra. }
  assert (EN : h * nu <= 2 * L). { assert (h * nu <= h * (2 * lam)) by (apply Rmult_le_compat_l; lra). unfold L. lra. }
  assert (EN2 : h <= nu / 16). { assert (nu0 * nu0 <= 1 * nu0) by (apply Rmult_le_compat_r; lra). lra. }
  assert (GU : nu * r <= (1 + 75 / 100000) * w). { assert (nu * r <= nu * ((1 + 75 / 100000) * y)) by (apply Rmult_le_compat_l; lra). unfold w. lra. }
  assert (GL : 1 - 75 / 100000 - 2 * L <= nu * r). { assert (nu * ((1 - 75 / 100000) * y - h) <= nu * r) by (apply Rmult_le_compat_l; lra). unfold w in *. lra. }
  assert (G0 : 0 < nu * r) by lra. assert (R0 : 0 <= r). { apply Rnot_lt_le. intros C. assert (nu * r <= nu * 0) by (apply Rmult_le_compat_l; lra). lra. }
  assert (ML : (1 - 12 / 10000) * z - h <= m) by lra. assert (MU : m <= (1 + 12 / 10000) * z) by lra. assert (M0 : 0 < m) by lra.
  split; [split|].
  - assert ((1 - 75 / 100000 - 2 * L) * (1 - 75 / 100000 - 2 * L) <= (nu * r) * (nu * r)) by (apply Rmult_le_compat; lra). assert (0 <= L * L) by (apply Rmult_le_pos; lra). lra.
  - assert ((nu * r) * (nu * r) <= ((1 + 75 / 100000) * w) * ((1 + 75 / 100000) * w)) by (apply Rmult_le_compat; lra). lra.
  - split; [split; lra|]. split; [exact R0|]. split; [lra|].
    assert (RU : r * m <= ((1 + 75 / 100000) * y) * ((1 + 12 / 10000) * z)) by (apply Rmult_le_compat; lra). assert (X1 : ((1 + 75 / 100000) * y) * ((1 + 12 / 10000) * z) = (1 + 75 / 100000) * (1 + 12 / 10000) * (y * z)) by ring. rewrite YZ in X1.
    assert (RL : ((1 - 75 / 100000) * y - h) * m <= r * m) by (apply Rmult_le_compat_r; lra).
    assert (X2 : y * ((1 - 12 / 10000) * z - h) <= y * m) by (apply Rmult_le_compat_l; lra). assert (X3 : y * ((1 - 12 / 10000) * z - h) = (1 - 12 / 10000) * (y * z) - h * y) by ring. rewrite YZ in X3.
    assert (X4 : h * m <= h * ((1 + 12 / 10000) * z)) by (apply Rmult_le_compat_l; lra). apply Rabs_le. lra.
Qed.

Lemma pwl_trunc V m W I : (1 <= W)%Z -> (W - I = 32)%Z -> convertsR (dfmt W I false) V m -> 0 <= V < bpow2 I -> v m <= V < v m + eta.
Proof. intros HW HF C HV. apply convR_dfmt in C; [|exact HW|rewrite Ropp_0; exact HV]. rewrite HF in C. apply C. Qed.

Lemma pwl_err_pos pwl : 0 <= pwl_err pwl <= / 600. Proof. destruct pwl; unfold pwl_err; lra. Qed.

Section Step.
Variables (pwl : bool) (t : fmt) (lam nu0 : R).
Hypothesis Ht : exists I, t = Fmt (I + 32) I true RND SAT.
Hypothesis Hl : 1 <= lam.
Hypothesis Hl2 : 2 * lam <= bpow2 (fI t - 1) - eta.
Hypothesis Hl3 : lam * eta <= / 32.
Hypothesis Hn0 : 0 < nu0 <= 1.
Hypothesis Hn1 : eta <= nu0 * nu0 / 16.
Hypothesis Hn2 : bpow2 (-14) <= nu0.

Lemma t_F : fF t = 32%Z. Proof. destruct Ht as (I & ->). unfold fF. cbn. lia. Qed.
Lemma t_W : fW t = (fI t + 32)%Z. Proof. destruct Ht as (I & ->). reflexivity. Qed.
Lemma t_S : fS t = true. Proof. destruct Ht as (I & ->). reflexivity. Qed.
Lemma t_O : fO t = SAT. Proof. destruct Ht as (I & ->). reflexivity. Qed.
Lemma t_I : (3 <= fI t)%Z.
Proof.
  destruct (Z.lt_ge_cases (fI t) 3) as [H|H]; [exfalso|lia]. assert (bpow2 (fI t - 1) <= bpow2 1) by (apply bpow2_le; lia). rewrite bpow2_1 in H0. pose proof eta_pos. lra.
Qed.

Lemma sc_near x V : convertsR sc_fmt V x -> Rabs V <= 3 / 2 -> in_range true 34 x /\ Rabs (v x - V) <= eta.
Proof.
  intros C H. apply Rabs_le_both in H. destruct (sat_near sc_fmt V x ltac:(cbn; lia) ltac:(cbn; discriminate) C) as [R N].
  - rewrite imin_R by (cbn; lia || reflexivity). destruct (imax_R sc_fmt) as [->|X]; [|cbn in X; lia]. change (fS sc_fmt) with true. change (fW sc_fmt - 1 - fF sc_fmt)%Z with 1%Z. rewrite bpow2_1.
    change (fF sc_fmt) with 32%Z. rewrite eta_val. lra.
  - split; [exact R|exact N].
Qed.

Let eps := pwl_err pwl + 7 * (eta / (nu0 * nu0)) + 10 * (lam * eta).

Lemma diag_ok junk a b : nu0 * nu0 <= v a * v a + v b * v b <= 2 * lam * (2 * lam) ->
  exists c s, diag_pe pwl t junk b a = Some (c, s) /\ in_range true 34 s /\ Rabs (v s) <= 3 / 2 /\ Rabs (v c) <= 3 / 2 /\
    Rabs (v c * v c + v s * v s - 1) <= eps /\ Rabs (v c * v b + v s * v a) <= 4 * lam * eta.
Proof.
  intros [N1 N2]. pose proof t_I as HI. pose proof eta_pos as E0. set (I := fI t) in *. set (nu := sqrt (v a * v a + v b * v b)).
  assert (NN : nu * nu = v a * v a + v b * v b) by (apply sqrt_sqrt; nra). assert (NP : nu0 <= nu) by (unfold nu; rewrite <- (sqrt_square nu0) by lra; apply sqrt_le_1_alt, N1).
  assert (NL : nu <= 2 * lam) by (unfold nu; rewrite <- (sqrt_square (2 * lam)) by lra; apply sqrt_le_1_alt, N2).
  unfold diag_pe. cbv zeta. fold I. rewrite t_F. set (sI := (2 * I - 1)%Z). replace ((sI + 1) / 2)%Z with I by (unfold sI; replace (2 * I - 1 + 1)%Z with (I * 2)%Z by lia; rewrite Z.div_mul; lia).
  set (q := conv (dfmt (32 + sI) sI false) (b * b + a * a) (2 * 32)).
  assert (P2 : bpow2 (fI t - 1) * bpow2 (fI t - 1) <= bpow2 sI). { rewrite <- bpow2_add. apply bpow2_le. fold I. unfold sI. lia. }
  (* the square *)
  assert (Cq : in_range false (32 + sI) q /\ v q <= nu * nu < v q + eta).
  { assert (C := conv_R (dfmt (32 + sI) sI false) (b * b + a * a) (2 * 32) ltac:(unfold dfmt; cbn [fW]; unfold sI; lia)). fold q in C. change (2 * 32)%Z with (32 + 32)%Z in C. rewrite fxval_add, !fxval_mul in C.
    replace (v b * v b + v a * v a) with (nu * nu) in C by (rewrite NN; ring). apply convR_dfmt in C; [|unfold sI; lia|].
    - replace (32 + sI - sI)%Z with 32%Z in C by lia. exact C.
    - split; [nra|]. fold I in P2. fold I in Hl2. assert (2 * lam * (2 * lam) < bpow2 (I - 1) * bpow2 (I - 1)) by nra. nra. }
  destruct Cq as [Rq Bq].
  assert (N00 : 0 < nu0 * nu0) by nra. assert (T00 : 0 < eta / (nu0 * nu0)) by (apply Rdiv_lt_0_compat; lra). assert (L00 : 0 < lam * eta) by nra.
  assert (HR : exists r, (if pwl then inverse_sqrt_pwl TRN (32 + sI) sI WRAP (dfmt 48 16 false) true q
                          else Some (fst (div_ufx 1 1 (32 + I) I (dfmt 48 16 false) 1 (sqrt_fx (32 + sI) sI (dfmt (32 + I) I false) q) junk))) = Some r /\
    - (pwl_err pwl + 4 * (lam * eta)) <= (nu * v r) * (nu * v r) - 1 <= pwl_err pwl + 7 * (eta / (nu0 * nu0)) /\ 0 <= nu * v r <= 12 / 10).
  { unfold pwl_err. case_eq pwl; intros HP.
  - assert (NN0 : nu0 * nu0 <= nu * nu) by (apply Rmult_le_compat; lra). assert (Q1 : 15 / 16 * (nu * nu) <= v q) by lra. assert (Q0 : 0 < v q) by lra. assert (Xp : (0 < q)%Z) by (apply (fx_pos q 32); exact Q0).
    assert (Xr : (0 < q < 2 ^ (32 + sI))%Z) by (unfold in_range, imin, imax in Rq; lia).
    destruct (isqrt_real TRN (32 + sI) sI WRAP (dfmt 48 16 false) true q ltac:(unfold sI; lia) ltac:(cbn; lia) eq_refl Xr (or_introl eq_refl)) as (r & vr & -> & Cr & Er).
    replace (32 + sI - sI)%Z with 32%Z in Er by lia. set (z := sqrt (v q)) in *. assert (Z0 : 0 < z) by (apply sqrt_lt_R0, Q0). assert (ZZ : z * z = v q) by (apply sqrt_sqrt; lra).
    assert (ZN2 : 15 / 16 * nu <= z) by (apply Rnot_lt_le; intros L; assert (z * z < 15 / 16 * nu * (15 / 16 * nu)) by (apply Rmult_le_0_lt_compat; lra); lra).
    assert (Er' : Rabs (vr - / z) <= 75 / 100000 * / z) by lra. clear Er. assert (Y0 : 0 < / z) by (apply Rinv_0_lt_compat, Z0).
    assert (B16 : / z <= 18000).
    { pose proof Hn2 as Hn2'. change (-14)%Z with (- (14))%Z in Hn2'. rewrite bpow2_opp, bpow2_IZR in Hn2' by lia. change (2 ^ 14)%Z with 16384%Z in Hn2'. apply (Rmult_le_reg_l z); [exact Z0|]. rewrite Rinv_r by lra. lra. }
    assert (Br : v r <= vr < v r + eta). { apply (pwl_trunc vr r 48 16); [lia|lia|exact Cr|]. apply Rabs_le_both in Er'. rewrite bpow2_IZR by lia. change (IZR (2 ^ 16)) with 65536. lra. }
    assert (Em : Rabs (z - z) <= 12 / 10000 * z) by (replace (z - z) with 0 by ring; rewrite Rabs_R0; lra).
    destruct (pwl_algebra eta lam nu0 nu (v q) vr z (v r) z E0 (proj1 Hn0) Hn1 (proj2 Hn0) Hl Hl3 Q0 (conj NP NL) Bq Er' Em Br ltac:(lra)) as (G1 & G2 & _). exists r. split; [reflexivity|]. split; [lra|exact G2].
  - set (w := sqrt_fx (32 + sI) sI (dfmt (32 + I) I false) q). set (r := fst (div_ufx 1 1 (32 + I) I (dfmt 48 16 false) 1 w junk)).
    (* the root *)
    assert (Cw : in_range false (32 + I) w /\ v w <= sqrt (v q) < v w + eta).
    { assert (C := sqrt_fx_ok (32 + sI) sI (dfmt (32 + I) I false) q ltac:(unfold sI; lia) ltac:(unfold dfmt; cbn [fW]; lia) eq_refl ltac:(unfold in_range, imin, imax in Rq; lia)). fold w in C.
      replace (32 + sI - sI)%Z with 32%Z in C by lia. apply convR_dfmt in C; [|lia|].
      - replace (32 + I - I)%Z with 32%Z in C by lia. exact C.
      - split; [rewrite Ropp_0; apply sqrt_pos|]. apply Rle_lt_trans with nu; [rewrite <- (sqrt_square nu) by lra; apply sqrt_le_1_alt; lra|]. fold I in Hl2. assert (bpow2 (I - 1) <= bpow2 I) by (apply bpow2_le; lia). lra. }
    destruct Cw as [Rw Bw].
    assert (W0 : 7 / 8 * nu <= v w).
    { assert (NQ : 15 / 16 * (nu * nu) <= v q) by nra. assert (15 / 16 * nu <= sqrt (v q)) by (rewrite <- (sqrt_square (15 / 16 * nu)) by lra; apply sqrt_le_1_alt; nra). assert (eta <= nu / 16) by nra. lra. }
    assert (Wp : (0 < w)%Z) by (apply (fx_pos w 32); lra).
    (* the reciprocal *)
    assert (Cr : v r <= / v w < v r + eta).
    { assert (C := div_ufx_converts 1 1 (32 + I) I (dfmt 48 16 false) 1 w junk ltac:(lia) ltac:(lia) ltac:(unfold dfmt; cbn [fW]; lia) eq_refl ltac:(lia) ltac:(unfold in_range, imin, imax in Rw; lia)).
      change (fF (dfmt 48 16 false)) with 32%Z in C. change (guard (fQ (dfmt 48 16 false))) with 0%Z in C. specialize (C ltac:(lia)). cbv zeta in C. fold r in C.
      replace (32 + I - I - (1 - 1))%Z with 32%Z in C by lia. change (Z.max 0 32) with 32%Z in C. change (Z.max 0 (- (32))) with 0%Z in C. rewrite Z.pow_0_r, Z.mul_1_l, Z.mul_1_r in C.
      apply converts_R in C; [|lia]. replace (IZR (2 ^ 32) / IZR w) with (/ v w) in C.
      2:{ unfold fxval. rewrite bpow2_opp, <- bpow2_IZR by lia. assert (0 < IZR w) by (apply (IZR_lt 0); lia). pose proof (bpow2_pos 32). field. lra. }
      apply convR_dfmt in C; [|lia|].
      - apply C.
      - split; [rewrite Ropp_0; left; apply Rinv_0_lt_compat; lra|]. assert (V14 : / 65536 < v w).
        { change (-14)%Z with (- (14))%Z in Hn2. rewrite bpow2_opp, bpow2_IZR in Hn2 by lia. change (2 ^ 14)%Z with 16384%Z in Hn2. lra. }
        rewrite bpow2_IZR by lia. change (IZR (2 ^ 16)) with 65536. apply (Rmult_lt_reg_l (v w)); [lra|]. rewrite Rinv_r by lra. lra. }
    destruct (norm_algebra eta nu nu0 lam (v q) (v w) (v r) E0 Hn0 Hn1 NP Hl NL Hl3 Bq Bw ltac:(lra) Cr) as (_ & G1 & G2).
    exists r. split; [reflexivity|]. split; [lra|exact G2]. }
  destruct HR as (r & -> & G1 & G2).
  (* the coefficients *)
  cbn [obind]. eexists. eexists. split; [reflexivity|]. set (c := conv sc_fmt (a * r) (32 + 32)). set (s := conv sc_fmt (- b * r) (32 + 32)).
  assert (Cc := conv_R sc_fmt (a * r) (32 + 32) ltac:(cbn; lia)). fold c in Cc. rewrite fxval_mul in Cc. assert (Cs := conv_R sc_fmt (- b * r) (32 + 32) ltac:(cbn; lia)). fold s in Cs. rewrite fxval_mul, fxval_opp in Cs.
  assert (R0 : 0 <= v r) by (assert (0 < nu) by lra; nra).
  assert (A1 : Rabs (v a) <= nu) by (apply Rabs_le; nra). assert (A2 : Rabs (v b) <= nu) by (apply Rabs_le; nra).
  assert (B1 : Rabs (v a * v r) <= 3 / 2). { rewrite Rabs_mult, (Rabs_pos_eq (v r)) by lra. apply Rle_trans with (nu * v r); [apply Rmult_le_compat_r; lra|lra]. }
  assert (B2 : Rabs (- v b * v r) <= 3 / 2). { rewrite Rabs_mult, Rabs_Ropp, (Rabs_pos_eq (v r)) by lra. apply Rle_trans with (nu * v r); [apply Rmult_le_compat_r; lra|lra]. }
  destruct (sc_near c _ Cc B1) as [_ M1]. destruct (sc_near s _ Cs B2) as [Rs M2].
  destruct (coeff_algebra eta (v a) (v b) (v r) (v c) (v s) nu (pwl_err pwl + 4 * (lam * eta)) (pwl_err pwl + 7 * (eta / (nu0 * nu0))) lam E0) as (K1 & K2 & K3 & K4);
    [rewrite eta_val; lra|lra|symmetry; exact NN|exact G1|exact G2|exact M1|exact M2|].
  split; [exact Rs|]. split; [exact K3|]. split; [exact K2|]. split; [|exact K4]. assert (0 < eta / (nu0 * nu0)) by (apply Rdiv_lt_0_compat; nra). assert (eta <= lam * eta) by nra. unfold eps. apply Rabs_le. lra.
Qed.


Lemma eps_small : 0 <= eps <= 1.
Proof.
  assert (N2 : 0 < nu0 * nu0) by nra. pose proof eta_pos. assert (T0 : 0 < eta / (nu0 * nu0)) by (apply Rdiv_lt_0_compat; lra).
  assert (T1 : eta / (nu0 * nu0) <= / 16) by (apply (Rmult_le_reg_r (nu0 * nu0)); [lra|]; unfold Rdiv; rewrite Rmult_assoc, Rinv_l by lra; lra). assert (0 <= lam * eta) by nra. unfold eps, pwl_err. case_eq pwl; intros; lra.
Qed.

(** One rotated pair. *)
Lemma rotate_ok x y c s l : in_range true 34 s -> Rabs (v s) <= 3 / 2 -> Rabs (v c * v c + v s * v s - 1) <= eps -> 1 <= l <= lam -> (1 + eps) * (v x * v x + v y * v y) <= 2 * l * (2 * l) ->
  let '(x', y') := rotate t x y c s in Rabs (v x' - (v c * v x - v s * v y)) <= eta /\ Rabs (v y' - (v c * v y + v s * v x)) <= eta.
Proof.
  intros Rs As Hcs Hll HB. unfold rotate.
  assert (Es : conv sc_fmt (- s) 32 = (- s)%Z).
  { apply (conv_own sc_fmt); [cbn; lia|cbn; discriminate|]. change (fS sc_fmt) with true. change (fW sc_fmt) with 34%Z. unfold in_range, imin, imax in *. change (34 - 1)%Z with 33%Z in *.
    destruct (Z.eq_dec s (- 2 ^ 33)) as [E|]; [exfalso|lia]. subst s. apply Rabs_le_both in As. rewrite fxval_opp, fxval_pow in As by lia. change (33 - 32)%Z with 1%Z in As. rewrite bpow2_1 in As. lra. }
  rewrite Es, t_F. apply Rabs_le_both in Hcs.
  assert (SQ : (v c * v x - v s * v y) * (v c * v x - v s * v y) + (v c * v y + v s * v x) * (v c * v y + v s * v x) <= 2 * l * (2 * l)).
  { replace (_ + _) with ((v c * v c + v s * v s) * (v x * v x + v y * v y)) by ring. eapply Rle_trans; [apply Rmult_le_compat_r; [nra|]|exact HB]. lra. }
  assert (near : forall m V, convertsR t V m -> V * V <= 2 * l * (2 * l) -> Rabs (v m - V) <= eta).
  { intros m V C HV. assert (Rabs V <= 2 * l) by (apply Rabs_le; nra). apply Rabs_le_both in H. pose proof t_I. pose proof t_W as EW. rewrite <- t_F at 1 2.
    apply (sat_near t V m); [lia|rewrite t_O; discriminate|exact C|]. rewrite imin_R by (try apply t_S; lia). destruct (imax_R t) as [->|X]; [|lia]. rewrite t_S, t_F. replace (fW t - 1 - 32)%Z with (fI t - 1)%Z by lia. pose proof eta_pos. lra. }
  assert (W1 : (1 <= fW t)%Z) by (pose proof t_I; pose proof t_W; lia).
  pose proof (Rle_0_sqr (v c * v x - v s * v y)) as Q1. pose proof (Rle_0_sqr (v c * v y + v s * v x)) as Q2. unfold Rsqr in Q1, Q2.
  split; apply near.
  - replace (v c * v x - v s * v y) with (fxval (c * x + - s * y) (32 + 32)) by (rewrite fxval_add, !fxval_mul, fxval_opp; ring). apply conv_R, W1.
  - lra.
  - replace (v c * v y + v s * v x) with (fxval (c * y + s * x) (32 + 32)) by (rewrite fxval_add, !fxval_mul; ring). apply conv_R, W1.
  - lra.
Qed.
End Step.

(** ** One rotation of the whole matrix *)
Lemma off_pe_gen t p c s n : (1 <= p)%nat -> forall k A i j,
  fold_left (fun A i => let '(u, v) := rotate t (A (p - 1)%nat i) (A p i) c s in put (put A (p - 1)%nat i u) p i v) (seq k n) A i j =
  if (Nat.leb k j && Nat.ltb j (k + n))%bool then (if Nat.eqb i (p - 1) then fst (rotate t (A (p - 1)%nat j) (A p j) c s) else if Nat.eqb i p then snd (rotate t (A (p - 1)%nat j) (A p j) c s) else A i j) else A i j.
Proof.
  intros Hp. induction n as [|n IH]; intros k A i j.
  - cbn [seq fold_left]. replace (_ && _)%bool with false; [reflexivity|]. symmetry. apply andb_false_iff. destruct (Nat.leb_spec k j); [right; apply Nat.ltb_ge; lia|left; reflexivity].
  - cbn [seq fold_left]. rewrite IH. clear IH. destruct (rotate t (A (p - 1)%nat k) (A p k) c s) as [u w] eqn:ER. unfold put.
    destruct (Nat.leb_spec (S k) j), (Nat.ltb_spec j (S k + n)), (Nat.leb_spec k j), (Nat.ltb_spec j (k + S n)); cbn [andb]; try lia;
      destruct (Nat.eqb_spec j k); try lia; rewrite ?Bool.andb_false_r, ?Bool.andb_true_r; try reflexivity.
    subst j. rewrite ER. cbn [fst snd]. destruct (Nat.eqb_spec i (p - 1)), (Nat.eqb_spec i p); try lia; reflexivity.
Qed.

Lemma off_pe_eq M t A p c s i j : (1 <= p)%nat -> (j < 2 * M)%nat -> off_pe M t A p c s i j =
  if Nat.eqb i (p - 1) then fst (rotate t (A (p - 1)%nat j) (A p j) c s) else if Nat.eqb i p then snd (rotate t (A (p - 1)%nat j) (A p j) c s) else A i j.
Proof. intros Hp Hj. unfold off_pe. rewrite off_pe_gen by exact Hp. destruct (Nat.ltb_spec j (0 + 2 * M)); [reflexivity|lia]. Qed.

(** ** Invariants *)
Lemma sumR_two f g p M : (1 <= p < M)%nat -> (forall k, (k < M)%nat -> k <> (p - 1)%nat -> k <> p -> f k = g k) ->
  sumR f M - sumR g M = (f (p - 1)%nat + f p) - (g (p - 1)%nat + g p).
Proof.
  intros Hp H. destruct p as [|p]; [lia|]. replace (S p - 1)%nat with p in * by lia. induction M as [|M IH]; [lia|]. cbn [sumR]. destruct (Nat.eq_dec M (S p)) as [->|].
  - cbn [sumR]. rewrite (sumR_ext f g p) by (intros; apply H; lia). ring.
  - rewrite (H M) by lia. specialize (IH ltac:(lia) ltac:(intros; apply H; lia)). lra.
Qed.
Lemma sumR_two_le f p M : (1 <= p < M)%nat -> (forall k, 0 <= f k) -> f (p - 1)%nat + f p <= sumR f M.
Proof.
  intros Hp H. pose proof (sumR_two f (fun k => if Nat.eqb k (p - 1) then 0 else if Nat.eqb k p then 0 else f k) p M Hp) as E. cbv beta in E.
  assert (0 <= sumR (fun k => if Nat.eqb k (p - 1) then 0 else if Nat.eqb k p then 0 else f k) M). { apply sumR_nonneg. intros k _. destruct (Nat.eqb k (p - 1)); [lra|]. destruct (Nat.eqb k p); [lra|apply H]. }
  specialize (E ltac:(intros k _ H1 H2; destruct (Nat.eqb_spec k (p - 1)); [contradiction|]; destruct (Nat.eqb_spec k p); [contradiction|reflexivity])).
  rewrite !Nat.eqb_refl in E. replace (Nat.eqb p (p - 1)) with false in E by (symmetry; apply Nat.eqb_neq; lia). lra.
Qed.

Lemma young1 d a h : - h <= d <= h -> 2 * (d * a) <= h * (1 + a * a).
Proof.
  intros H. assert (H0 : 0 <= h) by lra. assert (A : h * (2 * Rabs a) <= h * (1 + a * a)) by (apply Rmult_le_compat_l; [lra|]; pose proof (Rle_0_sqr (a + 1)) as S1; pose proof (Rle_0_sqr (a - 1)) as S2; unfold Rsqr in S1, S2; unfold Rabs; destruct (Rcase_abs a); lra).
  assert (B : d * a <= h * Rabs a). { apply Rle_trans with (Rabs (d * a)); [apply Rle_abs|]. rewrite Rabs_mult. apply Rmult_le_compat_r; [apply Rabs_pos|apply Rabs_le; lra]. }
  lra.
Qed.

Lemma sq_step h ep l x y c s x' y' : 0 < h <= 1 -> 0 <= ep <= 1 -> 1 <= l -> Rabs (c * c + s * s - 1) <= ep -> Rabs (x' - (c * x - s * y)) <= h -> Rabs (y' - (c * y + s * x)) <= h ->
  x' * x' + y' * y' - (x * x + y * y) <= (ep + 2 * h) * (x * x + y * y) + (ep + 2 * h) * (3 * (l * l)).
Proof.
  intros Hh He Hl Hcs Hx Hy. set (a := c * x - s * y) in *. set (b := c * y + s * x) in *. assert (E : a * a + b * b = (c * c + s * s) * (x * x + y * y)) by (unfold a, b; ring).
  apply Rabs_le_both in Hcs, Hx, Hy. set (da := x' - a) in *. set (db := y' - b) in *. set (w := x * x + y * y) in *. assert (W0 : 0 <= w) by (unfold w; nra).
  replace (x' * x' + y' * y') with (a * a + b * b + 2 * (da * a + db * b) + (da * da + db * db)) by (unfold da, db; ring).
  assert (A1 : 2 * (da * a) <= h * (1 + a * a)). { apply young1; lra. }
  assert (A2 : 2 * (db * b) <= h * (1 + b * b)). { apply young1; lra. }
  assert (A3 : da * da <= h * h) by nra. assert (A4 : db * db <= h * h) by nra. assert (hh : h * h <= h) by nra.
  assert (A5 : a * a + b * b <= (1 + ep) * w) by (rewrite E; apply Rmult_le_compat_r; lra).
  assert (A6 : h * (a * a + b * b) <= h * ((1 + ep) * w)) by (apply Rmult_le_compat_l; lra). assert (A7 : h * (ep * w) <= h * w) by (apply Rmult_le_compat_l; nra).
  assert (A8 : 1 <= l * l) by nra. assert (A9 : 4 * h <= (ep + 2 * h) * (3 * (l * l))) by nra. nra.
Qed.

Lemma prod_step h ep lam e1 e2 r1 r2 c s e1' e2' r1' r2' : 0 < h <= 1 -> 0 <= ep <= 1 -> 1 <= lam -> Rabs (c * c + s * s - 1) <= ep ->
  Rabs (e1' - (c * e1 - s * e2)) <= h -> Rabs (e2' - (c * e2 + s * e1)) <= h -> Rabs (r1' - (c * r1 - s * r2)) <= h -> Rabs (r2' - (c * r2 + s * r1)) <= h ->
  Rabs ((e1' * r1' + e2' * r2') - (e1 * r1 + e2 * r2)) <= (ep / 2 + h) * (lam * (e1 * e1 + e2 * e2 + 3) + (r1 * r1 + r2 * r2 + 3 * (lam * lam)) / lam).
Proof.
  intros Hh He Hl Hcs H1 H2 H3 H4. set (a1 := c * e1 - s * e2) in *. set (a2 := c * e2 + s * e1) in *. set (b1 := c * r1 - s * r2) in *. set (b2 := c * r2 + s * r1) in *.
  set (e := e1 * e1 + e2 * e2). set (r := r1 * r1 + r2 * r2). assert (E0 : 0 <= e) by (unfold e; nra). assert (R0 : 0 <= r) by (unfold r; nra).
  assert (Ea : a1 * a1 + a2 * a2 = (c * c + s * s) * e) by (unfold a1, a2, e; ring). assert (Eb : b1 * b1 + b2 * b2 = (c * c + s * s) * r) by (unfold b1, b2, r; ring).
  assert (Eab : a1 * b1 + a2 * b2 = (c * c + s * s) * (e1 * r1 + e2 * r2)) by (unfold a1, a2, b1, b2; ring).
  assert (Hcs2 := Hcs). apply Rabs_le_both in Hcs2.
  assert (Fa : a1 * a1 + a2 * a2 <= 2 * e) by (rewrite Ea; apply Rmult_le_compat_r; lra). assert (Fb : b1 * b1 + b2 * b2 <= 2 * r) by (rewrite Eb; apply Rmult_le_compat_r; lra).
  set (i := / lam). assert (LI : lam * i = 1) by (apply Rinv_r; lra). assert (I0 : 0 < i) by (apply Rinv_0_lt_compat; lra).
  (* Young *)
  assert (Y : forall p q, 2 * Rabs (p * q) <= lam * (p * p) + (q * q) * i).
  { intros p q. assert (K : forall sg, sg = 1 \/ sg = -1 -> 2 * (sg * (p * q)) <= lam * (p * p) + (q * q) * i).
    { intros sg Hs. assert (0 <= i * ((lam * p - sg * q) * (lam * p - sg * q))) by (apply Rmult_le_pos; [lra|apply Rle_0_sqr]).
      replace (i * ((lam * p - sg * q) * (lam * p - sg * q))) with ((lam * i) * (lam * (p * p)) - 2 * (lam * i) * (sg * (p * q)) + (sg * sg) * (q * q * i)) in H by ring. rewrite LI in H. destruct Hs as [-> | ->]; lra. }
    unfold Rabs. destruct (Rcase_abs (p * q)); [specialize (K (-1) (or_intror eq_refl))|specialize (K 1 (or_introl eq_refl))]; lra. }
  assert (AB : forall p, 2 * Rabs p <= 1 + p * p). { intros p. pose proof (Rle_0_sqr (p + 1)) as S1. pose proof (Rle_0_sqr (p - 1)) as S2. unfold Rsqr in S1, S2. unfold Rabs. destruct (Rcase_abs p); lra. }
  assert (ABl : forall p, 2 * Rabs p <= lam + (p * p) * i). { intros p. specialize (Y 1 p). rewrite Rmult_1_l in Y. lra. }
  assert (T1 : Rabs ((c * c + s * s - 1) * (e1 * r1 + e2 * r2)) <= ep / 2 * (lam * e + r * i)).
  { rewrite Rabs_mult. assert (Rabs (e1 * r1 + e2 * r2) <= / 2 * (lam * e + r * i)). { eapply Rle_trans; [apply Rabs_triang|]. pose proof (Y e1 r1). pose proof (Y e2 r2). unfold e, r. lra. }
    apply Rle_trans with (ep * (/ 2 * (lam * e + r * i))); [apply Rmult_le_compat; try apply Rabs_pos; assumption|lra]. }
  assert (Q : forall p q, Rabs p <= h -> Rabs (p * q) <= h * Rabs q). { intros p q Hp. rewrite Rabs_mult. apply Rmult_le_compat_r; [apply Rabs_pos|exact Hp]. }
  set (d1 := e1' - a1) in *. set (d2 := e2' - a2) in *. set (f1 := r1' - b1) in *. set (f2 := r2' - b2) in *.
  pose proof (Q f1 a1 H3) as Q1. pose proof (Q f2 a2 H4) as Q2. pose proof (Q d1 b1 H1) as Q3. pose proof (Q d2 b2 H2) as Q4.
  assert (Q5 : Rabs (d1 * f1) <= h * h) by (rewrite Rabs_mult; apply Rmult_le_compat; try apply Rabs_pos; assumption). assert (Q6 : Rabs (d2 * f2) <= h * h) by (rewrite Rabs_mult; apply Rmult_le_compat; try apply Rabs_pos; assumption).
  replace (e1' * r1' + e2' * r2' - (e1 * r1 + e2 * r2)) with ((c * c + s * s - 1) * (e1 * r1 + e2 * r2) + (f1 * a1 + f2 * a2 + (d1 * b1 + d2 * b2) + (d1 * f1 + d2 * f2))).
  2:{ replace ((c * c + s * s - 1) * (e1 * r1 + e2 * r2)) with (a1 * b1 + a2 * b2 - (e1 * r1 + e2 * r2)) by (rewrite Eab; ring). unfold d1, d2, f1, f2. ring. }
  eapply Rle_trans; [apply Rabs_triang|].
  assert (T2 : Rabs (f1 * a1 + f2 * a2 + (d1 * b1 + d2 * b2) + (d1 * f1 + d2 * f2)) <= h * (1 + e + lam + r * i) + 2 * (h * h)).
  { eapply Rle_trans; [apply Rabs_triang|]. apply Rplus_le_compat.
    - eapply Rle_trans; [apply Rabs_triang|]. apply Rle_trans with ((h * Rabs a1 + h * Rabs a2) + (h * Rabs b1 + h * Rabs b2)).
      + apply Rplus_le_compat; (eapply Rle_trans; [apply Rabs_triang|]; lra).
      + replace (h * Rabs a1 + h * Rabs a2 + (h * Rabs b1 + h * Rabs b2)) with (h * (Rabs a1 + Rabs a2 + Rabs b1 + Rabs b2)) by ring. apply Rmult_le_compat_l; [lra|].
        pose proof (AB a1). pose proof (AB a2). pose proof (ABl b1). pose proof (ABl b2). assert ((b1 * b1 + b2 * b2) * i <= 2 * r * i) by (apply Rmult_le_compat_r; lra). lra.
    - eapply Rle_trans; [apply Rabs_triang|]. lra. }
  assert (RI : 0 <= r * i) by (apply Rmult_le_pos; lra). assert (LE : 0 <= lam * e) by (apply Rmult_le_pos; lra).
  replace ((r + 3 * (lam * lam)) / lam) with (r * i + 3 * lam) by (unfold Rdiv; fold i; replace ((r + 3 * (lam * lam)) * i) with (r * i + 3 * lam * (lam * i)) by ring; rewrite LI; ring).
  assert (hh : h * h <= h) by nra. assert (e <= lam * e) by nra.
  assert (H5 : h * (1 + e + lam + r * i) + 2 * (h * h) <= h * (lam * (e + 3) + (r * i + 3 * lam))). { apply Rle_trans with (h * (1 + e + lam + r * i + 2)); [lra|]. apply Rmult_le_compat_l; lra. }
  assert (0 <= ep / 2 * (3 * lam + 3 * lam)) by (apply Rmult_le_pos; lra). lra.
Qed.

Lemma sumR_0 n : sumR (fun _ => 0) n = 0.
Proof. induction n as [|n IH]; cbn [sumR]; [reflexivity|rewrite IH; ring]. Qed.

Lemma young_d d a b h : 0 < d -> - h <= b - a <= h -> b * b <= (1 + d) * (a * a) + (1 + / d) * (h * h).
Proof.
  intros Hd Hb. assert (Hi : 0 < / d) by (apply Rinv_0_lt_compat; exact Hd). set (x := b - a) in *. replace b with (a + x) by (unfold x; ring). clearbody x. clear b.
  assert (X2 : x * x <= h * h) by nra. assert ((1 + / d) * (x * x) <= (1 + / d) * (h * h)) by (apply Rmult_le_compat_l; lra).
  assert (0 <= (d * a - x) * (d * a - x) * / d) by (apply Rmult_le_pos; [apply Rle_0_sqr|lra]). replace ((d * a - x) * (d * a - x) * / d) with (d * (a * a) - 2 * (a * x) + / d * (x * x)) in * by (field; lra). lra.
Qed.

Section Run.
Variables (pwl : bool) (M : nat) (t : fmt) (lam nu0 : R) (junk : Z).
Hypothesis Ht : exists I, t = Fmt (I + 32) I true RND SAT.
Hypothesis Hl : 1 <= lam.
Hypothesis Hl2 : 2 * lam <= bpow2 (fI t - 1) - eta.
Hypothesis Hl3 : lam * eta <= / 32.
Hypothesis Hn0 : 0 < nu0 <= 1.
Hypothesis Hn1 : eta <= nu0 * nu0 / 16.
Hypothesis Hn2 : bpow2 (-14) <= nu0.
Let eps := pwl_err pwl + 7 * (eta / (nu0 * nu0)) + 10 * (lam * eta).
Let ep := eps + 2 * eta.
Definition colsq (X : mat) (j : nat) : R := sumR (fun p => v (X p j) * v (X p j)) M.
Definition lrprod (X : mat) (i j : nat) : R := sumR (fun p => v (X p (M + i)%nat) * v (X p j)) M.
Definition llprod (X : mat) (i j : nat) : R := sumR (fun p => v (X p (M + i)%nat) * v (X p (M + j)%nat)) M.
Definition lj (j : nat) : R := if Nat.ltb j M then lam else 1.
Definition inv (X0 : mat) (k : nat) (X : mat) : Prop :=
  (forall j, (j < 2 * M)%nat -> colsq X j + 3 * (lj j * lj j) <= (1 + ep) ^ k * (4 * (lj j * lj j))) /\
  (forall i j, (i < M)%nat -> (j < M)%nat -> Rabs (lrprod X i j - lrprod X0 i j) <= 4 * lam * ((1 + ep) ^ k - 1)) /\
  (forall i j, (i < M)%nat -> (j < M)%nat -> Rabs (llprod X i j - llprod X0 i j) <= 4 * ((1 + ep) ^ k - 1)).

Lemma lj_ok j : 1 <= lj j <= lam. Proof. unfold lj. destruct (Nat.ltb j M); lra. Qed.
Lemma eta_1 : 0 < eta <= 1. Proof. rewrite eta_val. lra. Qed.

Lemma step_ok X0 k X row col : inv X0 k X -> (1 + ep) ^ (S k) <= 7 / 4 -> (1 <= row < M)%nat -> (col < M)%nat ->
  nu0 * nu0 <= v (X (row - 1)%nat col) * v (X (row - 1)%nat col) + v (X row col) * v (X row col) ->
  exists X', qr_step pwl M t junk (Some X) (row, col) = Some X' /\ inv X0 (S k) X' /\
    (forall i j, (j < 2 * M)%nat -> i <> (row - 1)%nat -> i <> row -> X' i j = X i j) /\
    Rabs (v (X' row col)) <= 5 * lam * eta /\
    (forall d j, 0 < d -> (j < 2 * M)%nat -> v (X' (row - 1)%nat j) * v (X' (row - 1)%nat j) + v (X' row j) * v (X' row j) <=
       (1 + d) * ((1 + eps) * (v (X (row - 1)%nat j) * v (X (row - 1)%nat j) + v (X row j) * v (X row j))) + (1 + / d) * (2 * (eta * eta))).
Proof.
  intros (I1 & I2 & I3) HG Hr Hc Hp. pose proof (eps_small pwl lam nu0 Hl Hl3 Hn0 Hn1) as ES. change (pwl_err pwl + 7 * (eta / (nu0 * nu0)) + 10 * (lam * eta)) with eps in ES. pose proof eta_1 as E1. assert (EP : 0 <= ep) by (unfold ep; lra).
  assert (GK : 1 <= (1 + ep) ^ k) by (apply pow_R1_Rle; lra). rewrite <- tech_pow_Rmult in HG. set (g := (1 + ep) ^ k) in *. set (p := row) in *.
  assert (W : forall j, (j < 2 * M)%nat -> v (X (p - 1)%nat j) * v (X (p - 1)%nat j) + v (X p j) * v (X p j) <= colsq X j).
  { intros j Hj. apply (sumR_two_le (fun i => v (X i j) * v (X i j)) p M Hr). intros i. nra. }
  assert (W2 : forall j, (j < 2 * M)%nat -> (1 + eps) * (v (X (p - 1)%nat j) * v (X (p - 1)%nat j) + v (X p j) * v (X p j)) <= 2 * lj j * (2 * lj j)).
  { intros j Hj. specialize (W j Hj). specialize (I1 j Hj). pose proof (lj_ok j) as LJ. set (w := v (X (p - 1)%nat j) * v (X (p - 1)%nat j) + v (X p j) * v (X p j)) in *. assert (w0 : 0 <= w) by (unfold w; nra).
    assert (l2 : 1 <= lj j * lj j) by nra. set (l := lj j * lj j) in *. replace (2 * lj j * (2 * lj j)) with (4 * l) by (unfold l; ring).
    assert ((1 + eps) * w <= (1 + ep) * w) by (apply Rmult_le_compat_r; unfold ep; lra). assert ((1 + ep) * w <= (1 + ep) * (colsq X j)) by (apply Rmult_le_compat_l; lra).
    assert ((1 + ep) * (colsq X j + 3 * l) <= (1 + ep) * (g * (4 * l))) by (apply Rmult_le_compat_l; lra). assert ((1 + ep) * g * (4 * l) <= 7 / 4 * (4 * l)) by (apply Rmult_le_compat_r; lra).
    assert (0 <= ep * (3 * l)) by (apply Rmult_le_pos; lra). lra. }
  assert (PU : v (X (p - 1)%nat col) * v (X (p - 1)%nat col) + v (X p col) * v (X p col) <= 2 * lam * (2 * lam)).
  { pose proof (W2 col ltac:(lia)) as K. replace (lj col) with lam in K by (unfold lj; destruct (Nat.ltb_spec col M); [reflexivity|lia]). eapply Rle_trans; [|exact K]. set (w := _ + _). assert (0 <= w) by (unfold w; nra). nra. }
  destruct (diag_ok pwl t lam nu0 Ht Hl Hl2 Hl3 Hn0 Hn1 Hn2 junk (X (p - 1)%nat col) (X p col) (conj Hp PU)) as (c & s & ED & Rs & As & Ac & Hcs & Hz). fold eps in Hcs.
  exists (off_pe M t X p c s). split; [unfold qr_step; cbn [obind]; fold p; rewrite ED; reflexivity|]. set (X' := off_pe M t X p c s).
  assert (XO : forall i j, (j < 2 * M)%nat -> i <> (p - 1)%nat -> i <> p -> X' i j = X i j).
  { intros i j Hj H1 H2. unfold X'. rewrite off_pe_eq by lia. destruct (Nat.eqb_spec i (p - 1)); [contradiction|]. destruct (Nat.eqb_spec i p); [contradiction|reflexivity]. }
  assert (XR : forall j, (j < 2 * M)%nat -> Rabs (v (X' (p - 1)%nat j) - (v c * v (X (p - 1)%nat j) - v s * v (X p j))) <= eta /\ Rabs (v (X' p j) - (v c * v (X p j) + v s * v (X (p - 1)%nat j))) <= eta).
  { intros j Hj. unfold X'. rewrite !off_pe_eq by lia. rewrite !Nat.eqb_refl. replace (Nat.eqb p (p - 1)) with false by (symmetry; apply Nat.eqb_neq; lia).
    pose proof (rotate_ok pwl t lam nu0 Ht Hl Hl2 (X (p - 1)%nat j) (X p j) c s (lj j) Rs As Hcs (lj_ok j) (W2 j Hj)) as K. destruct (rotate t (X (p - 1)%nat j) (X p j) c s). exact K. }
  split; [split; [|split]|split; [exact XO|split]].
  - intros j Hj. rewrite <- tech_pow_Rmult. fold g. destruct (XR j Hj) as [R1 R2]. pose proof (lj_ok j) as LJ.
    assert (D := sumR_two (fun i => v (X' i j) * v (X' i j)) (fun i => v (X i j) * v (X i j)) p M Hr ltac:(intros i Hi H1 H2; cbv beta; rewrite XO by assumption; reflexivity)). cbv beta in D.
    change (sumR (fun i => v (X' i j) * v (X' i j)) M) with (colsq X' j) in D. change (sumR (fun i => v (X i j) * v (X i j)) M) with (colsq X j) in D.
    pose proof (sq_step eta eps (lj j) _ _ (v c) (v s) _ _ E1 ES (proj1 LJ) Hcs R1 R2) as SQ. fold ep in SQ. specialize (W j Hj). specialize (I1 j Hj).
    assert (ep * (v (X (p - 1)%nat j) * v (X (p - 1)%nat j) + v (X p j) * v (X p j)) <= ep * colsq X j) by (apply Rmult_le_compat_l; assumption).
    assert ((1 + ep) * (colsq X j + 3 * (lj j * lj j)) <= (1 + ep) * (g * (4 * (lj j * lj j)))) by (apply Rmult_le_compat_l; lra). lra.
  - intros i j Hi Hj. rewrite <- tech_pow_Rmult. fold g. destruct (XR j ltac:(lia)) as [R1 R2]. destruct (XR (M + i)%nat ltac:(lia)) as [R3 R4].
    assert (D := sumR_two (fun q => v (X' q (M + i)%nat) * v (X' q j)) (fun q => v (X q (M + i)%nat) * v (X q j)) p M Hr ltac:(intros q Hq H1 H2; cbv beta; rewrite !XO by (assumption || lia); reflexivity)). cbv beta in D.
    change (sumR (fun q => v (X' q (M + i)%nat) * v (X' q j)) M) with (lrprod X' i j) in D. change (sumR (fun q => v (X q (M + i)%nat) * v (X q j)) M) with (lrprod X i j) in D.
    pose proof (prod_step eta eps lam _ _ _ _ (v c) (v s) _ _ _ _ E1 ES Hl Hcs R3 R4 R1 R2) as PS. rewrite <- D in PS.
    pose proof (W (M + i)%nat ltac:(lia)) as Wi. pose proof (W j ltac:(lia)) as Wj. pose proof (I1 (M + i)%nat ltac:(lia)) as Ii. pose proof (I1 j ltac:(lia)) as Ij.
    replace (lj (M + i)) with 1 in Ii by (unfold lj; destruct (Nat.ltb_spec (M + i) M); [lia|reflexivity]). replace (lj j) with lam in Ij by (unfold lj; destruct (Nat.ltb_spec j M); [reflexivity|lia]).
    set (e := v (X (p - 1)%nat (M + i)%nat) * v (X (p - 1)%nat (M + i)%nat) + v (X p (M + i)%nat) * v (X p (M + i)%nat)) in *. set (r := v (X (p - 1)%nat j) * v (X (p - 1)%nat j) + v (X p j) * v (X p j)) in *.
    assert (S1 : lam * (e + 3) <= lam * (4 * g)) by (apply Rmult_le_compat_l; lra).
    assert (S2 : (r + 3 * (lam * lam)) / lam <= 4 * (g * lam)). { apply (Rmult_le_reg_r lam); [lra|]. unfold Rdiv. rewrite Rmult_assoc, Rinv_l by lra. lra. }
    assert (S3 : (eps / 2 + eta) * (lam * (e + 3) + (r + 3 * (lam * lam)) / lam) <= ep / 2 * (8 * (lam * g))). { replace (eps / 2 + eta) with (ep / 2) by (unfold ep; field). apply Rmult_le_compat_l; lra. }
    specialize (I2 i j Hi Hj). apply Rabs_le_both in I2, PS. apply Rabs_le. lra.
  - intros i j Hi Hj. rewrite <- tech_pow_Rmult. fold g. destruct (XR (M + j)%nat ltac:(lia)) as [R1 R2]. destruct (XR (M + i)%nat ltac:(lia)) as [R3 R4].
    assert (D := sumR_two (fun q => v (X' q (M + i)%nat) * v (X' q (M + j)%nat)) (fun q => v (X q (M + i)%nat) * v (X q (M + j)%nat)) p M Hr ltac:(intros q Hq H1 H2; cbv beta; rewrite !XO by (assumption || lia); reflexivity)). cbv beta in D.
    change (sumR (fun q => v (X' q (M + i)%nat) * v (X' q (M + j)%nat)) M) with (llprod X' i j) in D. change (sumR (fun q => v (X q (M + i)%nat) * v (X q (M + j)%nat)) M) with (llprod X i j) in D.
    pose proof (prod_step eta eps 1 _ _ _ _ (v c) (v s) _ _ _ _ E1 ES (Rle_refl 1) Hcs R3 R4 R1 R2) as PS. rewrite <- D in PS.
    pose proof (W (M + i)%nat ltac:(lia)) as Wi. pose proof (W (M + j)%nat ltac:(lia)) as Wj. pose proof (I1 (M + i)%nat ltac:(lia)) as Ii. pose proof (I1 (M + j)%nat ltac:(lia)) as Ij.
    replace (lj (M + i)) with 1 in Ii by (unfold lj; destruct (Nat.ltb_spec (M + i) M); [lia|reflexivity]). replace (lj (M + j)) with 1 in Ij by (unfold lj; destruct (Nat.ltb_spec (M + j) M); [lia|reflexivity]).
    set (e := v (X (p - 1)%nat (M + i)%nat) * v (X (p - 1)%nat (M + i)%nat) + v (X p (M + i)%nat) * v (X p (M + i)%nat)) in *. set (r := v (X (p - 1)%nat (M + j)%nat) * v (X (p - 1)%nat (M + j)%nat) + v (X p (M + j)%nat) * v (X p (M + j)%nat)) in *.
    assert (S1 : 1 * (e + 3) <= 1 * (4 * g)) by (apply Rmult_le_compat_l; lra).
    assert (S2 : (r + 3 * (1 * 1)) / 1 <= 4 * (g * 1)). { apply (Rmult_le_reg_r 1); [lra|]. unfold Rdiv. rewrite Rmult_assoc, Rinv_l by lra. lra. }
    assert (S3 : (eps / 2 + eta) * (1 * (e + 3) + (r + 3 * (1 * 1)) / 1) <= ep / 2 * (8 * (1 * g))). { replace (eps / 2 + eta) with (ep / 2) by (unfold ep; field). apply Rmult_le_compat_l; lra. }
    specialize (I3 i j Hi Hj). apply Rabs_le_both in I3, PS. apply Rabs_le. lra.
  - destruct (XR col ltac:(lia)) as [_ R2]. apply Rabs_le_both in R2, Hz. apply Rabs_le. assert (eta <= lam * eta) by nra. lra.
  - intros d j Hd Hj. destruct (XR j Hj) as [R1 R2]. apply Rabs_le_both in R1, R2.
    set (a1 := v c * v (X (p - 1)%nat j) - v s * v (X p j)) in *. set (a2 := v c * v (X p j) + v s * v (X (p - 1)%nat j)) in *.
    assert (E : a1 * a1 + a2 * a2 = (v c * v c + v s * v s) * (v (X (p - 1)%nat j) * v (X (p - 1)%nat j) + v (X p j) * v (X p j))) by (unfold a1, a2; ring).
    pose proof (young_d d a1 (v (X' (p - 1)%nat j)) eta Hd R1) as Y1. pose proof (young_d d a2 (v (X' p j)) eta Hd R2) as Y2.
    apply Rabs_le_both in Hcs. set (w := v (X (p - 1)%nat j) * v (X (p - 1)%nat j) + v (X p j) * v (X p j)) in *. assert (0 <= w) by (unfold w; nra).
    assert ((v c * v c + v s * v s) * w <= (1 + eps) * w) by (apply Rmult_le_compat_r; lra).
    assert ((1 + d) * (a1 * a1 + a2 * a2) <= (1 + d) * ((1 + eps) * w)) by (apply Rmult_le_compat_l; lra). lra.
Qed.

(** ** The part below the diagonal *)
Definition done (l : list (nat * nat)) (p c : nat) : bool := existsb (fun rc => Nat.eqb (fst rc) p && Nat.eqb (snd rc) c)%bool l.
Definition sub (l : list (nat * nat)) (X : mat) (c : nat) : R := sumR (fun p => if done l p c then v (X p c) * v (X p c) else 0) M.

Lemma done_app l r c p c' : done (l ++ [(r, c)]) p c' = (done l p c' || (Nat.eqb r p && Nat.eqb c c'))%bool.
Proof. unfold done. rewrite existsb_app. cbn [existsb fst snd]. rewrite orb_false_r. reflexivity. Qed.

Lemma sub_step l X X' r c0 c d : 0 < d -> (1 <= r < M)%nat -> (c < M)%nat ->
  (c <> c0 -> done l r c = done l (r - 1)%nat c) -> done l r c0 = false -> done l (r - 1)%nat c0 = false ->
  (forall i j, (j < 2 * M)%nat -> i <> (r - 1)%nat -> i <> r -> X' i j = X i j) ->
  Rabs (v (X' r c0)) <= 5 * lam * eta ->
  (forall d j, 0 < d -> (j < 2 * M)%nat -> v (X' (r - 1)%nat j) * v (X' (r - 1)%nat j) + v (X' r j) * v (X' r j) <=
       (1 + d) * ((1 + eps) * (v (X (r - 1)%nat j) * v (X (r - 1)%nat j) + v (X r j) * v (X r j))) + (1 + / d) * (2 * (eta * eta))) ->
  sub (l ++ [(r, c0)]) X' c <= (1 + d) * (1 + eps) * sub l X c + (25 * (lam * lam) + 2 * (1 + / d)) * (eta * eta).
Proof.
  intros Hd Hr Hc Hcc D1 D2 XO XS XN. pose proof (eps_small pwl lam nu0 Hl Hl3 Hn0 Hn1) as ES. change (pwl_err pwl + 7 * (eta / (nu0 * nu0)) + 10 * (lam * eta)) with eps in ES. pose proof eta_1 as E1.
  assert (Hi : 0 < / d) by (apply Rinv_0_lt_compat; exact Hd). assert (E2 : 0 <= eta * eta) by nra. assert (L2 : 0 <= lam * lam) by nra.
  assert (S0 : forall l X, 0 <= sub l X c). { intros l' X1. apply sumR_nonneg. intros p Hp. destruct (done l' p c); [nra|lra]. }
  assert (K1 : 0 <= lam * lam * (eta * eta)) by (apply Rmult_le_pos; assumption). assert (K2 : 0 <= / d * (eta * eta)) by (apply Rmult_le_pos; lra).
  assert (DE : 0 <= d * eps) by (apply Rmult_le_pos; lra). assert (G1 : 1 <= (1 + d) * (1 + eps)) by lra.
  assert (D := sumR_two (fun p => if done (l ++ [(r, c0)]) p c then v (X' p c) * v (X' p c) else 0) (fun p => if done l p c then v (X p c) * v (X p c) else 0) r M Hr).
  cbv beta in D. lapply D; clear D.
  2: { intros p Hp H1 H2. rewrite done_app. replace (Nat.eqb r p) with false by (symmetry; apply Nat.eqb_neq; lia). cbn [andb]. rewrite orb_false_r, XO by (assumption || lia). reflexivity. }
  intros D. change (sumR (fun p => if done (l ++ [(r, c0)]) p c then v (X' p c) * v (X' p c) else 0) M) with (sub (l ++ [(r, c0)]) X' c) in D.
  change (sumR (fun p => if done l p c then v (X p c) * v (X p c) else 0) M) with (sub l X c) in D.
  pose proof (sumR_two_le (fun p => if done l p c then v (X p c) * v (X p c) else 0) r M Hr ltac:(intros p; cbv beta; destruct (done l p c); nra)) as W. cbv beta in W.
  change (sumR (fun p => if done l p c then v (X p c) * v (X p c) else 0) M) with (sub l X c) in W. specialize (S0 l X).
  set (g := (1 + d) * (1 + eps)) in *. assert (SG : sub l X c <= g * sub l X c) by nra.
  destruct (Nat.eq_dec c c0) as [->|Hne].
  - rewrite !done_app, D1, D2, !Nat.eqb_refl in D. replace (Nat.eqb r (r - 1)) with false in D by (symmetry; apply Nat.eqb_neq; lia). cbn [orb andb] in D.
    assert (v (X' r c0) * v (X' r c0) <= 25 * (lam * lam * (eta * eta))). { apply Rabs_le_both in XS. nra. } lra.
  - rewrite !done_app in D. replace (Nat.eqb c0 c) with false in D by (symmetry; apply Nat.eqb_neq; lia). rewrite !andb_false_r, !orb_false_r, (Hcc Hne) in D. rewrite (Hcc Hne) in W.
    destruct (done l (r - 1)%nat c); [|lra]. specialize (XN d c Hd ltac:(lia)).
    set (w := v (X (r - 1)%nat c) * v (X (r - 1)%nat c) + v (X r c) * v (X r c)) in *. replace ((1 + d) * ((1 + eps) * w)) with (g * w) in XN by (unfold g; ring).
    assert ((g - 1) * w <= (g - 1) * sub l X c) by (apply Rmult_le_compat_l; lra). lra.
Qed.

(** ** The whole loop nest *)
Variable X0 : mat.
Hypothesis HX0 : forall j, (j < 2 * M)%nat -> colsq X0 j <= lj j * lj j.

Lemma run_ok d l : 0 < d -> (forall r c, In (r, c) l -> (1 <= r < M)%nat /\ (c < M)%nat) -> (1 + ep) ^ length l <= 7 / 4 ->
  (forall l1 r c l2, l = l1 ++ (r, c) :: l2 -> (forall c', c' <> c -> done l1 r c' = done l1 (r - 1)%nat c') /\ done l1 r c = false /\ done l1 (r - 1)%nat c = false) ->
  (forall l1 r c l2 X, l = l1 ++ (r, c) :: l2 -> fold_left (qr_step pwl M t junk) l1 (Some X0) = Some X ->
     nu0 * nu0 <= v (X (r - 1)%nat c) * v (X (r - 1)%nat c) + v (X r c) * v (X r c)) ->
  exists X, fold_left (qr_step pwl M t junk) l (Some X0) = Some X /\ inv X0 (length l) X /\
    forall c, (c < M)%nat -> sub l X c <= ((1 + d) * (1 + eps)) ^ length l * (INR (length l) * ((25 * (lam * lam) + 2 * (1 + / d)) * (eta * eta))).
Proof.
  intros Hd. pose proof eta_1 as E1. pose proof (eps_small pwl lam nu0 Hl Hl3 Hn0 Hn1) as ES. change (pwl_err pwl + 7 * (eta / (nu0 * nu0)) + 10 * (lam * eta)) with eps in ES. assert (EP : 0 <= ep) by (unfold ep; lra).
  assert (Hi : 0 < / d) by (apply Rinv_0_lt_compat; exact Hd). assert (DE : 0 <= d * eps) by (apply Rmult_le_pos; lra). assert (G1 : 1 <= (1 + d) * (1 + eps)) by lra.
  set (K := (25 * (lam * lam) + 2 * (1 + / d)) * (eta * eta)). assert (K0 : 0 <= K) by (unfold K; apply Rmult_le_pos; nra). set (g := (1 + d) * (1 + eps)) in *.
  induction l as [|[r c] l IH] using rev_ind; intros Hin HG Hord Hpiv.
  - exists X0. split; [reflexivity|]. split; [split; [intros j Hj; specialize (HX0 j Hj); cbn [length pow]; lra|]; split; intros i j _ _; cbn [length pow]; unfold Rminus at 1; rewrite Rplus_opp_r, Rabs_R0; lra|].
    intros c Hc. cbn [length pow INR]. unfold sub. rewrite (sumR_ext _ (fun _ => 0) M) by (intros; reflexivity). rewrite sumR_0. lra.
  - rewrite app_length in *. cbn [length] in *. replace (length l + 1)%nat with (S (length l)) in * by lia.
    destruct IH as (X & EX & IX & SX).
    + intros r' c' H. apply Hin, in_or_app. left. exact H.
    + eapply Rle_trans; [|exact HG]. rewrite <- tech_pow_Rmult. assert (1 <= (1 + ep) ^ length l) by (apply pow_R1_Rle; lra). nra.
    + intros l1 r' c' l2 E. apply (Hord l1 r' c' (l2 ++ [(r, c)])). rewrite E, <- app_assoc. reflexivity.
    + intros l1 r' c' l2 X E EX. apply (Hpiv l1 r' c' (l2 ++ [(r, c)])); [rewrite E, <- app_assoc; reflexivity|exact EX].
    + destruct (Hin r c ltac:(apply in_or_app; right; left; reflexivity)) as [Hr Hc].
      destruct (step_ok X0 (length l) X r c IX HG Hr Hc (Hpiv l r c [] X eq_refl EX)) as (X' & E' & I' & XO & XS & XN). exists X'. rewrite fold_left_app, EX. split; [exact E'|split; [exact I'|]].
      intros c' Hc'. destruct (Hord l r c [] eq_refl) as (O1 & O2 & O3).
      pose proof (sub_step l X X' r c c' d Hd Hr Hc' (O1 c') O2 O3 XO XS XN) as SS. fold K g in SS. specialize (SX c' Hc').
      rewrite <- tech_pow_Rmult, S_INR. assert (P : 1 <= g ^ length l) by (apply pow_R1_Rle; lra). set (G := g ^ length l) in *.
      assert (g * sub l X c' <= g * (G * (INR (length l) * K))) by (apply Rmult_le_compat_l; lra). assert (K <= g * G * K) by (assert (1 <= g * G) by nra; nra). lra.
Qed.
End Run.
