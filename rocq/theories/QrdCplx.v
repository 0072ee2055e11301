(** Error of the complex ac_qrd with ac_sqrt and ac_div: one rotation. *)
From Coq Require Import Reals Lia Lra Psatz.
From Verif Require Import AcTypes AcFacts Spec SpecFacts SpecR SpecRFacts SpecLin SpecCplx SpecQrC RtTypes DivModel DivProofs DivSpecs SqrtModel SqrtProofs MatrixModel MatrixProofs
  MatCplxModel SoftFacts CholModel CholProofs CholReal CholThm CholCplxModel CholInvCplxModel PwlModel PwlReal QrdProofs QrdCplxModel.
Local Open Scope R_scope.

Local Notation eta := (bpow2 (- (32))).
Local Notation v m := (fxval m 32).

(** The square of the length of a complex number. *)
Definition csq (x : gi) : R := v (fst x) * v (fst x) + v (snd x) * v (snd x).
Lemma csq_nonneg x : 0 <= csq x. Proof. unfold csq. nra. Qed.

(** ** The rotation coefficients *)
(** Four components with errors d, sizes at most nu and a common factor r. *)
Lemma coeff4 h a1 a2 b1 b2 r c1 c2 s1 s2 nu e1 e2 lam : 0 < h -> h <= / 64 -> 0 <= nu <= 2 * lam -> a1 * a1 + a2 * a2 + (b1 * b1 + b2 * b2) = nu * nu ->
  - e1 <= (nu * r) * (nu * r) - 1 <= e2 -> 0 <= nu * r <= 12 / 10 -> 0 <= r ->
  Rabs (c1 - a1 * r) <= h -> Rabs (c2 - a2 * r) <= h -> Rabs (s1 - - b1 * r) <= h -> Rabs (s2 - - b2 * r) <= h ->
  - (e1 + 10 * h) <= c1 * c1 + c2 * c2 + (s1 * s1 + s2 * s2) - 1 <= e2 + 10 * h /\
  (Rabs c1 <= 3 / 2 /\ Rabs c2 <= 3 / 2 /\ Rabs s1 <= 3 / 2 /\ Rabs s2 <= 3 / 2) /\
  (Rabs (c1 * b1 - c2 * b2 + s1 * a1 - s2 * a2) <= 8 * lam * h /\ Rabs (c1 * b2 + c2 * b1 + s1 * a2 + s2 * a1) <= 8 * lam * h) /\
  Rabs (c1 * a2 - c2 * a1 - s1 * b2 + s2 * b1) <= 8 * lam * h.
Proof.
  intros H0 H64 Hnu E Hg HG R0 H1 H2 H3 H4.
  assert (Aa1 : Rabs a1 <= nu) by (apply Rabs_le; nra). assert (Aa2 : Rabs a2 <= nu) by (apply Rabs_le; nra). assert (Ab1 : Rabs b1 <= nu) by (apply Rabs_le; nra). assert (Ab2 : Rabs b2 <= nu) by (apply Rabs_le; nra).
  set (d1 := c1 - a1 * r) in *. set (d2 := c2 - a2 * r) in *. set (d3 := s1 - - b1 * r) in *. set (d4 := s2 - - b2 * r) in *.
  assert (BR : forall x, Rabs x <= nu -> Rabs (x * r) <= 12 / 10). { intros x Hx. rewrite Rabs_mult, (Rabs_pos_eq r) by exact R0. apply Rle_trans with (nu * r); [apply Rmult_le_compat_r; assumption|lra]. }
  assert (XR : forall x d, Rabs x <= nu -> Rabs d <= h -> Rabs (x * r * d) <= 12 / 10 * h). { intros x d Hx Hd. rewrite Rabs_mult. apply Rmult_le_compat; try apply Rabs_pos; [apply BR, Hx|exact Hd]. }
  assert (XL : forall d x, Rabs d <= h -> Rabs x <= nu -> Rabs (d * x) <= 2 * lam * h). { intros d x Hd Hx. rewrite Rabs_mult, (Rmult_comm (2 * lam)). apply Rmult_le_compat; try apply Rabs_pos; lra. }
  assert (DD : forall d, Rabs d <= h -> 0 <= d * d <= / 64 * h). { intros d Hd. apply Rabs_le_both in Hd. assert (h * h <= / 64 * h) by (apply Rmult_le_compat_r; lra). split; nra. }
  assert (BC : forall x d, Rabs x <= nu -> Rabs d <= h -> Rabs (x * r + d) <= 3 / 2). { intros x d Hx Hd. eapply Rle_trans; [apply Rabs_triang|]. specialize (BR x Hx). lra. }
  split; [|split; [|split; [split|]]].
  - replace (c1 * c1 + c2 * c2 + (s1 * s1 + s2 * s2) - 1) with
      (((nu * r) * (nu * r) - 1) + 2 * (a1 * r * d1 + a2 * r * d2 - b1 * r * d3 - b2 * r * d4) + (d1 * d1 + d2 * d2 + d3 * d3 + d4 * d4)).
    2:{ replace ((nu * r) * (nu * r)) with ((nu * nu) * (r * r)) by ring. rewrite <- E. unfold d1, d2, d3, d4. ring. }
    pose proof (DD d1 H1). pose proof (DD d2 H2). pose proof (DD d3 H3). pose proof (DD d4 H4).
    pose proof (Rabs_le_both _ _ (XR a1 d1 Aa1 H1)). pose proof (Rabs_le_both _ _ (XR a2 d2 Aa2 H2)). pose proof (Rabs_le_both _ _ (XR b1 d3 Ab1 H3)). pose proof (Rabs_le_both _ _ (XR b2 d4 Ab2 H4)). lra.
  - split; [|split; [|split]].
    + replace c1 with (a1 * r + d1) by (unfold d1; ring). apply BC; assumption.
    + replace c2 with (a2 * r + d2) by (unfold d2; ring). apply BC; assumption.
    + replace s1 with ((- b1) * r + d3) by (unfold d3; ring). apply BC; [rewrite Rabs_Ropp|]; assumption.
    + replace s2 with ((- b2) * r + d4) by (unfold d4; ring). apply BC; [rewrite Rabs_Ropp|]; assumption.
  - replace (c1 * b1 - c2 * b2 + s1 * a1 - s2 * a2) with (d1 * b1 - d2 * b2 + d3 * a1 - d4 * a2) by (unfold d1, d2, d3, d4; ring).
    pose proof (Rabs_le_both _ _ (XL d1 b1 H1 Ab1)). pose proof (Rabs_le_both _ _ (XL d2 b2 H2 Ab2)). pose proof (Rabs_le_both _ _ (XL d3 a1 H3 Aa1)). pose proof (Rabs_le_both _ _ (XL d4 a2 H4 Aa2)). apply Rabs_le. lra.
  - replace (c1 * b2 + c2 * b1 + s1 * a2 + s2 * a1) with (d1 * b2 + d2 * b1 + d3 * a2 + d4 * a1) by (unfold d1, d2, d3, d4; ring).
    pose proof (Rabs_le_both _ _ (XL d1 b2 H1 Ab2)). pose proof (Rabs_le_both _ _ (XL d2 b1 H2 Ab1)). pose proof (Rabs_le_both _ _ (XL d3 a2 H3 Aa2)). pose proof (Rabs_le_both _ _ (XL d4 a1 H4 Aa1)). apply Rabs_le. lra.
  - replace (c1 * a2 - c2 * a1 - s1 * b2 + s2 * b1) with (d1 * a2 - d2 * a1 - d3 * b2 + d4 * b1) by (unfold d1, d2, d3, d4; ring).
    pose proof (Rabs_le_both _ _ (XL d1 a2 H1 Aa2)). pose proof (Rabs_le_both _ _ (XL d2 a1 H2 Aa1)). pose proof (Rabs_le_both _ _ (XL d3 b2 H3 Ab2)). pose proof (Rabs_le_both _ _ (XL d4 b1 H4 Ab1)). apply Rabs_le. lra.
Qed.

(** The exact rotation. *)
Definition rot1r (c1 c2 s1 s2 x1 x2 y1 y2 : R) : R := c1 * x1 + c2 * x2 - s1 * y1 - s2 * y2.
Definition rot1i (c1 c2 s1 s2 x1 x2 y1 y2 : R) : R := c1 * x2 - c2 * x1 - s1 * y2 + s2 * y1.
Definition rot2r (c1 c2 s1 s2 x1 x2 y1 y2 : R) : R := c1 * y1 - c2 * y2 + s1 * x1 - s2 * x2.
Definition rot2i (c1 c2 s1 s2 x1 x2 y1 y2 : R) : R := c1 * y2 + c2 * y1 + s1 * x2 + s2 * x1.
Definition sgn (q : bool) (z : R) : R := if q then - z else z.
(** [x'], [y'] are x, y turned, up to h in each part. *)
Definition turned (h : R) (q : bool) (c s x y x' y' : gi) : Prop :=
  let c1 := v (fst c) in let c2 := sgn q (v (snd c)) in let s1 := v (fst s) in let s2 := sgn q (v (snd s)) in
  let x1 := v (fst x) in let x2 := v (snd x) in let y1 := v (fst y) in let y2 := v (snd y) in
  (Rabs (v (fst x') - rot1r c1 c2 s1 s2 x1 x2 y1 y2) <= h /\ Rabs (v (snd x') - rot1i c1 c2 s1 s2 x1 x2 y1 y2) <= h) /\
  (Rabs (v (fst y') - rot2r c1 c2 s1 s2 x1 x2 y1 y2) <= h /\ Rabs (v (snd y') - rot2i c1 c2 s1 s2 x1 x2 y1 y2) <= h).

Lemma rot_norm c1 c2 s1 s2 x1 x2 y1 y2 :
  rot1r c1 c2 s1 s2 x1 x2 y1 y2 * rot1r c1 c2 s1 s2 x1 x2 y1 y2 + rot1i c1 c2 s1 s2 x1 x2 y1 y2 * rot1i c1 c2 s1 s2 x1 x2 y1 y2 +
  (rot2r c1 c2 s1 s2 x1 x2 y1 y2 * rot2r c1 c2 s1 s2 x1 x2 y1 y2 + rot2i c1 c2 s1 s2 x1 x2 y1 y2 * rot2i c1 c2 s1 s2 x1 x2 y1 y2) =
  (c1 * c1 + c2 * c2 + (s1 * s1 + s2 * s2)) * (x1 * x1 + x2 * x2 + (y1 * y1 + y2 * y2)).
Proof. unfold rot1r, rot1i, rot2r, rot2i. ring. Qed.
Lemma sgn_sq q z : sgn q z * sgn q z = z * z. Proof. destruct q; cbn [sgn]; ring. Qed.

(** A component of a coefficient. *)
Definition coefok (z : Z) : Prop := in_range true 34 z /\ Rabs (v z) <= 3 / 2.
Lemma coef_conv z : coefok z -> conv sc_fmt z 32 = z.
Proof. intros [R _]. apply (conv_own sc_fmt); [cbn; lia|cbn; discriminate|exact R]. Qed.
Lemma coef_neg z : coefok z -> conv sc_fmt (- z) 32 = (- z)%Z.
Proof.
  intros [R A]. apply (conv_own sc_fmt); [cbn; lia|cbn; discriminate|]. change (fS sc_fmt) with true. change (fW sc_fmt) with 34%Z. unfold in_range, imin, imax in *. change (34 - 1)%Z with 33%Z in *.
  destruct (Z.eq_dec z (- 2 ^ 33)) as [E|]; [exfalso|lia]. subst z. apply Rabs_le_both in A. rewrite fxval_opp, fxval_pow in A by lia. change (33 - 32)%Z with 1%Z in A. rewrite bpow2_1 in A. lra.
Qed.

Section Step.
Variables (pwl : bool) (t : fmt) (mI : Z) (lam nu0 : R).
Hypothesis Ht : exists I, t = Fmt (I + 32) I true RND SAT.
Hypothesis Hm : (2 * fI t - 1 <= mI <= 2 * fI t)%Z.
Hypothesis Hl : 1 <= lam.
Hypothesis Hl2 : 2 * lam <= bpow2 (fI t - 1) - eta.
Hypothesis Hl3 : lam * eta <= / 32.
Hypothesis Hn0 : 0 < nu0 <= 1.
Hypothesis Hn1 : eta <= nu0 * nu0 / 16.
Hypothesis Hn2 : bpow2 (-14) <= nu0.
Let eps := pwl_err pwl + 7 * (eta / (nu0 * nu0)) + 14 * (lam * eta).

Lemma root_I : ((mI + 1) / 2 = fI t)%Z.
Proof. symmetry. apply (Z.div_unique _ _ _ (mI + 1 - 2 * fI t)); lia. Qed.

(** The root of x / 2^(W - mI) and its reciprocal, where nu is the square root of the number that x truncates. *)
Lemma iroot_div W junk x nu : (mI <= W)%Z -> in_range false W x -> nu0 <= nu <= 2 * lam -> fxval x (W - mI) <= nu * nu < fxval x (W - mI) + eta ->
  exists m r, cqr_root false W mI x = Some m /\ cqr_iroot false W mI junk x = Some r /\ v m <= sqrt (fxval x (W - mI)) < v m + eta /\
    0 < v m <= 2 * lam /\ v r * v m <= 1 < (v r + eta) * v m /\ 0 <= v r /\ - (4 * (lam * eta)) <= (nu * v r) * (nu * v r) - 1 <= 7 * (eta / (nu0 * nu0)) /\ 0 <= nu * v r <= 12 / 10.
Proof.
  intros HW Rq [NP NL] Bq. pose proof (t_I t lam Hl Hl2) as HI. pose proof eta_pos as E0. set (I := fI t) in *. unfold cqr_iroot, cqr_root. rewrite root_I. fold I. cbn [obind].
  set (w := sqrt_fx W mI (dfmt (32 + I) I false) x). set (r := fst (div_ufx 1 1 (32 + I) I (dfmt 48 16 false) 1 w junk)). set (q := fxval x (W - mI)) in *. exists w, r.
  assert (Cw : in_range false (32 + I) w /\ v w <= sqrt q < v w + eta).
  { assert (C := sqrt_fx_ok W mI (dfmt (32 + I) I false) x ltac:(lia) ltac:(unfold dfmt; cbn [fW]; lia) eq_refl ltac:(unfold in_range, imin, imax in Rq; lia)). fold w q in C.
    apply convR_dfmt in C; [|lia|].
    - replace (32 + I - I)%Z with 32%Z in C by lia. exact C.
    - split; [rewrite Ropp_0; apply sqrt_pos|]. apply Rle_lt_trans with nu; [rewrite <- (sqrt_square nu) by lra; apply sqrt_le_1_alt; lra|]. assert (bpow2 (I - 1) <= bpow2 I) by (apply bpow2_le; lia). lra. }
  destruct Cw as [Rw Bw].
  assert (W0 : 7 / 8 * nu <= v w).
  { assert (NQ : 15 / 16 * (nu * nu) <= q) by nra. assert (15 / 16 * nu <= sqrt q) by (rewrite <- (sqrt_square (15 / 16 * nu)) by lra; apply sqrt_le_1_alt; nra). assert (eta <= nu / 16) by nra. lra. }
  assert (Wp : (0 < w)%Z) by (apply (fx_pos w 32); lra).
  assert (Cr : v r <= / v w < v r + eta).
  { assert (C := div_ufx_converts 1 1 (32 + I) I (dfmt 48 16 false) 1 w junk ltac:(lia) ltac:(lia) ltac:(unfold dfmt; cbn [fW]; lia) eq_refl ltac:(lia) ltac:(unfold in_range, imin, imax in Rw; lia)).
    change (fF (dfmt 48 16 false)) with 32%Z in C. change (guard (fQ (dfmt 48 16 false))) with 0%Z in C. specialize (C ltac:(lia)). cbv zeta in C. fold r in C.
    replace (32 + I - I - (1 - 1))%Z with 32%Z in C by lia. change (Z.max 0 32) with 32%Z in C. change (Z.max 0 (- (32))) with 0%Z in C. rewrite Z.pow_0_r, Z.mul_1_l, Z.mul_1_r in C.
    apply converts_R in C; [|lia]. replace (IZR (2 ^ 32) / IZR w) with (/ v w) in C.
    2:{ unfold fxval. rewrite bpow2_opp, <- bpow2_IZR by lia. assert (0 < IZR w) by (apply (IZR_lt 0); lia). pose proof (bpow2_pos 32). field. lra. }
    apply convR_dfmt in C; [|lia|].
    - apply C.
    - split; [rewrite Ropp_0; left; apply Rinv_0_lt_compat; lra|]. assert (V14 : / 65536 < v w).
      { change (-14)%Z with (- (14))%Z in Hn2. rewrite bpow2_opp, bpow2_IZR in Hn2 by lia. change (2 ^ 14)%Z with 16384%Z in Hn2. lra. }
      rewrite bpow2_IZR by lia. change (IZR (2 ^ 16)) with 65536. apply (Rmult_lt_reg_l (v w)); [lra|]. rewrite Rinv_r by lra. lra. }
  destruct (norm_algebra eta nu nu0 lam q (v w) (v r) E0 Hn0 Hn1 NP Hl NL Hl3 Bq Bw ltac:(lra) Cr) as (_ & G1 & G2).
  split; [reflexivity|]. split; [reflexivity|]. split; [exact Bw|]. assert (sqrt q <= nu) by (rewrite <- (sqrt_square nu) by lra; apply sqrt_le_1_alt; lra).
  split; [lra|]. split.
  { assert (IW : / v w * v w = 1) by (apply Rinv_l; lra). split; [rewrite <- IW; apply Rmult_le_compat_r; lra|rewrite <- IW at 1; apply Rmult_lt_compat_r; lra]. }
  split; [|split; assumption]. assert (0 < nu) by lra. nra.
Qed.

Lemma iroot_ok W junk x nu : (mI <= W)%Z -> in_range false W x -> nu0 <= nu <= 2 * lam -> fxval x (W - mI) <= nu * nu < fxval x (W - mI) + eta ->
  exists m r, cqr_root pwl W mI x = Some m /\ cqr_iroot pwl W mI junk x = Some r /\ 0 < v m <= (1 + pwl_err pwl) * nu /\
    Rabs (v r * v m - 1) <= 2 * pwl_err pwl + 3 * (lam * eta) + 2 * (eta / (nu0 * nu0)) /\ 0 <= v r /\
    - (pwl_err pwl + 4 * (lam * eta)) <= (nu * v r) * (nu * v r) - 1 <= pwl_err pwl + 7 * (eta / (nu0 * nu0)) /\ 0 <= nu * v r <= 12 / 10.
Proof.
  intros HW Rq Hnu Bq. pose proof eta_pos as E0. assert (N2 : 0 < nu0 * nu0) by nra. assert (K0 : 0 < eta / (nu0 * nu0)) by (apply Rdiv_lt_0_compat; lra). assert (LE : 0 < lam * eta) by nra.
  unfold pwl_err. case_eq pwl; intros HP.
  - pose proof (t_I t lam Hl Hl2) as HI. unfold cqr_iroot, cqr_root. rewrite root_I. set (I := fI t) in *. set (q := fxval x (W - mI)) in *.
    assert (NN : nu0 * nu0 <= nu * nu) by (apply Rmult_le_compat; lra). assert (Q1 : 15 / 16 * (nu * nu) <= q) by lra. assert (Q0 : 0 < q) by lra. assert (Xp : (0 < x)%Z) by (apply (fx_pos x (W - mI)); exact Q0). assert (Xr : (0 < x < 2 ^ W)%Z) by (unfold in_range, imin, imax in Rq; lia).
    assert (W1 : (1 <= W)%Z) by (destruct (Z.lt_ge_cases W 1) as [L|L]; [exfalso; assert (W <= 0)%Z by lia; pose proof (Z.pow_le_mono_r 2 W 0 ltac:(lia) ltac:(lia)); lia|exact L]).
    destruct (sqrt_real TRN W mI WRAP (dfmt (32 + I) I false) true x W1 ltac:(unfold dfmt; cbn [fW]; lia) eq_refl Xr (or_introl eq_refl)) as (m & vm & -> & Cm & Em). fold q in Em.
    destruct (isqrt_real TRN W mI WRAP (dfmt 48 16 false) true x W1 ltac:(cbn; lia) eq_refl Xr (or_introl eq_refl)) as (r & vr & -> & Cr & Er). fold q in Er.
    assert (Z0 : 0 < sqrt q) by (apply sqrt_lt_R0, Q0). assert (ZZ : sqrt q * sqrt q = q) by (apply sqrt_sqrt; lra). set (z := sqrt q) in *.
    assert (ZN : z <= nu) by (apply Rnot_lt_le; intros L; assert (nu * nu < z * z) by (apply Rmult_le_0_lt_compat; lra); lra).
    assert (ZN2 : 15 / 16 * nu <= z) by (apply Rnot_lt_le; intros L; assert (z * z < 15 / 16 * nu * (15 / 16 * nu)) by (apply Rmult_le_0_lt_compat; lra); lra).
    assert (Em' : Rabs (vm - z) <= 12 / 10000 * z) by lra. assert (Er' : Rabs (vr - / z) <= 75 / 100000 * / z) by lra. clear Em Er.
    assert (Y0 : 0 < / z) by (apply Rinv_0_lt_compat, Z0).
    assert (B16 : / z <= 18000).
    { pose proof Hn2 as Hn2'. change (-14)%Z with (- (14))%Z in Hn2'. rewrite bpow2_opp, bpow2_IZR in Hn2' by lia. change (2 ^ 14)%Z with 16384%Z in Hn2'. apply (Rmult_le_reg_l z); [exact Z0|]. rewrite Rinv_r by lra. lra. }
    assert (Br : v r <= vr < v r + eta). { apply (pwl_trunc vr r 48 16); [lia|lia|exact Cr|]. apply Rabs_le_both in Er'. rewrite bpow2_IZR by lia. change (IZR (2 ^ 16)) with 65536. lra. }
    assert (Bm : v m <= vm < v m + eta). { apply (pwl_trunc vm m (32 + I) I); [lia|lia|exact Cm|]. apply Rabs_le_both in Em'. replace I with (I - 1 + 1)%Z by lia. rewrite bpow2_add, bpow2_1. lra. }
    destruct (pwl_algebra eta lam nu0 nu q vr vm (v r) (v m) E0 (proj1 Hn0) Hn1 (proj2 Hn0) Hl Hl3 Q0 Hnu Bq Er' Em' Br Bm) as (G1 & G2 & R0 & M0 & RM). exists m, r. repeat (split; [first [reflexivity|assumption]|]). exact G2.
  - destruct (iroot_div W junk x nu HW Rq Hnu Bq) as (m & r & E1 & E2 & Bm & Mp & Mr & R0 & G1 & G2). exists m, r. split; [exact E1|]. split; [exact E2|].
    assert (sqrt (fxval x (W - mI)) <= nu) by (rewrite <- (sqrt_square nu) by lra; apply sqrt_le_1_alt; lra). split; [lra|]. split.
    { assert (eta * v m <= 2 * lam * eta) by nra. apply Rabs_le. lra. }
    split; [exact R0|]. split; [lra|exact G2].
Qed.

Lemma diag4_ok junk a b : nu0 * nu0 <= csq a + csq b <= 2 * lam * (2 * lam) ->
  exists c s, cdiag_pe pwl t mI junk b a = Some (c, s) /\ (coefok (fst c) /\ coefok (snd c) /\ coefok (fst s) /\ coefok (snd s)) /\
    Rabs (csq c + csq s - 1) <= eps /\
    (let rot f := f (v (fst c)) (v (snd c)) (v (fst s)) (v (snd s)) (v (fst a)) (v (snd a)) (v (fst b)) (v (snd b)) in
     Rabs (rot rot2r) <= 8 * lam * eta /\ Rabs (rot rot2i) <= 8 * lam * eta /\ Rabs (rot rot1i) <= 8 * lam * eta).
Proof.
  intros [N1 N2]. pose proof (t_I t lam Hl Hl2) as HI. pose proof eta_pos as E0. set (I := fI t) in *. set (nu := sqrt (csq a + csq b)).
  assert (NN : nu * nu = csq a + csq b) by (apply sqrt_sqrt; nra). assert (NP : nu0 <= nu) by (unfold nu; rewrite <- (sqrt_square nu0) by lra; apply sqrt_le_1_alt, N1).
  assert (NL : nu <= 2 * lam) by (unfold nu; rewrite <- (sqrt_square (2 * lam)) by lra; apply sqrt_le_1_alt, N2).
  assert (P2 : bpow2 (I - 1) * bpow2 (I - 1) <= bpow2 mI). { rewrite <- bpow2_add. apply bpow2_le. lia. }
  unfold cdiag_pe. cbv zeta. rewrite (t_F t lam Ht Hl2). set (q := conv (dfmt (32 + mI) mI false) (c_mag_sqr b + c_mag_sqr a) (2 * 32)).
  assert (Cq : in_range false (32 + mI) q /\ v q <= nu * nu < v q + eta).
  { assert (C := conv_R (dfmt (32 + mI) mI false) (c_mag_sqr b + c_mag_sqr a) (2 * 32) ltac:(unfold dfmt; cbn [fW]; lia)). fold q in C. unfold c_mag_sqr in C. change (2 * 32)%Z with (32 + 32)%Z in C. rewrite !fxval_add, !fxval_mul in C.
    fold (csq b) (csq a) in C. replace (csq b + csq a) with (nu * nu) in C by (rewrite NN; ring). apply convR_dfmt in C; [|lia|].
    - replace (32 + mI - mI)%Z with 32%Z in C by lia. exact C.
    - split; [nra|]. assert (2 * lam * (2 * lam) < bpow2 (I - 1) * bpow2 (I - 1)) by nra. nra. }
  destruct Cq as [Rq Bq]. assert (FQ : fxval q (32 + mI - mI) = v q) by (f_equal; lia).
  destruct (iroot_ok (32 + mI) junk q nu ltac:(lia) Rq (conj NP NL) ltac:(rewrite FQ; exact Bq)) as (m & r & _ & -> & _ & _ & R0 & G1 & G2).
  cbn [obind]. eexists. eexists. split; [reflexivity|]. unfold c_conv. cbn [fst snd].
  set (c1 := conv sc_fmt (fst a * r) (32 + 32)). set (c2 := conv sc_fmt (snd a * r) (32 + 32)). set (s1 := conv sc_fmt (- fst b * r) (32 + 32)). set (s2 := conv sc_fmt (- snd b * r) (32 + 32)).
  assert (C1 := conv_R sc_fmt (fst a * r) (32 + 32) ltac:(cbn; lia)). fold c1 in C1. rewrite fxval_mul in C1.
  assert (C2 := conv_R sc_fmt (snd a * r) (32 + 32) ltac:(cbn; lia)). fold c2 in C2. rewrite fxval_mul in C2.
  assert (C3 := conv_R sc_fmt (- fst b * r) (32 + 32) ltac:(cbn; lia)). fold s1 in C3. rewrite fxval_mul, fxval_opp in C3.
  assert (C4 := conv_R sc_fmt (- snd b * r) (32 + 32) ltac:(cbn; lia)). fold s2 in C4. rewrite fxval_mul, fxval_opp in C4.
  unfold csq in NN.
  assert (B : forall x, x * x <= nu * nu -> Rabs (x * v r) <= 3 / 2). { intros x Hx. assert (Rabs x <= nu) by (apply Rabs_le; nra). rewrite Rabs_mult, (Rabs_pos_eq (v r)) by lra. apply Rle_trans with (nu * v r); [apply Rmult_le_compat_r; lra|lra]. }
  destruct (sc_near c1 _ C1 (B (v (fst a)) ltac:(nra))) as [D1 M1]. destruct (sc_near c2 _ C2 (B (v (snd a)) ltac:(nra))) as [D2 M2].
  destruct (sc_near s1 _ C3 (B (- v (fst b)) ltac:(nra))) as [D3 M3]. destruct (sc_near s2 _ C4 (B (- v (snd b)) ltac:(nra))) as [D4 M4].
  destruct (coeff4 eta (v (fst a)) (v (snd a)) (v (fst b)) (v (snd b)) (v r) (v c1) (v c2) (v s1) (v s2) nu (pwl_err pwl + 4 * (lam * eta)) (pwl_err pwl + 7 * (eta / (nu0 * nu0))) lam E0)
    as (K1 & (K2 & K3 & K4 & K5) & (K6 & K7) & K8); [rewrite eta_val; lra|lra|symmetry; exact NN|exact G1|exact G2|exact R0|exact M1|exact M2|exact M3|exact M4|].
  split; [exact (conj (conj D1 K2) (conj (conj D2 K3) (conj (conj D3 K4) (conj D4 K5))))|]. split.
  - unfold csq. cbn [fst snd]. assert (0 < eta / (nu0 * nu0)) by (apply Rdiv_lt_0_compat; nra). assert (eta <= lam * eta) by nra. unfold eps. apply Rabs_le. lra.
  - unfold rot2r, rot2i, rot1i. split; [exact K6|]. split; [exact K7|exact K8].
Qed.

Lemma eps4_small : 0 <= eps <= 1.
Proof.
  assert (N2 : 0 < nu0 * nu0) by nra. pose proof eta_pos. assert (T0 : 0 < eta / (nu0 * nu0)) by (apply Rdiv_lt_0_compat; lra).
  assert (T1 : eta / (nu0 * nu0) <= / 16) by (apply (Rmult_le_reg_r (nu0 * nu0)); [lra|]; unfold Rdiv; rewrite Rmult_assoc, Rinv_l by lra; lra). assert (0 <= lam * eta) by nra. unfold eps, pwl_err. case_eq pwl; intros; lra.
Qed.

(** One rotated pair. *)
Lemma crotate_ok q x y c s l : coefok (fst c) -> coefok (snd c) -> coefok (fst s) -> coefok (snd s) -> Rabs (csq c + csq s - 1) <= eps -> 1 <= l <= lam ->
  (1 + eps) * (csq x + csq y) <= 2 * l * (2 * l) -> let '(x', y') := crotate t q x y c s in turned eta q c s x y x' y'.
Proof.
  intros Ca Cb Cc Cd Hcs Hll HB. apply Rabs_le_both in Hcs.
  assert (near : forall z V, v z = V \/ True -> V * V <= 2 * l * (2 * l) -> forall m, convertsR t V m -> Rabs (v m - V) <= eta).
  { intros _ V _ HV m C. assert (Rabs V <= 2 * l) by (apply Rabs_le; nra). apply Rabs_le_both in H. pose proof (t_I t lam Hl Hl2). pose proof (t_W t lam Ht Hl2) as EW. pose proof (t_F t lam Ht Hl2) as EF. rewrite <- EF at 1 2.
    apply (sat_near t V m); [lia|rewrite (t_O t lam Ht Hl2); discriminate|exact C|]. rewrite imin_R by (try apply (t_S t lam Ht Hl2); lia). destruct (imax_R t) as [->|X]; [|lia]. rewrite (t_S t lam Ht Hl2), EF. replace (fW t - 1 - 32)%Z with (fI t - 1)%Z by lia. pose proof eta_pos. lra. }
  assert (W1 : (1 <= fW t)%Z) by (pose proof (t_I t lam Hl Hl2); pose proof (t_W t lam Ht Hl2); lia).
  unfold crotate, turned. rewrite (t_F t lam Ht Hl2).
  assert (SQ := rot_norm (v (fst c)) (sgn q (v (snd c))) (v (fst s)) (sgn q (v (snd s))) (v (fst x)) (v (snd x)) (v (fst y)) (v (snd y))).
  rewrite !sgn_sq in SQ. fold (csq c) (csq s) (csq x) (csq y) in SQ.
  set (a1 := rot1r _ _ _ _ _ _ _ _) in *. set (a2 := rot1i _ _ _ _ _ _ _ _) in *. set (a3 := rot2r _ _ _ _ _ _ _ _) in *. set (a4 := rot2i _ _ _ _ _ _ _ _) in *.
  assert (SQ2 : a1 * a1 + a2 * a2 + (a3 * a3 + a4 * a4) <= 2 * l * (2 * l)).
  { rewrite SQ. eapply Rle_trans; [apply Rmult_le_compat_r; [pose proof (csq_nonneg x); pose proof (csq_nonneg y); lra|]|exact HB]. lra. }
  pose proof (Rle_0_sqr a1) as Q1. pose proof (Rle_0_sqr a2) as Q2. pose proof (Rle_0_sqr a3) as Q3. pose proof (Rle_0_sqr a4) as Q4. unfold Rsqr in *.
  assert (go : forall z V, V * V <= 2 * l * (2 * l) -> fxval z (32 + 32) = V -> Rabs (v (conv t z (32 + 32)) - V) <= eta).
  { intros z V HV E. apply (near 0%Z V (or_intror Logic.I) HV). rewrite <- E. apply conv_R, W1. }
  destruct c as [c1 c2], s as [s1 s2], x as [x1 x2], y as [y1 y2]. cbn [fst snd] in *.
  destruct q; unfold c_conv, c_add, c_mul, c_opp, c_conj; cbn [fst snd]; rewrite ?Z.opp_involutive; rewrite ?(coef_conv _ Ca), ?(coef_conv _ Cb), ?(coef_conv _ Cc), ?(coef_conv _ Cd), ?(coef_neg _ Ca), ?(coef_neg _ Cb), ?(coef_neg _ Cc), ?(coef_neg _ Cd); cbn [fst snd];
    (split; split; apply go; [lra| |lra| |lra| |lra|]); unfold Z.sub, a1, a2, a3, a4, rot1r, rot1i, rot2r, rot2i, sgn; repeat (rewrite ?fxval_add, ?fxval_opp, ?fxval_mul); ring.
Qed.
End Step.

(** ** One rotation of the whole matrix *)
Lemma coff_pe_gen M t p c s n : (1 <= p)%nat -> forall k A i j,
  fold_left (fun A i => let '(u, v) := crotate t (Nat.leb M i) (A (p - 1)%nat i) (A p i) c s in cput (cput A (p - 1)%nat i u) p i v) (seq k n) A i j =
  if (Nat.leb k j && Nat.ltb j (k + n))%bool then (if Nat.eqb i (p - 1) then fst (crotate t (Nat.leb M j) (A (p - 1)%nat j) (A p j) c s) else if Nat.eqb i p then snd (crotate t (Nat.leb M j) (A (p - 1)%nat j) (A p j) c s) else A i j) else A i j.
Proof.
  intros Hp. induction n as [|n IH]; intros k A i j.
  - cbn [seq fold_left]. replace (_ && _)%bool with false; [reflexivity|]. symmetry. apply andb_false_iff. destruct (Nat.leb_spec k j); [right; apply Nat.ltb_ge; lia|left; reflexivity].
  - cbn [seq fold_left]. rewrite IH. clear IH. destruct (crotate t (Nat.leb M k) (A (p - 1)%nat k) (A p k) c s) as [u w] eqn:ER. unfold cput.
    destruct (Nat.leb_spec (S k) j), (Nat.ltb_spec j (S k + n)), (Nat.leb_spec k j), (Nat.ltb_spec j (k + S n)); cbn [andb]; try lia;
      destruct (Nat.eqb_spec j k); try lia; rewrite ?Bool.andb_false_r, ?Bool.andb_true_r; try reflexivity.
    subst j. rewrite ER. cbn [fst snd]. destruct (Nat.eqb_spec i (p - 1)), (Nat.eqb_spec i p); try lia; reflexivity.
Qed.
Lemma coff_pe_eq M t A p c s i j : (1 <= p)%nat -> (j < 2 * M)%nat -> coff_pe M t A p c s i j =
  if Nat.eqb i (p - 1) then fst (crotate t (Nat.leb M j) (A (p - 1)%nat j) (A p j) c s) else if Nat.eqb i p then snd (crotate t (Nat.leb M j) (A (p - 1)%nat j) (A p j) c s) else A i j.
Proof. intros Hp Hj. unfold coff_pe. rewrite coff_pe_gen by exact Hp. destruct (Nat.ltb_spec j (0 + 2 * M)); [reflexivity|lia]. Qed.

(** ** Norms and products of four components *)
Lemma sq4_step h ep l a1 a2 a3 a4 x1 x2 x3 x4 k w : 0 < h <= 1 -> 0 <= ep <= 1 -> 1 <= l -> 0 <= w -> a1 * a1 + a2 * a2 + (a3 * a3 + a4 * a4) = k * w -> Rabs (k - 1) <= ep ->
  Rabs (x1 - a1) <= h -> Rabs (x2 - a2) <= h -> Rabs (x3 - a3) <= h -> Rabs (x4 - a4) <= h ->
  x1 * x1 + x2 * x2 + (x3 * x3 + x4 * x4) - w <= (ep + 4 * h) * w + (ep + 4 * h) * (3 * (l * l)).
Proof.
  intros Hh He Hl W0 E Hk H1 H2 H3 H4. apply Rabs_le_both in Hk, H1, H2, H3, H4.
  assert (K : forall x a, - h <= x - a <= h -> x * x <= a * a + h * (1 + a * a) + h).
  { intros x a Hx. pose proof (young1 (x - a) a h Hx) as Y. assert ((x - a) * (x - a) <= h * h) by nra. assert (h * h <= h) by nra. replace (x * x) with (a * a + 2 * ((x - a) * a) + (x - a) * (x - a)) by ring. lra. }
  pose proof (K _ _ H1). pose proof (K _ _ H2). pose proof (K _ _ H3). pose proof (K _ _ H4).
  assert (A5 : k * w <= (1 + ep) * w) by (apply Rmult_le_compat_r; lra). set (n := a1 * a1 + a2 * a2 + (a3 * a3 + a4 * a4)) in *.
  assert (h * n <= h * ((1 + ep) * w)) by (apply Rmult_le_compat_l; lra). assert (h * (ep * w) <= h * w) by (apply Rmult_le_compat_l; nra). assert (1 <= l * l) by nra.
  assert (0 <= h * w) by nra. assert (8 * h <= (ep + 4 * h) * (3 * (l * l))) by nra.
  assert (x1 * x1 + x2 * x2 + (x3 * x3 + x4 * x4) <= n + h * n + 8 * h) by (unfold n; lra). lra.
Qed.

Lemma dot4_step h ep lam a1 a2 a3 a4 b1 b2 b3 b4 x1 x2 x3 x4 y1 y2 y3 y4 k e r P : 0 < h <= 1 -> 0 <= ep <= 1 -> 1 <= lam -> 0 <= e -> 0 <= r ->
  a1 * a1 + a2 * a2 + (a3 * a3 + a4 * a4) = k * e -> b1 * b1 + b2 * b2 + (b3 * b3 + b4 * b4) = k * r -> a1 * b1 + a2 * b2 + (a3 * b3 + a4 * b4) = k * P ->
  Rabs (k - 1) <= ep -> 2 * Rabs P <= lam * e + r / lam ->
  Rabs (x1 - a1) <= h -> Rabs (x2 - a2) <= h -> Rabs (x3 - a3) <= h -> Rabs (x4 - a4) <= h ->
  Rabs (y1 - b1) <= h -> Rabs (y2 - b2) <= h -> Rabs (y3 - b3) <= h -> Rabs (y4 - b4) <= h ->
  Rabs ((x1 * y1 + x2 * y2 + (x3 * y3 + x4 * y4)) - P) <= (ep / 2 + 2 * h) * (lam * (e + 3) + (r + 3 * (lam * lam)) / lam).
Proof.
  intros Hh He Hl E0 R0 Ea Eb Ep Hk HP X1 X2 X3 X4 Y1 Y2 Y3 Y4. set (i := / lam). assert (LI : lam * i = 1) by (apply Rinv_r; lra). assert (I0 : 0 < i) by (apply Rinv_0_lt_compat; lra).
  assert (Hk2 := Hk). apply Rabs_le_both in Hk2. unfold Rdiv in HP. fold i in HP.
  assert (Fa : a1 * a1 + a2 * a2 + (a3 * a3 + a4 * a4) <= 2 * e) by (rewrite Ea; apply Rmult_le_compat_r; lra). assert (Fb : b1 * b1 + b2 * b2 + (b3 * b3 + b4 * b4) <= 2 * r) by (rewrite Eb; apply Rmult_le_compat_r; lra).
  assert (AB : forall p, 2 * Rabs p <= 1 + p * p). { intros p. pose proof (Rle_0_sqr (p + 1)) as S1. pose proof (Rle_0_sqr (p - 1)) as S2. unfold Rsqr in S1, S2. unfold Rabs. destruct (Rcase_abs p); lra. }
  assert (ABl : forall p, 2 * Rabs p <= lam + (p * p) * i).
  { intros p. assert (0 <= i * ((lam - Rabs p) * (lam - Rabs p))) by (apply Rmult_le_pos; [lra|apply Rle_0_sqr]). assert (PA : Rabs p * Rabs p = p * p) by (unfold Rabs; destruct (Rcase_abs p); ring).
    replace (i * ((lam - Rabs p) * (lam - Rabs p))) with ((lam * i) * lam - 2 * (lam * i) * Rabs p + i * (Rabs p * Rabs p)) in H by ring. rewrite LI, PA in H. lra. }
  assert (Q : forall x y a b, Rabs (x - a) <= h -> Rabs (y - b) <= h -> Rabs (x * y - a * b) <= h * (Rabs a + Rabs b + 1)).
  { intros x y a b Hx Hy. replace (x * y - a * b) with ((x - a) * b + a * (y - b) + (x - a) * (y - b)) by ring. eapply Rle_trans; [apply Rabs_triang|]. eapply Rle_trans; [apply Rplus_le_compat_r, Rabs_triang|]. rewrite !Rabs_mult.
    assert (Rabs (x - a) * Rabs b <= h * Rabs b) by (apply Rmult_le_compat_r; [apply Rabs_pos|exact Hx]). assert (Rabs a * Rabs (y - b) <= Rabs a * h) by (apply Rmult_le_compat_l; [apply Rabs_pos|exact Hy]).
    assert (Rabs (x - a) * Rabs (y - b) <= h * h) by (apply Rmult_le_compat; try apply Rabs_pos; assumption). assert (h * h <= h) by nra. lra. }
  assert (Q1 := Rabs_le_both _ _ (Q _ _ _ _ X1 Y1)). assert (Q2 := Rabs_le_both _ _ (Q _ _ _ _ X2 Y2)). assert (Q3 := Rabs_le_both _ _ (Q _ _ _ _ X3 Y3)). assert (Q4 := Rabs_le_both _ _ (Q _ _ _ _ X4 Y4)). clear Q.
  assert (T : Rabs (x1 * y1 + x2 * y2 + (x3 * y3 + x4 * y4) - (a1 * b1 + a2 * b2 + (a3 * b3 + a4 * b4))) <= h * (Rabs a1 + Rabs a2 + Rabs a3 + Rabs a4 + (Rabs b1 + Rabs b2 + Rabs b3 + Rabs b4) + 4)) by (apply Rabs_le; lra).
  assert (S : h * (Rabs a1 + Rabs a2 + Rabs a3 + Rabs a4 + (Rabs b1 + Rabs b2 + Rabs b3 + Rabs b4) + 4) <= h * (6 + e + 2 * lam + r * i)).
  { apply Rmult_le_compat_l; [lra|]. pose proof (AB a1). pose proof (AB a2). pose proof (AB a3). pose proof (AB a4). pose proof (ABl b1). pose proof (ABl b2). pose proof (ABl b3). pose proof (ABl b4).
    assert ((b1 * b1 + b2 * b2 + (b3 * b3 + b4 * b4)) * i <= 2 * r * i) by (apply Rmult_le_compat_r; lra). lra. }
  assert (K : Rabs (k * P - P) <= ep * (/ 2 * (lam * e + r * i))). { replace (k * P - P) with ((k - 1) * P) by ring. rewrite Rabs_mult. apply Rmult_le_compat; try apply Rabs_pos; [exact Hk|lra]. }
  replace ((r + 3 * (lam * lam)) / lam) with (r * i + 3 * lam) by (unfold Rdiv; fold i; replace ((r + 3 * (lam * lam)) * i) with (r * i + 3 * lam * (lam * i)) by ring; rewrite LI; ring).
  assert (RI : 0 <= r * i) by (apply Rmult_le_pos; lra). assert (LE : e <= lam * e) by nra. rewrite Ep in T. apply Rabs_le_both in T, K.
  assert (h * (6 + e + 2 * lam + r * i) <= 2 * h * (lam * (e + 3) + (r * i + 3 * lam))). { replace (2 * h * (lam * (e + 3) + (r * i + 3 * lam))) with (h * (2 * (lam * (e + 3) + (r * i + 3 * lam)))) by ring. apply Rmult_le_compat_l; lra. }
  assert (ep * (/ 2 * (lam * e + r * i)) <= ep / 2 * (lam * (e + 3) + (r * i + 3 * lam))). { replace (ep / 2 * (lam * (e + 3) + (r * i + 3 * lam))) with (ep * (/ 2 * (lam * (e + 3) + (r * i + 3 * lam)))) by field. apply Rmult_le_compat_l; lra. }
  apply Rabs_le. lra.
Qed.

Lemma young4 lam a1 a2 a3 a4 b1 b2 b3 b4 : 1 <= lam -> 2 * Rabs (a1 * b1 + a2 * b2 + (a3 * b3 + a4 * b4)) <= lam * (a1 * a1 + a2 * a2 + (a3 * a3 + a4 * a4)) + (b1 * b1 + b2 * b2 + (b3 * b3 + b4 * b4)) / lam.
Proof.
  intros Hl. set (i := / lam). assert (LI : lam * i = 1) by (apply Rinv_r; lra). assert (I0 : 0 < i) by (apply Rinv_0_lt_compat; lra). unfold Rdiv. fold i.
  assert (K : forall sg p q, sg * sg = 1 -> 2 * (sg * (p * q)) <= lam * (p * p) + (q * q) * i).
  { intros sg p q Hs. assert (0 <= i * ((lam * p - sg * q) * (lam * p - sg * q))) by (apply Rmult_le_pos; [lra|apply Rle_0_sqr]).
    replace (i * ((lam * p - sg * q) * (lam * p - sg * q))) with ((lam * i) * (lam * (p * p)) - 2 * (lam * i) * (sg * (p * q)) + (sg * sg) * (q * q * i)) in H by ring. rewrite LI, Hs in H. lra. }
  pose proof (K 1 a1 b1 ltac:(ring)). pose proof (K 1 a2 b2 ltac:(ring)). pose proof (K 1 a3 b3 ltac:(ring)). pose proof (K 1 a4 b4 ltac:(ring)).
  pose proof (K (-1) a1 b1 ltac:(ring)). pose proof (K (-1) a2 b2 ltac:(ring)). pose proof (K (-1) a3 b3 ltac:(ring)). pose proof (K (-1) a4 b4 ltac:(ring)).
  unfold Rabs. destruct (Rcase_abs _); lra.
Qed.
