(** Accuracy of the range-reduced logarithms computed by hyperbolic CORDIC. *)
From Coq Require Import Reals Lia Lra Psatz ZifyBool.
From Verif Require Import AcTypes AcFacts Spec SpecR SpecRFacts SoftFacts QrdThm MatrixProofs ShiftFacts Atan2Proofs PwlExpReal ActReal HcModel HcNum HcIter HcExp HcExp2.
Local Open Scope R_scope.

(** ** One iteration over the reals: the angle and the norm *)
Definition theta (X Y : R) : R := (ln (X + Y) - ln (X - Y)) / 2.
Lemma ln_1p x w : Rabs x <= w -> 0 <= w < 1 -> Rabs (ln (1 + x)) <= w / (1 - w).
Proof.
  intros Hx Hw. apply Rabs_le_both in Hx. assert (P : 0 < 1 + x) by lra. assert (Q : w <= w / (1 - w)). { apply (Rmult_le_reg_r (1 - w)); [lra|]. unfold Rdiv. rewrite Rmult_assoc, Rinv_l by lra. nra. }
  pose proof (ln_le_sub1 (1 + x) P) as U. pose proof (ln_le_sub1 (/ (1 + x)) (Rinv_0_lt_compat _ P)) as L. rewrite ln_Rinv in L by exact P. apply Rabs_le. split; [|lra].
  assert (/ (1 + x) - 1 <= w / (1 - w)); [|lra]. assert (/ (1 + x) <= / (1 - w)) by (apply Rinv_le_contravar; lra). replace (w / (1 - w)) with (/ (1 - w) - 1) by (field; lra). lra.
Qed.
Lemma log_step (e t X Y r1 r2 B c s : R) : 0 < e -> 0 < t <= / 2 -> (s = 1 \/ s = -1) -> 0 <= r1 <= e -> 0 <= r2 <= e -> 0 < X + Y -> 0 < X - Y ->
  let th1 := theta X Y + s * ath t in let Q1 := (X + Y) * (X - Y) * (1 - t * t) in
  Rabs th1 <= B -> exp B <= c -> 1.21 <= Q1 -> e * c <= / 160 ->
  let X' := X + s * (Y * t - r1) in let Y' := Y + s * (X * t - r2) in
  0 < X' + Y' /\ 0 < X' - Y' /\ Rabs (theta X' Y' - th1) <= 1.38 * (e * c) /\ Q1 * (1 - 2.82 * (e * c)) <= (X' + Y') * (X' - Y') <= Q1 * (1 + 2.82 * (e * c)).
Proof.
  intros He Ht Hs H1 H2 HU HW th1 Q1 HB Hc HQ Hec X' Y'. set (U1 := (X + Y) * (1 + s * t)). set (W1 := (X - Y) * (1 - s * t)).
  assert (Ps : 0 < 1 + s * t /\ 0 < 1 - s * t) by (destruct Hs; subst s; lra). destruct Ps as [Pp Pm]. assert (PU : 0 < U1) by (apply Rmult_lt_0_compat; lra). assert (PW : 0 < W1) by (apply Rmult_lt_0_compat; lra).
  assert (EQ : U1 * W1 = Q1) by (unfold U1, W1, Q1; destruct Hs; subst s; ring). assert (EU : X' + Y' = U1 - s * (r1 + r2)) by (unfold X', Y', U1; ring). assert (EW : X' - Y' = W1 - s * (r1 - r2)) by (unfold X', Y', W1; ring).
  assert (Eth : 2 * th1 = ln U1 - ln W1). { unfold th1, theta, U1, W1, ath. rewrite !ln_mult by assumption. destruct Hs; subst s; [rewrite !Rmult_1_l; lra|]. replace (1 + -1 * t) with (1 - t) by ring. replace (1 - -1 * t) with (1 + t) by ring. lra. }
  assert (Pc : 0 < c) by (eapply Rlt_le_trans; [apply exp_pos|exact Hc]). apply Rabs_le_both in HB.
  assert (EB : exp (- B) * exp B = 1) by (rewrite <- exp_plus; replace (- B + B) with 0 by ring; apply exp_0). pose proof (exp_pos (- B)) as PB.
  assert (LB : 1 <= exp (- B) * c). { rewrite <- EB. apply Rmult_le_compat_l; lra. }
  assert (SqU : U1 * U1 = Q1 * (exp th1 * exp th1)). { rewrite <- exp_plus. replace (th1 + th1) with (ln U1 + - ln W1) by lra. rewrite exp_plus, exp_Ropp, !exp_ln by assumption. rewrite <- EQ. field. lra. }
  assert (SqW : W1 * W1 = Q1 * (exp (- th1) * exp (- th1))). { rewrite <- exp_plus. replace (- th1 + - th1) with (ln W1 + - ln U1) by lra. rewrite exp_plus, exp_Ropp, !exp_ln by assumption. rewrite <- EQ. field. lra. }
  assert (GU : 1.1 * exp (- B) <= U1).
  { assert (exp (- B) <= exp th1) by (apply exp_le_mono; lra). apply Rsqr_incr_0_var; [|lra]. unfold Rsqr. rewrite SqU. replace (1.1 * exp (- B) * (1.1 * exp (- B))) with (1.21 * (exp (- B) * exp (- B))) by lra. apply Rmult_le_compat; try lra; [apply Rmult_le_pos; lra|]. apply Rmult_le_compat; lra. }
  assert (GW : 1.1 * exp (- B) <= W1).
  { assert (exp (- B) <= exp (- th1)) by (apply exp_le_mono; lra). apply Rsqr_incr_0_var; [|lra]. unfold Rsqr. rewrite SqW. replace (1.1 * exp (- B) * (1.1 * exp (- B))) with (1.21 * (exp (- B) * exp (- B))) by lra. apply Rmult_le_compat; try lra; [apply Rmult_le_pos; lra|]. apply Rmult_le_compat; lra. }
  assert (CU : 1.1 <= U1 * c). { apply Rle_trans with (1.1 * exp (- B) * c); [lra|]. apply Rmult_le_compat_r; lra. } assert (CW : 1.1 <= W1 * c). { apply Rle_trans with (1.1 * exp (- B) * c); [lra|]. apply Rmult_le_compat_r; lra. }
  set (A := e * c * (10 / 11)). assert (PA : 0 < A) by (unfold A; apply Rmult_lt_0_compat; [apply Rmult_lt_0_compat; lra|lra]). assert (BA : A <= / 176) by (unfold A; lra).
  set (x1 := - (s * (r1 + r2)) / U1). set (x2 := - (s * (r1 - r2)) / W1).
  assert (B1 : Rabs x1 <= 2 * A). { unfold x1, Rdiv. rewrite Rabs_mult, Rabs_Ropp, (Rabs_pos_eq (/ U1)) by (apply Rlt_le, Rinv_0_lt_compat, PU). apply (Rmult_le_reg_r U1); [exact PU|]. rewrite Rmult_assoc, Rinv_l by lra. assert (Rabs (s * (r1 + r2)) <= 2 * e) by (apply Rabs_le; destruct Hs; subst s; lra). assert (e * 1.1 <= e * (U1 * c)) by (apply Rmult_le_compat_l; lra). unfold A. lra. }
  assert (B2 : Rabs x2 <= A). { unfold x2, Rdiv. rewrite Rabs_mult, Rabs_Ropp, (Rabs_pos_eq (/ W1)) by (apply Rlt_le, Rinv_0_lt_compat, PW). apply (Rmult_le_reg_r W1); [exact PW|]. rewrite Rmult_assoc, Rinv_l by lra. assert (Rabs (s * (r1 - r2)) <= e) by (apply Rabs_le; destruct Hs; subst s; lra). assert (e * 1.1 <= e * (W1 * c)) by (apply Rmult_le_compat_l; lra). unfold A. lra. }
  assert (EU' : X' + Y' = U1 * (1 + x1)) by (rewrite EU; unfold x1; field; lra). assert (EW' : X' - Y' = W1 * (1 + x2)) by (rewrite EW; unfold x2; field; lra).
  assert (N1 : Rabs (ln (1 + x1)) <= 2 * A / (1 - 2 * A)) by (apply ln_1p; [exact B1|lra]). assert (N2 : Rabs (ln (1 + x2)) <= A / (1 - A)) by (apply ln_1p; [exact B2|lra]).
  assert (M1 : 2 * A / (1 - 2 * A) <= 2 * A * (176 / 174)). { unfold Rdiv at 1. apply Rmult_le_compat_l; [lra|]. replace (176 / 174) with (/ (174 / 176)) by field. apply Rinv_le_contravar; lra. }
  assert (M2 : A / (1 - A) <= A * (176 / 174)). { unfold Rdiv at 1. apply Rmult_le_compat_l; [lra|]. replace (176 / 174) with (/ (174 / 176)) by field. apply Rinv_le_contravar; lra. }
  apply Rabs_le_both in B1, B2, N1, N2. assert (P1 : 0 < 1 + x1) by lra. assert (P2 : 0 < 1 + x2) by lra.
  split; [rewrite EU'; apply Rmult_lt_0_compat; lra|]. split; [rewrite EW'; apply Rmult_lt_0_compat; lra|]. split.
  - unfold theta. rewrite EU', EW', !ln_mult by assumption. replace ((ln U1 + ln (1 + x1) - (ln W1 + ln (1 + x2))) / 2 - th1) with ((ln (1 + x1) - ln (1 + x2)) / 2) by lra. apply Rabs_le. unfold A in *. lra.
  - rewrite EU', EW'. replace (U1 * (1 + x1) * (W1 * (1 + x2))) with (Q1 * ((1 + x1) * (1 + x2))) by (rewrite <- EQ; ring).
    assert (HAA : 0 <= A * A <= A * / 176) by nra.
    assert (L : (1 - 2 * A) * (1 - A) <= (1 + x1) * (1 + x2)) by (apply Rmult_le_compat; lra). assert (HH : (1 + x1) * (1 + x2) <= (1 + 2 * A) * (1 + A)) by (apply Rmult_le_compat; lra).
    split; apply Rmult_le_compat_l; try lra; unfold A in *; lra.
Qed.

(** ** Error budget in units of 2^-63: bounds on the angle, on the accumulated angle error and on the norm *)
Definition lb_next (err : Z -> Z -> Z) (f s : Z) (b : Z * Z * Z * bool) : Z * Z * Z * bool :=
  let '(tb, sb, rho, ok) := b in
  let T := htab hc_tab s in
  let B := Z.max (T + 2) (tb - T + 2) in
  let c := (2 ^ 63 + B + (B * B / 2 ^ 63 + 1))%Z in
  let p := (138 * c / (100 * 2 ^ f) + 1)%Z in
  let tb' := (B + p)%Z in
  let sb' := (sb + err f s + p)%Z in
  let rho' := (rho + 282 * c / (100 * 2 ^ f) + 1)%Z in
  (tb', sb', rho', ok && (B <=? 2 ^ 63)%Z && (160 * c <=? 2 ^ 63 * 2 ^ f)%Z && (1000 * rho' <=? 117 * 2 ^ 63)%Z && (100 * tb' <=? 56 * 2 ^ 63)%Z && (4 * sb' <=? 2 ^ 63)%Z).
Fixpoint lb (err : Z -> Z -> Z) (f : Z) (n : nat) : Z * Z * Z * bool := match n with O => ((hc_ln2 / 2 ^ 97 + 2)%Z, 0%Z, 0%Z, true) | S n' => lb_next err f (hs n') (lb err f n') end.
Lemma lb_ok_S err f n b : lb err f (S n) = b -> snd b = true -> snd (lb err f n) = true.
Proof. cbn [lb]. destruct (lb err f n) as [[[tb sb] rho] ok]. unfold lb_next. cbv zeta. intros <-. cbn [snd]. destruct ok; [reflexivity|discriminate]. Qed.

Section Loop.
Variables (tab : list Z) (lam : R) (err : Z -> Z -> Z) (EW : Z) (m : R).
Hypothesis HE : (5 <= EW <= 44)%Z.
Hypothesis Htab : tab_bnd tab.
Hypothesis Hlam : 0.69 <= lam <= 1.
Hypothesis Hm : / 2 <= m < 1.
Let J : Z := (EW + 1)%Z.
Let f : Z := (hc_LW J - 2 - 1)%Z.
Hypothesis Herr : forall s, (1 <= s <= 57)%Z -> Rabs (ath (bpow2 (- s)) - lam * fxval (t63 tab f s) 63) <= fxval (err f s) 63.
Let e : R := bpow2 (- f).
Let th0 : R := ln m / 2.
Lemma lf_rng : (8 <= f <= 53)%Z. Proof. unfold f, J. pose proof (size_4 (EW + 1) ltac:(lia)). lia. Qed.
Lemma le_rng : 0 < e <= / 256.
Proof. pose proof lf_rng. unfold e. split; [apply bpow2_pos|]. replace (/ 256) with (bpow2 (- (8))) by (rewrite bpow2_opp, bpow2_IZR by lia; reflexivity). apply bpow2_le. lia. Qed.
Lemma th0_rng : - (ln 2 / 2) <= th0 <= 0.
Proof. unfold th0. pose proof (ln_le (/ 2) m ltac:(lra) ltac:(lra)) as L. rewrite ln_Rinv in L by lra. pose proof (ln_le_sub1 m ltac:(lra)). lra. Qed.
Definition InvL (n : nat) (st : Z * Z * Z) : Prop :=
  let '(tb, sb, rho, _) := lb err f n in
  exists x y z, st = (x, y, z) /\ in_range true (hc_LW J) x /\ in_range true (hc_LW J) y /\ in_range true (hc_LW J) z /\
    let X := fxval x f in let Y := fxval y f in let Z := fxval z f in
    0 <= fxval rho 63 /\ 0 < X + Y /\ 0 < X - Y /\ Rabs (theta X Y) <= fxval tb 63 /\ Rabs (theta X Y - th0 + lam * Z) <= fxval sb 63 /\
    2 * hgain n * (1 - fxval rho 63) <= (X + Y) * (X - Y) /\ (X + Y) * (X - Y) * (1 - fxval rho 63) <= 4.
Lemma scale_le k D c g : (0 < k)%Z -> (0 < D)%Z -> (0 <= g)%Z -> IZR k / IZR D * (bpow2 (- g) * fxval c 63) <= fxval (k * c / (D * 2 ^ g) + 1) 63.
Proof.
  intros Hk HD Hg. assert (P2 : (0 < 2 ^ g)%Z) by (apply Z.pow_pos_nonneg; lia). pose proof (div_R (k * c) (D * 2 ^ g) ltac:(lia)) as [_ Dv]. rewrite !mult_IZR, <- (bpow2_IZR g) in Dv by lia. unfold fxval. rewrite plus_IZR. pose proof (bpow2_pos (- (63))) as P. pose proof (bpow2_pos g) as Pg. assert (PD : 0 < IZR D) by (apply IZR_lt; exact HD).
  replace (IZR k / IZR D * (bpow2 (- g) * (IZR c * bpow2 (- (63))))) with (IZR k * IZR c / (IZR D * bpow2 g) * bpow2 (- (63))) by (rewrite (bpow2_opp g); field; lra). apply Rmult_le_compat_r; lra.
Qed.
Lemma uw_bound U W : 0 < U -> 0 < W -> Rabs ((ln U - ln W) / 2) <= 0.56 -> U * W * 0.883 <= 4 -> U <= 3.99.
Proof.
  intros PU PW Hth HQ. apply Rabs_le_both in Hth. set (th := (ln U - ln W) / 2) in *.
  assert (SqU : U * U = U * W * (exp th * exp th)). { rewrite <- exp_plus. replace (th + th) with (ln U + - ln W) by (unfold th; lra). rewrite exp_plus, exp_Ropp, !exp_ln by assumption. field. lra. }
  assert (Ex : exp th <= 1.8736). { eapply Rle_trans; [apply exp_le_mono; apply Hth|]. eapply Rle_trans; [apply exp_quad; lra|]. lra. } pose proof (exp_pos th) as P.
  apply Rsqr_incr_0_var; [|lra]. unfold Rsqr. rewrite SqU. assert (E2 : exp th * exp th <= 1.8736 * 1.8736) by (apply Rmult_le_compat; lra). assert (U * W <= 4.531) by lra. assert (0 < U * W) by (apply Rmult_lt_0_compat; assumption).
  apply Rle_trans with (4.531 * (1.8736 * 1.8736)); [|lra]. apply Rmult_le_compat; try lra. apply Rmult_le_pos; lra.
Qed.
Lemma InvL_step n st : (n < 51)%nat -> snd (lb err f (S n)) = true -> InvL n st -> InvL (S n) (hc_step tab 2 J (hc_dir ROT_Y st) (hs n) st).
Proof.
  intros Hn Hok H. unfold InvL in *. cbn [lb] in *. destruct (lb err f n) as [[[tb sb] rho] ok]. destruct H as (x & y & z & -> & Rx & Ry & Rz & PR & PU & PW & Bth & Bs & QL & QH).
  unfold lb_next in *. cbv zeta in *. cbn [snd] in Hok. pose proof (hs_range n) as Hs. set (s := hs n) in *. set (T := htab hc_tab s) in *.
  set (B := Z.max (T + 2) (tb - T + 2)) in *. set (c := (2 ^ 63 + B + (B * B / 2 ^ 63 + 1))%Z) in *. set (p := (138 * c / (100 * 2 ^ f) + 1)%Z) in *. set (d := (282 * c / (100 * 2 ^ f) + 1)%Z) in *.
  replace (rho + 282 * c / (100 * 2 ^ f) + 1)%Z with (rho + d)%Z in * by (unfold d; lia).
  apply andb_prop in Hok. destruct Hok as [Hok Hsb]. apply andb_prop in Hok. destruct Hok as [Hok Htb]. apply andb_prop in Hok. destruct Hok as [Hok Hrho]. apply andb_prop in Hok. destruct Hok as [Hok Hc]. apply andb_prop in Hok. destruct Hok as [_ HB]. apply Z.leb_le in Hsb, Htb, Hrho, Hc, HB.
  pose proof lf_rng as Hf. pose proof le_rng as He. pose proof (size_4 J ltac:(unfold J; lia)) as HW. assert (HW1 : (1 <= hc_LW J)%Z) by lia. pose proof th0_rng as H0. pose proof ln2_hi as L2.
  assert (HT : (0 <= T)%Z) by apply (hc_tab_bnd s).
  assert (Hent : hc_entry tab 2 J s = (htab tab s / 2 ^ (63 - f))%Z). { rewrite (entry_val tab 2 J s Htab) by (unfold J in *; lia). reflexivity. }
  pose proof (t63_val tab f s ltac:(lia)) as Et. set (t := t63 tab f s) in *. pose proof (Herr s ltac:(lia)) as Ba. fold t in Ba. set (a := ath (bpow2 (- s))) in *.
  assert (Na : fxval T 63 - fxval 2 63 <= a <= fxval T 63 + fxval 2 63).
  { pose proof (tab_near s ltac:(lia)) as N. fold a in N. unfold T63 in N. fold (htab hc_tab s) in N. fold T in N. apply Rabs_le_both in N. assert (E62 : bpow2 (-62) = fxval 2 63) by (unfold fxval; rewrite <- bpow2_1, <- bpow2_add; reflexivity). lra. }
  pose proof (bpow2_half s ltac:(lia)) as Bh. set (sg := if (y <? 0)%Z then 1 else -1). assert (Hsg : sg = 1 \/ sg = -1) by (unfold sg; destruct (y <? 0)%Z; tauto).
  set (X := fxval x f) in *. set (Y := fxval y f) in *.
  set (x' := if (y <? 0)%Z then (x + Z.shiftr y s)%Z else (x - Z.shiftr y s)%Z). set (y' := if (y <? 0)%Z then (y + Z.shiftr x s)%Z else (y - Z.shiftr x s)%Z). set (z' := if (y <? 0)%Z then (z - htab tab s / 2 ^ (63 - f))%Z else (z + htab tab s / 2 ^ (63 - f))%Z).
  assert (Ez : fxval z' f = fxval z f - sg * fxval t 63). { unfold z', sg. destruct (y <? 0)%Z; [rewrite fx_sub, Et; ring|rewrite fxval_add, Et; ring]. }
  destruct (shr_val f y s ltac:(lia)) as (r1 & Hr1 & Er1). fold e in Hr1. fold Y in Er1. destruct (shr_val f x s ltac:(lia)) as (r2 & Hr2 & Er2). fold e in Hr2. fold X in Er2.
  assert (EX : fxval x' f = X + sg * (Y * bpow2 (- s) - r1)). { unfold x', sg, X. destruct (y <? 0)%Z; [rewrite fxval_add, Er1; ring|rewrite fx_sub, Er1; ring]. }
  assert (EY : fxval y' f = Y + sg * (X * bpow2 (- s) - r2)). { unfold y', sg, Y. destruct (y <? 0)%Z; [rewrite fxval_add, Er2; ring|rewrite fx_sub, Er2; ring]. }
  assert (MB1 : fxval T 63 + fxval 2 63 <= fxval B 63). { rewrite <- fxval_add. apply fxval_le. unfold B. lia. }
  assert (MB2 : fxval tb 63 - fxval T 63 + fxval 2 63 <= fxval B 63). { rewrite <- fx_sub, <- fxval_add. apply fxval_le. unfold B. lia. }
  assert (Bth1 : Rabs (theta X Y + sg * a) <= fxval B 63).
  { apply Rabs_le_both in Bth. assert (0 <= a) by (apply ath_nonneg; lra). unfold sg. destruct (Z.ltb_spec y 0) as [Hy|Hy].
    - apply fxval_lt with (F := f) in Hy. rewrite fxval_0 in Hy. fold Y in Hy. assert (theta X Y <= 0). { unfold theta. pose proof (ln_le (X + Y) (X - Y) PU ltac:(lra)). lra. } apply Rabs_le. lra.
    - apply fxval_le with (F := f) in Hy. rewrite fxval_0 in Hy. fold Y in Hy. assert (0 <= theta X Y). { unfold theta. pose proof (ln_le (X - Y) (X + Y) PW ltac:(lra)). lra. } apply Rabs_le. lra. }
  assert (HB0 : (0 <= B)%Z) by (unfold B; lia). assert (HB1 : 0 <= fxval B 63 <= 1). { split; [rewrite <- (fxval_0 63); apply fxval_le; lia|]. rewrite <- (fxval_one 63) by lia. apply fxval_le, HB. }
  assert (Hexp : exp (fxval B 63) <= fxval c 63). { eapply Rle_trans; [apply exp_quad; exact HB1|]. exact (quad63 EW B HB0). }
  assert (Pc : 0 < fxval c 63) by (eapply Rlt_le_trans; [apply exp_pos|exact Hexp]). assert (Hec : e * fxval c 63 <= / 160).
  { apply IZR_le in Hc. rewrite !mult_IZR, <- !bpow2_IZR in Hc by lia. unfold e, fxval. pose proof (bpow2_pos 63). pose proof (bpow2_pos f). rewrite !bpow2_opp. apply (Rmult_le_reg_r (bpow2 63 * bpow2 f)); [apply Rmult_lt_0_compat; assumption|].
    replace (/ bpow2 f * (IZR c * / bpow2 63) * (bpow2 63 * bpow2 f)) with (IZR c) by (field; lra). lra. }
  assert (Pd : 2.82 * (e * fxval c 63) <= fxval d 63). { pose proof (scale_le 282 100 c f ltac:(lia) ltac:(lia) ltac:(lia)) as S. fold d e in S. lra. } assert (Pp : 1.38 * (e * fxval c 63) <= fxval p 63). { pose proof (scale_le 138 100 c f ltac:(lia) ltac:(lia) ltac:(lia)) as S. fold p e in S. lra. }
  assert (Pec : 0 < e * fxval c 63) by (apply Rmult_lt_0_compat; lra).
  assert (Frho : fxval (rho + d) 63 <= 0.117). { apply IZR_le in Hrho. rewrite !mult_IZR, <- !bpow2_IZR in Hrho by lia. unfold fxval. rewrite bpow2_opp. pose proof (bpow2_pos 63). apply (Rmult_le_reg_r (bpow2 63)); [assumption|]. rewrite Rmult_assoc, Rinv_l by lra. lra. }
  assert (Ftb : fxval (B + p) 63 <= 0.56). { apply IZR_le in Htb. rewrite !mult_IZR, <- !bpow2_IZR in Htb by lia. unfold fxval. rewrite bpow2_opp. pose proof (bpow2_pos 63). apply (Rmult_le_reg_r (bpow2 63)); [assumption|]. rewrite Rmult_assoc, Rinv_l by lra. lra. }
  assert (Fsb : fxval (sb + err f s + p) 63 <= / 4). { apply IZR_le in Hsb. rewrite !mult_IZR, <- !bpow2_IZR in Hsb by lia. unfold fxval. rewrite bpow2_opp. pose proof (bpow2_pos 63). apply (Rmult_le_reg_r (bpow2 63)); [assumption|]. rewrite Rmult_assoc, Rinv_l by lra. lra. }
  rewrite fxval_add in Frho. rewrite !fxval_add in Ftb, Fsb.
  assert (Hg : hgain (S n) = hgain n * (1 - bpow2 (- s) * bpow2 (- s))) by reflexivity. pose proof (hgain_low (S n) ltac:(lia)) as GL.
  set (tt := bpow2 (- s)) in *. assert (Htt : 0 < 1 - tt * tt <= 1) by (clear - Bh; nra). set (Q := (X + Y) * (X - Y)) in *. assert (PQ : 0 < Q) by (apply Rmult_lt_0_compat; assumption).
  set (r := fxval rho 63) in *. set (D := fxval d 63) in *.
  assert (PD : 0 < D) by lra. assert (RD : 0 <= r * D) by (apply Rmult_le_pos; lra). assert (DD : 0 <= D * D) by (apply Rmult_le_pos; lra).
  assert (Q1L : 2 * hgain (S n) * (1 - r) <= Q * (1 - tt * tt)). { rewrite Hg. replace (2 * (hgain n * (1 - tt * tt)) * (1 - r)) with (2 * hgain n * (1 - r) * (1 - tt * tt)) by ring. apply Rmult_le_compat_r; lra. }
  assert (Q1 : 1.21 <= Q * (1 - tt * tt)). { eapply Rle_trans; [|exact Q1L]. apply Rle_trans with (2 * 0.68558 * 0.883); [lra|]. apply Rmult_le_compat; lra. }
  destruct (log_step e tt X Y r1 r2 (fxval B 63) (fxval c 63) sg ltac:(lra) ltac:(lra) Hsg Hr1 Hr2 PU PW Bth1 Hexp Q1 Hec) as (PU' & PW' & Dth & DQ). fold Q in DQ. rewrite <- EX, <- EY in PU', PW', Dth, DQ.
  set (X' := fxval x' f) in *. set (Y' := fxval y' f) in *. fold a in Dth. apply Rabs_le_both in Dth, Bth1, Bs, Ba.
  assert (Bth' : Rabs (theta X' Y') <= fxval (B + p) 63) by (rewrite fxval_add; apply Rabs_le; lra).
  assert (Bs' : Rabs (theta X' Y' - th0 + lam * fxval z' f) <= fxval (sb + err f s + p) 63). { rewrite Ez, !fxval_add. apply Rabs_le. destruct Hsg as [E|E]; rewrite E in *; lra. }
  assert (Q1p : 0 < Q * (1 - tt * tt)) by lra. assert (Q1h : Q * (1 - tt * tt) <= Q). { rewrite <- (Rmult_1_r Q) at 2. apply Rmult_le_compat_l; lra. }
  assert (QL' : 2 * hgain (S n) * (1 - fxval (rho + d) 63) <= (X' + Y') * (X' - Y')).
  { rewrite fxval_add. fold r D. eapply Rle_trans; [|apply DQ]. apply Rle_trans with (Q * (1 - tt * tt) * (1 - D)); [|apply Rmult_le_compat_l; lra]. apply Rle_trans with (2 * hgain (S n) * (1 - r) * (1 - D)); [|apply Rmult_le_compat_r; lra].
    rewrite (Rmult_assoc (2 * hgain (S n))). apply Rmult_le_compat_l; [lra|]. clear - RD. lra. }
  assert (QH' : (X' + Y') * (X' - Y') * (1 - fxval (rho + d) 63) <= 4).
  { rewrite fxval_add. fold r D. apply Rle_trans with (Q * (1 + D) * (1 - (r + D))).
    - apply Rmult_le_compat_r; [lra|]. eapply Rle_trans; [apply DQ|]. apply Rmult_le_compat; lra.
    - eapply Rle_trans; [|exact QH]. rewrite (Rmult_assoc Q). apply Rmult_le_compat_l; [lra|]. clear - RD DD. lra. }
  assert (PR' : 0 <= fxval (rho + d) 63) by (rewrite fxval_add; fold r D; lra).
  assert (Rx' : in_range true (hc_LW J) x' /\ in_range true (hc_LW J) y').
  { assert (HQ : (X' + Y') * (X' - Y') * 0.883 <= 4). { eapply Rle_trans; [|exact QH']. apply Rmult_le_compat_l; [apply Rmult_le_pos; lra|rewrite fxval_add; fold r D; lra]. }
    assert (Bt : Rabs (theta X' Y') <= 0.56) by (eapply Rle_trans; [exact Bth'|rewrite fxval_add; lra]).
    assert (BU : X' + Y' <= 3.99) by (apply (uw_bound _ (X' - Y')); assumption). assert (BW : X' - Y' <= 3.99). { apply (uw_bound _ (X' + Y')); try assumption; [|lra]. replace ((ln (X' - Y') - ln (X' + Y')) / 2) with (- theta X' Y') by (unfold theta; lra). rewrite Rabs_Ropp. exact Bt. }
    split; (apply (dp_range 2); [exact HW1|]; fold f; fold e; replace (bpow2 2) with 4 by (rewrite bpow2_IZR by lia; reflexivity); fold X' Y'; apply Rabs_le; lra). }
  destruct Rx' as [Rx' Ry']. assert (Rz' : in_range true (hc_LW J) z').
  { apply (dp_range 2); [exact HW1|]. fold f. fold e. replace (bpow2 2) with 4 by (rewrite bpow2_IZR by lia; reflexivity). rewrite !fxval_add in Bs'. rewrite fxval_add in Bth'. apply Rabs_le_both in Bs', Bth'. rewrite fxval_add in Fsb.
    set (Z' := fxval z' f) in *. assert (HZ : -1.3 <= lam * Z' <= 1.3) by lra. clear - HZ Hlam He. apply Rabs_le. split; apply (Rmult_le_reg_l lam); try lra; nra. }
  exists x', y', z'. split; [|refine (conj Rx' (conj Ry' (conj Rz' (conj PR' (conj PU' (conj PW' (conj Bth' (conj Bs' (conj QL' QH')))))))))].
  unfold hc_step, hc_dir. rewrite Hent, (shr_id _ x s HW1 ltac:(lia) Rx), (shr_id _ y s HW1 ltac:(lia) Ry). unfold x', y', z' in *. destruct (y <? 0)%Z; rewrite !dp_id by assumption; reflexivity.
Qed.
Lemma InvL_all st n : InvL 0 st -> (n <= 51)%nat -> snd (lb err f n) = true -> InvL n (hc_at ROT_Y tab 2 J st n).
Proof.
  intros H0. induction n as [|n IH]; intros Hn Hok; [exact H0|]. rewrite hc_at_S by lia. apply InvL_step; [lia|exact Hok|]. apply IH; [lia|]. exact (lb_ok_S err f n _ eq_refl Hok).
Qed.
(** The registers at the start: x = m + 1, y = m - 1, z = 0. *)
Lemma InvL_0 x y : fxval x f = m + 1 -> fxval y f = m - 1 -> InvL 0 (x, y, 0%Z).
Proof.
  intros Ex Ey. pose proof (size_4 J ltac:(unfold J; lia)) as HW. pose proof le_rng as He. pose proof th0_rng as T0. unfold InvL. cbn [lb hgain]. exists x, y, 0%Z. rewrite Ex, Ey, !fxval_0. replace (m + 1 + (m - 1)) with (2 * m) by ring. replace (m + 1 - (m - 1)) with 2 by ring.
  assert (Et : theta (m + 1) (m - 1) = th0). { unfold theta, th0. replace (m + 1 + (m - 1)) with (2 * m) by ring. replace (m + 1 - (m - 1)) with 2 by ring. rewrite ln_mult by lra. lra. }
  assert (R4 : forall v, Rabs (fxval v f) <= 4 - e -> in_range true (hc_LW J) v). { intros v Hv. apply (dp_range 2); [lia|]. fold f. fold e. replace (bpow2 2) with 4 by (rewrite bpow2_IZR by lia; reflexivity). exact Hv. }
  refine (conj eq_refl (conj _ (conj _ (conj _ (conj _ (conj _ (conj _ (conj _ (conj _ (conj _ _)))))))))); try lra.
  - apply R4. rewrite Ex. apply Rabs_le. lra.
  - apply R4. rewrite Ey. apply Rabs_le. lra.
  - apply R4. rewrite fxval_0. apply Rabs_le. lra.
  - rewrite Et. assert (ln 2 / 2 <= fxval (hc_ln2 / 2 ^ 97 + 2) 63).
    { pose proof ln2_near as N. apply Rabs_le_both in N. rewrite fxval_add. pose proof (div_R hc_ln2 (2 ^ 97) ltac:(lia)) as [_ D]. rewrite <- bpow2_IZR in D by lia. unfold Rdiv in D. rewrite <- bpow2_opp in D. unfold fxval in *.
      assert (P1 : bpow2 (-72) <= bpow2 (-63)) by (apply bpow2_le; lia). pose proof (bpow2_pos (-63)) as P0. change (- (63))%Z with (-63)%Z. change (- (159))%Z with (-159)%Z in N. change (- (97))%Z with (-97)%Z in D. assert (E1 : bpow2 (-97) * bpow2 (-63) = bpow2 (-159) / 2) by (rewrite <- bpow2_add; replace (-97 + -63)%Z with (-159 + -1)%Z by lia; rewrite bpow2_add; unfold Rdiv; f_equal; change (-1)%Z with (- (1))%Z; rewrite bpow2_opp, bpow2_1; reflexivity).
      apply (Rmult_lt_compat_r (bpow2 (-63))) in D; [|exact P0]. rewrite Rmult_assoc, E1 in D. set (h := (hc_ln2 / 2 ^ 97)%Z) in *. lra. }
    apply Rabs_le. lra.
  - rewrite Et. replace (th0 - th0 + lam * 0) with 0 by ring. rewrite Rabs_R0. lra.
Qed.
End Loop.

(** ** The end of the computation *)
Definition log_v (tab : list Z) (EW M : Z) : Z :=
  let fx := dfmt (EW + 2) 2 true in
  let xc := conv fx (M + 2 ^ EW) EW in
  let yc := conv fx (M - 2 ^ EW) EW in
  let '(_, _, z) := hc_loop ROT_Y tab 2 (EW + 1) (hc_start 2 (EW + 1) xc yc EW 0) in
  2 * conv (dfmt (EW + 3) 2 true) z (fF (hc_dp 2 (EW + 1))).
Lemma log_rr_v tab AF fz x : (1 <= AF)%Z -> (0 <= x < 2 ^ AF)%Z -> let EW := Z.max AF (fF fz) in log_rr tab AF fz x = conv fz (log_v tab EW (x * 2 ^ (EW - AF))) (EW + 1).
Proof.
  intros HA Hx EW. unfold log_rr, log_v. fold EW. assert (E : conv (dfmt (EW + 2) 2 true) x AF = (x * 2 ^ (EW - AF))%Z).
  { assert (HE : (AF <= EW)%Z) by (unfold EW; lia). rewrite conv_dfmt_up by lia. replace (EW + 2 - 2 - AF)%Z with (EW - AF)%Z by lia. apply wraps_id; [lia|]. assert (P : (0 < 2 ^ (EW - AF))%Z) by (apply Z.pow_pos_nonneg; lia). assert (E2 : (2 ^ EW = 2 ^ AF * 2 ^ (EW - AF))%Z) by (rewrite <- Z.pow_add_r by lia; f_equal; lia).
    assert (E3 : (2 ^ (EW + 2 - 1) = 2 * 2 ^ EW)%Z) by (replace (EW + 2 - 1)%Z with (1 + EW)%Z by lia; rewrite Z.pow_add_r by lia; reflexivity). rewrite E3. nia. }
  rewrite E. destruct (hc_loop _ _ _ _ _) as [[a b] c]. reflexivity.
Qed.
Lemma hc_start_reg EW M : (5 <= EW <= 44)%Z -> (2 ^ (EW - 1) <= M < 2 ^ EW)%Z -> let fx := dfmt (EW + 2) 2 true in let f := (hc_LW (EW + 1) - 2 - 1)%Z in
  exists x y, hc_start 2 (EW + 1) (conv fx (M + 2 ^ EW) EW) (conv fx (M - 2 ^ EW) EW) EW 0 = (x, y, 0%Z) /\ fxval x f = fxval M EW + 1 /\ fxval y f = fxval M EW - 1.
Proof.
  intros HE HM fx f. pose proof (size_4 (EW + 1) ltac:(lia)) as HW. assert (P : (2 ^ EW = 2 * 2 ^ (EW - 1))%Z) by (rewrite <- (Z.pow_succ_r 2 (EW - 1)) by lia; f_equal; lia). assert (P2 : (2 ^ (EW + 2 - 1) = 2 * 2 ^ EW)%Z) by (replace (EW + 2 - 1)%Z with (Z.succ EW) by lia; apply Z.pow_succ_r; lia).
  assert (E1 : conv fx (M + 2 ^ EW) EW = (M + 2 ^ EW)%Z). { unfold fx. rewrite conv_dfmt_same by lia. apply wraps_id; lia. } assert (E2 : conv fx (M - 2 ^ EW) EW = (M - 2 ^ EW)%Z). { unfold fx. rewrite conv_dfmt_same by lia. apply wraps_id; lia. }
  rewrite E1, E2. assert (Hf : (EW <= f)%Z) by (unfold f; lia). assert (Up : forall v, (- 2 ^ EW <= v < 2 * 2 ^ EW)%Z -> conv (hc_dp 2 (EW + 1)) v EW = (v * 2 ^ (f - EW))%Z).
  { intros v Hv. unfold hc_dp. rewrite conv_dfmt_up by lia. replace (hc_LW (EW + 1) - (2 + 1) - EW)%Z with (f - EW)%Z by (unfold f; lia). apply wraps_id; [lia|]. assert (Pk : (0 < 2 ^ (f - EW))%Z) by (apply Z.pow_pos_nonneg; lia).
    assert (E3 : (2 ^ (hc_LW (EW + 1) - 1) = 4 * 2 ^ EW * 2 ^ (f - EW))%Z). { replace (hc_LW (EW + 1) - 1)%Z with (2 + EW + (f - EW))%Z by (unfold f; lia). rewrite !Z.pow_add_r by lia. reflexivity. } rewrite E3. nia. }
  unfold hc_start. rewrite !Up by lia. exists ((M + 2 ^ EW) * 2 ^ (f - EW))%Z, ((M - 2 ^ EW) * 2 ^ (f - EW))%Z. split.
  - f_equal. unfold hc_dp. rewrite conv_dfmt_up by lia. rewrite Z.mul_0_l. apply wraps_id; [lia|]. split; [|apply Z.pow_pos_nonneg; lia]. assert (0 < 2 ^ (hc_LW (EW + 1) - 1))%Z by (apply Z.pow_pos_nonneg; lia). lia.
  - assert (S : forall v, fxval (v * 2 ^ (f - EW)) f = fxval v EW). { intros v. rewrite <- (fxval_shift v EW (f - EW)) by lia. f_equal; lia. }
    rewrite !S, fxval_add, fx_sub, fxval_one by lia. split; ring.
Qed.
Definition lb_final (err : Z -> Z -> Z) (k2 lnum EW : Z) : bool :=
  let f := (hc_LW (EW + 1) - 2 - 1)%Z in
  let '(tb, sb, rho, ok) := lb err f (Z.to_nat (hc_L (EW + 1))) in
  ok && (100 * tb <=? 56 * 2 ^ 63)%Z && (4 * sb <=? 2 ^ 63)%Z && (4 * (tb + sb) * 10000 * 2 ^ EW <=? (k2 - 2) * lnum * 2 ^ 63)%Z.
Lemma log_v_near tab lam err k2 lnum EW M : (5 <= EW <= 44)%Z -> (2 ^ (EW - 1) <= M < 2 ^ EW)%Z -> tab_bnd tab -> 0.69 <= lam <= 1 -> (0 < lnum)%Z -> IZR lnum / 10000 <= lam ->
  (forall f s, (1 <= s <= 57)%Z -> (f <= 63)%Z -> Rabs (ath (bpow2 (- s)) - lam * fxval (t63 tab f s) 63) <= fxval (err f s) 63) -> lb_final err k2 lnum EW = true ->
  Rabs (fxval (log_v tab EW M) (EW + 1) - ln (fxval M EW) / lam) <= IZR k2 / 2 * bpow2 (- EW).
Proof.
  intros HE HM Htab Hlam Hl0 Hl Herr Hfin. set (m := fxval M EW). assert (Hm : / 2 <= m < 1).
  { unfold m. destruct HM as [M1 M2]. apply fxval_le with (F := EW) in M1. apply fxval_lt with (F := EW) in M2. rewrite fxval_one in M2 by lia. rewrite fxval_pow in M1 by lia. replace (EW - 1 - EW)%Z with (- (1))%Z in M1 by lia. rewrite bpow2_opp, bpow2_1 in M1. lra. }
  pose proof (size_4 (EW + 1) ltac:(lia)) as HW.
  assert (Herr' : forall s, (1 <= s <= 57)%Z -> Rabs (ath (bpow2 (- s)) - lam * fxval (t63 tab (hc_LW (EW + 1) - 2 - 1) s) 63) <= fxval (err (hc_LW (EW + 1) - 2 - 1)%Z s) 63) by (intros s Hs; apply Herr; [exact Hs|lia]).
  pose proof (lf_rng tab lam err EW HE Herr') as Hf. pose proof (le_rng tab lam err EW HE Herr') as He.
  unfold log_v. destruct (hc_start_reg EW M HE HM) as (x & y & -> & Ex & Ey). fold m in Ex, Ey. unfold lb_final in Hfin. cbv zeta in Hfin. set (f := (hc_LW (EW + 1) - 2 - 1)%Z) in *.
  assert (Hn : (Z.to_nat (hc_L (EW + 1)) <= 51)%nat) by lia. assert (Hok : snd (lb err f (Z.to_nat (hc_L (EW + 1)))) = true). { destruct (lb err f _) as [[[? ?] ?] ?]. cbn [snd]. destruct b; [reflexivity|discriminate]. }
  pose proof (InvL_all tab lam err EW m HE Htab Hlam Hm Herr' (x, y, 0%Z) _ (InvL_0 tab lam err EW m HE Hm Herr' x y Ex Ey) Hn Hok) as IL.
  unfold InvL in IL. fold f in IL. destruct (lb err f _) as [[[tb sb] rho] ok]. destruct IL as (x' & y' & z & E & _ & _ & Rz & _ & PU & PW & Bth & Bs & _ & _). unfold hc_loop. change (fold_left _ _ _) with (hc_at ROT_Y tab 2 (EW + 1) (x, y, 0%Z) (Z.to_nat (hc_L (EW + 1)))). rewrite E. clear E.
  apply andb_prop in Hfin. destruct Hfin as [Hfin Hk]. apply andb_prop in Hfin. destruct Hfin as [Hfin Hsb]. apply andb_prop in Hfin. destruct Hfin as [_ Htb]. apply Z.leb_le in Hk, Hsb, Htb.
  assert (B63 : 0 < bpow2 63) by apply bpow2_pos. set (tbv := fxval tb 63) in *. set (sbv := fxval sb 63) in *.
  assert (Ftb : tbv <= 0.56). { apply IZR_le in Htb. rewrite !mult_IZR, <- !bpow2_IZR in Htb by lia. unfold tbv, fxval. rewrite bpow2_opp. apply (Rmult_le_reg_r (bpow2 63)); [assumption|]. rewrite Rmult_assoc, Rinv_l by lra. lra. }
  assert (Fsb : sbv <= / 4). { apply IZR_le in Hsb. rewrite !mult_IZR, <- !bpow2_IZR in Hsb by lia. unfold sbv, fxval. rewrite bpow2_opp. apply (Rmult_le_reg_r (bpow2 63)); [assumption|]. rewrite Rmult_assoc, Rinv_l by lra. lra. }
  set (u := bpow2 (- EW)). assert (Pu : 0 < u) by apply bpow2_pos. assert (L : 40000 * (tbv + sbv) <= IZR (k2 - 2) * IZR lnum * u).
  { apply IZR_le in Hk. rewrite !mult_IZR, <- !bpow2_IZR, plus_IZR in Hk by lia. unfold tbv, sbv, u, fxval. rewrite !bpow2_opp. pose proof (bpow2_pos EW) as PE. apply (Rmult_le_reg_r (bpow2 63 * bpow2 EW)); [apply Rmult_lt_0_compat; lra|].
    replace (40000 * (IZR tb * / bpow2 63 + IZR sb * / bpow2 63) * (bpow2 63 * bpow2 EW)) with (4 * (IZR tb + IZR sb) * 10000 * bpow2 EW) by (field; lra). replace (IZR (k2 - 2) * IZR lnum * / bpow2 EW * (bpow2 63 * bpow2 EW)) with (IZR (k2 - 2) * IZR lnum * bpow2 63) by (field; lra). lra. }
  pose proof (th0_rng m Hm) as T0. pose proof ln2_hi as L2. set (Z := fxval z f) in *. apply Rabs_le_both in Bth, Bs. set (th := theta _ _) in *.
  assert (D0 : - (tbv + sbv) <= lam * Z - ln m / 2 <= tbv + sbv) by lra. assert (HZ : -1.3 <= lam * Z <= 1.3) by lra.
  assert (Zr : -2 <= Z < 2) by (clear - HZ Hlam; split; [apply (Rmult_le_reg_l lam)|apply (Rmult_lt_reg_l lam)]; lra).
  pose proof (conv_R (dfmt (EW + 3) 2 true) z (fF (hc_dp 2 (EW + 1))) ltac:(cbn [dfmt fW]; lia)) as C. replace (fF (hc_dp 2 (EW + 1))) with f in * by (unfold f, hc_dp, fF; cbn; lia). fold Z in C.
  apply convR_dfmt in C; [|lia|change (2 - 1)%Z with 1%Z; rewrite bpow2_1; lra]. destruct C as [_ C]. replace (EW + 3 - 2)%Z with (EW + 1)%Z in C by lia. set (zc := conv _ z f) in *.
  assert (Eu : bpow2 (- (EW + 1)) = u / 2) by (unfold u; replace (- (EW + 1))%Z with (- EW + - (1))%Z by lia; rewrite bpow2_add, (bpow2_opp 1), bpow2_1; reflexivity). rewrite Eu in C.
  replace (fxval (2 * zc) (EW + 1)) with (2 * fxval zc (EW + 1)) by (unfold fxval; rewrite mult_IZR; ring). set (Zc := fxval zc (EW + 1)) in *.
  assert (K : - (IZR (k2 - 2) / 2 * u) <= 2 * Z - ln m / lam <= IZR (k2 - 2) / 2 * u).
  { assert (Pl : 0 < IZR lnum) by (apply IZR_lt; exact Hl0). assert (Kp : 0 <= IZR (k2 - 2) * u). { assert (0 <= tbv + sbv) by lra. apply (Rmult_le_reg_r (IZR lnum)); [exact Pl|]. lra. }
    assert (L' : 2 * (tbv + sbv) <= lam * (IZR (k2 - 2) / 2 * u)). { apply Rle_trans with (IZR lnum / 10000 * (IZR (k2 - 2) / 2 * u)); [lra|]. apply Rmult_le_compat_r; lra. }
    assert (El : 2 * Z - ln m / lam = (2 * (lam * Z - ln m / 2)) / lam) by (field; lra). rewrite El. split; apply (Rmult_le_reg_r lam); try lra; unfold Rdiv; rewrite (Rmult_assoc _ (/ lam)), Rinv_l by lra; lra. }
  rewrite minus_IZR in K. apply Rabs_le. lra.
Qed.

Definition err1 (f s : Z) : Z := (htab hc_tab s - t63 hc_tab f s + 2)%Z.
Definition err2 (f s : Z) : Z := ((htab hc_tab2 s - t63 hc_tab2 f s) * 7 / 10 + 7)%Z.
Lemma err1_ok f s : (1 <= s <= 57)%Z -> (f <= 63)%Z -> Rabs (ath (bpow2 (- s)) - 1 * fxval (t63 hc_tab f s) 63) <= fxval (err1 f s) 63.
Proof.
  intros Hs Hf. pose proof (t63_le hc_tab f s Hf hc_tab_bnd) as Ht. pose proof (tab_near s Hs) as N. unfold T63 in N. fold (htab hc_tab s) in N. apply Rabs_le_both in N. assert (E62 : bpow2 (-62) = fxval 2 63) by (unfold fxval; rewrite <- bpow2_1, <- bpow2_add; reflexivity).
  assert (fxval (t63 hc_tab f s) 63 <= fxval (htab hc_tab s) 63) by (apply fxval_le; lia). unfold err1. rewrite fxval_add, fx_sub. apply Rabs_le. lra.
Qed.
Lemma err2_ok f s : (1 <= s <= 57)%Z -> (f <= 63)%Z -> Rabs (ath (bpow2 (- s)) - ln 2 * fxval (t63 hc_tab2 f s) 63) <= fxval (err2 f s) 63.
Proof.
  intros Hs Hf. pose proof (t63_le hc_tab2 f s Hf hc_tab2_bnd) as Ht. pose proof (tab2_near s Hs) as N. unfold T63 in N. fold (htab hc_tab2 s) in N. apply Rabs_le_both in N. assert (E62 : bpow2 (-62) = fxval 2 63) by (unfold fxval; rewrite <- bpow2_1, <- bpow2_add; reflexivity).
  set (T := htab hc_tab2 s) in *. set (t := t63 hc_tab2 f s) in *. assert (Hd : fxval t 63 <= fxval T 63) by (apply fxval_le; lia). pose proof ln2_hi as L2. pose proof ln2_low as L1. assert (D : ln 2 * (fxval T 63 - fxval t 63) <= fxval ((T - t) * 7 / 10 + 1) 63).
  { rewrite <- fx_sub. unfold fxval. rewrite plus_IZR, <- Rmult_assoc. apply Rmult_le_compat_r; [apply Rlt_le, bpow2_pos|]. pose proof (div_R ((T - t) * 7) 10 ltac:(lia)) as [_ D]. rewrite mult_IZR in D. assert (0 <= IZR (T - t)) by (apply IZR_le; lia). assert (ln 2 * IZR (T - t) <= 7 / 10 * IZR (T - t)) by (apply Rmult_le_compat_r; lra). lra. }
  unfold err2. fold T t. replace ((T - t) * 7 / 10 + 7)%Z with ((T - t) * 7 / 10 + 1 + 6)%Z by lia. rewrite fxval_add. assert (E6 : fxval 6 63 = 3 * fxval 2 63) by (unfold fxval; lra). assert (0 <= ln 2 * (fxval T 63 - fxval t 63)) by (apply Rmult_le_pos; lra).
  apply Rabs_le. assert (0 < fxval 2 63) by (rewrite <- E62; apply bpow2_pos). lra.
Qed.
(** Twice the number of units in the bound. *)
Definition k1 (EW : Z) : Z := if (EW <? 13)%Z then 14 else 4.
Definition k2 (EW : Z) : Z := if (EW <? 13)%Z then 20 else 5.
Lemma lb_finals : forallb (fun e => let EW := Z.of_nat e in lb_final err1 (k1 EW) 10000 EW && lb_final err2 (k2 EW) 6931 EW) (seq 5 40) = true.
Proof. vm_compute. reflexivity. Qed.
Lemma lb_final_ok EW : (5 <= EW <= 44)%Z -> lb_final err1 (k1 EW) 10000 EW = true /\ lb_final err2 (k2 EW) 6931 EW = true.
Proof. intros H. pose proof lb_finals as A. rewrite forallb_forall in A. specialize (A (Z.to_nat EW) ltac:(apply in_seq; lia)). cbv zeta in A. rewrite Z2Nat.id in A by lia. apply andb_prop in A. exact A. Qed.

(** ** The smallest widths: every run, against rational bounds on the logarithm *)
Lemma ln_bnd M N : (0 < M < N)%Z -> let t := IZR (N - M) / IZR (N + M) in - (2 * (t + t * t * t / (1 - t * t))) <= ln (IZR M / IZR N) <= - (2 * t).
Proof.
  intros H t. assert (HM : 0 < IZR M) by (apply IZR_lt; lia). assert (HN : IZR M < IZR N) by (apply IZR_lt; lia). assert (Ht : 0 < t < 1). { unfold t. rewrite plus_IZR, minus_IZR. split; [apply Rdiv_lt_0_compat; lra|]. apply (Rmult_lt_reg_r (IZR N + IZR M)); [lra|]. unfold Rdiv. rewrite Rmult_assoc, Rinv_l by lra. lra. }
  pose proof (ath_series 1 t Ht) as A. cbn [athP] in A. assert (E : ln (IZR M / IZR N) = - (2 * ath t)).
  { unfold ath. replace (1 + t) with (2 * IZR N / (IZR N + IZR M)) by (unfold t; rewrite plus_IZR, minus_IZR; field; lra). replace (1 - t) with (2 * IZR M / (IZR N + IZR M)) by (unfold t; rewrite plus_IZR, minus_IZR; field; lra). rewrite !ln_div, !ln_mult by lra. lra. }
  rewrite E. change (2 * 0 + 1)%nat with 1%nat in A. change (2 * 1 + 1)%nat with 3%nat in A. cbn [INR pow] in A. rewrite Rinv_1 in A. replace (t * (t * (t * 1))) with (t * t * t) in A by ring. lra.
Qed.
Definition small_ok (tab : list Z) (l0 l1 EW M : Z) : bool :=
  let N := (2 ^ EW)%Z in
  let v := log_v tab EW M in
  (l0 * v * M + 10000 * (N * N - M * M) <=? 4 * l0 * M)%Z && (- (40000 * N * (N - M)) - l1 * v * (N + M) <=? 4 * l1 * (N + M))%Z && (- (2 * N) * (if l0 =? 10000 then 1 else 2) <=? v)%Z.
Lemma small_logs : forallb (fun e => let EW := Z.of_nat e in forallb (fun k => let M := (2 ^ (EW - 1) + Z.of_nat k)%Z in small_ok hc_tab 10000 10000 EW M && small_ok hc_tab2 6931 6932 EW M) (seq 0 (Nat.pow 2 (e - 1)))) (seq 1 4) = true.
Proof. vm_compute. reflexivity. Qed.
Lemma small_log EW M : (1 <= EW <= 4)%Z -> (2 ^ (EW - 1) <= M < 2 ^ EW)%Z -> small_ok hc_tab 10000 10000 EW M = true /\ small_ok hc_tab2 6931 6932 EW M = true.
Proof.
  intros HE HM. pose proof small_logs as R. rewrite forallb_forall in R. specialize (R (Z.to_nat EW) ltac:(apply in_seq; lia)). cbv zeta in R. rewrite Z2Nat.id in R by lia. rewrite forallb_forall in R.
  assert (P : (2 ^ EW = 2 * 2 ^ (EW - 1))%Z) by (rewrite <- (Z.pow_succ_r 2 (EW - 1)) by lia; f_equal; lia). assert (Hp : Z.of_nat (Nat.pow 2 (Z.to_nat EW - 1)) = (2 ^ (EW - 1))%Z). { rewrite Nat2Z.inj_pow. change (Z.of_nat 2) with 2%Z. f_equal. lia. }
  specialize (R (Z.to_nat (M - 2 ^ (EW - 1))) ltac:(apply in_seq; lia)). rewrite Z2Nat.id in R by lia. replace (2 ^ (EW - 1) + (M - 2 ^ (EW - 1)))%Z with M in R by lia. apply andb_prop in R. exact R.
Qed.
Lemma small_val tab l0 l1 lam EW M : (1 <= EW)%Z -> (2 ^ (EW - 1) <= M < 2 ^ EW)%Z -> (0 < l0)%Z -> (0 < l1)%Z -> IZR l0 / 10000 <= lam <= IZR l1 / 10000 -> small_ok tab l0 l1 EW M = true ->
  Rabs (fxval (log_v tab EW M) (EW + 1) - ln (fxval M EW) / lam) <= 2 * bpow2 (- EW).
Proof.
  intros HE HM H0 H1 Hl Hok. apply andb_prop in Hok. destruct Hok as [Hok _]. apply andb_prop in Hok. destruct Hok as [A B]. apply Z.leb_le, IZR_le in A, B. set (v := log_v tab EW M) in *. assert (PM : (0 < M)%Z) by (assert (0 < 2 ^ (EW - 1))%Z by (apply Z.pow_pos_nonneg; lia); lia).
  set (N := (2 ^ EW)%Z) in *. assert (HN : bpow2 EW = IZR N) by (apply bpow2_IZR; lia). pose proof (ln_bnd M N ltac:(lia)) as L. cbv zeta in L. rewrite plus_IZR, minus_IZR in L.
  repeat first [rewrite plus_IZR in A|rewrite minus_IZR in A|rewrite mult_IZR in A]. repeat first [rewrite plus_IZR in B|rewrite minus_IZR in B|rewrite opp_IZR in B|rewrite mult_IZR in B]. assert (Pm : 0 < IZR M) by (apply IZR_lt; exact PM). assert (Pn : IZR M < IZR N) by (apply IZR_lt; lia). apply IZR_lt in H0, H1.
  assert (Em : fxval M EW = IZR M / IZR N) by (unfold fxval; rewrite bpow2_opp, HN; reflexivity). assert (Ev : fxval v (EW + 1) = IZR v / (2 * IZR N)). { unfold fxval. rewrite bpow2_opp, bpow2_add, HN, bpow2_1. field. lra. }
  rewrite Em, Ev, bpow2_opp, HN. set (n := IZR N) in *. set (a := IZR M) in *. set (w := IZR v) in *. set (ell := ln (a / n)) in *. set (p0 := IZR l0) in *. set (p1 := IZR l1) in *.
  assert (L1 : - ((n * n - a * a) / (2 * a * n)) <= ell). { eapply Rle_trans; [|apply L]. apply Req_le. field. repeat split; try lra. nra. }
  assert (L2 : ell <= - (2 * ((n - a) / (n + a)))) by apply L. clear L.
  assert (Pl : 0 < lam) by lra. assert (Pa : 0 < n + a) by lra.
  assert (X1 : - ((n * n - a * a) / (2 * a * n) * (10000 / p0)) <= ell / lam).
  { assert (Q : 0 <= (n * n - a * a) / (2 * a * n)). { apply Rmult_le_pos; [nra|]. apply Rlt_le, Rinv_0_lt_compat. nra. }
    assert (I : / lam <= 10000 / p0). { replace (10000 / p0) with (/ (p0 / 10000)) by (field; lra). apply Rinv_le_contravar; lra. } assert (Pi : 0 < / lam) by (apply Rinv_0_lt_compat, Pl).
    apply Rle_trans with (- ((n * n - a * a) / (2 * a * n)) * / lam); [|apply Rmult_le_compat_r; lra]. apply (Rmult_le_compat_l _ _ _ Q) in I. lra. }
  assert (X2 : ell / lam <= - (2 * ((n - a) / (n + a)) * (10000 / p1))).
  { assert (Q : 0 <= 2 * ((n - a) / (n + a))). { apply Rmult_le_pos; [lra|]. apply Rmult_le_pos; [lra|]. apply Rlt_le, Rinv_0_lt_compat, Pa. }
    assert (I : 10000 / p1 <= / lam). { replace (10000 / p1) with (/ (p1 / 10000)) by (field; lra). apply Rinv_le_contravar; lra. } assert (Pi : 0 < / lam) by (apply Rinv_0_lt_compat, Pl).
    apply Rle_trans with (- (2 * ((n - a) / (n + a))) * / lam); [apply Rmult_le_compat_r; lra|]. apply (Rmult_le_compat_l _ _ _ Q) in I. lra. }
  apply Rabs_le. split.
  - assert (- (2 * / n) <= w / (2 * n) + 2 * ((n - a) / (n + a)) * (10000 / p1)); [|lra]. apply (Rmult_le_reg_r (2 * n * (n + a) * p1)); [repeat apply Rmult_lt_0_compat; lra|].
    replace (- (2 * / n) * (2 * n * (n + a) * p1)) with (- (4 * p1 * (n + a))) by (field; repeat split; lra). replace ((w / (2 * n) + 2 * ((n - a) / (n + a)) * (10000 / p1)) * (2 * n * (n + a) * p1)) with (p1 * w * (n + a) + 40000 * n * (n - a)) by (field; repeat split; lra). lra.
  - assert (w / (2 * n) + (n * n - a * a) / (2 * a * n) * (10000 / p0) <= 2 * / n); [|lra]. apply (Rmult_le_reg_r (2 * n * a * p0)); [repeat apply Rmult_lt_0_compat; lra|].
    replace (2 * / n * (2 * n * a * p0)) with (4 * p0 * a) by (field; repeat split; lra). replace ((w / (2 * n) + (n * n - a * a) / (2 * a * n) * (10000 / p0)) * (2 * n * a * p0)) with (p0 * w * a + 10000 * (n * n - a * a)) by (field; repeat split; lra). lra.
Qed.
(** The two range-reduced logarithms before the final conversion, for every width. *)
Lemma ln_v_near EW M : (1 <= EW <= 44)%Z -> (2 ^ (EW - 1) <= M < 2 ^ EW)%Z -> Rabs (fxval (log_v hc_tab EW M) (EW + 1) - ln (fxval M EW)) <= IZR (k1 EW) / 2 * bpow2 (- EW).
Proof.
  intros HE HM. replace (ln (fxval M EW)) with (ln (fxval M EW) / 1) by (unfold Rdiv; rewrite Rinv_1; ring). destruct (Z.le_gt_cases EW 4) as [G|G].
  - destruct (small_log EW M ltac:(lia) HM) as [S1 _]. eapply Rle_trans; [exact (small_val hc_tab 10000 10000 1 EW M ltac:(lia) HM ltac:(lia) ltac:(lia) ltac:(lra) S1)|]. apply Rmult_le_compat_r; [apply Rlt_le, bpow2_pos|]. unfold k1. replace (EW <? 13)%Z with true by lia. lra.
  - apply (log_v_near hc_tab 1 err1 (k1 EW) 10000); try lia; try lra; [exact hc_tab_bnd|exact err1_ok|apply lb_final_ok; lia].
Qed.
Lemma log2_v_near EW M : (1 <= EW <= 44)%Z -> (2 ^ (EW - 1) <= M < 2 ^ EW)%Z -> Rabs (fxval (log_v hc_tab2 EW M) (EW + 1) - ln (fxval M EW) / ln 2) <= IZR (k2 EW) / 2 * bpow2 (- EW).
Proof.
  intros HE HM. pose proof ln2_low as L1. pose proof ln2_hi as L2. destruct (Z.le_gt_cases EW 4) as [G|G].
  - destruct (small_log EW M ltac:(lia) HM) as [_ S1]. eapply Rle_trans; [exact (small_val hc_tab2 6931 6932 (ln 2) EW M ltac:(lia) HM ltac:(lia) ltac:(lia) ltac:(lra) S1)|]. apply Rmult_le_compat_r; [apply Rlt_le, bpow2_pos|]. unfold k2. replace (EW <? 13)%Z with true by lia. lra.
  - apply (log_v_near hc_tab2 (ln 2) err2 (k2 EW) 6931); try lia; try lra; [exact hc_tab2_bnd|exact err2_ok|apply lb_final_ok; lia].
Qed.
