(** Real analysis for the CORDIC arcsine and arccosine: what an approximate comparison of cosines tells about the angles, and one step towards an angle known up to sign. *)
From Coq Require Import ZArith Reals Ratan Lia Lra Psatz.
From Verif Require Import AcTypes SpecR SpecRFacts CordicProofs Atan2Num ArcNum ArcProofs.
Local Open Scope R_scope.

Lemma sin_cub x : 0 <= x <= PI -> x - x * x * x / 6 <= sin x.
Proof.
  intros H. pose proof (sin_bound x 0 ltac:(lra) ltac:(lra)) as [S _]. eapply Rle_trans; [|exact S]. unfold sin_approx. cbn [sum_f_R0 Nat.mul Nat.add]. unfold sin_term. cbn [pow Nat.mul Nat.add fact INR]. lra.
Qed.
Lemma vers_low D : 0 <= D <= 12 / 25 -> 49 / 100 * (D * D) <= 2 * (sin (D / 2) * sin (D / 2)).
Proof.
  intros H. pose proof PI_lo as P. pose proof (sin_cub (D / 2) ltac:(lra)) as S. set (s := sin (D / 2)) in *. assert (DD : D * D <= 144 / 625) by nra. set (c := D / 2 * (1 - D * D / 24)). assert (C : c <= s) by (unfold c; lra). assert (0 <= c) by (unfold c; apply Rmult_le_pos; lra).
  assert (CC : c * c <= s * s) by (apply Rmult_le_compat; lra). assert (c * c = D * D * ((1 - D * D / 24) * (1 - D * D / 24)) / 4) by (unfold c; field). set (d := D * D) in *. assert (0 <= d) by (unfold d; apply Rmult_le_pos; lra). assert (99 / 100 <= 1 - d / 24) by lra.
  assert (98 / 100 <= (1 - d / 24) * (1 - d / 24)) by (apply Rle_trans with (99 / 100 * (99 / 100)); [lra|apply Rmult_le_compat; lra]). assert (d * (98 / 100) <= d * ((1 - d / 24) * (1 - d / 24))) by (apply Rmult_le_compat_l; lra). lra.
Qed.
Lemma cos_gap a b D : 0 <= a -> b <= PI -> 0 <= D <= 12 / 25 -> D < b - a -> 49 / 100 * (D * D) < cos a - cos b.
Proof.
  intros Ha Hb HD HW. pose proof PI_lo as P. pose proof (vers_low D HD) as V. rewrite form2. replace ((a - b) / 2) with (- ((b - a) / 2)) by field. rewrite sin_neg. set (w := (b - a) / 2) in *. set (s := (a + b) / 2).
  assert (W : D / 2 < w <= PI / 2) by (unfold w; lra). assert (SW : w <= s <= PI - w) by (unfold s, w; lra). assert (S1 : sin (D / 2) < sin w) by (apply sin_increasing_1; lra). assert (S0 : 0 <= sin (D / 2)) by (apply sin_ge_0; lra).
  assert (S2 : sin w <= sin s). { destruct (Rle_lt_dec s (PI / 2)) as [L|L]; [apply sin_incr_1; lra|]. rewrite <- (sin_PI_x s). apply sin_incr_1; lra. }
  assert (sin (D / 2) * sin (D / 2) < sin w * sin w) by (apply Rmult_le_0_lt_compat; lra). assert (sin w * sin w <= sin w * sin s) by (apply Rmult_le_compat_l; lra). lra.
Qed.
Lemma sin_small psi e : 0 <= psi <= 303 / 100 -> sin psi <= e -> e <= 975 / 10000 -> psi <= 105 / 100 * e.
Proof.
  intros H S He. pose proof PI_lo as P. pose proof PI_hi as P'. destruct (Rle_lt_dec psi (PI / 2)) as [L|L].
  - pose proof (sin_cub psi ltac:(lra)) as C. assert (Q1 : psi * psi <= 25 / 10) by nra. assert (C1 : psi * (1 - psi * psi / 6) <= e) by lra. assert (C2 : psi * (58 / 100) <= psi * (1 - psi * psi / 6)) by (apply Rmult_le_compat_l; lra). assert (psi <= 2 / 10) by lra.
    assert (Q2 : psi * psi <= 4 / 100) by nra. assert (psi * (99 / 100) <= psi * (1 - psi * psi / 6)) by (apply Rmult_le_compat_l; lra). lra.
  - exfalso. rewrite <- (sin_PI_x psi) in S. assert (S1 : sin (11 / 100) <= sin (PI - psi)) by (apply sin_incr_1; lra). pose proof (sin_cub (11 / 100) ltac:(lra)). lra.
Qed.

(** The comparisons, in terms of |chi|. *)
Lemma cos_abs x : cos (Rabs x) = cos x.
Proof. unfold Rabs. destruct (Rcase_abs x); [apply cos_neg|reflexivity]. Qed.
Section Chi.
Variables (ta D e chi : R).
Hypothesis Hta : 0 <= ta <= 1.
Hypothesis HD : 0 <= D <= 9 / 20.
Hypothesis He : 0 <= e <= 49 / 100 * (D * D).
Hypothesis Hc : Rabs chi <= 303 / 100.
Let phi := acos ta.
Lemma phi_range : 0 <= phi <= PI / 2.
Proof. unfold phi. pose proof (acos_bound ta). split; [lra|]. rewrite acos_asin by lra. pose proof (asin_bound ta). pose proof (sin_asin ta ltac:(lra)) as S. assert (0 <= asin ta); [|lra]. apply Rnot_lt_le. intros X. assert (sin (asin ta) < 0); [|lra]. apply sin_lt_0_var; pose proof PI_RGT_0; lra. Qed.
Lemma chi_ge : cos chi <= ta + e -> phi - D <= Rabs chi.
Proof.
  intros H. apply Rnot_lt_le. intros X. pose proof phi_range. pose proof (Rabs_pos chi). pose proof PI_RGT_0. pose proof (cos_gap (Rabs chi) phi D ltac:(lra) ltac:(lra) ltac:(lra) ltac:(lra)) as C. rewrite cos_abs in C. unfold phi in C. rewrite cos_acos in C by lra. lra.
Qed.
Lemma chi_le : ta - e <= cos chi -> Rabs chi <= phi + D.
Proof.
  intros H. apply Rnot_lt_le. intros X. pose proof phi_range. pose proof PI_lo. pose proof (cos_gap phi (Rabs chi) D ltac:(lra) ltac:(lra) ltac:(lra) ltac:(lra)) as C. rewrite cos_abs in C. unfold phi in C. rewrite cos_acos in C by lra. lra.
Qed.
Lemma chi_pos : e <= 975 / 10000 -> 0 <= chi -> sin chi <= e -> Rabs chi <= 105 / 100 * e.
Proof. intros H1 H2 H3. rewrite Rabs_pos_eq in * by exact H2. apply sin_small; try assumption. split; assumption. Qed.
Lemma chi_neg : e <= 975 / 10000 -> chi < 0 -> - e <= sin chi -> Rabs chi <= 105 / 100 * e.
Proof. intros H1 H2 H3. rewrite (Rabs_left chi H2) in *. apply sin_small; [lra|rewrite sin_neg; lra|assumption]. Qed.

(** A step of g: [cge] and [sge] are the outcomes of comparing the cosine with the target and the sine with zero. *)
Lemma chi_step (cge sge : bool) (sg g d Rn : R) : e <= 975 / 10000 ->
  (if cge then ta - e <= cos chi else cos chi <= ta + e) -> (if sge then - e <= sin chi else sin chi <= e) ->
  sg = (if Bool.eqb cge sge then 1 else -1) -> 0 < g -> g <= Rn -> g <= 1 -> 0 <= d ->
  Rabs (Rabs chi - phi) <= D + d + g + Rn ->
  Rabs (Rabs (chi + sg * g) - phi) <= D + (d + 21 / 10 * e) + Rn /\ Rabs (chi + sg * g) <= 303 / 100.
Proof.
  intros He' C1 C2 Esg G0 G1 G2 D0 HI. pose proof phi_range as PR. pose proof PI_hi as PH. apply Rabs_le_both in HI. pose proof (Rabs_pos chi) as P0.
  assert (CC : (cge = true /\ Rabs chi <= phi + D) \/ (cge = false /\ phi - D <= Rabs chi)) by (destruct cge; [left; split; [reflexivity|apply chi_le, C1]|right; split; [reflexivity|apply chi_ge, C1]]).
  destruct (Rle_lt_dec 0 chi) as [L|L].
  - pose proof (chi_pos He' L) as K. rewrite (Rabs_pos_eq chi L) in *. destruct CC as [[-> CC]|[-> CC]]; destruct sge; cbn [Bool.eqb] in Esg; subst sg; try specialize (K C2).
    + rewrite (Rabs_pos_eq (chi + 1 * g)) by lra. split; [apply Rabs_le|]; lra.
    + unfold Rabs at 2 3. destruct (Rcase_abs (chi + -1 * g)); (split; [apply Rabs_le|]; lra).
    + unfold Rabs at 2 3. destruct (Rcase_abs (chi + -1 * g)); (split; [apply Rabs_le|]; lra).
    + rewrite (Rabs_pos_eq (chi + 1 * g)) by lra. split; [apply Rabs_le|]; lra.
  - pose proof (chi_neg He' L) as K. rewrite (Rabs_left chi L) in *. destruct CC as [[-> CC]|[-> CC]]; destruct sge; cbn [Bool.eqb] in Esg; subst sg; try specialize (K C2).
    + unfold Rabs at 2 3. destruct (Rcase_abs (chi + 1 * g)); (split; [apply Rabs_le|]; lra).
    + rewrite (Rabs_left (chi + -1 * g)) by lra. split; [apply Rabs_le|]; lra.
    + rewrite (Rabs_left (chi + -1 * g)) by lra. split; [apply Rabs_le|]; lra.
    + unfold Rabs at 2 3. destruct (Rcase_abs (chi + 1 * g)); (split; [apply Rabs_le|]; lra).
Qed.
(** The same step stays within any bound that leaves room for a step outwards. *)
Lemma chi_bound (cge sge : bool) (sg g B : R) : e <= 975 / 10000 ->
  (if cge then ta - e <= cos chi else cos chi <= ta + e) -> (if sge then - e <= sin chi else sin chi <= e) ->
  sg = (if Bool.eqb cge sge then 1 else -1) -> 0 < g -> Rabs chi <= B -> phi + D + g + 105 / 100 * e <= B -> Rabs (chi + sg * g) <= B.
Proof.
  intros He' C1 C2 Esg G0 HB1 HB2. pose proof phi_range as PR. pose proof (Rabs_pos chi) as P0.
  assert (CC : (cge = true /\ Rabs chi <= phi + D) \/ cge = false) by (destruct cge; [left; split; [reflexivity|apply chi_le, C1]|right; reflexivity]).
  destruct (Rle_lt_dec 0 chi) as [L|L].
  - pose proof (chi_pos He' L) as K. rewrite (Rabs_pos_eq chi L) in *. destruct CC as [[-> CC]| ->]; destruct sge; cbn [Bool.eqb] in Esg; subst sg; try specialize (K C2); apply Rabs_le; lra.
  - pose proof (chi_neg He' L) as K. rewrite (Rabs_left chi L) in *. destruct CC as [[-> CC]| ->]; destruct sge; cbn [Bool.eqb] in Esg; subst sg; try specialize (K C2); apply Rabs_le; lra.
Qed.
End Chi.

(** The sum of the remaining angles, the last one counted twice. *)
Definition Rm (n i : nat) : R := asum i (n - i) + ang (n - 1).
Lemma Rm_S n i : (i < n)%nat -> Rm n i = ang i + Rm n (S i).
Proof. intros H. unfold Rm. replace (n - i)%nat with (S (n - S i)) by lia. cbn [asum]. ring. Qed.
Lemma Rm_ang n i : (i < n)%nat -> ang i <= Rm n (S i).
Proof. intros H. unfold Rm. pose proof (ang_le_sum (n - S i) i) as A. replace (i + (n - S i))%nat with (n - 1)%nat in A by lia. exact A. Qed.
Lemma Rm_last n : Rm n n = ang (n - 1).
Proof. unfold Rm. rewrite Nat.sub_diag. cbn [asum]. ring. Qed.
Lemma ang_0 : ang 0 = PI / 2.
Proof. unfold ang. cbn [pow]. rewrite Rinv_1, atan_1. field. Qed.
Lemma ang_1 i : (1 <= i)%nat -> ang i <= 1.
Proof. intros H. destruct (ang_pos i) as [_ A]. destruct i as [|i]; [lia|]. cbn [pow] in A. rewrite Rinv_mult in A. destruct (two_pow_pos i). lra. Qed.
Lemma Rm_1 n : (1 <= n)%nat -> PI / 2 <= Rm n 1.
Proof. intros H. rewrite <- ang_0. apply Rm_ang. lia. Qed.
