(** Proofs about RecipCplxFltModel. *)
From Coq Require Import Reals Lra Psatz.
From Verif Require Import AcTypes RecipCplxFltModel SpecFlt.
Local Open Scope R_scope.

Lemma rabs_inv x y : Rabs x <= y -> - y <= x <= y.
Proof. intros H. unfold Rabs in H. destruct (Rcase_abs x); lra. Qed.
Lemma rel_le x y k : Rabs (x - y) <= k * Rabs y -> exists t, x = y * (1 + t) /\ Rabs t <= k \/ y = 0 /\ x = 0.
Proof.
  intros H. destruct (Req_dec y 0) as [E|E].
  - exists 0. right. subst y. split; [reflexivity|]. rewrite Rminus_0_r, Rabs_R0, Rmult_0_r in H. destruct (Req_dec x 0) as [|N]; [assumption|]. apply Rabs_pos_lt in N. lra.
  - exists ((x - y) / y). left. split; [field; exact E|]. unfold Rdiv. rewrite Rabs_mult, Rabs_inv. assert (0 < Rabs y) by (apply Rabs_pos_lt, E).
    apply Rmult_le_reg_r with (Rabs y); [assumption|]. rewrite Rmult_assoc, Rinv_l by lra. lra.
Qed.
(** y * (1 + t) with 1/s for 1/n. *)
Lemma part_err u e n s r v o : 0 <= u < 1 -> 0 <= e -> 0 < n -> Rabs (s - n) <= u * n -> Rabs (r - / s) <= e * Rabs (/ s) -> Rabs (o - v * r) <= u * Rabs (v * r) ->
  Rabs (o - v / n) <= ((1 + u) * (1 + e) / (1 - u) - 1) * Rabs (v / n).
Proof.
  intros Hu He Hn Hs Hr Ho. apply rabs_inv in Hs. assert (S : (1 - u) * n <= s <= (1 + u) * n) by lra.
  assert (P : 0 < (1 - u) * n) by (apply Rmult_lt_0_compat; lra). assert (Ps : 0 < s) by lra.
  set (q := n / s). assert (Q : / (1 + u) <= q <= / (1 - u)).
  { unfold q, Rdiv. split.
    - apply Rmult_le_reg_r with s; [exact Ps|]. rewrite Rmult_assoc, Rinv_l, Rmult_1_r by lra. apply Rmult_le_reg_l with (1 + u); [lra|]. rewrite <- Rmult_assoc, Rinv_r by lra. lra.
    - apply Rmult_le_reg_r with s; [exact Ps|]. rewrite Rmult_assoc, Rinv_l, Rmult_1_r by lra. apply Rmult_le_reg_l with (1 - u); [lra|]. rewrite <- Rmult_assoc, Rinv_r by lra. lra. }
  assert (Er : exists t, r = / s * (1 + t) /\ Rabs t <= e).
  { destruct (rel_le r (/ s) e Hr) as (t & [E|[E _]]); [exists t; exact E|]. apply Rinv_0_lt_compat in Ps. lra. }
  destruct Er as (t & Er & Ht).
  assert (Eo : exists w, o = v * r * (1 + w) /\ Rabs w <= u).
  { destruct (rel_le o (v * r) u Ho) as (w & [E|[E1 E2]]); [exists w; exact E|]. exists 0. rewrite E1, E2, Rabs_R0. split; lra. }
  destruct Eo as (w & Eo & Hw).
  assert (E : o - v / n = (q * (1 + t) * (1 + w) - 1) * (v / n)) by (rewrite Eo, Er; unfold q; field; lra).
  rewrite E, Rabs_mult. apply Rmult_le_compat_r; [apply Rabs_pos|].
  assert (B : Rabs (q - 1) <= / (1 - u) - 1).
  { assert (1 <= / (1 - u)) by (rewrite <- Rinv_1 at 1; apply Rinv_le_contravar; lra). assert (U : 1 - u <= / (1 + u)).
    { apply Rmult_le_reg_r with (1 + u); [lra|]. rewrite Rinv_l by lra. nra. }
    assert (u <= / (1 - u) - 1). { apply Rmult_le_reg_r with (1 - u); [lra|]. rewrite Rmult_minus_distr_r, Rinv_l by lra. nra. }
    apply Rabs_le. lra. }
  assert (Q0 : 0 < / (1 - u)) by (apply Rinv_0_lt_compat; lra). assert (Qp : 0 < q) by (unfold q; apply Rdiv_lt_0_compat; lra).
  replace (q * (1 + t) * (1 + w) - 1) with ((q - 1) + (q * t + q * w * (1 + t))) by ring.
  apply rabs_inv in Ht. apply rabs_inv in Hw. assert (T1 : Rabs t <= e) by (apply Rabs_le; lra). assert (W1 : Rabs w <= u) by (apply Rabs_le; lra).
  eapply Rle_trans; [apply Rabs_triang|]. assert (X : Rabs (q * t + q * w * (1 + t)) <= / (1 - u) * (e + u * (1 + e))).
  { replace (q * t + q * w * (1 + t)) with (q * (t + w * (1 + t))) by ring. rewrite Rabs_mult, (Rabs_pos_eq q) by lra. apply Rmult_le_compat; [lra|apply Rabs_pos|lra|].
    eapply Rle_trans; [apply Rabs_triang|]. apply Rplus_le_compat; [exact T1|]. rewrite Rabs_mult. apply Rmult_le_compat; [apply Rabs_pos|apply Rabs_pos|exact W1|].
    eapply Rle_trans; [apply Rabs_triang|]. rewrite Rabs_R1. lra. }
  replace ((1 + u) * (1 + e) / (1 - u) - 1) with ((/ (1 - u) - 1) + / (1 - u) * (e + u * (1 + e))) by (field; lra). lra.
Qed.

Section Recip.
Context {Tin Ts Tr To : Type} (ar : recip_arith Tin Ts Tr To) (vin : Tin -> R) (vs : Ts -> R) (vr : Tr -> R) (vo : To -> R).
Theorem recip_cflt_err u e a b x y : 0 <= u < 1 -> 0 <= e -> recip_accurate ar vin vs vr vo u e a b -> vin a <> 0 \/ vin b <> 0 -> recip_cflt ar a b = (x, y) ->
  let n := vin a * vin a + vin b * vin b in let k := (1 + u) * (1 + e) / (1 - u) - 1 in
  Rabs (vo x - vin a / n) <= k * Rabs (vin a / n) /\ Rabs (vo y - - vin b / n) <= k * Rabs (vin b / n) /\
  (vin a * vo x - vin b * vo y - 1) * (vin a * vo x - vin b * vo y - 1) + (vin a * vo y + vin b * vo x) * (vin a * vo y + vin b * vo x) <= k * k.
Proof.
  intros Hu He [Hm Hz Hr Hn Hx] Hab E n k. cbv zeta in Hm. fold n in Hm.
  assert (N : 0 < n) by (unfold n; destruct Hab; nra).
  assert (S0 : vs (ra_mag ar a b) <> 0). { intros Z. rewrite Z in Hm. rewrite Rabs_minus_sym, Rminus_0_r, Rabs_pos_eq in Hm by lra. nra. }
  unfold recip_cflt in E. destruct (ra_zero ar (ra_mag ar a b)) eqn:Ez; [destruct Hz as [Hz _]; specialize (Hz eq_refl); contradiction|]. cbn [negb] in E. injection E as <- <-.
  specialize (Hr S0). cbv zeta in Hr.
  assert (X := part_err u e n _ _ (vin a) _ Hu He N Hm Hr (Hx a (or_introl eq_refl))).
  assert (Y := part_err u e n _ _ (vin (ra_neg ar b)) _ Hu He N Hm Hr (Hx _ (or_intror eq_refl))). rewrite Hn in Y. fold k in X, Y.
  replace (Rabs (- vin b / n)) with (Rabs (vin b / n)) in Y by (rewrite <- Rabs_Ropp; f_equal; field; lra).
  split; [exact X|]. split; [exact Y|].
  set (p := vo (ra_mul ar a _)) in *. set (q := vo (ra_mul ar (ra_neg ar b) _)) in *.
  set (dx := p - vin a / n) in *. set (dy := q - - vin b / n) in *.
  assert (K : 0 <= k). { unfold k. assert (1 <= (1 + u) * (1 + e) / (1 - u)); [|lra]. apply Rmult_le_reg_r with (1 - u); [lra|]. unfold Rdiv. rewrite Rmult_assoc, Rinv_l by lra. nra. }
  replace (_ + _) with (n * (dx * dx + dy * dy)).
  2: { replace (vin a * p - vin b * q - 1) with (vin a * dx - vin b * dy) by (unfold dx, dy, n; field; fold n; lra).
       replace (vin a * q + vin b * p) with (vin a * dy + vin b * dx) by (unfold dx, dy, n; field; fold n; lra). unfold n. ring. }
  assert (X2 : dx * dx <= k * k * ((vin a / n) * (vin a / n))).
  { replace (dx * dx) with (Rabs dx * Rabs dx) by (rewrite <- Rabs_mult; apply Rabs_pos_eq; nra).
    replace (k * k * (vin a / n * (vin a / n))) with ((k * Rabs (vin a / n)) * (k * Rabs (vin a / n))).
    - apply Rmult_le_compat; try apply Rabs_pos; exact X.
    - replace (vin a / n * (vin a / n)) with (Rabs (vin a / n) * Rabs (vin a / n)) by (rewrite <- Rabs_mult; apply Rabs_pos_eq; nra). ring. }
  assert (Y2 : dy * dy <= k * k * ((vin b / n) * (vin b / n))).
  { replace (dy * dy) with (Rabs dy * Rabs dy) by (rewrite <- Rabs_mult; apply Rabs_pos_eq; nra).
    replace (k * k * (vin b / n * (vin b / n))) with ((k * Rabs (vin b / n)) * (k * Rabs (vin b / n))).
    - apply Rmult_le_compat; try apply Rabs_pos; exact Y.
    - replace (vin b / n * (vin b / n)) with (Rabs (vin b / n) * Rabs (vin b / n)) by (rewrite <- Rabs_mult; apply Rabs_pos_eq; nra). ring. }
  apply Rle_trans with (n * (k * k * (vin a / n * (vin a / n)) + k * k * (vin b / n * (vin b / n)))); [apply Rmult_le_compat_l; lra|].
  right. unfold n. field. fold n. lra.
Qed.
Theorem recip_cflt_zero u e a b : 0 <= u < 1 -> recip_accurate ar vin vs vr vo u e a b -> vin a = 0 -> vin b = 0 -> recip_cflt ar a b = (ra_max ar, ra_max ar).
Proof.
  intros Hu [Hm Hz _ _ _] Ha Hb. cbv zeta in Hm. rewrite Ha, Hb in Hm. replace (0 * 0 + 0 * 0) with 0 in Hm by ring. rewrite Rminus_0_r, Rmult_0_r in Hm.
  unfold recip_cflt. replace (ra_zero ar (ra_mag ar a b)) with true; [reflexivity|]. symmetry. apply Hz.
  destruct (Req_dec (vs (ra_mag ar a b)) 0) as [|N]; [assumption|]. apply Rabs_pos_lt in N. lra.
Qed.
End Recip.

(** Arithmetic on the reals in which every result is too small by the factor 1 - u or 1 - e. *)
Definition low_recip (u e m : R) : recip_arith R R R R :=
  Build_recip_arith R R R R (fun x y => (x * x + y * y) * (1 - u)) (fun s => if Req_EM_T s 0 then true else false) (fun s => / s * (1 - e)) Ropp (fun x r => x * r * (1 - u)) m.
Lemma low_rel1 x k : 0 <= k -> Rabs (x * (1 - k) - x) <= k * Rabs x.
Proof. intros H. replace (x * (1 - k) - x) with (- (k * x)) by ring. rewrite Rabs_Ropp, Rabs_mult, (Rabs_pos_eq k) by exact H. lra. Qed.
Lemma low_recip_accurate u e m a b : 0 <= u -> 0 <= e -> recip_accurate (low_recip u e m) (fun x => x) (fun x => x) (fun x => x) (fun x => x) u e a b.
Proof.
  intros Hu He. constructor; cbn [low_recip ra_mag ra_zero ra_recip ra_neg ra_mul]; cbv zeta.
  - assert (0 <= a * a + b * b) by nra. rewrite <- (Rabs_pos_eq (a * a + b * b)) at 3 by assumption. apply low_rel1, Hu.
  - destruct (Req_EM_T ((a * a + b * b) * (1 - u)) 0); split; intros; try assumption; try reflexivity; [discriminate|contradiction].
  - intros _. apply low_rel1, He.
  - reflexivity.
  - intros x _. apply low_rel1, Hu.
Qed.
