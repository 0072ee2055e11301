(** Numerical facts for the CORDIC arctangent: its table, pi as a double, and the angles. *)
From Coq Require Import Reals Ratan Lia Lra Psatz.
From Verif Require Import AcTypes Spec SpecR SpecRFacts SoftFacts CordicModel CordicNum Atan2Model.
Local Open Scope R_scope.

(** ** The table *)
Definition rad_ok (i : nat) (T : Z) : bool :=
  let m := (2 ^ Z.of_nat i)%Z in
  ((T * B90 <=? 2 ^ 71 * at_lo B90 m (at_terms i) + 2 ^ (108 - Z.of_nat i) + 2 ^ 90) && (2 ^ 71 * at_hi B90 m (at_terms i) <=? T * B90 + 2 ^ (108 - Z.of_nat i) + 2 ^ 90))%Z.
Lemma rads_ok : forallb (fun i => rad_ok i (nth i rad_tab 0%Z)) (seq 1 69) = true.
Proof. vm_compute. reflexivity. Qed.
Definition rad (i : nat) : R := fxval (nth i rad_tab 0%Z) 71.
Lemma pi_m : Rabs (fxval m_pi 48 - PI) <= bpow2 (- (52)).
Proof.
  pose proof pi_Z as [L H]. assert (A : (m_pi * 2 ^ 42 <= pi_lo)%Z) by (vm_compute; discriminate). assert (B : (pi_hi <= m_pi * 2 ^ 42 + 2 ^ 38)%Z) by (vm_compute; discriminate).
  apply IZR_le in A, B. rewrite plus_IZR, !mult_IZR in *. unfold B90 in *. unfold fxval. rewrite <- !bpow2_IZR in * by lia.
  assert (E1 : bpow2 42 = bpow2 90 * bpow2 (- (48))) by (rewrite <- bpow2_add; f_equal). assert (E2 : bpow2 38 = bpow2 90 * bpow2 (- (52))) by (rewrite <- bpow2_add; f_equal). rewrite E1, E2 in *.
  pose proof (bpow2_pos 90). apply Rabs_le. split; apply (Rmult_le_reg_l (bpow2 90)); try assumption; lra.
Qed.
Lemma rad_near i : (i < 70)%nat -> Rabs (rad i - atan (/ 2 ^ i)) <= bpow2 (- (53 + Z.of_nat i)) + bpow2 (- (71)).
Proof.
  intros Hi. destruct i as [|i'].
  - cbn [pow]. rewrite Rinv_1, atan_1. unfold rad. cbn [nth rad_tab]. assert (E : 1854468981267743375360 * bpow2 (- (71)) = fxval m_pi 48 / 4).
    { unfold fxval, m_pi. replace (1854468981267743375360)%R with (884279719003555 * IZR (2 ^ 21)) by (rewrite <- mult_IZR; reflexivity). rewrite <- bpow2_IZR by lia.
      replace (bpow2 (- (48))) with (bpow2 21 * bpow2 (- (71)) * bpow2 2) by (rewrite <- !bpow2_add; f_equal). rewrite (bpow2_IZR 2) by lia. change (IZR (2 ^ 2)) with 4. field. }
    unfold fxval at 1. rewrite E. pose proof pi_m as P. replace (- (53 + Z.of_nat 0))%Z with (- (53))%Z by lia. pose proof (bpow2_pos (- (71))). assert (E2 : bpow2 (- (52)) = 2 * bpow2 (- (53))) by (rewrite <- bpow2_1, <- bpow2_add; f_equal). pose proof (bpow2_pos (- (53))).
    apply Rabs_le_both in P. apply Rabs_le. lra.
  - set (i := S i') in *. pose proof rads_ok as A. rewrite forallb_forall in A. specialize (A i ltac:(apply in_seq; lia)). unfold rad_ok in A. apply andb_prop in A. destruct A as [A1 A2]. apply Z.leb_le in A1, A2.
    assert (Hm : (1 < 2 ^ Z.of_nat i)%Z) by (apply Z.pow_gt_1; lia). pose proof (atan_Z B90 (2 ^ Z.of_nat i) (at_terms i) Hm ltac:(discriminate)) as AZ.
    assert (EM : IZR (2 ^ Z.of_nat i) = 2 ^ i) by (rewrite pow_IZR; reflexivity). rewrite EM in AZ.
    unfold rad. set (T := nth i rad_tab 0%Z) in *. clearbody T. set (at_ := atan (/ 2 ^ i)) in *.
    apply IZR_le in A1, A2. rewrite !plus_IZR, !mult_IZR in A1, A2. set (lo := at_lo B90 (2 ^ Z.of_nat i) (at_terms i)) in *. set (hi := at_hi B90 (2 ^ Z.of_nat i) (at_terms i)) in *. clearbody lo hi.
    unfold fxval, B90 in *. rewrite <- !bpow2_IZR in * by lia.
    assert (C1 : bpow2 (108 - Z.of_nat i) = bpow2 71 * bpow2 90 * bpow2 (- (53 + Z.of_nat i))) by (rewrite <- !bpow2_add; f_equal; lia).
    assert (C2 : bpow2 90 = bpow2 71 * bpow2 90 * bpow2 (- (71))) by (rewrite <- !bpow2_add; f_equal).
    set (p53 := bpow2 (- (53 + Z.of_nat i))) in *. rewrite C1 in *. pose proof (bpow2_pos 71). pose proof (bpow2_pos 90).
    assert (E71 : bpow2 (- (71)) = / bpow2 71) by apply bpow2_opp. rewrite E71 in *. set (g := bpow2 71) in *. set (h := bpow2 90) in *. assert (P : 0 < g * h) by (apply Rmult_lt_0_compat; assumption).
    assert (X1 : g * IZR lo <= g * (h * at_)) by (apply Rmult_le_compat_l; [lra|apply AZ]). assert (X2 : g * (h * at_) <= g * IZR hi) by (apply Rmult_le_compat_l; [lra|apply AZ]).
    apply Rabs_le. split; apply (Rmult_le_reg_l (g * h)); try exact P; replace (g * h * (IZR T * / g - at_)) with (IZR T * h - g * (h * at_)) by (field; lra); [replace (g * h * - (p53 + / g)) with (- (g * h * p53) - h) by (field; lra)|replace (g * h * (p53 + / g)) with (g * h * p53 + h) by (field; lra)]; lra.
Qed.

(** ** The exact angles *)
Lemma two_pow_pos i : 0 < / 2 ^ i <= 1.
Proof. assert (1 <= 2 ^ i) by (apply pow_R1_Rle; lra). split; [apply Rinv_0_lt_compat; lra|]. rewrite <- Rinv_1. apply Rinv_le_contravar; lra. Qed.
Lemma atan_pos x : 0 < x -> 0 < atan x.
Proof. intros H. rewrite <- atan_0. apply atan_increasing, H. Qed.
Lemma atan_double u : 0 < u < 1 -> atan (2 * u) <= 2 * atan u.
Proof.
  intros Hu. set (a := atan u). assert (A : 0 < a) by (apply atan_pos; lra). assert (A4 : a < PI / 4) by (unfold a; rewrite <- atan_1; apply atan_increasing; lra).
  assert (T : tan (2 * a) = 2 * tan a / (1 - tan a * tan a)). { apply tan_2a; try (apply Rgt_not_eq, cos_gt_0; lra). unfold a. rewrite tan_atan. nra. }
  unfold a in T. rewrite tan_atan in T. fold a in T. rewrite <- (atan_tan (2 * a)) by lra. rewrite T. apply Rnot_lt_le. intros X.
  assert (L : 2 * u <= 2 * u / (1 - u * u)). { apply (Rmult_le_reg_r (1 - u * u)); [nra|]. replace (2 * u / (1 - u * u) * (1 - u * u)) with (2 * u) by (field; nra). nra. }
  destruct (Rle_lt_or_eq_dec _ _ L) as [L'|L']; [apply atan_increasing in L'; lra|rewrite <- L' in X; lra].
Qed.
Lemma sin_low x : 0 <= x <= 5 / 4 -> 7 / 10 * x <= sin x.
Proof.
  intros H. pose proof PI_RGT_0. assert (P : 5 / 4 <= PI). { pose proof pi_m as P. apply Rabs_le_both in P. assert (bpow2 (- (52)) <= 1) by (rewrite <- bpow2_0; apply bpow2_le; lia). assert (3 <= fxval m_pi 48); [|lra]. unfold fxval, m_pi. rewrite bpow2_opp, bpow2_IZR by lia. change (2 ^ 48)%Z with 281474976710656%Z. lra. }
  pose proof (sin_bound x 0 ltac:(lra) ltac:(lra)) as [S _]. eapply Rle_trans; [|exact S]. unfold sin_approx. cbn [sum_f_R0 Nat.mul Nat.add]. unfold sin_term. cbn [pow Nat.mul Nat.add fact INR]. 
  assert (x * x * x <= 25 / 16 * x) by nra. lra.
Qed.
