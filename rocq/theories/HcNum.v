(** Numerical facts for the hyperbolic CORDIC: inverse hyperbolic tangents of 2^-s, ln 2 and the gain. *)
From Coq Require Import Reals Lia Lra Psatz.
From Verif Require Import AcTypes Spec SpecR SpecRFacts SoftFacts PwlExpReal HcModel.
Local Open Scope R_scope.

(** ** The inverse hyperbolic tangent and its series *)
Definition ath (t : R) : R := / 2 * (ln (1 + t) - ln (1 - t)).
Fixpoint athP (n : nat) (t : R) : R := match n with O => 0 | S n' => athP n' t + / INR (2 * n' + 1) * t ^ (2 * n' + 1) end.
Fixpoint athD (n : nat) (t : R) : R := match n with O => 0 | S n' => athD n' t + t ^ (2 * n') end.
Lemma athD_eq n t : athD n t * (1 - t * t) = 1 - t ^ (2 * n).
Proof.
  induction n as [|n IH]; cbn [athD]; [change (2 * 0)%nat with 0%nat; cbn [pow]; ring|]. rewrite Rmult_plus_distr_r, IH. replace (2 * S n)%nat with (2 + 2 * n)%nat by lia. rewrite pow_add. ring.
Qed.
Lemma athP_lim n t : derivable_pt_lim (athP n) t (athD n t).
Proof.
  induction n as [|n IH]; cbn [athD].
  - apply (derivable_pt_lim_ext (fct_cte 0)); [reflexivity|apply derivable_pt_lim_const].
  - apply (derivable_pt_lim_ext (plus_fct (athP n) (fun x => / INR (2 * n + 1) * x ^ (2 * n + 1)))); [reflexivity|]. apply derivable_pt_lim_plus; [exact IH|].
    replace (t ^ (2 * n)) with (/ INR (2 * n + 1) * (INR (2 * n + 1) * t ^ (2 * n))).
    2: { rewrite <- Rmult_assoc, Rinv_l; [ring|]. apply not_0_INR. lia. }
    apply (derivable_pt_lim_scal (fun x => x ^ (2 * n + 1))). pose proof (derivable_pt_lim_pow_pos t (2 * n + 1) ltac:(lia)) as D. replace (pred (2 * n + 1)) with (2 * n)%nat in D by lia. exact D.
Qed.
Lemma ath_lim t : -1 < t < 1 -> derivable_pt_lim ath t (/ (1 - t * t)).
Proof.
  intros Ht. apply (derivable_pt_lim_ext (mult_real_fct (/ 2) (minus_fct (comp ln (plus_fct (fct_cte 1) id)) (comp ln (minus_fct (fct_cte 1) id))))); [intros y; reflexivity|].
  replace (/ (1 - t * t)) with (/ 2 * (/ (1 + t) * (0 + 1) - / (1 - t) * (0 - 1))) by (field; split; [|split]; nra).
  apply derivable_pt_lim_scal, derivable_pt_lim_minus; (apply derivable_pt_lim_comp; [|apply derivable_pt_lim_ln; unfold plus_fct, minus_fct, fct_cte, id; lra]).
  - apply derivable_pt_lim_plus; [apply derivable_pt_lim_const|apply derivable_pt_lim_id].
  - apply derivable_pt_lim_minus; [apply derivable_pt_lim_const|apply derivable_pt_lim_id].
Qed.
Lemma ath_0 : ath 0 = 0. Proof. unfold ath. rewrite Rplus_0_r, Rminus_0_r, ln_1. lra. Qed.
Lemma athP_0 n : athP n 0 = 0.
Proof. induction n as [|n IH]; cbn [athP]; [reflexivity|]. rewrite IH, pow_i by lia. ring. Qed.
Lemma ath_series n t : 0 < t < 1 -> 0 <= ath t - athP n t <= t ^ (2 * n + 1) / (1 - t * t).
Proof.
  intros Ht. destruct (MVT_cor2 (fun x => ath x - athP n x) (fun x => / (1 - x * x) - athD n x) 0 t) as (c & E & Hc); [lra| |].
  { intros c Hc. apply (derivable_pt_lim_minus ath (athP n)); [apply ath_lim; lra|apply athP_lim]. }
  cbv beta in E. rewrite ath_0, athP_0 in E. replace (ath t - athP n t) with ((/ (1 - c * c) - athD n c) * t) by lra.
  assert (Pc : 0 < 1 - c * c) by nra. assert (Pt : 0 < 1 - t * t) by nra.
  assert (E2 : / (1 - c * c) - athD n c = c ^ (2 * n) * / (1 - c * c)). { apply (Rmult_eq_reg_r (1 - c * c)); [|lra]. rewrite Rmult_minus_distr_r, athD_eq, Rmult_assoc, Rinv_l by lra. ring. }
  rewrite E2. assert (0 <= c ^ (2 * n) <= t ^ (2 * n)). { split; [apply pow_le; lra|apply pow_incr; lra]. }
  assert (0 < / (1 - c * c) <= / (1 - t * t)). { split; [apply Rinv_0_lt_compat, Pc|]. apply Rinv_le_contravar; nra. }
  split; [apply Rmult_le_pos; [apply Rmult_le_pos|]; lra|]. rewrite pow_add, pow_1. unfold Rdiv. rewrite (Rmult_assoc (t ^ _)), (Rmult_comm t), <- Rmult_assoc. apply Rmult_le_compat_r; [lra|].
  apply Rmult_le_compat; lra.
Qed.

(** ** The series in integers, in units of 1/B, at t = 1/m *)
Fixpoint athZ (B m : Z) (n : nat) : Z := match n with O => 0%Z | S n' => (athZ B m n' + B / (m ^ (2 * Z.of_nat n' + 1) * (2 * Z.of_nat n' + 1)))%Z end.
Definition ath_hi (B m : Z) (n : nat) : Z := (athZ B m n + Z.of_nat n + 2 * B / m ^ (2 * Z.of_nat n + 1) + 1)%Z.
Lemma athP_Z B m n : (2 <= m)%Z -> (0 <= B)%Z -> IZR (athZ B m n) <= IZR B * athP n (/ IZR m) <= IZR (athZ B m n) + INR n.
Proof.
  intros Hm HB. induction n as [|n IH]; [cbn [athZ athP INR]; lra|]. rewrite S_INR. cbn [athZ athP]. rewrite plus_IZR, Rmult_plus_distr_l.
  set (D := (m ^ (2 * Z.of_nat n + 1) * (2 * Z.of_nat n + 1))%Z). assert (P : (0 < m ^ (2 * Z.of_nat n + 1))%Z) by (apply Z.pow_pos_nonneg; lia). assert (HD : (0 < D)%Z) by (unfold D; nia).
  assert (E : IZR B * (/ INR (2 * n + 1) * (/ IZR m) ^ (2 * n + 1)) = IZR B / IZR D).
  { unfold Rdiv. f_equal. unfold D. rewrite mult_IZR, Rinv_mult, Rmult_comm. f_equal.
    - rewrite pow_inv. f_equal. rewrite pow_IZR. f_equal. f_equal. lia.
    - f_equal. rewrite INR_IZR_INZ. f_equal. lia. }
  rewrite E. pose proof (div_R B D HD). lra.
Qed.
Lemma ath_Z B m n : (2 <= m)%Z -> (0 <= B)%Z -> IZR (athZ B m n) <= IZR B * ath (/ IZR m) <= IZR (ath_hi B m n).
Proof.
  intros Hm HB. pose proof (athP_Z B m n Hm HB) as P. assert (M : 2 <= IZR m) by (apply IZR_le, Hm). assert (B0 : 0 <= IZR B) by (apply IZR_le, HB).
  assert (Ht : 0 < / IZR m <= / 2). { split; [apply Rinv_0_lt_compat; lra|apply Rinv_le_contravar; lra]. }
  pose proof (ath_series n (/ IZR m) ltac:(lra)) as S. set (t := / IZR m) in *.
  assert (R : IZR B * (t ^ (2 * n + 1) / (1 - t * t)) <= IZR (2 * B / m ^ (2 * Z.of_nat n + 1)) + 1).
  { assert (Q : (0 < m ^ (2 * Z.of_nat n + 1))%Z) by (apply Z.pow_pos_nonneg; lia). pose proof (div_R (2 * B) _ Q) as [_ D]. apply Rlt_le in D. eapply Rle_trans; [|exact D].
    assert (E : t ^ (2 * n + 1) = / IZR (m ^ (2 * Z.of_nat n + 1))). { unfold t. rewrite pow_inv, pow_IZR. f_equal. f_equal. f_equal. lia. }
    rewrite E, mult_IZR. apply (IZR_lt 0), Rinv_0_lt_compat in Q. set (q := / IZR (m ^ (2 * Z.of_nat n + 1))) in *. unfold Rdiv.
    assert (T : / (1 - t * t) <= 2). { replace 2 with (/ / 2) by lra. apply Rinv_le_contravar; nra. }
    apply Rle_trans with (IZR B * (q * 2)); [|fold q; lra]. apply Rmult_le_compat_l; [exact B0|]. apply Rmult_le_compat_l; lra. }
  unfold ath_hi. rewrite !plus_IZR, <- INR_IZR_INZ. destruct S as [S1 S3]. apply (Rmult_le_compat_l (IZR B)) in S1; [|exact B0]. apply (Rmult_le_compat_l (IZR B)) in S3; [|exact B0].
  rewrite Rmult_0_r in S1. rewrite !Rmult_minus_distr_l in *. lra.
Qed.

(** ** ln 2 *)
Lemma ln2_ath : ln 2 = 2 * ath (/ 3).
Proof. unfold ath. rewrite <- ln_div by lra. replace ((1 + / 3) / (1 - / 3)) with 2 by field. lra. Qed.
Definition B80 : Z := (2 ^ 80)%Z.
Lemma ln2_Z : (hc_ln2 / 2 ^ 79 - 100 <= 2 * athZ B80 3 26 /\ 2 * ath_hi B80 3 26 <= hc_ln2 / 2 ^ 79 + 100)%Z.
Proof. vm_compute. split; discriminate. Qed.
Lemma ln2_near : Rabs (fxval hc_ln2 159 - ln 2) <= bpow2 (-72).
Proof.
  pose proof (ath_Z B80 3 26 ltac:(lia) ltac:(discriminate)) as A. destruct ln2_Z as [L H]. rewrite ln2_ath. apply IZR_le in L, H. rewrite minus_IZR, mult_IZR in L. rewrite plus_IZR, mult_IZR in H.
  pose proof (div_R hc_ln2 (2 ^ 79) ltac:(lia)) as D. assert (E : fxval hc_ln2 159 * IZR B80 = IZR hc_ln2 / IZR (2 ^ 79)).
  { unfold fxval, Rdiv, B80. rewrite <- !bpow2_IZR by lia. rewrite <- bpow2_opp, Rmult_assoc, <- bpow2_add. reflexivity. }
  assert (PB : 0 < IZR B80) by (apply (IZR_lt 0); reflexivity). assert (EB : bpow2 (-72) * IZR B80 = 256). { unfold B80. rewrite <- bpow2_IZR by lia. rewrite <- bpow2_add. change (-72 + 80)%Z with 8%Z. rewrite bpow2_IZR by lia. reflexivity. }
  apply Rabs_le. split; apply (Rmult_le_reg_r (IZR B80)); try exact PB; lra.
Qed.

(** ** The tables *)
Definition ath_terms (s : Z) : nat := Z.to_nat (40 / s + 1).
Definition tab_ok (s : Z) : bool :=
  let T := nth (Z.to_nat (s - 1)) hc_tab 0%Z in
  let n := ath_terms s in
  ((T - 2) * 2 ^ 17 <=? athZ B80 (2 ^ s) n)%Z && (ath_hi B80 (2 ^ s) n <=? (T + 2) * 2 ^ 17)%Z.
Definition tab2_ok (s : Z) : bool :=
  let T := nth (Z.to_nat (s - 1)) hc_tab 0%Z in
  let T2 := nth (Z.to_nat (s - 1)) hc_tab2 0%Z in
  (Z.abs (T2 * hc_ln2 - T * 2 ^ 159) <=? 2 ^ 160)%Z && (0 <=? T2)%Z && (T2 <=? 2 ^ 63)%Z.
Lemma tabs_ok : forallb (fun s => tab_ok (Z.of_nat s) && tab2_ok (Z.of_nat s)) (seq 1 57) = true.
Proof. vm_compute. reflexivity. Qed.
Lemma tab_sok s : (1 <= s <= 57)%Z -> tab_ok s = true /\ tab2_ok s = true.
Proof.
  intros Hs. pose proof tabs_ok as H. rewrite forallb_forall in H. specialize (H (Z.to_nat s) ltac:(apply in_seq; lia)). rewrite Z2Nat.id in H by lia. apply andb_prop in H. exact H.
Qed.
Definition T63 (tab : list Z) (s : Z) : R := fxval (nth (Z.to_nat (s - 1)) tab 0%Z) 63.
Lemma tab_near s : (1 <= s <= 57)%Z -> Rabs (T63 hc_tab s - ath (bpow2 (- s))) <= bpow2 (-62).
Proof.
  intros Hs. destruct (tab_sok s Hs) as [H _]. unfold tab_ok in H. apply andb_prop in H. destruct H as [L H]. apply Z.leb_le in L, H.
  assert (P2 : (2 <= 2 ^ s)%Z) by (replace 2%Z with (2 ^ 1)%Z at 1 by reflexivity; apply Z.pow_le_mono_r; lia).
  pose proof (ath_Z B80 (2 ^ s) (ath_terms s) P2 ltac:(discriminate)) as A. rewrite bpow2_opp, bpow2_IZR by lia. apply IZR_le in L, H. rewrite mult_IZR, minus_IZR in L. rewrite mult_IZR, plus_IZR in H.
  unfold T63. set (T := nth (Z.to_nat (s - 1)) hc_tab 0%Z) in *.
  assert (PB : 0 < IZR B80) by (apply (IZR_lt 0); reflexivity). assert (EB : bpow2 (-62) * IZR B80 = 2 * IZR (2 ^ 17)). { unfold B80. rewrite <- !bpow2_IZR by lia. rewrite <- bpow2_add. change (-62 + 80)%Z with (1 + 17)%Z. rewrite bpow2_add, bpow2_1. reflexivity. }
  assert (E : fxval T 63 * IZR B80 = IZR T * IZR (2 ^ 17)). { unfold fxval, B80. rewrite <- !bpow2_IZR by lia. rewrite Rmult_assoc, <- bpow2_add. reflexivity. }
  apply Rabs_le. split; apply (Rmult_le_reg_r (IZR B80)); try exact PB; lra.
Qed.
Lemma tab2_near s : (1 <= s <= 57)%Z -> Rabs (ln 2 * T63 hc_tab2 s - ath (bpow2 (- s))) <= 3 * bpow2 (-62).
Proof.
  intros Hs. pose proof (tab_near s Hs) as N. destruct (tab_sok s Hs) as [_ H]. unfold tab2_ok in H. apply andb_prop in H. destruct H as [H H3]. apply andb_prop in H. destruct H as [H H2]. apply Z.leb_le in H, H2, H3.
  unfold T63 in *. set (T := nth (Z.to_nat (s - 1)) hc_tab 0%Z) in *. set (T2 := nth (Z.to_nat (s - 1)) hc_tab2 0%Z) in *.
  pose proof ln2_near as L. assert (D : Rabs (fxval hc_ln2 159 * fxval T2 63 - fxval T 63) <= bpow2 (-62)).
  { apply IZR_le in H. rewrite abs_IZR, minus_IZR, !mult_IZR, <- !bpow2_IZR in H by lia.
    replace (fxval hc_ln2 159 * fxval T2 63 - fxval T 63) with ((IZR T2 * IZR hc_ln2 - IZR T * bpow2 159) * bpow2 (-222)).
    2: { unfold fxval. replace (-222)%Z with (-159 + -63)%Z by lia. rewrite bpow2_add. assert (Q : bpow2 159 * bpow2 (-159) = 1) by (rewrite <- bpow2_add; reflexivity). change (- (159))%Z with (-159)%Z. change (- (63))%Z with (-63)%Z.
         transitivity (IZR hc_ln2 * bpow2 (-159) * (IZR T2 * bpow2 (-63)) - IZR T * bpow2 (-63) * (bpow2 159 * bpow2 (-159))); [ring|]. rewrite Q. ring. }
    rewrite Rabs_mult, (Rabs_pos_eq (bpow2 (-222))) by apply Rlt_le, bpow2_pos. replace (bpow2 (-62)) with (bpow2 160 * bpow2 (-222)) by (rewrite <- bpow2_add; reflexivity).
    apply Rmult_le_compat_r; [apply Rlt_le, bpow2_pos|exact H]. }
  assert (B2 : 0 <= fxval T2 63 <= 1). { rewrite <- (fxval_0 63). split; [apply fxval_le, H2|]. rewrite <- (fxval_one 63) by lia. apply fxval_le, H3. }
  assert (L2 : Rabs ((fxval hc_ln2 159 - ln 2) * fxval T2 63) <= bpow2 (-62)).
  { rewrite Rabs_mult, (Rabs_pos_eq (fxval T2 63)) by lra. apply Rle_trans with (bpow2 (-72) * 1); [apply Rmult_le_compat; try lra; apply Rabs_pos|]. rewrite Rmult_1_r. apply bpow2_le. lia. }
  apply Rabs_le_both in N, D, L2. apply Rabs_le. lra.
Qed.

(** ** The squared gain of the first n iterations *)
Definition hs (i : nat) : Z := nth i hc_dist 1%Z.
Fixpoint hgain (n : nat) : R := match n with O => 1 | S n' => hgain n' * (1 - bpow2 (- hs n') * bpow2 (- hs n')) end.
Fixpoint hg_num (n : nat) : Z := match n with O => 1%Z | S n' => (hg_num n' * (4 ^ hs n' - 1))%Z end.
Fixpoint hg_den (n : nat) : Z := match n with O => 1%Z | S n' => (hg_den n' * 4 ^ hs n')%Z end.
Lemma hs_range i : (1 <= hs i <= 57)%Z.
Proof.
  assert (H : forallb (fun s => (1 <=? s) && (s <=? 57))%Z hc_dist = true) by reflexivity. rewrite forallb_forall in H. unfold hs. destruct (Nat.lt_ge_cases i 60) as [Hi|Hi].
  - specialize (H (nth i hc_dist 1%Z) (nth_In hc_dist 1%Z (Hi : (i < length hc_dist)%nat))). lia.
  - rewrite (nth_overflow hc_dist 1%Z (Hi : (length hc_dist <= i)%nat)). lia.
Qed.
Lemma hgain_Z n : (0 < hg_den n)%Z /\ hgain n = IZR (hg_num n) / IZR (hg_den n).
Proof.
  induction n as [|n [IP IH]]; [split; [reflexivity|cbn [hgain hg_num hg_den]; lra]|]. cbn [hgain hg_num hg_den]. pose proof (hs_range n) as Hr. assert (P : (0 < 4 ^ hs n)%Z) by (apply Z.pow_pos_nonneg; lia). split; [nia|].
  rewrite IH, !mult_IZR, minus_IZR. assert (E : bpow2 (- hs n) * bpow2 (- hs n) = / IZR (4 ^ hs n)). { rewrite !bpow2_opp, <- Rinv_mult, <- bpow2_add. f_equal. rewrite bpow2_IZR by lia. f_equal. replace (hs n + hs n)%Z with (2 * hs n)%Z by lia. rewrite Z.pow_mul_r by lia. reflexivity. }
  rewrite E. apply (IZR_lt 0) in IP, P. field. lra.
Qed.
Lemma hgain_low_ok : forallb (fun n => 68558 * hg_den n <=? 100000 * hg_num n)%Z (seq 0 52) = true.
Proof. vm_compute. reflexivity. Qed.
Lemma hgain_low n : (n < 52)%nat -> 0.68558 <= hgain n.
Proof.
  intros Hn. pose proof hgain_low_ok as H. rewrite forallb_forall in H. specialize (H n ltac:(apply in_seq; lia)). apply Z.leb_le, IZR_le in H. rewrite !mult_IZR in H. destruct (hgain_Z n) as [P ->]. apply (IZR_lt 0) in P.
  apply (Rmult_le_reg_r (IZR (hg_den n))); [exact P|]. unfold Rdiv. rewrite Rmult_assoc, Rinv_l by lra. lra.
Qed.
Lemma hgain_pos n : 0 < hgain n <= 1.
Proof.
  induction n as [|n IH]; cbn [hgain]; [lra|]. assert (B : 0 < bpow2 (- hs n) <= / 2). { split; [apply bpow2_pos|]. replace (/ 2) with (bpow2 (-1)) by (transitivity (/ bpow2 1); [exact (bpow2_opp 1)|rewrite bpow2_1; reflexivity]). apply bpow2_le. pose proof (hs_range n). lia. }
  set (t := bpow2 (- hs n)) in *. split; [apply Rmult_lt_0_compat; nra|]. nra.
Qed.
(** The constant 1/K against the gain of the iterations an internal width of EW bits makes. *)
Lemma inv_K_ok : forallb (fun e => let EW := Z.of_nat e in let n := Z.to_nat (hc_L EW) in (Z.abs (hc_inv_K * hc_inv_K * hg_num n - 2 ^ 316 * hg_den n) * 2 ^ (EW + 6) <=? 2 ^ 316 * hg_den n)%Z) (seq 4 42) = true.
Proof. vm_compute. reflexivity. Qed.
Definition kK (n : nat) : R := fxval hc_inv_K 158 * sqrt (hgain n).
Lemma inv_K_near EW : (4 <= EW <= 45)%Z -> Rabs (kK (Z.to_nat (hc_L EW)) - 1) <= bpow2 (- (EW + 6)).
Proof.
  intros HE. pose proof inv_K_ok as H. rewrite forallb_forall in H. specialize (H (Z.to_nat EW) ltac:(apply in_seq; lia)). cbv zeta in H. rewrite Z2Nat.id in H by lia. set (n := Z.to_nat (hc_L EW)) in *.
  apply Z.leb_le, IZR_le in H. rewrite !mult_IZR, abs_IZR, minus_IZR, !mult_IZR, <- !bpow2_IZR in H by lia. destruct (hgain_Z n) as [P E]. apply (IZR_lt 0) in P. pose proof (hgain_pos n) as G.
  unfold kK. set (k := fxval hc_inv_K 158). set (g := sqrt (hgain n)). assert (Pg : 0 <= g) by apply sqrt_pos. assert (Pk : 0 <= k). { unfold k. rewrite <- (fxval_0 158). apply fxval_le. discriminate. }
  assert (S2 : k * g * (k * g) = IZR hc_inv_K * IZR hc_inv_K * IZR (hg_num n) / IZR (hg_den n) * bpow2 (-316)).
  { transitivity (k * k * (g * g)); [ring|]. unfold g. rewrite sqrt_sqrt by lra. rewrite E. unfold k, fxval. replace (-316)%Z with (-158 + -158)%Z by lia. rewrite bpow2_add. change (- (158))%Z with (-158)%Z. field. lra. }
  set (N := IZR (hg_num n)) in *. set (D := IZR (hg_den n)) in *. set (K := IZR hc_inv_K) in *. clearbody N D K.
  assert (A : Rabs (k * g * (k * g) - 1) <= bpow2 (- (EW + 6))).
  { rewrite S2. replace (K * K * N / D * bpow2 (-316) - 1) with ((K * K * N - bpow2 316 * D) * (/ D * bpow2 (-316))).
    2: { assert (Q : bpow2 316 * bpow2 (-316) = 1) by (rewrite <- bpow2_add; reflexivity). transitivity (K * K * N / D * bpow2 (-316) - (bpow2 316 * bpow2 (-316))); [field; lra|]. rewrite Q. reflexivity. }
    pose proof (bpow2_pos (EW + 6)) as PE. pose proof (bpow2_pos 316) as P3. rewrite Rabs_mult, (Rabs_pos_eq (/ D * _)) by (apply Rmult_le_pos; [apply Rlt_le, Rinv_0_lt_compat, P|apply Rlt_le, bpow2_pos]).
    apply (Rmult_le_reg_r (bpow2 (EW + 6))); [exact PE|]. rewrite bpow2_opp, Rinv_l by lra. change (-316)%Z with (- (316))%Z. rewrite bpow2_opp.
    apply (Rmult_le_reg_r (bpow2 316 * D)); [apply Rmult_lt_0_compat; lra|]. rewrite Rmult_1_l. eapply Rle_trans; [|exact H]. right. field. lra. }
  assert (Rabs (k * g - 1) * 1 <= Rabs (k * g - 1) * (k * g + 1)). { apply Rmult_le_compat_l; [apply Rabs_pos|]. pose proof (Rmult_le_pos _ _ Pk Pg). lra. }
  rewrite <- (Rabs_pos_eq (k * g + 1)) in H0 by (pose proof (Rmult_le_pos _ _ Pk Pg); lra). rewrite <- Rabs_mult in H0. replace ((k * g - 1) * (k * g + 1)) with (k * g * (k * g) - 1) in H0 by ring. lra.
Qed.
