(** The statements about the ac_float overloads of the CORDIC sine, cosine, arc sine and arc cosine. *)
From Coq Require Import Reals Lia Lra Psatz ZifyBool.
From Verif Require Import AcTypes AcFacts Spec SpecR SpecRFacts SoftFacts ArcProofs HcFloat TrigFloatModel TrigFloat.
Open Scope Z.

Lemma trig_eps : (4 * bpow2 (-28) + PI * bpow2 (-26) <= 4.15 * bpow2 (-26))%R.
Proof. change (-28) with (-26 + - (2)). rewrite bpow2_add, (bpow2_opp 2), (bpow2_IZR 2) by lia. change (IZR (2 ^ 2)) with 4%R. pose proof (bpow2_pos (-26)). pose proof PI_hi. nra. Qed.

Theorem sincos_flt_accurate : forall W I m e,
  let X := (fxval m (W - I) * bpow2 e)%R in
  1 <= W -> in_range true W m ->
  (Rabs (fxval (sin_flt W I m e) 28 - sin (PI * X)) <= 4.15 * bpow2 (-26) /\ Rabs (fxval (cos_flt W I m e) 28 - cos (PI * X)) <= 4.15 * bpow2 (-26))%R.
Proof. intros W I m e X HW Hm. destruct (sincos_flt_real W I m e HW Hm) as [A B]. pose proof trig_eps as T. split; eapply Rle_trans; try exact T; assumption. Qed.

Theorem asin_flt_accurate : forall W I m e,
  let X := (fxval m (W - I) * bpow2 e)%R in
  1 <= W -> in_range true W m -> (Rabs X <= 1)%R ->
  (exists P, Rabs P <= 1 /\ Rabs (P - X) <= bpow2 (-19) /\ Rabs (fxval (asin_flt W I m e) 30 - asin P / PI) <= 5 * bpow2 (-30))%R.
Proof. intros W I m e X HW Hm HX. exact (asin_flt_real W I m e HW Hm HX). Qed.
Theorem acos_flt_accurate : forall W I m e,
  let X := (fxval m (W - I) * bpow2 e)%R in
  1 <= W -> in_range true W m -> (Rabs X <= 1)%R ->
  (exists P, Rabs P <= 1 /\ Rabs (P - X) <= bpow2 (-19) /\ Rabs (fxval (acos_flt W I m e) 30 - acos P / PI) <= 5 * bpow2 (-30))%R.
Proof. intros W I m e X HW Hm HX. exact (acos_flt_real W I m e HW Hm HX). Qed.

Theorem arc_flt_close : forall W I m e,
  let X := (fxval m (W - I) * bpow2 e)%R in
  1 <= W -> in_range true W m -> (Rabs X <= 1)%R ->
  (Rabs (fxval (asin_flt W I m e) 30 - asin X / PI) <= bpow2 (-10) + 5 * bpow2 (-30) /\ Rabs (fxval (acos_flt W I m e) 30 - acos X / PI) <= bpow2 (-10) + 5 * bpow2 (-30))%R.
Proof.
  intros W I m e X HW Hm HX. destruct (asin_flt_real W I m e HW Hm HX) as (P & P1 & P2 & P3). destruct (acos_flt_real W I m e HW Hm HX) as (Q & Q1 & Q2 & Q3). pose proof (asin_near X P HX P1 P2) as A. pose proof (acos_near X Q HX Q1 Q2) as B. apply Rabs_le_both in P3, Q3, A, B. split; apply Rabs_le; lra.
Qed.

Theorem asin_flt_precision_bad : ~ (forall W I m e,
  let X := (fxval m (W - I) * bpow2 e)%R in
  1 <= W -> in_range true W m -> (Rabs X <= 1)%R -> (Rabs (fxval (asin_flt W I m e) 30 - asin X / PI) <= bpow2 (-24))%R).
Proof.
  intros H. specialize (H 16 2 8192 (-20) ltac:(lia) ltac:(unfold in_range, imin, imax; lia)). assert (E0 : asin_flt 16 2 8192 (-20) = 0) by (vm_compute; reflexivity). rewrite E0 in H. clear E0.
  assert (EX : (fxval 8192 (16 - 2) * bpow2 (-20) = / 2097152)%R). { unfold fxval. change (- (16 - 2)) with (- (14)). change (-20) with (- (20)). rewrite !bpow2_opp, !bpow2_IZR by lia. change (IZR (2 ^ 14)) with 16384%R. change (IZR (2 ^ 20)) with 1048576%R. lra. } cbv zeta in H. rewrite EX in H. specialize (H ltac:(apply Rabs_le; lra)).
  set (x := (/ 2097152)%R) in *. pose proof (sin_asin x ltac:(unfold x; lra)) as S. pose proof PI_hi. pose proof PI_lo. assert (A : (x <= asin x)%R). { destruct (Rle_lt_dec (asin x) 0) as [G|G]; [exfalso|]. - pose proof (asin_bound x). assert (sin (asin x) <= 0)%R by (rewrite <- (Ropp_involutive (asin x)), sin_neg; assert (0 <= sin (- asin x))%R by (apply sin_ge_0; lra); lra). unfold x in *; lra. - pose proof (sin_lt_x (asin x) G). lra. }
  assert (B : (x / 4 <= asin x / PI)%R). { apply (Rmult_le_reg_r PI); [lra|]. unfold Rdiv. rewrite (Rmult_assoc (asin x)), Rinv_l by lra. unfold x in *. nra. } apply Rabs_le_both in H. unfold fxval in H. change (-24) with (- (24)) in H. rewrite (bpow2_opp 24), (bpow2_IZR 24) in H by lia. change (IZR (2 ^ 24)) with 16777216%R in H. unfold x in *. lra.
Qed.
