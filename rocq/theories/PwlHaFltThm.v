(** The statements about the ac_float and ac_complex overloads of the higher-accuracy reciprocals and inverse square root. *)
From Coq Require Import Reals Lia Lra Psatz ZifyBool.
From Verif Require Import AcTypes AcFacts Spec SpecR SpecRFacts SoftFacts HcFloat PwlModel PwlHaModel PwlHaProofs PwlFloatModel PwlCplxModel PwlCplx PwlCplxThm PwlHaFltModel PwlHaFlt.
Open Scope Z.

Theorem recip_ha_flt_accurate : forall pQ oQ W I m e,
  let X := (fxval m (W - I) * bpow2 e)%R in
  1 <= W -> in_range true W m -> m <> 0 ->
  exists v n, recip_ha_flt pQ oQ W I m e = Some (v, n) /\ (Rabs (fxval v (Z.max 1 (Z.min 16 (W - 7)) + 15 + I) * bpow2 n - / X) <= 0.00015 * / Rabs X)%R.
Proof. intros pQ oQ W I m e X HW Hm H0. pose proof (recip_ha_flt_real pQ oQ W I m e HW Hm H0) as R. unfold recip_ha_fb in R. replace (W - 6 - 1) with (W - 7) in R by lia. exact R. Qed.
Theorem recip_vha_flt_accurate : forall pQ oQ W I m e,
  let X := (fxval m (W - I) * bpow2 e)%R in
  2 <= W -> in_range true W m -> m <> 0 ->
  exists v n, recip_vha_flt pQ oQ W I m e = Some (v, n) /\ (Rabs (fxval v (Z.max 1 (Z.min 16 (W - 8)) + 15 + I) * bpow2 n - / X) <= 0.00005 * / Rabs X)%R.
Proof. intros pQ oQ W I m e X HW Hm H0. pose proof (recip_vha_flt_real pQ oQ W I m e HW Hm H0) as R. unfold recip_vha_fb in R. replace (W - 7 - 1) with (W - 8) in R by lia. exact R. Qed.

Theorem isqrt_vha_flt_accurate : forall pQ xQ oQ W I m e,
  let X := (fxval m (W - I) * bpow2 e)%R in
  2 <= W -> 0 < m < 2 ^ (W - 1) ->
  exists v n, isqrt_vha_flt pQ xQ oQ W I m e = Some (v, n) /\ (Rabs (fxval v ((if Z.even I then 29 else 27) - (3 - I) / 2) * bpow2 n - / sqrt X) <= 0.00006 * / sqrt X)%R.
Proof. intros pQ xQ oQ W I m e X HW Hm. pose proof (isqrt_vha_flt_real pQ xQ oQ W I m e HW Hm) as R. destruct (isv_dims I) as [EI _]. rewrite EI in R. replace (isv_W I) with (if Z.even I then 29 else 27) in R; [exact R|]. unfold isv_W. rewrite Zeven_mod. pose proof (Z.quot_rem I 2 ltac:(lia)). pose proof (Z.rem_bound_abs I 2 ltac:(lia)). destruct (Z.eqb_spec (Z.rem I 2) 0), (Zeq_bool (I mod 2) 0) eqn:EE; try reflexivity; [apply Zeq_bool_neq in EE|apply Zeq_bool_eq in EE]; lia. Qed.

Theorem recip_ha_cplx_accurate : forall pQ MW W I (S : bool) f a b,
  let A := fxval a (W - I) in let B := fxval b (W - I) in
  1 <= W -> 1 <= fW f -> 1 <= MW -> in_range S W a -> in_range S W b -> a * a + b * b < 2 ^ MW -> a <> 0 \/ b <> 0 ->
  exists r i rho, recip_ha_cplx pQ MW W I S f a b = Some (r, i) /\ convertsR f (A * rho) r /\ convertsR f (- B * rho) i /\
    (Rabs (rho - / (A * A + B * B)) <= 0.00016 * / (A * A + B * B))%R.
Proof. intros pQ MW W I S f a b A B HW Hf HM Ha Hb Hs Hz. exact (recip_ha_cplx_real pQ MW W I S f a b HW Hf HM Ha Hb Hs Hz). Qed.
Theorem recip_vha_cplx_accurate : forall pQ MW W I (S : bool) f a b,
  let A := fxval a (W - I) in let B := fxval b (W - I) in
  1 <= W -> 1 <= fW f -> 1 <= MW -> in_range S W a -> in_range S W b -> a * a + b * b < 2 ^ MW -> a <> 0 \/ b <> 0 ->
  exists r i rho, recip_vha_cplx pQ MW W I S f a b = Some (r, i) /\ convertsR f (A * rho) r /\ convertsR f (- B * rho) i /\
    (Rabs (rho - / (A * A + B * B)) <= 0.00005 * / (A * A + B * B))%R.
Proof. intros pQ MW W I S f a b A B HW Hf HM Ha Hb Hs Hz. exact (recip_vha_cplx_real pQ MW W I S f a b HW Hf HM Ha Hb Hs Hz). Qed.

Theorem recip_hva_cplx_zero : forall pQ MW W I S f, 1 <= MW ->
  recip_ha_cplx pQ MW W I S f 0 0 = Some (imax (fS f) (fW f), imax (fS f) (fW f)) /\ recip_vha_cplx pQ MW W I S f 0 0 = Some (imax (fS f) (fW f), imax (fS f) (fW f)).
Proof.
  intros pQ MW W I S f HM. unfold recip_ha_cplx, recip_vha_cplx. rewrite mag_sqr_val by (apply Z.pow_pos_nonneg; lia). change (0 * 0 + 0 * 0) with 0. cbv zeta. rewrite rha_zero, rvha_zero by lia. split; reflexivity.
Qed.

Theorem isqrt_vha_cplx_accurate : forall pQ MW MC k W I f a b P Q,
  let A := fxval a (W - I) in let B := fxval b (W - I) in let F := (W + 23) / 2 + 22 in let N := (P * P + Q * Q)%R in let M := sqrt N in
  1 <= W -> -50 <= W + I -> 0 <= k -> 1 <= MW -> 1 <= MC -> 1 <= fW f -> in_range true W a -> in_range true W b -> in_range true (W + k) (- b) ->
  a * a + b * b < 2 ^ MW -> a * a + b * b < 2 ^ MC -> a <> 0 \/ b <> 0 ->
  (P * P - Q * Q = A -> 2 * P * Q = B -> 0 < P \/ P = 0 /\ 0 <= Q ->
  exists r i X Y, isqrt_vha_cplx pQ MW MC k W I f a b = Some (r, i) /\ convertsR f X r /\ convertsR f Y i /\
    Rabs (X - P / N) <= 0.0259 / M + 2.002 * bpow2 (- F) / N /\ Rabs (Y - - Q / N) <= 0.0259 / M + 2.002 * bpow2 (- F) / N /\
    (0 <= A -> Rabs (X - P / N) <= 0.0022 / M + 2.002 * bpow2 (- F) / N) /\ (A <= 0 -> Rabs (Y - - Q / N) <= 0.0022 / M + 2.002 * bpow2 (- F) / N))%R.
Proof.
  intros pQ MW MC k W I f a b P Q A B F N M HW HWI Hk HM HC Hf Ha Hb Hnb Hs Hc Hz HA HB HP. destruct (principal a b (W - I) P Q HA HB HP) as (EZ & EP & EQ). fold A B in EZ, EP, EQ. fold N in EZ.
  destruct (isqrt_vha_cplx_real pQ MW MC k W I f a b HW HWI Hk HM HC Hf Ha Hb Hnb Hs Hc Hz) as (r & i & X & Y & E & CX & CY & X1 & Y1 & X2 & Y2). cbv zeta in *. fold A B in X1, Y1, X2, Y2. fold F in X1, Y1, X2, Y2. rewrite <- EP, <- EZ in *. fold M in X1, Y1, X2, Y2.
  assert (ES : ((if (b <? 0)%Z then 1 else -1) * (sqrt ((N - A) / 2) / N) = - Q / N)%R) by (rewrite EQ; unfold Rdiv; destruct (b <? 0); ring). rewrite ES in *. exists r, i, X, Y. repeat (split; [assumption|]). exact Y2.
Qed.

Theorem isqrt_vha_cplx_bad : ~ (forall pQ MW MC k W I f a b P Q r i,
  let A := fxval a (W - I) in let B := fxval b (W - I) in let N := (P * P + Q * Q)%R in let M := sqrt N in
  1 <= W -> -50 <= W + I -> 0 <= k -> 1 <= MW -> 1 <= MC -> 1 <= fW f -> in_range true W a -> in_range true W b -> in_range true (W + k) (- b) ->
  a * a + b * b < 2 ^ MW -> a * a + b * b < 2 ^ MC -> a <> 0 \/ b <> 0 ->
  (P * P - Q * Q = A -> 2 * P * Q = B -> 0 < P \/ P = 0 /\ 0 <= Q -> isqrt_vha_cplx pQ MW MC k W I f a b = Some (r, i) ->
  Rabs (fxval i (fF f) - - Q / N) <= 0.01 / M + bpow2 (- fF f))%R).
Proof.
  intros H. specialize (H TRN 31 33 1 16 4 (Fmt 24 4 true TRN SAT) 4096 0 1%R 0%R 1049815 23396). cbv zeta in H. assert (E1 : (fxval 4096 (16 - 4) = 1)%R). { unfold fxval. change (- (16 - 4)) with (- (12)). rewrite bpow2_opp, bpow2_IZR by lia. change (IZR (2 ^ 12)) with 4096%R. lra. }
  assert (E0 : (fxval 0 (16 - 4) = 0)%R) by (unfold fxval; ring). rewrite E0, E1 in H. assert (EM : sqrt (1 * 1 + 0 * 0) = 1%R) by (replace (1 * 1 + 0 * 0)%R with 1%R by ring; apply sqrt_1). rewrite EM in H. specialize (H ltac:(lia) ltac:(lia) ltac:(lia) ltac:(lia) ltac:(lia) ltac:(cbn [fW]; lia) ltac:(unfold in_range, imin, imax; lia) ltac:(unfold in_range, imin, imax; lia) ltac:(unfold in_range, imin, imax; lia) ltac:(lia) ltac:(lia) ltac:(lia) ltac:(lra) ltac:(lra) ltac:(lra) ltac:(vm_compute; reflexivity)).
  unfold fxval, fF in H. cbn [fW fI] in H. change (- (24 - 4)) with (- (20)) in H. rewrite bpow2_opp, bpow2_IZR in H by lia. change (IZR (2 ^ 20)) with 1048576%R in H. apply Rabs_le_both in H. lra.
Qed.

Theorem isqrt_vha_cplx_zero : forall pQ MW MC k W I f, 1 <= W -> -50 <= W + I -> 0 <= k -> 1 <= MW -> 1 <= MC -> 1 <= fW f ->
  isqrt_vha_cplx pQ MW MC k W I f 0 0 = Some (imax true (fW f), imax true (fW f)).
Proof.
  intros pQ MW MC k W I f HW HWI Hk HM HC Hf. unfold isqrt_vha_cplx. assert (E0 : wraps (W + k) (- 0) = 0) by (apply wraps_id; [lia|]; assert (0 < 2 ^ (W + k - 1)) by (apply Z.pow_pos_nonneg; lia); lia). rewrite E0, sqrt_cplx_zero; [|lia| |exact HC].
  - rewrite mag_sqr_val by (apply Z.pow_pos_nonneg; lia). change (0 * 0 + 0 * 0) with 0. cbv zeta. rewrite isqv_zero. reflexivity.
  - cbn [fW]. destruct (cs_dims W I) as (_ & _ & E & E2). destruct (E HW) as (_ & _ & EW). rewrite EW. lia.
Qed.
