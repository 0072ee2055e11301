(** Accuracy of the ac_float and ac_complex overloads of the higher-accuracy reciprocals and inverse square root. *)
From Coq Require Import Reals Lia Lra Psatz ZifyBool.
From Verif Require Import AcTypes AcFacts Spec SpecFacts SpecR SpecRFacts SoftFacts HcFloat PwlModel PwlFacts PwlReal PwlHaModel PwlHaProofs PwlHaReal PwlFloatModel PwlFloat PwlFloat3 PwlCplxModel PwlCplx PwlHaFltModel.
Local Open Scope R_scope.

(** ** Reciprocals of complex numbers *)
Lemma rc_bounds W I (S : bool) a b : (1 <= W)%Z -> in_range S W a -> in_range S W b -> (a <> 0 \/ b <> 0)%Z ->
  let A := fxval a (W - I) in let B := fxval b (W - I) in let N := A * A + B * B in
  N = fxval (a * a + b * b) (2 * (W - I)) /\ 0 < N /\ bpow2 (- (2 * (W - I))) <= N /\ bpow2 (- (if S then 2 * I - 1 else 2 * I + 1)) <= / N <= bpow2 (2 * (W - I)).
Proof.
  intros HW Ha Hb Hz A B N. set (n := (a * a + b * b)%Z). assert (Hn : (1 <= n)%Z) by (unfold n; nia). set (W1 := if S then (2 * W - 1)%Z else (2 * W + 1)%Z). set (I1 := if S then (2 * I - 1)%Z else (2 * I + 1)%Z).
  assert (EWI : (W1 - I1 = 2 * (W - I))%Z) by (unfold W1, I1; destruct S; lia). assert (HW1 : (1 <= W1)%Z) by (unfold W1; destruct S; lia). assert (HNW : (n <= 2 ^ W1)%Z).
  { unfold W1, n. unfold in_range, imin, imax in Ha, Hb. destruct S; cbv iota in Ha, Hb.
    - replace (2 * W - 1)%Z with (1 + ((W - 1) + (W - 1)))%Z by lia. rewrite !Z.pow_add_r by lia. set (p := (2 ^ (W - 1))%Z) in *. change (2 ^ 1)%Z with 2%Z. nia.
    - replace (2 * W + 1)%Z with (1 + (W + W))%Z by lia. rewrite !Z.pow_add_r by lia. set (p := (2 ^ W)%Z) in *. change (2 ^ 1)%Z with 2%Z. nia. }
  assert (EN : N = IZR n * bpow2 (- (2 * (W - I)))) by (unfold N, A, B; rewrite <- sum_sq; reflexivity). set (u := bpow2 (- (2 * (W - I)))) in *. assert (Pu : 0 < u) by apply bpow2_pos. apply IZR_le in Hn. assert (LN : u <= N) by (rewrite EN; nra).
  split; [exact EN|]. split; [lra|]. split; [exact LN|]. assert (Etn : / N * N = 1) by (apply Rinv_l; lra). split; apply Rmult_le_reg_r with N; try lra; rewrite Etn.
  - rewrite EN. apply Rle_trans with (bpow2 (- I1) * (bpow2 W1 * u)); [apply Rmult_le_compat_l; [apply Rlt_le, bpow2_pos|]; apply Rmult_le_compat_r; [lra|]; rewrite bpow2_IZR by lia; apply IZR_le; exact HNW|]. unfold u. rewrite <- !bpow2_add. replace (- I1 + (W1 + - (2 * (W - I))))%Z with 0%Z by lia. rewrite bpow2_0. lra.
  - apply Rle_trans with (bpow2 (2 * (W - I)) * u); [unfold u; rewrite <- bpow2_add; replace (2 * (W - I) + - (2 * (W - I)))%Z with 0%Z by lia; rewrite bpow2_0; lra|]. apply Rmult_le_compat_l; [apply Rlt_le, bpow2_pos|exact LN].
Qed.

Lemma rc_final_real W I W2 I2 f a b q V t eps d eps' : (1 <= W2)%Z -> (1 <= fW f)%Z -> (a <> 0 \/ b <> 0)%Z -> 0 < t -> convertsR (Fmt W2 I2 false (fQ f) (fO f)) V q -> Rabs (V - t) <= eps * t -> eps <= 1 -> 0 <= V -> V + bpow2 (- (W2 - I2)) <= bpow2 I2 ->
  bpow2 (- (W2 - I2)) <= d * t -> eps + d <= eps' -> let A := fxval a (W - I) in let B := fxval b (W - I) in
  exists r i rho, rc_final W I W2 I2 f a b (Some q) = Some (r, i) /\ convertsR f (A * rho) r /\ convertsR f (- B * rho) i /\ Rabs (rho - t) <= eps' * t.
Proof.
  intros HW2 HfW Hz Pt C D He V0 U Q Ed A B. destruct (convR_midO W2 I2 (fQ f) (fO f) V q HW2 C V0 U) as [_ Near]. set (F := (W2 - I2)%Z) in *. apply Rabs_le_both in Near. apply Rabs_le_both in D.
  unfold rc_final. replace (negb (a =? 0) || negb (b =? 0))%bool with true by lia. fold F. exists (conv f (a * q) (W - I + F)), (conv f (- b * q) (W - I + F)), (fxval q F). split; [reflexivity|]. split; [|split].
  - pose proof (conv_R f (a * q) (W - I + F) HfW) as K. rewrite fxval_mul in K. exact K.
  - pose proof (conv_R f (- b * q) (W - I + F) HfW) as K. rewrite fxval_mul in K. replace (fxval (- b) (W - I)) with (- B) in K by (unfold B, fxval; rewrite opp_IZR; ring). exact K.
  - apply Rabs_le. assert ((eps + d) * t <= eps' * t) by (apply Rmult_le_compat_r; lra). lra.
Qed.

Lemma recip_ha_cplx_real pQ MW W I (S : bool) f a b : (1 <= W)%Z -> (1 <= fW f)%Z -> (1 <= MW)%Z -> in_range S W a -> in_range S W b -> (a * a + b * b < 2 ^ MW)%Z -> (a <> 0 \/ b <> 0)%Z ->
  let A := fxval a (W - I) in let B := fxval b (W - I) in
  exists r i rho, recip_ha_cplx pQ MW W I S f a b = Some (r, i) /\ convertsR f (A * rho) r /\ convertsR f (- B * rho) i /\ Rabs (rho - / (A * A + B * B)) <= 0.00016 * / (A * A + B * B).
Proof.
  intros HW HfW HMW Ha Hb HM Hz A B. destruct (rc_bounds W I S a b HW Ha Hb Hz) as (EN & PN & _ & Tlo & Thi). fold A B in EN, PN, Tlo, Thi. set (N := A * A + B * B) in *. assert (Pt : 0 < / N) by (apply Rinv_0_lt_compat; exact PN).
  unfold recip_ha_cplx. rewrite mag_sqr_val by exact HM. set (n := (a * a + b * b)%Z) in *. assert (Hn : (0 < n)%Z) by (unfold n; nia).
  set (W1 := if S then (2 * W - 1)%Z else (2 * W + 1)%Z). set (I1 := if S then (2 * I - 1)%Z else (2 * I + 1)%Z) in *. assert (EWI : (W1 - I1 = 2 * (W - I))%Z) by (unfold W1, I1; destruct S; lia). assert (HW1 : (1 <= W1)%Z) by (unfold W1; destruct S; lia).
  set (fb := Z.max 1 (Z.min 16 (W1 - 6 - b2z S))). assert (Hfb : (1 <= fb <= 16)%Z) by (unfold fb; lia). set (u := b2z (negb S)). assert (Hu : (0 <= u)%Z) by (unfold u; destruct S; cbn; lia). set (W2 := (W1 + fb + 16 + u)%Z). set (I2 := (W1 - I1 + 1)%Z). cbv zeta.
  destruct (rha_real pQ MW (MW - 2 * (W - I)) false (Fmt W2 I2 false (fQ f) (fO f)) n HMW ltac:(cbn [fW]; unfold W2; lia) ltac:(unfold in_range, imin, imax; lia) ltac:(lia)) as (q & V & E & C & D). rewrite E. cbn [fS andb] in D. replace (MW - (MW - 2 * (W - I)))%Z with (2 * (W - I))%Z in D by lia. rewrite <- EN in D. rewrite (Rabs_pos_eq N) in D by lra.
  assert (Q : bpow2 (- (W2 - I2)) <= / 65536 * / N). { apply Rle_trans with (bpow2 (- (16) + - I1)); [apply bpow2_le; unfold W2, I2; lia|]. rewrite bpow2_add, bpow2_opp, bpow2_IZR by lia. change (IZR (2 ^ 16)) with 65536. lra. }
  assert (PI2 : bpow2 I2 = 2 * bpow2 (2 * (W - I))) by (unfold I2; rewrite EWI; replace (2 * (W - I) + 1)%Z with (1 + 2 * (W - I))%Z by lia; rewrite bpow2_add, bpow2_1; reflexivity). pose proof D as D'. apply Rabs_le_both in D'.
  exact (rc_final_real W I W2 I2 f a b q V (/ N) 0.00014 (/ 65536) 0.00016 ltac:(unfold W2; lia) HfW Hz Pt C D ltac:(lra) ltac:(lra) ltac:(lra) Q ltac:(lra)).
Qed.

Lemma recip_vha_cplx_real pQ MW W I (S : bool) f a b : (1 <= W)%Z -> (1 <= fW f)%Z -> (1 <= MW)%Z -> in_range S W a -> in_range S W b -> (a * a + b * b < 2 ^ MW)%Z -> (a <> 0 \/ b <> 0)%Z ->
  let A := fxval a (W - I) in let B := fxval b (W - I) in
  exists r i rho, recip_vha_cplx pQ MW W I S f a b = Some (r, i) /\ convertsR f (A * rho) r /\ convertsR f (- B * rho) i /\ Rabs (rho - / (A * A + B * B)) <= 0.00005 * / (A * A + B * B).
Proof.
  intros HW HfW HMW Ha Hb HM Hz A B. destruct (rc_bounds W I S a b HW Ha Hb Hz) as (EN & PN & LN & Tlo & Thi). fold A B in EN, PN, LN, Tlo, Thi. set (N := A * A + B * B) in *. assert (Pt : 0 < / N) by (apply Rinv_0_lt_compat; exact PN).
  unfold recip_vha_cplx. rewrite mag_sqr_val by exact HM. set (n := (a * a + b * b)%Z) in *. assert (Hn : (0 < n)%Z) by (unfold n; nia).
  set (W1 := if S then (2 * W - 1)%Z else (2 * W + 1)%Z). set (I1 := if S then (2 * I - 1)%Z else (2 * I + 1)%Z) in *. assert (EWI : (W1 - I1 = 2 * (W - I))%Z) by (unfold W1, I1; destruct S; lia). assert (HW1 : (1 <= W1)%Z) by (unfold W1; destruct S; lia).
  set (fb := Z.max 1 (Z.min 16 (W1 - 7 - b2z S))). assert (Hfb : (1 <= fb <= 16)%Z) by (unfold fb; lia). set (W2 := (W1 + fb + 16)%Z). rewrite EWI. set (I2 := (2 * (W - I))%Z) in *. cbv zeta.
  destruct (rvha_real_size pQ MW (MW - I2) false (Fmt W2 I2 false (fQ f) (fO f)) true n HMW ltac:(cbn [fW]; unfold W2; lia) ltac:(unfold in_range, imin, imax; lia) ltac:(lia) ltac:(left; reflexivity)) as (q & V & E & C & D & Sz). rewrite E. cbn [fS andb] in D. replace (MW - (MW - I2))%Z with I2 in D, Sz by lia. rewrite <- EN in D, Sz. rewrite (Rabs_pos_eq N) in D, Sz by lra.
  assert (Q : bpow2 (- (W2 - I2)) <= / 131072 * / N). { apply Rle_trans with (bpow2 (- (17) + - I1)); [apply bpow2_le; unfold W2; lia|]. rewrite bpow2_add, bpow2_opp, bpow2_IZR by lia. change (IZR (2 ^ 17)) with 131072. lra. }
  assert (Q2 : bpow2 (- (W2 - I2)) <= / 131072 * bpow2 I2). { replace (/ 131072) with (bpow2 (- (17))) by (rewrite bpow2_opp, bpow2_IZR by lia; reflexivity). rewrite <- bpow2_add. apply bpow2_le. unfold W2. lia. }
  specialize (Sz _ LN). replace (- 33 - - I2)%Z with (I2 + - (33))%Z in Sz by lia. rewrite bpow2_add, (bpow2_opp 33), (bpow2_IZR 33) in Sz by lia. change (IZR (2 ^ 33)) with 8589934592 in Sz. apply Rabs_le_both in Sz. pose proof (bpow2_pos I2). pose proof D as D'. apply Rabs_le_both in D'.
  exact (rc_final_real W I W2 I2 f a b q V (/ N) 0.00004 (/ 131072) 0.00005 ltac:(unfold W2; lia) HfW Hz Pt C D ltac:(lra) ltac:(lra) ltac:(lra) Q ltac:(lra)).
Qed.

(** ** Reciprocals of floating-point numbers *)
Lemma rf_scale N v F e' eps X : N <> 0 -> Rabs (fxval v F - / N) <= eps * / Rabs N -> X = N * bpow2 e' -> Rabs (fltval F v (- e') - / X) <= eps * / Rabs X.
Proof.
  intros HN H EX. pose proof (bpow2_pos e') as Pe. pose proof (bpow2_pos (- e')) as Pm. assert (PA : 0 < Rabs N) by (apply Rabs_pos_lt; exact HN). assert (E1 : / X = / N * bpow2 (- e')) by (rewrite EX, bpow2_opp; field; split; [lra|exact HN]). assert (E2 : / Rabs X = / Rabs N * bpow2 (- e')) by (rewrite EX, Rabs_mult, (Rabs_pos_eq (bpow2 e')), bpow2_opp by lra; field; lra).
  rewrite E1, E2. unfold fltval. replace (fxval v F * bpow2 (- e') - / N * bpow2 (- e')) with ((fxval v F - / N) * bpow2 (- e')) by ring. rewrite Rabs_mult, (Rabs_pos_eq (bpow2 (- e'))) by lra. rewrite <- Rmult_assoc. apply Rmult_le_compat_r; [lra|exact H].
Qed.
Lemma rf_store W2 I2 oQ V o N eps d eps' : (1 <= W2)%Z -> N <> 0 -> convertsR (Fmt W2 I2 true oQ WRAP) V o -> Rabs (V - / N) <= eps * / Rabs N -> Rabs V + bpow2 (- (W2 - I2)) <= bpow2 (I2 - 1) -> bpow2 (- (W2 - I2)) <= d * / Rabs N -> eps + d <= eps' ->
  Rabs (fxval o (W2 - I2) - / N) <= eps' * / Rabs N.
Proof.
  intros HW HN C D U Q He. assert (PA : 0 < / Rabs N) by (apply Rinv_0_lt_compat, Rabs_pos_lt; exact HN). pose proof (bpow2_pos (- (W2 - I2))) as PU. assert (B : - bpow2 (I2 - 1) <= V <= bpow2 (I2 - 1) - bpow2 (- (W2 - I2))) by (assert (Rabs V <= bpow2 (I2 - 1) - bpow2 (- (W2 - I2))) as K by lra; apply Rabs_le_both in K; lra).
  destruct (convR_mid W2 I2 true oQ V o HW C ltac:(cbv iota; lra) ltac:(cbv iota; lra)) as [_ Near]. apply Rabs_le_both in Near, D. apply Rabs_le. assert ((eps + d) * / Rabs N <= eps' * / Rabs N) by (apply Rmult_le_compat_r; lra). lra.
Qed.
Lemma rf_hi W I n : (1 <= W)%Z -> in_range true W n -> (n <> 0)%Z -> let N := fxval n (W - I) in N <> 0 /\ bpow2 (- (W - I)) <= Rabs N /\ bpow2 (1 - I) <= / Rabs N.
Proof.
  intros HW Rn H0 N. set (A := Rabs N). assert (EA : A = IZR (Z.abs n) * bpow2 (- (W - I))). { unfold A, N, fxval. rewrite Rabs_mult, abs_IZR. f_equal. apply Rabs_pos_eq. apply Rlt_le, bpow2_pos. }
  pose proof (bpow2_pos (- (W - I))) as Pu. assert (L : bpow2 (- (W - I)) <= A). { rewrite EA. assert (1 <= IZR (Z.abs n)) by (apply (IZR_le 1); lia). nra. } assert (PA : 0 < A) by lra.
  split; [intros D; unfold A in PA; rewrite D, Rabs_R0 in PA; lra|]. split; [exact L|]. apply Rmult_le_reg_r with A; [exact PA|]. rewrite Rinv_l by lra. rewrite EA. assert (IZR (Z.abs n) <= bpow2 (W - 1)). { rewrite bpow2_IZR by lia. apply IZR_le. unfold in_range, imin, imax in Rn. lia. }
  apply Rle_trans with (bpow2 (1 - I) * (bpow2 (W - 1) * bpow2 (- (W - I)))); [apply Rmult_le_compat_l; [apply Rlt_le, bpow2_pos|]; apply Rmult_le_compat_r; [lra|assumption]|]. rewrite <- !bpow2_add. replace (1 - I + (W - 1 + - (W - I)))%Z with 0%Z by lia. rewrite bpow2_0. lra.
Qed.

Lemma recip_ha_flt_real pQ oQ W I m e : (1 <= W)%Z -> in_range true W m -> (m <> 0)%Z -> let X := fltval (W - I) m e in
  exists v n, recip_ha_flt pQ oQ W I m e = Some (v, n) /\ Rabs (fltval (recip_ha_fb W + 15 + I) v n - / X) <= 0.00015 * / Rabs X.
Proof.
  intros HW Hm H0 X. unfold recip_ha_flt. set (fb := recip_ha_fb W). assert (Hfb : (1 <= fb)%Z) by (unfold fb, recip_ha_fb; lia). destruct (rf_hi W I m HW Hm H0) as (HN & LN & TI). set (N := fxval m (W - I)) in *. set (W2 := (W + 16 + fb + 1)%Z). set (I2 := (W - I + 2)%Z).
  destruct (rha_real pQ W I true (Fmt W2 I2 true oQ WRAP) m HW ltac:(cbn [fW]; unfold W2; lia) Hm H0) as (o & V & E & C & D). rewrite E. exists o, (- e)%Z. split; [reflexivity|]. cbn [fS andb] in D. fold N in D.
  apply (rf_scale N); [exact HN| |reflexivity]. replace (fb + 15 + I)%Z with (W2 - I2)%Z by (unfold W2, I2; lia). assert (PA : 0 < Rabs N) by (apply Rabs_pos_lt; exact HN). set (t := / Rabs N) in *. assert (Pt : 0 < t) by (apply Rinv_0_lt_compat; exact PA).
  assert (Q : bpow2 (- (W2 - I2)) <= / 131072 * t). { apply Rle_trans with (bpow2 (- (17) + (1 - I))); [apply bpow2_le; unfold W2, I2; lia|]. rewrite bpow2_add, bpow2_opp, bpow2_IZR by lia. change (IZR (2 ^ 17)) with 131072. lra. }
  assert (Th : t <= bpow2 (W - I)). { apply Rmult_le_reg_r with (Rabs N); [exact PA|]. unfold t. rewrite Rinv_l by lra. apply Rle_trans with (bpow2 (W - I) * bpow2 (- (W - I))); [rewrite <- bpow2_add; replace (W - I + - (W - I))%Z with 0%Z by lia; rewrite bpow2_0; lra|apply Rmult_le_compat_l; [apply Rlt_le, bpow2_pos|exact LN]]. }
  assert (HV : Rabs V <= 1.00014 * t). { replace V with ((V - / N) + / N) by ring. eapply Rle_trans; [apply Rabs_triang|]. rewrite (Rabs_inv N). fold t. lra. }
  assert (EB : bpow2 (I2 - 1) = 2 * bpow2 (W - I)) by (unfold I2; replace (W - I + 2 - 1)%Z with (1 + (W - I))%Z by lia; rewrite bpow2_add, bpow2_1; reflexivity).
  apply (rf_store W2 I2 oQ V o N 0.00014 (/ 131072) 0.00015); [unfold W2; lia|exact HN|exact C|exact D|rewrite EB; lra|exact Q|lra].
Qed.

Lemma recip_vha_flt_real pQ oQ W I m e : (2 <= W)%Z -> in_range true W m -> (m <> 0)%Z -> let X := fltval (W - I) m e in
  exists v n, recip_vha_flt pQ oQ W I m e = Some (v, n) /\ Rabs (fltval (recip_vha_fb W + 15 + I) v n - / X) <= 0.00005 * / Rabs X.
Proof.
  intros HW Hm H0 X. unfold recip_vha_flt. destruct (flt_full_ok W m e HW Hm H0) as (n & e' & En & Rn & Bn & N0 & EX). rewrite En. specialize (EX (W - I)%Z). fold X in EX. set (fb := recip_vha_fb W). assert (Hfb : (1 <= fb)%Z) by (unfold fb, recip_vha_fb; lia).
  destruct (rf_hi W I n ltac:(lia) Rn N0) as (HN & _ & TI). set (N := fxval n (W - I)) in *. set (W2 := (fb + 16 + 2)%Z). set (I2 := (- I + 3)%Z).
  destruct (rvha_real_size pQ W I true (Fmt W2 I2 true oQ WRAP) false n ltac:(lia) ltac:(cbn [fW]; unfold W2; lia) Rn N0 ltac:(right; cbn [b2z]; split; [lia|replace (W - 1 - 1)%Z with (W - 2)%Z by lia; exact Bn])) as (o & V & E & C & D & Sz). rewrite E. exists o, (- e')%Z. split; [reflexivity|]. cbn [fS andb] in D. fold N in D, Sz.
  apply (rf_scale N); [exact HN| |rewrite <- EX; reflexivity]. replace (fb + 15 + I)%Z with (W2 - I2)%Z by (unfold W2, I2; lia). assert (PA : 0 < Rabs N) by (apply Rabs_pos_lt; exact HN). set (t := / Rabs N) in *. assert (Pt : 0 < t) by (apply Rinv_0_lt_compat; exact PA).
  assert (Q : bpow2 (- (W2 - I2)) <= / 131072 * t). { apply Rle_trans with (bpow2 (- (17) + (1 - I))); [apply bpow2_le; unfold W2, I2; lia|]. rewrite bpow2_add, bpow2_opp, bpow2_IZR by lia. change (IZR (2 ^ 17)) with 131072. lra. }
  assert (LN : bpow2 (I - 2) <= Rabs N). { unfold N, fxval. rewrite Rabs_mult, (Rabs_pos_eq (bpow2 _)), <- abs_IZR by (apply Rlt_le, bpow2_pos). apply Rle_trans with (bpow2 (W - 2) * bpow2 (- (W - I))); [rewrite <- bpow2_add; right; f_equal; lia|]. apply Rmult_le_compat_r; [apply Rlt_le, bpow2_pos|]. rewrite bpow2_IZR by lia. apply IZR_le. exact Bn. }
  specialize (Sz _ LN). replace (- 33 - (I - 2))%Z with ((2 - I) + - (33))%Z in Sz by lia. rewrite bpow2_add, (bpow2_opp 33), (bpow2_IZR 33) in Sz by lia. change (IZR (2 ^ 33)) with 8589934592 in Sz. assert (EB : (I2 - 1 = 2 - I)%Z) by (unfold I2; lia).
  assert (Q2 : bpow2 (- (W2 - I2)) <= / 131072 * bpow2 (2 - I)). { replace (/ 131072) with (bpow2 (- (17))) by (rewrite bpow2_opp, bpow2_IZR by lia; reflexivity). rewrite <- bpow2_add. apply bpow2_le. unfold W2, I2. lia. } pose proof (bpow2_pos (2 - I)).
  apply (rf_store W2 I2 oQ V o N 0.00004 (/ 131072) 0.00005); [unfold W2; lia|exact HN|exact C|exact D|rewrite EB; lra|exact Q|lra].
Qed.

(** ** Inverse square roots *)
Lemma isv_dims I : (isv_I I = (3 - I) / 2 /\ 27 <= isv_W I)%Z.
Proof.
  split; [|unfold isv_W; destruct (Z.rem I 2 =? 0)%Z; lia]. unfold isv_I. pose proof (Z.quot_rem I 2 ltac:(lia)). destruct (Z.eqb_spec (Z.rem I 2) 0) as [E|E]; destruct (Z.ltb_spec 0 I) as [L|L].
  - rewrite Z.quot_opp_l, Z.quot_div_nonneg by lia. lia.
  - rewrite Z.quot_div_nonneg by lia. lia.
  - rewrite Z.quot_opp_l, Z.quot_div_nonneg by lia. rewrite Z.rem_mod_nonneg in E by lia. lia.
  - rewrite Z.quot_div_nonneg by lia. assert (E2 : Z.rem (- I) 2 <> 0%Z) by (rewrite Z.rem_opp_l by lia; lia). rewrite Z.rem_mod_nonneg in E2 by lia. lia.
Qed.
Lemma isqrt_vha_flt_real pQ xQ oQ W I m e : (2 <= W)%Z -> (0 < m < 2 ^ (W - 1))%Z -> let X := fltval (W - I) m e in
  exists v n, isqrt_vha_flt pQ xQ oQ W I m e = Some (v, n) /\ Rabs (fltval (isv_W I - isv_I I) v n - / sqrt X) <= 0.00006 * / sqrt X.
Proof.
  intros HW Hm X. unfold isqrt_vha_flt. destruct (flt_full_ok W m e HW ltac:(unfold in_range, imin, imax; lia) ltac:(lia)) as (n & e' & En & Rn & Bn & N0 & EX). rewrite En. specialize (EX (W - I)%Z). fold X in EX. set (M := fxval n (W - I)).
  assert (Hn0 : (0 < n)%Z). { destruct (Z.lt_trichotomy n 0) as [G|[G|G]]; [exfalso|lia|exact G]. assert (P1 : 0 < X) by (unfold X, fltval, fxval; repeat apply Rmult_lt_0_compat; [apply (IZR_lt 0); lia|apply bpow2_pos|apply bpow2_pos]). rewrite <- EX in P1. unfold fltval, fxval in P1. apply (IZR_lt n 0) in G. pose proof (bpow2_pos (- (W - I))). pose proof (bpow2_pos e'). assert (0 < bpow2 (- (W - I)) * bpow2 e') by (apply Rmult_lt_0_compat; assumption). nra. }
  assert (Hn : (2 ^ (W - 2) <= n < 2 ^ (W - 1))%Z) by (unfold in_range, imin, imax in Rn; lia). clear Rn Bn N0. assert (Em : conv (Fmt (W - 1) (I - 1) false xQ WRAP) n (W - I) = n).
  { apply PwlFacts.conv_fits; cbn [fW fI fS fO]; [lia|unfold fF; cbn [fW fI]; lia|reflexivity|unfold in_range, imin, imax; lia]. }
  rewrite Em. pose proof (mant_rng W I n HW Hn) as RM. fold M in RM. destruct (isv_dims I) as [EI EW]. set (W2 := isv_W I) in *. rewrite EI. set (I2 := ((3 - I) / 2)%Z) in *. set (F := (W2 - I2)%Z). assert (HI2 : (2 - I <= 2 * I2 <= 3 - I)%Z) by (unfold I2; lia). clearbody I2 W2. cbv zeta.
  pose proof (bpow2_pos (I - 2)) as P0. assert (E1 : bpow2 (I - 1) = 2 * bpow2 (I - 2)) by (replace (I - 1)%Z with (1 + (I - 2))%Z by lia; rewrite bpow2_add, bpow2_1; reflexivity).
  destruct (isqv_real_size pQ (W - 1) (I - 1) WRAP (Fmt W2 I2 false pQ WRAP) false n ltac:(lia) ltac:(cbn [fW]; lia) eq_refl ltac:(assert (0 < 2 ^ (W - 2))%Z by (apply Z.pow_pos_nonneg; lia); lia) ltac:(right; replace (W - 1 - 1)%Z with (W - 2)%Z by lia; lia)) as (m2 & V & E & C & D & Sz).
  rewrite E. replace (W - 1 - (I - 1))%Z with (W - I)%Z in D, Sz by lia. fold M in D, Sz. specialize (Sz (- I2)%Z ltac:(apply Rle_trans with (bpow2 (I - 2)); [apply bpow2_le; lia|lra])). rewrite Z.opp_involutive in Sz.
  set (s := sqrt M) in *. assert (Ss : s * s = M) by (apply sqrt_sqrt; lra). assert (Ps : 0 < s) by (apply sqrt_lt_R0; lra). set (t := / s) in *. assert (Pt : 0 < t) by (apply Rinv_0_lt_compat; exact Ps). assert (Est : t * s = 1) by (apply Rinv_l; lra).
  assert (Ett : t * t * M = 1) by (rewrite <- Ss; replace (t * t * (s * s)) with ((t * s) * (t * s)) by ring; rewrite Est; ring). set (c := bpow2 (I - 2)) in *. assert (Tb : 1 <= 2 * (c * (t * t))). { assert (0 < t * t) by (apply Rmult_lt_0_compat; exact Pt). nra. }
  assert (Q : bpow2 (- F) <= / 33554432 * t).
  { assert (A : bpow2 (25 - F) <= t). { apply Rlt_le, lt_sqr; [lra|]. rewrite <- bpow2_add. assert (Hb : 4 * (bpow2 (25 - F + (25 - F)) * c) <= 1). { unfold c. rewrite <- bpow2_add. replace 4 with (bpow2 2) by (rewrite bpow2_IZR by lia; reflexivity). rewrite <- bpow2_add, <- bpow2_0. apply bpow2_le. unfold F. lia. } apply Rmult_lt_reg_l with c; [exact P0|]. lra. }
    replace (- F)%Z with ((25 - F) + - (25))%Z by lia. rewrite bpow2_add, (bpow2_opp 25), (bpow2_IZR 25) by lia. change (IZR (2 ^ 25)) with 33554432. lra. }
  pose proof (bpow2_pos (- F)) as PF. apply Rabs_le_both in D. pose proof (bpow2_pos I2) as PI2. set (B := bpow2 I2) in *. assert (QB : bpow2 (- F) <= / 131072 * B). { replace (/ 131072) with (bpow2 (- (17))) by (rewrite bpow2_opp, bpow2_IZR by lia; reflexivity). unfold B. rewrite <- bpow2_add. apply bpow2_le. unfold F. lia. }
  assert (HW2 : (1 <= W2)%Z) by lia. pose proof (convR_mid _ _ _ _ _ _ HW2 C) as K0. cbv iota in K0. fold F B in K0. destruct (K0 ltac:(lra) ltac:(lra)) as [R2 V2]. set (x2 := fxval m2 F) in *. apply Rabs_le_both in V2. pose proof (half_exp e') as He. set (k := Z.shiftr e' 1) in *.
  assert (EXs : sqrt X = s * (if (Z.rem e' 2 =? 0)%Z then 1 else sqrt 2) * bpow2 k) by (rewrite <- EX; apply sqrt_scale; [change (0 <= M); lra|exact He]). pose proof (bpow2_pos k) as Pk. pose proof sqrt2_b as S2.
  assert (Fin : forall v q, 0 < q -> Rabs (fxval v F - t * / q) <= 0.00006 * (t * / q) -> Rabs (fltval F v (- k) - / (s * q * bpow2 k)) <= 0.00006 * / (s * q * bpow2 k)).
  { intros v q Hq H. unfold fltval. rewrite !Rinv_mult. fold t. rewrite bpow2_opp. assert (Pi : 0 < / bpow2 k) by (apply Rinv_0_lt_compat; exact Pk). replace (fxval v F * / bpow2 k - t * / q * / bpow2 k) with ((fxval v F - t * / q) * / bpow2 k) by ring. rewrite Rabs_mult, (Rabs_pos_eq (/ bpow2 k)) by lra. rewrite <- Rmult_assoc. apply Rmult_le_compat_r; [lra|exact H]. }
  assert (Dbl : forall v, in_range true (W2 + 1) v -> conv (Fmt (W2 + 1) (I2 + 1) true pQ WRAP) v F = v). { intros v Hv. apply PwlFacts.conv_fits; cbn [fW fI fS fO]; [lia|unfold fF, F; cbn [fW fI]; lia|reflexivity|exact Hv]. }
  rewrite EXs. destruct (Z.rem e' 2 =? 0)%Z.
  - eexists _, (- k)%Z. split; [reflexivity|]. apply Fin; [lra|]. assert (Rw : in_range true (W2 + 1) m2) by (unfold in_range, imin, imax in *; replace (W2 + 1 - 1)%Z with W2 by lia; lia). assert (Ec : conv (Fmt (W2 + 1) (I2 + 1) true oQ WRAP) m2 F = m2) by (apply PwlFacts.conv_fits; cbn [fW fI fS fO]; [lia|unfold fF, F; cbn [fW fI]; lia|reflexivity|exact Rw]). rewrite Ec, Dbl by exact Rw. fold x2. rewrite Rinv_1, Rmult_1_r. apply Rabs_le. lra.
  - eexists _, (- k)%Z. split; [reflexivity|]. apply Fin; [lra|]. set (V3 := fxval (m2 * 370727) (F + 19)). assert (E3 : V3 = x2 * (370727 / 524288)). { unfold V3. rewrite fxval_mul. fold x2. f_equal. unfold fxval. rewrite bpow2_opp, bpow2_IZR by lia. change (IZR (2 ^ 19)) with 524288. lra. }
    pose proof (conv_R (Fmt (W2 + 1) (I2 + 1) true oQ WRAP) (m2 * 370727) (F + 19) ltac:(cbn [fW]; lia)) as C3. fold V3 in C3. assert (EF2 : (W2 + 1 - (I2 + 1) = F)%Z) by (unfold F; lia). assert (EI2 : (I2 + 1 - 1 = I2)%Z) by lia.
    assert (HIx : (1 <= W2 + 1)%Z) by lia. destruct (convR_mid _ _ _ _ _ _ HIx C3) as [R4 V4]; rewrite ?EF2, ?EI2 in *; [cbv iota; fold B; lra|cbv iota; fold B; lra|]. rewrite Dbl by exact R4. set (x4 := fxval _ F) in *. apply Rabs_le_both in V4. assert (Hi : 0.707106 * t <= t * / sqrt 2 <= 0.7071076 * t).
    { assert (0.707106 <= / sqrt 2 <= 0.7071076). { pose proof (Rinv_l (sqrt 2) ltac:(lra)) as Hs. assert (0 < / sqrt 2) by (apply Rinv_0_lt_compat; lra). split; nra. } split; nra. }
    clear - V4 E3 V2 Q D Hi Pt PF. apply Rabs_le. lra.
Qed.

Lemma isqv_part pQ MW W I a b : (1 <= W)%Z -> (1 <= MW)%Z -> in_range true W a -> in_range true W b -> (a * a + b * b < 2 ^ MW)%Z -> (a <> 0 \/ b <> 0)%Z ->
  let A := fxval a (W - I) in let B := fxval b (W - I) in let Z := sqrt (A * A + B * B) in let QW := (W + Z.max 1 (Z.min 16 (W - 6)) + 16 - 1)%Z in
  exists q, inverse_sqrt_pwl_vha pQ MW (MW - 2 * (W - I)) WRAP (Fmt QW (W - I) false pQ WRAP) true (mag_sqr MW a b) = Some q /\ in_range false QW q /\ Rabs (fxval q (QW - (W - I)) - / Z) <= 0.00007 * / Z.
Proof.
  intros HW HMW Ha Hb HM Hz A B Z QW. destruct (cplx_mag W I a b HW Ha Hb Hz) as (EZ & [Zlo Zhi] & HAZ & _). fold A B in EZ, Zlo, Zhi, HAZ. fold Z in EZ, Zlo, Zhi, HAZ. rewrite mag_sqr_val by exact HM. assert (HQ : (W + 16 <= QW)%Z) by (unfold QW; lia). clearbody QW. set (f := Fmt QW (W - I) false pQ WRAP). set (u := bpow2 (- (W - I))) in *. assert (Pu : 0 < u) by apply bpow2_pos.
  assert (PZ : 0 < Z) by lra. set (t := / Z). assert (Pt : 0 < t) by (apply Rinv_0_lt_compat; exact PZ). assert (Et : t * Z = 1) by (apply Rinv_l; lra). set (F := (QW - (W - I))%Z). assert (HF : (I + 16 <= F)%Z) by (unfold F; lia). assert (Ulp : bpow2 (- F) <= 0.00001526 * t * 0.7072).
  { assert (PI : 0 < bpow2 I) by apply bpow2_pos. apply Rmult_le_reg_r with (bpow2 I); [exact PI|]. rewrite <- bpow2_add. apply Rle_trans with (bpow2 (- (16))); [apply bpow2_le; lia|]. rewrite bpow2_opp, bpow2_IZR by lia. change (IZR (2 ^ 16)) with 65536. assert (1 <= 0.7072 * (t * bpow2 I)) by nra. lra. } pose proof (bpow2_pos (- F)) as PU.
  assert (Hn : (0 < a * a + b * b)%Z) by nia. destruct (isqv_real_size pQ MW (MW - 2 * (W - I)) WRAP f true (a * a + b * b) HMW ltac:(unfold f; cbn [fW]; lia) eq_refl ltac:(lia) ltac:(left; reflexivity)) as (q & V & E & C & D & Sz). replace (MW - (MW - 2 * (W - I)))%Z with (2 * (W - I))%Z in D, Sz by lia. rewrite sum_sq in D, Sz. fold A B in D, Sz. fold Z in D. fold t in D.
  specialize (Sz (- (W - I))%Z ltac:(apply Rle_trans with (Z * Z); [replace (2 * - (W - I))%Z with (- (W - I) + - (W - I))%Z by lia; rewrite bpow2_add; fold u; nra|lra])). rewrite Z.opp_involutive in Sz.
  assert (QB : bpow2 (- F) <= / 32768 * bpow2 (W - I)). { replace (/ 32768) with (bpow2 (- (15))) by (rewrite bpow2_opp, bpow2_IZR by lia; reflexivity). rewrite <- bpow2_add. apply bpow2_le. unfold F. lia. } pose proof (bpow2_pos (W - I)) as PB. apply Rabs_le_both in D.
  exists q. split; [exact E|]. destruct (convR_midO QW (W - I) pQ WRAP V q ltac:(lia) C ltac:(lra) ltac:(fold F; lra)) as [R N]. fold F in N. split; [exact R|]. apply Rabs_le_both in N. apply Rabs_le. lra.
Qed.
Lemma isqrt_vha_cplx_real pQ MW MC k W I f a b : (1 <= W)%Z -> (-50 <= W + I)%Z -> (0 <= k)%Z -> (1 <= MW)%Z -> (1 <= MC)%Z -> (1 <= fW f)%Z -> in_range true W a -> in_range true W b -> in_range true (W + k) (- b) -> (a * a + b * b < 2 ^ MW)%Z -> (a * a + b * b < 2 ^ MC)%Z -> (a <> 0 \/ b <> 0)%Z ->
  let A := fxval a (W - I) in let B := fxval b (W - I) in let Z := sqrt (A * A + B * B) in let F2 := ((W + 23) / 2 + 22)%Z in let s := if (b <? 0)%Z then 1 else -1 in
  exists r i X Y, isqrt_vha_cplx pQ MW MC k W I f a b = Some (r, i) /\ convertsR f X r /\ convertsR f Y i /\
    Rabs (X - sqrt ((Z + A) / 2) / Z) <= 0.0259 / sqrt Z + 2.002 * bpow2 (- F2) / Z /\ Rabs (Y - s * (sqrt ((Z - A) / 2) / Z)) <= 0.0259 / sqrt Z + 2.002 * bpow2 (- F2) / Z /\
    (0 <= A -> Rabs (X - sqrt ((Z + A) / 2) / Z) <= 0.0022 / sqrt Z + 2.002 * bpow2 (- F2) / Z) /\ (A <= 0 -> Rabs (Y - s * (sqrt ((Z - A) / 2) / Z)) <= 0.0022 / sqrt Z + 2.002 * bpow2 (- F2) / Z).
Proof.
  intros HW HWI Hk HMW HMC HfW Ha Hb Hnb HM HC Hz A B Z F2 s. destruct (isqv_part pQ MW W I a b HW HMW Ha Hb HM Hz) as (q & Eq & Rq & Nq). cbv zeta in Eq, Rq, Nq. fold A B in Nq. fold Z in Nq. unfold isqrt_vha_cplx. cbv zeta. set (QW := (W + Z.max 1 (Z.min 16 (W - 6)) + 16 - 1)%Z) in *.
  destruct (isq_final_real pQ MC k QW W I f a b q 0.00007 0.0001 0.0259 0.0022 ltac:(lra) ltac:(lra) ltac:(lra) ltac:(lra) ltac:(unfold QW; lia) Rq HW HWI Hk HMC HfW Ha Hb Hnb HC Hz Nq) as (x & y & r & i & X & Y & E1 & E2 & K).
  exists r, i, X, Y. split; [|exact K]. rewrite E1, Eq, E2. reflexivity.
Qed.
