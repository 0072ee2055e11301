(** The ac_float overloads of the piecewise-linear functions: accuracy of what is handed to the ac_float constructor. *)
From Coq Require Import Reals Lia Lra Psatz ZifyBool.
From Verif Require Import AcTypes AcFacts Spec SpecFacts SpecR SpecRFacts SoftFacts QrdThm MatrixProofs ShiftFacts ShiftModel ShiftProofs LeadingModel LeadingProofs Atan2Proofs PwlModel PwlReal PwlExpReal ActReal DetProofs HcPow HcLog HcFloatModel HcFloat PwlFloatModel.
Local Open Scope R_scope.

Lemma half_exp e : (e = 2 * Z.shiftr e 1 + (if Z.rem e 2 =? 0 then 0 else 1))%Z.
Proof.
  rewrite Z.shiftr_div_pow2 by lia. change (2 ^ 1)%Z with 2%Z. pose proof (Z.div_mod e 2 ltac:(lia)). pose proof (Z.mod_pos_bound e 2 ltac:(lia)). destruct (Z.eqb_spec (Z.rem e 2) 0) as [G|G].
  - apply Z.rem_divide in G; [|lia]. apply Z.mod_divide in G; [|lia]. lia.
  - assert (e mod 2 <> 0)%Z; [|lia]. intros H1. apply G. apply Z.rem_divide; [lia|]. apply Z.mod_divide; [lia|exact H1].
Qed.
Lemma quot_even x : (Z.rem x 2 = 0 -> x = 2 * Z.quot x 2)%Z.
Proof. intros H. pose proof (Z.quot_rem' x 2). lia. Qed.
Lemma rt_F_div x : rt_sqrt_F x = (x / 2)%Z.
Proof.
  unfold rt_sqrt_F. pose proof (half_exp x) as H. rewrite Z.shiftr_div_pow2 in H by lia. change (2 ^ 1)%Z with 2%Z in H. destruct (Z.eqb_spec (Z.rem x 2) 0) as [G|G].
  - apply quot_even in G. lia.
  - replace (x - 1)%Z with ((x / 2) * 2)%Z by lia. apply Z.quot_mul. lia.
Qed.
Lemma rt_isqrt_F_div x : rt_isqrt_F x = (x / 2)%Z.
Proof. exact (rt_F_div x). Qed.
Lemma rt_sqrt_I_div x : rt_sqrt_I x = ((x + 2) / 2)%Z.
Proof.
  unfold rt_sqrt_I. replace (x + 2)%Z with (x + 1 * 2)%Z by lia. rewrite Z.div_add by lia. pose proof (half_exp x) as H. rewrite Z.shiftr_div_pow2 in H by lia. change (2 ^ 1)%Z with 2%Z in H. destruct (Z.eqb_spec (Z.rem x 2) 0) as [G|G].
  - apply quot_even in G. lia.
  - replace (x + 1)%Z with ((x / 2 + 1) * 2)%Z by lia. rewrite Z.quot_mul by lia. lia.
Qed.
Lemma rt_isqrt_I_div x : rt_isqrt_I x = ((x + 1) / 2)%Z.
Proof.
  unfold rt_isqrt_I. pose proof (half_exp x) as H. rewrite Z.shiftr_div_pow2 in H by lia. change (2 ^ 1)%Z with 2%Z in H. destruct (Z.eqb_spec (Z.rem x 2) 0) as [G|G].
  - apply quot_even in G. replace (x + 1)%Z with (1 + (x / 2) * 2)%Z by lia. rewrite Z.div_add by lia. change (1 / 2)%Z with 0%Z. lia.
  - replace (x + 1)%Z with ((x / 2 + 1) * 2)%Z by lia. rewrite Z.quot_mul, Z.div_mul by lia. lia.
Qed.
Lemma le_sqrt a M : 0 <= a -> a * a <= M -> a <= sqrt M.
Proof. intros Ha H. rewrite <- (sqrt_Rsqr a Ha). apply sqrt_le_1_alt. exact H. Qed.
Lemma lt_sqr a b : 0 <= b -> a * a < b * b -> a < b.
Proof. intros Hb H. destruct (Rlt_le_dec a b) as [G|G]; [exact G|]. assert (b * b <= a * a) by (apply Rmult_le_compat; lra). lra. Qed.
Lemma sqrt2_b : 1.414213 <= sqrt 2 <= 1.414214.
Proof. split; [apply le_sqrt; lra|]. apply Rlt_le, lt_sqr; [lra|]. rewrite sqrt_sqrt by lra. lra. Qed.
Lemma sqrt_scale M k e : 0 <= M -> (e = 2 * k + (if Z.rem e 2 =? 0 then 0 else 1))%Z -> sqrt (M * bpow2 e) = sqrt M * (if (Z.rem e 2 =? 0)%Z then 1 else sqrt 2) * bpow2 k.
Proof.
  intros HM E. rewrite sqrt_mult_alt by exact HM. rewrite Rmult_assoc. f_equal. pose proof (bpow2_pos k) as P. destruct (Z.rem e 2 =? 0)%Z.
  - rewrite E, Z.add_0_r, Rmult_1_l. replace (2 * k)%Z with (k + k)%Z by lia. rewrite bpow2_add. apply sqrt_square. lra.
  - rewrite E. replace (2 * k + 1)%Z with (1 + (k + k))%Z by lia. rewrite !bpow2_add, bpow2_1, sqrt_mult_alt by lra. f_equal. apply sqrt_square. lra.
Qed.
Lemma mant_id W I m : (2 <= W)%Z -> (0 <= m < 2 ^ (W - 1))%Z -> conv (dfmt (W - 1) (I - 1) false) m (W - I) = m.
Proof. intros HW Hm. rewrite conv_dfmt_same by lia. cbn [wrap]. apply wrapu_id. exact Hm. Qed.
Lemma mant_rng W I m : (2 <= W)%Z -> (2 ^ (W - 2) <= m < 2 ^ (W - 1))%Z -> bpow2 (I - 2) <= fxval m (W - I) < bpow2 (I - 1).
Proof.
  intros HW Hm. assert (P : forall k, (0 <= k)%Z -> fxval (2 ^ k) (W - I) = bpow2 (k - W + I)). { intros k Hk. unfold fxval. rewrite <- bpow2_IZR, <- bpow2_add by lia. f_equal. lia. }
  replace (bpow2 (I - 2)) with (fxval (2 ^ (W - 2)) (W - I)) by (rewrite P by lia; f_equal; lia). replace (bpow2 (I - 1)) with (fxval (2 ^ (W - 1)) (W - I)) by (rewrite P by lia; f_equal; lia). split; [apply fxval_le|apply fxval_lt]; lia.
Qed.

(** ** Square root *)
Lemma sqrt_flt_real pQ W I m e : (2 <= W)%Z -> (2 ^ (W - 2) <= m < 2 ^ (W - 1))%Z -> let X := fltval (W - I) m e in
  exists v n, sqrt_flt pQ W I m e = Some (v, n) /\ Rabs (fltval ((W - I) / 2 + 22) v n - sqrt X) <= 0.0013 * sqrt X.
Proof.
  intros HW Hm X. unfold sqrt_flt. rewrite mant_id by lia. unfold rt_sqrt_W. rewrite rt_sqrt_I_div, rt_F_div. set (F := ((W - I) / 2 + 22)%Z). set (I1 := ((I - 1 + 2) / 2)%Z). pose proof (mant_rng W I m HW Hm) as RM. set (M := fxval m (W - I)) in *.
  replace (I1 + (W - I) / 2 + 22)%Z with (I1 + F)%Z by (unfold F; lia). replace (I1 + F - I1)%Z with F by lia.
  pose proof (bpow2_pos (I - 2)) as P0. assert (E1 : bpow2 (I - 1) = 2 * bpow2 (I - 2)) by (replace (I - 1)%Z with (1 + (I - 2))%Z by lia; rewrite bpow2_add, bpow2_1; reflexivity).
  assert (HF : (W - I + 43 <= 2 * F)%Z) by (pose proof (Z.div_mod (W - I) 2 ltac:(lia)); pose proof (Z.mod_pos_bound (W - I) 2 ltac:(lia)); unfold F; lia). assert (HI1 : (I <= 2 * I1)%Z) by (pose proof (Z.div_mod (I - 1 + 2) 2 ltac:(lia)); pose proof (Z.mod_pos_bound (I - 1 + 2) 2 ltac:(lia)); unfold I1; lia).
  assert (HIF : (1 <= I1 + F)%Z) by lia. destruct (sqrt_real pQ (W - 1) (I - 1) WRAP (dfmt (I1 + F) I1 false) false m ltac:(lia) ltac:(cbn [dfmt fW]; lia) eq_refl ltac:(assert (0 < 2 ^ (W - 2))%Z by (apply Z.pow_pos_nonneg; lia); lia) ltac:(right; replace (W - 1 - 1)%Z with (W - 2)%Z by lia; lia)) as (m2 & V & E & C & D).
  rewrite E. replace (W - 1 - (I - 1))%Z with (W - I)%Z in D by lia. fold M in D. set (s := sqrt M) in *. assert (Ss : s * s = M) by (apply sqrt_sqrt; lra). assert (Ps : 0 < s) by (apply sqrt_lt_R0; lra).
  assert (Q : bpow2 (- F) <= / 65536 * s). { assert (A : bpow2 (16 - F) <= s). { apply le_sqrt; [apply Rlt_le, bpow2_pos|]. rewrite <- bpow2_add. apply Rle_trans with (bpow2 (I - 2)); [apply bpow2_le; lia|lra]. } replace (- F)%Z with ((16 - F) + - (16))%Z by lia. rewrite bpow2_add, (bpow2_opp 16), (bpow2_IZR 16) by lia. change (IZR (2 ^ 16)) with 65536. lra. }
  pose proof (bpow2_pos (- F)) as PF. apply Rabs_le_both in D. assert (B2 : bpow2 I <= bpow2 I1 * bpow2 I1) by (rewrite <- bpow2_add; apply bpow2_le; lia). replace (bpow2 I) with (4 * bpow2 (I - 2)) in B2 by (replace I with (2 + (I - 2))%Z at 2 by lia; rewrite bpow2_add, (bpow2_IZR 2) by lia; reflexivity). pose proof (bpow2_pos I1) as PI1. set (B := bpow2 I1) in *.
  assert (SB : 1.4 * s <= B). { apply Rlt_le, lt_sqr; [lra|]. replace (1.4 * s * (1.4 * s)) with (1.96 * (s * s)) by lra. rewrite Ss. lra. }
  destruct (convR_dfmt _ _ _ _ _ HIF C) as [R2 V2]; [cbv iota; fold B; lra|]. replace (I1 + F - I1)%Z with F in V2 by lia. set (x2 := fxval m2 F) in *. pose proof (half_exp e) as He. set (k := Z.shiftr e 1) in *. assert (EX : sqrt X = s * (if (Z.rem e 2 =? 0)%Z then 1 else sqrt 2) * bpow2 k) by (apply sqrt_scale; [change (0 <= M); lra|exact He]). pose proof (bpow2_pos k) as Pk. pose proof sqrt2_b as S2.
  set (xx := (if (Z.rem I 2 =? 0)%Z then 1 else 0)%Z). assert (Hxx : (0 <= xx)%Z) by (unfold xx; destruct (Z.rem I 2 =? 0)%Z; lia).
  assert (Fin : forall v t, Rabs (fxval v F - s * t) <= 0.0013 * (s * t) -> Rabs (fltval F v k - s * t * bpow2 k) <= 0.0013 * (s * t * bpow2 k)).
  { intros v t H. unfold fltval. replace (fxval v F * bpow2 k - s * t * bpow2 k) with ((fxval v F - s * t) * bpow2 k) by ring. rewrite Rabs_mult, (Rabs_pos_eq (bpow2 k)) by lra. rewrite <- Rmult_assoc. apply Rmult_le_compat_r; [lra|exact H]. }
  rewrite EX. destruct (Z.rem e 2 =? 0)%Z.
  - eexists _, k. split; [reflexivity|]. apply Fin. assert (Ec : conv (dfmt (I1 + F + xx) (I1 + xx) false) m2 F = m2). { rewrite conv_dfmt_same by lia. cbn [wrap]. apply wrapu_id. unfold in_range, imin, imax in R2. assert (2 ^ (I1 + F) <= 2 ^ (I1 + F + xx))%Z by (apply Z.pow_le_mono_r; lia). lia. } rewrite Ec. fold x2. apply Rabs_le. lra.
  - eexists _, k. split; [reflexivity|]. apply Fin. set (V3 := fxval (m2 * 46341) (F + 15)). assert (E3 : V3 = x2 * (46341 / 32768)). { unfold V3. rewrite fxval_mul. fold x2. f_equal. unfold fxval. rewrite bpow2_opp, bpow2_IZR by lia. change (IZR (2 ^ 15)) with 32768. lra. }
    pose proof (conv_R (dfmt (I1 + F + xx) (I1 + xx) false) (m2 * 46341) (F + 15) ltac:(cbn [dfmt fW]; lia)) as C3. fold V3 in C3. assert (G3 : V3 < bpow2 (I1 + xx)).
    { unfold xx. destruct (Z.eqb_spec (Z.rem I 2) 0) as [G|G].
      - rewrite bpow2_add, bpow2_1. fold B. lra.
      - rewrite Z.add_0_r. fold B. assert (HI2 : (I + 1 <= 2 * I1)%Z). { pose proof (half_exp I) as HI'. destruct (Z.eqb_spec (Z.rem I 2) 0) as [|_]; [lia|]. unfold I1. replace (I - 1 + 2)%Z with (I + 1)%Z by lia. pose proof (Z.div_mod (I + 1) 2 ltac:(lia)). pose proof (Z.mod_pos_bound (I + 1) 2 ltac:(lia)). lia. }
        assert (B3 : 8 * bpow2 (I - 2) <= B * B). { unfold B. rewrite <- bpow2_add. replace (8 * bpow2 (I - 2)) with (bpow2 (I + 1)) by (replace (I + 1)%Z with (3 + (I - 2))%Z by lia; rewrite bpow2_add, (bpow2_IZR 3) by lia; reflexivity). apply bpow2_le. lia. } assert (1.9 * s < B). { apply lt_sqr; [lra|]. replace (1.9 * s * (1.9 * s)) with (3.61 * (s * s)) by lra. rewrite Ss. lra. } lra. }
    assert (HIx : (1 <= I1 + F + xx)%Z) by lia. destruct (convR_dfmt _ _ _ _ _ HIx C3) as [_ V4]; [cbv iota; split; [lra|exact G3]|]. replace (I1 + F + xx - (I1 + xx))%Z with F in V4 by lia. set (x4 := fxval _ F) in *. clear - V4 E3 V2 Q D S2 Ps PF. assert (1.414213 * s <= s * sqrt 2 <= 1.414214 * s) by (split; nra). apply Rabs_le. lra.
Qed.

(** ** Inverse square root *)
Lemma convR_mid W I (S : bool) q V m : (1 <= W)%Z -> convertsR (Fmt W I S q WRAP) V m -> - (if S then bpow2 (I - 1) else 0) <= V -> V + bpow2 (- (W - I)) <= (if S then bpow2 (I - 1) else bpow2 I) ->
  in_range S W m /\ Rabs (fxval m (W - I) - V) <= bpow2 (- (W - I)).
Proof.
  intros HW C B1 B2. pose proof (bpow2_pos (- (W - I))) as P. destruct (fits_R S W I V HW ltac:(lra)) as [F1 _].
  destruct (convR_near (Fmt W I S q WRAP) V m HW ltac:(discriminate) C) as [A B]; [|exact (conj A B)]. unfold fF. cbn [fW fI fS]. split; [exact F1|].
  assert (E : bpow2 (- (W - I)) * bpow2 (W - I) = 1) by (rewrite <- bpow2_add; replace (- (W - I) + (W - I))%Z with 0%Z by lia; apply bpow2_0). pose proof (bpow2_pos (W - I)) as P2. apply (Rmult_le_compat_r (bpow2 (W - I))) in B2; [|lra]. rewrite Rmult_plus_distr_r, E in B2.
  assert (E2 : (if S then bpow2 (I - 1) else bpow2 I) * bpow2 (W - I) = IZR (imax S W) + 1). { unfold imax. destruct S; rewrite <- bpow2_add, minus_IZR, <- bpow2_IZR by lia; [replace (I - 1 + (W - I))%Z with (W - 1)%Z by lia|replace (I + (W - I))%Z with W by lia]; lra. }
  rewrite E2 in B2. lra.
Qed.
Lemma isqrt_flt_real pQ oQ W I m e : (3 <= W)%Z -> (2 ^ (W - 2) <= m < 2 ^ (W - 1))%Z -> let X := fltval (W - I) m e in
  exists v n, isqrt_flt pQ oQ W I m e = Some (v, n) /\ Rabs (fltval ((I - 1) / 2 + 24) v n - / sqrt X) <= 0.0009 * / sqrt X.
Proof.
  intros HW Hm X. unfold isqrt_flt. rewrite mant_id by lia. unfold rt_isqrt_W. rewrite rt_isqrt_I_div, rt_isqrt_F_div. set (F := ((I - 1) / 2 + 24)%Z). set (I2 := ((W - I + 1) / 2)%Z). pose proof (mant_rng W I m ltac:(lia) Hm) as RM. set (M := fxval m (W - I)) in *.
  replace (I2 + (I - 1) / 2 + 24)%Z with (I2 + F)%Z by (unfold F; lia). replace (I2 + F - I2)%Z with F by lia.
  pose proof (bpow2_pos (I - 2)) as P0. assert (E1 : bpow2 (I - 1) = 2 * bpow2 (I - 2)) by (replace (I - 1)%Z with (1 + (I - 2))%Z by lia; rewrite bpow2_add, bpow2_1; reflexivity).
  assert (HF : (I + 46 <= 2 * F)%Z) by (pose proof (Z.div_mod (I - 1) 2 ltac:(lia)); pose proof (Z.mod_pos_bound (I - 1) 2 ltac:(lia)); unfold F; lia). assert (HI2 : (W - I <= 2 * I2)%Z) by (pose proof (Z.div_mod (W - I + 1) 2 ltac:(lia)); pose proof (Z.mod_pos_bound (W - I + 1) 2 ltac:(lia)); unfold I2; lia).
  assert (HIF : (1 <= I2 + F)%Z) by lia. destruct (isqrt_real pQ (W - 1) (I - 1) WRAP (Fmt (I2 + F) I2 false pQ WRAP) false m ltac:(lia) ltac:(cbn [fW]; lia) eq_refl ltac:(assert (0 < 2 ^ (W - 2))%Z by (apply Z.pow_pos_nonneg; lia); lia) ltac:(right; replace (W - 1 - 1)%Z with (W - 2)%Z by lia; lia)) as (m2 & V & E & C & D).
  rewrite E. replace (W - 1 - (I - 1))%Z with (W - I)%Z in D by lia. fold M in D. set (s := sqrt M) in *. assert (Ss : s * s = M) by (apply sqrt_sqrt; lra). assert (Ps : 0 < s) by (apply sqrt_lt_R0; lra). set (t := / s) in *. assert (Pt : 0 < t) by (apply Rinv_0_lt_compat; exact Ps). assert (Est : t * s = 1) by (apply Rinv_l; lra).
  assert (Ett : t * t * M = 1) by (rewrite <- Ss; replace (t * t * (s * s)) with ((t * s) * (t * s)) by ring; rewrite Est; ring).
  set (c := bpow2 (I - 2)) in *. assert (Tb : 1 <= 2 * (c * (t * t)) /\ c * (t * t) <= 1). { assert (0 < t * t) by (apply Rmult_lt_0_compat; exact Pt). nra. }
  assert (Q : bpow2 (- F) <= / 65536 * t).
  { assert (A : bpow2 (16 - F) <= t). { apply Rlt_le, lt_sqr; [lra|]. rewrite <- bpow2_add. assert (Hb : 4 * (bpow2 (16 - F + (16 - F)) * c) <= 1). { unfold c. rewrite <- bpow2_add. replace 4 with (bpow2 2) by (rewrite bpow2_IZR by lia; reflexivity). rewrite <- bpow2_add, <- bpow2_0. apply bpow2_le. lia. } apply Rmult_lt_reg_l with c; [exact P0|]. lra. }
    replace (- F)%Z with ((16 - F) + - (16))%Z by lia. rewrite bpow2_add, (bpow2_opp 16), (bpow2_IZR 16) by lia. change (IZR (2 ^ 16)) with 65536. lra. }
  pose proof (bpow2_pos (- F)) as PF. apply Rabs_le_both in D. pose proof (bpow2_pos I2) as PI2. assert (B2 : 2 <= bpow2 I2 * bpow2 I2 * c). { unfold c. rewrite <- !bpow2_add. rewrite <- bpow2_1. apply bpow2_le. lia. } set (B := bpow2 I2) in *.
  assert (SB : 1.4 * t <= B). { apply Rlt_le, lt_sqr; [lra|]. apply Rmult_lt_reg_l with c; [exact P0|]. replace (c * (1.4 * t * (1.4 * t))) with (1.96 * (c * (t * t))) by lra. lra. }
  assert (EF : (I2 + F - I2 = F)%Z) by lia. destruct (convR_mid _ _ _ _ _ _ HIF C) as [R2 V2]; rewrite ?EF in *; [cbv iota; lra|cbv iota; fold B; lra|]. set (x2 := fxval m2 F) in *. apply Rabs_le_both in V2. pose proof (half_exp e) as He. set (k := Z.shiftr e 1) in *. assert (EX : sqrt X = s * (if (Z.rem e 2 =? 0)%Z then 1 else sqrt 2) * bpow2 k) by (apply sqrt_scale; [change (0 <= M); lra|exact He]). pose proof (bpow2_pos k) as Pk. pose proof sqrt2_b as S2.
  assert (Fin : forall v q, 0 < q -> Rabs (fxval v F - t * / q) <= 0.0009 * (t * / q) -> Rabs (fltval F v (- k) - / (s * q * bpow2 k)) <= 0.0009 * / (s * q * bpow2 k)).
  { intros v q Hq H. unfold fltval. rewrite !Rinv_mult. fold t. rewrite bpow2_opp. assert (Pi : 0 < / bpow2 k) by (apply Rinv_0_lt_compat; exact Pk). replace (fxval v F * / bpow2 k - t * / q * / bpow2 k) with ((fxval v F - t * / q) * / bpow2 k) by ring. rewrite Rabs_mult, (Rabs_pos_eq (/ bpow2 k)) by lra. rewrite <- Rmult_assoc. apply Rmult_le_compat_r; [lra|exact H]. }
  assert (Dbl : forall v, in_range true (I2 + F + 1) v -> conv (Fmt (I2 + F + 1) (I2 + 1) true pQ WRAP) v F = v). { intros v Hv. apply conv_exact; cbn [fW fI fS fO]; [lia|discriminate|unfold fF; cbn [fW fI]; f_equal; lia|exact Hv]. }
  rewrite EX. destruct (Z.rem e 2 =? 0)%Z.
  - eexists _, (- k)%Z. split; [reflexivity|]. apply Fin; [lra|]. assert (Rw : in_range true (I2 + F + 1) m2) by (unfold in_range, imin, imax in *; replace (I2 + F + 1 - 1)%Z with (I2 + F)%Z by lia; lia). assert (Ec : conv (Fmt (I2 + F + 1) (I2 + 1) true oQ WRAP) m2 F = m2) by (apply conv_exact; cbn [fW fI fS fO]; [lia|discriminate|unfold fF; cbn [fW fI]; f_equal; lia|exact Rw]). rewrite Ec, Dbl by exact Rw. fold x2. rewrite Rinv_1, Rmult_1_r. apply Rabs_le. lra.
  - eexists _, (- k)%Z. split; [reflexivity|]. apply Fin; [lra|]. set (V3 := fxval (m2 * 2896) (F + 12)). assert (E3 : V3 = x2 * (2896 / 4096)). { unfold V3. rewrite fxval_mul. fold x2. f_equal. unfold fxval. rewrite bpow2_opp, bpow2_IZR by lia. change (IZR (2 ^ 12)) with 4096. lra. }
    pose proof (conv_R (Fmt (I2 + F + 1) (I2 + 1) true oQ WRAP) (m2 * 2896) (F + 12) ltac:(cbn [fW]; lia)) as C3. fold V3 in C3. assert (EF2 : (I2 + F + 1 - (I2 + 1) = F)%Z) by lia. assert (EI : (I2 + 1 - 1 = I2)%Z) by lia.
    assert (HIx : (1 <= I2 + F + 1)%Z) by lia. destruct (convR_mid _ _ _ _ _ _ HIx C3) as [R4 V4]; rewrite ?EF2, ?EI in *; [cbv iota; fold B; lra|cbv iota; fold B; lra|]. rewrite Dbl by exact R4. set (x4 := fxval _ F) in *. apply Rabs_le_both in V4. assert (Hi : 0.707106 * t <= t * / sqrt 2 <= 0.7071076 * t).
    { assert (0.707106 <= / sqrt 2 <= 0.7071076). { pose proof (Rinv_l (sqrt 2) ltac:(lra)) as Hs. assert (0 < / sqrt 2) by (apply Rinv_0_lt_compat; lra). split; nra. } split; nra. }
    clear - V4 E3 V2 Q D Hi Pt PF. apply Rabs_le. lra.
Qed.
