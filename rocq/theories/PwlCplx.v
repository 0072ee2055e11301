(** The ac_complex overloads of the piecewise-linear reciprocal, square root and inverse square root: accuracy. *)
From Coq Require Import Reals Lia Lra Psatz ZifyBool.
From Verif Require Import AcTypes AcFacts Spec SpecFacts SpecR SpecRFacts SoftFacts QrdThm MatrixProofs ShiftFacts LeadingModel LeadingProofs PwlModel PwlFacts PwlSqrt PwlReal DetProofs HcFloat PwlFloatModel PwlFloat PwlCplxModel.
Local Open Scope R_scope.

Lemma convR_midO W I q o V m : (1 <= W)%Z -> convertsR (Fmt W I false q o) V m -> 0 <= V -> V + bpow2 (- (W - I)) <= bpow2 I ->
  in_range false W m /\ Rabs (fxval m (W - I) - V) <= bpow2 (- (W - I)).
Proof.
  intros HW (z & Hr & Hl) B1 B2. cbn [fQ fO fS fW] in *. apply (convR_mid W I false q V m HW); [|rewrite Ropp_0; exact B1|exact B2].
  exists z. split; [exact Hr|]. cbn [fO fS fW]. apply is_limited_unique in Hl; [|exact HW]. unfold fF in Hr. cbn [fW fI] in Hr. pose proof (bpow2_pos (W - I)) as P.
  assert (L : (0 <= z)%Z) by (apply (round_ge _ _ _ 0 Hr); apply Rmult_le_pos; lra).
  assert (U : (z <= 2 ^ W - 1)%Z). { apply (round_le _ _ _ _ Hr). rewrite minus_IZR, <- bpow2_IZR by lia. apply (Rmult_le_compat_r (bpow2 (W - I))) in B2; [|lra]. rewrite Rmult_plus_distr_r, <- !bpow2_add in B2. replace (- (W - I) + (W - I))%Z with 0%Z in B2 by lia. replace (I + (W - I))%Z with W in B2 by lia. rewrite bpow2_0 in B2. lra. }
  rewrite AcFacts.overflow_id in Hl; [|exact HW|unfold in_range, imin, imax; lia|discriminate]. subst m. pose proof (overflow_is_limited WRAP false W z HW) as OL. rewrite AcFacts.overflow_id in OL; [exact OL|exact HW|unfold in_range, imin, imax; lia|discriminate].
Qed.

(** The sum of the squares. *)
Lemma mag_sqr_val MW a b : (a * a + b * b < 2 ^ MW)%Z -> mag_sqr MW a b = (a * a + b * b)%Z.
Proof. intros H. unfold mag_sqr. apply wrapu_id. pose proof (Z.square_nonneg a). pose proof (Z.square_nonneg b). lia. Qed.
Lemma sum_sq a b F : fxval (a * a + b * b) (2 * F) = fxval a F * fxval a F + fxval b F * fxval b F.
Proof. replace (2 * F)%Z with (F + F)%Z by lia. rewrite <- !fxval_mul. unfold fxval. rewrite plus_IZR. ring. Qed.

Lemma recip_cplx_real pQ MW W I (S : bool) f a b : (1 <= W)%Z -> (1 <= fW f)%Z -> (1 <= MW)%Z -> in_range S W a -> in_range S W b -> (a * a + b * b < 2 ^ MW)%Z -> (a <> 0 \/ b <> 0)%Z ->
  let A := fxval a (W - I) in let B := fxval b (W - I) in
  exists r i rho, recip_cplx pQ MW W I S f a b = Some (r, i) /\ convertsR f (A * rho) r /\ convertsR f (- B * rho) i /\ Rabs (rho - / (A * A + B * B)) <= 0.003 * / (A * A + B * B).
Proof.
  intros HW HfW HMW Ha Hb HM Hz A B. unfold recip_cplx. rewrite mag_sqr_val by exact HM. set (n := (a * a + b * b)%Z) in *. assert (Hn : (0 < n)%Z) by (unfold n; nia).
  set (W1 := if S then (2 * W - 1)%Z else (2 * W + 1)%Z). set (I1 := if S then (2 * I - 1)%Z else (2 * I + 1)%Z). assert (EWI : (W1 - I1 = 2 * (W - I))%Z) by (unfold W1, I1; destruct S; lia). assert (HW1 : (1 <= W1)%Z) by (unfold W1; destruct S; lia). assert (HNW : (n <= 2 ^ W1)%Z).
  { unfold W1, n. unfold in_range, imin, imax in Ha, Hb. destruct S; cbv iota in Ha, Hb.
    - replace (2 * W - 1)%Z with (1 + ((W - 1) + (W - 1)))%Z by lia. rewrite !Z.pow_add_r by lia. set (p := (2 ^ (W - 1))%Z) in *. change (2 ^ 1)%Z with 2%Z. nia.
    - replace (2 * W + 1)%Z with (1 + (W + W))%Z by lia. rewrite !Z.pow_add_r by lia. set (p := (2 ^ W)%Z) in *. change (2 ^ 1)%Z with 2%Z. nia. }
  set (fb := Z.max 1 (Z.min 10 (W1 - 4 - b2z S))). assert (Hfb : (1 <= fb <= 10)%Z) by (unfold fb; lia). set (u := b2z (negb S)). assert (Hu : (0 <= u)%Z) by (unfold u; destruct S; cbn; lia).
  set (W2 := (W1 + fb + 10 + u)%Z). set (I2 := (W1 - I1 + 1)%Z).
  destruct (recip_real pQ MW (MW - 2 * (W - I)) false (Fmt W2 I2 false (fQ f) (fO f)) n HMW ltac:(cbn [fW]; unfold W2; lia) ltac:(unfold in_range, imin, imax; lia) ltac:(lia)) as (q & V & E & C & D). rewrite E. cbn [fS andb] in D. replace (MW - (MW - 2 * (W - I)))%Z with (2 * (W - I))%Z in D by lia.
  unfold n in D. rewrite sum_sq in D. fold A B in D. set (N := A * A + B * B) in *.
  assert (EN : N = IZR n * bpow2 (- (2 * (W - I)))) by (unfold N, A, B; rewrite <- sum_sq; reflexivity). assert (PN : 0 < N) by (rewrite EN; apply Rmult_lt_0_compat; [apply (IZR_lt 0); lia|apply bpow2_pos]). rewrite (Rabs_pos_eq N) in D by lra. set (t := / N) in *. assert (Pt : 0 < t) by (apply Rinv_0_lt_compat; exact PN). assert (Etn : t * N = 1) by (apply Rinv_l; lra).
  assert (Tlo : bpow2 (- I1) <= t). { apply Rmult_le_reg_r with N; [exact PN|]. rewrite Etn, EN. apply Rle_trans with (bpow2 (- I1) * (bpow2 W1 * bpow2 (- (2 * (W - I))))); [apply Rmult_le_compat_l; [apply Rlt_le, bpow2_pos|]; apply Rmult_le_compat_r; [apply Rlt_le, bpow2_pos|]; rewrite bpow2_IZR by lia; apply IZR_le; exact HNW|]. rewrite <- !bpow2_add. replace (- I1 + (W1 + - (2 * (W - I))))%Z with 0%Z by lia. rewrite bpow2_0. lra. }
  assert (Thi : t <= bpow2 (W1 - I1)). { apply Rmult_le_reg_r with N; [exact PN|]. rewrite Etn, EN, EWI. apply Rle_trans with (bpow2 (2 * (W - I)) * (1 * bpow2 (- (2 * (W - I))))); [rewrite Rmult_1_l, <- bpow2_add; replace (2 * (W - I) + - (2 * (W - I)))%Z with 0%Z by lia; rewrite bpow2_0; lra|]. apply Rmult_le_compat_l; [apply Rlt_le, bpow2_pos|]. apply Rmult_le_compat_r; [apply Rlt_le, bpow2_pos|apply (IZR_le 1); lia]. }
  set (F := (W2 - I2)%Z). assert (Hulp : bpow2 (- F) <= / 1024 * t). { apply Rle_trans with (bpow2 (- (10) + - I1)); [apply bpow2_le; unfold F, W2, I2; lia|]. rewrite bpow2_add, bpow2_opp, bpow2_IZR by lia. change (IZR (2 ^ 10)) with 1024. lra. }
  assert (PI2 : bpow2 I2 = 2 * bpow2 (W1 - I1)) by (unfold I2; replace (W1 - I1 + 1)%Z with (1 + (W1 - I1))%Z by lia; rewrite bpow2_add, bpow2_1; reflexivity). pose proof (bpow2_pos (- F)) as PF. apply Rabs_le_both in D.
  destruct (convR_midO W2 I2 (fQ f) (fO f) V q ltac:(unfold W2; lia) C ltac:(lra) ltac:(fold F; lra)) as [_ Near]. fold F in Near. apply Rabs_le_both in Near.
  replace (negb (a =? 0) || negb (b =? 0))%bool with true by lia. exists (conv f (a * q) (W - I + F)), (conv f (- b * q) (W - I + F)), (fxval q F). split; [reflexivity|]. split; [|split].
  - pose proof (conv_R f (a * q) (W - I + F) HfW) as K. rewrite fxval_mul in K. exact K.
  - pose proof (conv_R f (- b * q) (W - I + F) HfW) as K. rewrite fxval_mul in K. replace (fxval (- b) (W - I)) with (- B) in K by (unfold B, fxval; rewrite opp_IZR; ring). exact K.
  - apply Rabs_le. lra.
Qed.

(** ** Square root *)
Lemma fxval_S m F : fxval m (F + 1) = fxval m F / 2.
Proof. unfold fxval. replace (- (F + 1))%Z with (- F + - (1))%Z by lia. rewrite bpow2_add, (bpow2_opp 1), bpow2_1. unfold Rdiv. ring. Qed.
Lemma cs_dims W I : cs_I1 I = I /\ cs_W1 W I = (W + 22)%Z /\ ((1 <= W)%Z -> cs_tF W I = (W - I + 22)%Z /\ cs_tW W I = (W + 23)%Z /\ cs_W2 W I = ((I + 2) / 2 + ((W + 23) / 2 + 22))%Z) /\ cs_I2 I = ((I + 2) / 2)%Z.
Proof.
  assert (E1 : cs_I1 I = I) by (unfold cs_I1; rewrite rt_sqrt_I_div; replace (2 * I - 1 + 2)%Z with (1 + I * 2)%Z by lia; rewrite Z.div_add by lia; reflexivity).
  assert (E2 : cs_W1 W I = (W + 22)%Z). { unfold cs_W1, rt_sqrt_W. change (rt_sqrt_I (2 * I - 1)) with (cs_I1 I). rewrite E1, rt_F_div. replace (2 * (W - I))%Z with ((W - I) * 2)%Z by lia. rewrite Z.div_mul by lia. lia. }
  split; [exact E1|]. split; [exact E2|]. split; [|unfold cs_I2; apply rt_sqrt_I_div]. intros HW. assert (E3 : cs_tF W I = (W - I + 22)%Z). { unfold cs_tF. rewrite E1, E2. destruct (W - I >? W + 22 - I)%Z eqn:E; lia. } assert (E4 : cs_tW W I = (W + 23)%Z) by (unfold cs_tW; lia). split; [exact E3|]. split; [exact E4|]. unfold cs_W2, rt_sqrt_W. rewrite E4, rt_sqrt_I_div, rt_F_div. lia.
Qed.

Lemma sq_near w p p0 P P0 : 0 < w -> 0 <= p -> 0 <= p0 -> p * p = P -> p0 * p0 = P0 -> Rabs (P - P0) <= 0.00060015 * (w * w) -> P0 <= w * w ->
  p <= 1.00031 * w /\ Rabs (p - p0) <= 0.0245 * w /\ (w * w <= 2 * P0 -> Rabs (p - p0) <= 0.00085 * w).
Proof.
  intros Hw Hp Hp0 E E0 D H0. apply Rabs_le_both in D. assert (Pw : 0 < w * w) by nra. split; [|split].
  - apply Rlt_le, lt_sqr; [lra|]. replace (1.00031 * w * (1.00031 * w)) with (1.0006200961 * (w * w)) by lra. lra.
  - assert (K : (p - p0) * (p - p0) <= 0.00060015 * (w * w)). { destruct (Rle_lt_dec p0 p) as [G|G]; [assert ((p - p0) * (p - p0) <= (p - p0) * (p + p0)) by (apply Rmult_le_compat_l; lra)|assert ((p0 - p) * (p0 - p) <= (p0 - p) * (p + p0)) by (apply Rmult_le_compat_l; lra)]; lra. }
    apply Rlt_le, lt_sqr; [lra|]. unfold Rabs. destruct (Rcase_abs (p - p0)); [replace (- (p - p0) * - (p - p0)) with ((p - p0) * (p - p0)) by ring|]; replace (0.0245 * w * (0.0245 * w)) with (0.00060025 * (w * w)) by lra; lra.
  - intros H2. assert (G0 : 0.7071 * w < p0). { apply lt_sqr; [lra|]. replace (0.7071 * w * (0.7071 * w)) with (0.49999041 * (w * w)) by lra. lra. }
    apply Rabs_le. assert (K : (p - p0) * (p + p0) = P - P0) by (rewrite <- E, <- E0; ring). clear - K G0 D Hp Hw Hp0. split.
    + destruct (Rle_lt_dec (- (0.00085 * w)) (p - p0)) as [G|G]; [exact G|exfalso]. assert ((p0 - p) * (p + p0) >= 0.00085 * w * (0.7071 * w)) by nra. assert (0 < w * w) by nra. lra.
    + destruct (Rle_lt_dec (p - p0) (0.00085 * w)) as [G|G]; [exact G|exfalso]. assert ((p - p0) * (p + p0) >= 0.00085 * w * (0.7071 * w)) by nra. assert (0 < w * w) by nra. lra.
Qed.

Lemma cs_part_real pQ W I sum Z A : (1 <= W)%Z -> (-60 <= W + I)%Z -> 0 < Z -> Rabs A <= Z -> Z <= 0.7072 * bpow2 I -> Rabs (fxval sum (W - I + 22) - (Z + A)) <= 0.0012003 * Z ->
  let F2 := ((W + 23) / 2 + 22)%Z in
  exists x, cs_part pQ W I sum (W - I + 22) = Some x /\ in_range false (cs_W2 W I) x /\ Rabs (fxval x F2 - sqrt ((Z + A) / 2)) <= 0.0258 * sqrt Z + bpow2 (- F2) /\
    (0 <= A -> Rabs (fxval x F2 - sqrt ((Z + A) / 2)) <= 0.0021 * sqrt Z + bpow2 (- F2)).
Proof.
  intros HW HWI HZ HA HZI D F2. destruct (cs_dims W I) as (_ & _ & E & E2). destruct (E HW) as (EF & ET & EW). clear E. unfold cs_part. rewrite EF, ET, EW, E2. fold F2. set (I2 := ((I + 2) / 2)%Z). set (F := (W - I + 22)%Z) in *. set (S := fxval sum F) in *.
  apply Rabs_le_both in HA, D. assert (EI1 : bpow2 (I + 1) = 2 * bpow2 I) by (rewrite Z.add_comm, bpow2_add, bpow2_1; reflexivity). pose proof (bpow2_pos I) as PI.
  assert (HI2 : (I + 1 <= 2 * I2)%Z) by (pose proof (Z.div_mod (I + 2) 2 ltac:(lia)); pose proof (Z.mod_pos_bound (I + 2) 2 ltac:(lia)); unfold I2; lia). assert (HF2 : (W + 66 <= 2 * F2)%Z) by (pose proof (Z.div_mod (W + 23) 2 ltac:(lia)); pose proof (Z.mod_pos_bound (W + 23) 2 ltac:(lia)); unfold F2; lia).
  assert (HT : conv (Fmt (W + 23) (I + 1) false TRN SAT) sum F = Z.max 0 sum /\ (Z.max 0 sum < 2 ^ (W + 23))%Z).
  { assert (U : (sum < 2 ^ (W + 23))%Z). { apply lt_IZR. rewrite <- bpow2_IZR by lia. apply Rmult_lt_reg_r with (bpow2 (- F)); [apply bpow2_pos|]. change (IZR sum * bpow2 (- F)) with S. rewrite <- bpow2_add. replace (W + 23 + - F)%Z with (I + 1)%Z by (unfold F; lia). lra. }
    split; [|assert (0 < 2 ^ (W + 23))%Z by (apply Z.pow_pos_nonneg; lia); lia]. rewrite conv_unfold. unfold fF. cbn [fW fI fQ fO fS]. replace (W + 23 - (I + 1))%Z with F by (unfold F; lia). rewrite Z.sub_diag. change (pw 0) with 1%Z. rewrite Z.mul_1_r, qround_int. unfold overflow, imin, imax. cbv iota. destruct (Z.ltb_spec sum 0); [lia|]. destruct (Z.ltb_spec (2 ^ (W + 23) - 1) sum); lia. }
  destruct HT as [HT HT2]. rewrite HT. set (tm := Z.max 0 sum) in *. assert (Htm : (0 <= tm)%Z) by (unfold tm; lia).
  assert (EH : Z.shiftr (conv (dfmt (W + 23 + 1) (I + 1) false) tm F) 1 = tm).
  { rewrite conv_fits_up; unfold dfmt, fF; cbn [fW fI fO fS]; replace (W + 23 + 1 - (I + 1))%Z with (F + 1)%Z by (unfold F; lia); replace (F + 1 - F)%Z with 1%Z by lia; try lia; try reflexivity.
    - rewrite Z.shiftr_div_pow2 by lia. apply Z.div_mul. lia.
    - unfold in_range, imin, imax. rewrite Z.pow_add_r by lia. lia. }
  rewrite EH. rewrite (RtFacts.conv_fits (W + 23) I false tm (F + 1)) by (unfold F, in_range, imin, imax; lia).
  set (w := sqrt Z). assert (Ew : w * w = Z) by (apply sqrt_sqrt; lra). assert (Pw : 0 < w) by (apply sqrt_lt_R0; exact HZ). set (P0 := (Z + A) / 2) in *. set (p0 := sqrt P0). assert (E0 : p0 * p0 = P0) by (apply sqrt_sqrt; unfold P0; lra). assert (Hp0 : 0 <= p0) by apply sqrt_pos. assert (HP0 : P0 <= w * w) by (rewrite Ew; unfold P0; lra).
  assert (EP : fxval tm (F + 1) = Rmax 0 S / 2). { rewrite fxval_S. f_equal. unfold tm, S. destruct (Z.max_spec 0 sum) as [[G ->]|[G ->]]; [rewrite Rmax_right; [reflexivity|]|rewrite Rmax_left; [unfold fxval; ring|]]; unfold fxval; pose proof (bpow2_pos (- F)); [apply (IZR_lt 0) in G|apply IZR_le in G]; nra. }
  pose proof (bpow2_pos (- F2)) as PF2. destruct (Z.eq_dec tm 0) as [Z0|Z0].
  - rewrite Z0. rewrite sqrt_zero. exists 0%Z. split; [reflexivity|]. assert (Pw2 : (0 < 2 ^ (I2 + F2))%Z) by (apply Z.pow_pos_nonneg; lia). split; [unfold in_range, imin, imax; lia|]. assert (S0 : S <= 0). { unfold S, fxval. assert (sum <= 0)%Z by (unfold tm in Z0; lia). apply IZR_le in H. pose proof (bpow2_pos (- F)). nra. }
    replace (fxval 0 F2) with 0 by (unfold fxval; ring). destruct (sq_near w 0 p0 0 P0 Pw ltac:(lra) Hp0 ltac:(ring) E0 ltac:(rewrite Ew; apply Rabs_le; unfold P0; lra) HP0) as (_ & N1 & _). split; [lra|]. intros HA0. exfalso. lra.
  - assert (PS : 0 < S). { unfold S, fxval. apply Rmult_lt_0_compat; [apply (IZR_lt 0); unfold tm in Z0; lia|apply bpow2_pos]. } rewrite Rmax_right in EP by lra.
    destruct (sqrt_real pQ (W + 23) I WRAP (dfmt (I2 + F2) I2 false) true tm ltac:(lia) ltac:(cbn [dfmt fW]; lia) eq_refl ltac:(lia) ltac:(left; reflexivity)) as (x & V & Ex & C & DV). rewrite Ex. exists x. split; [reflexivity|]. replace (W + 23 - I)%Z with (F + 1)%Z in DV by (unfold F; lia). rewrite EP in DV.
    set (P := S / 2) in *. set (p := sqrt P) in *. assert (Epp : p * p = P) by (apply sqrt_sqrt; unfold P; lra). assert (Hp : 0 <= p) by apply sqrt_pos. destruct (sq_near w p p0 P P0 Pw Hp Hp0 Epp E0 ltac:(rewrite Ew; apply Rabs_le; unfold P, P0; lra) HP0) as (N0 & N1 & N2). apply Rabs_le_both in DV.
    assert (UV : V < bpow2 I2). { assert (B2 : 2 * bpow2 I <= bpow2 I2 * bpow2 I2) by (rewrite <- EI1, <- bpow2_add; apply bpow2_le; lia). pose proof (bpow2_pos I2). apply Rle_lt_trans with (1.002 * w); [lra|]. apply lt_sqr; [lra|]. replace (1.002 * w * (1.002 * w)) with (1.004004 * (w * w)) by lra. lra. }
    destruct (convR_dfmt (I2 + F2) I2 false V x ltac:(lia) C ltac:(cbv iota; lra)) as [RX NX]. replace (I2 + F2 - I2)%Z with F2 in NX by lia. split; [exact RX|]. split; [apply Rabs_le_both in N1; apply Rabs_le; lra|]. intros HA0. assert (G2 : w * w <= 2 * P0) by (rewrite Ew; unfold P0; lra). specialize (N2 G2). apply Rabs_le_both in N2. apply Rabs_le. lra.
Qed.

Lemma cplx_mag W I a b : (1 <= W)%Z -> in_range true W a -> in_range true W b -> (a <> 0 \/ b <> 0)%Z ->
  let A := fxval a (W - I) in let B := fxval b (W - I) in let Z := sqrt (A * A + B * B) in
  Z * Z = A * A + B * B /\ bpow2 (- (W - I)) <= Z <= 0.7072 * bpow2 I /\ Rabs A <= Z /\ ((a * a + b * b = 1)%Z \/ 1.4 * bpow2 (- (W - I)) <= Z).
Proof.
  intros HW Ha Hb Hz A B Z. assert (HN : 0 <= A * A + B * B) by nra. assert (EZ : Z * Z = A * A + B * B) by (apply sqrt_sqrt; exact HN). assert (Z0 : 0 <= Z) by apply sqrt_pos. split; [exact EZ|].
  set (u := bpow2 (- (W - I))). assert (Pu : 0 < u) by apply bpow2_pos. assert (En : A * A + B * B = IZR (a * a + b * b) * (u * u)) by (unfold A, B, fxval; fold u; rewrite plus_IZR, !mult_IZR; ring). assert (Hn : (1 <= a * a + b * b)%Z) by nia. assert (Pu2 : 0 < u * u) by nra. split; [split|split].
  - apply le_sqrt; [lra|]. rewrite En. apply IZR_le in Hn. nra.
  - pose proof (bpow2_pos I) as PI. apply Rlt_le, lt_sqr; [lra|]. rewrite EZ. assert (K : forall x, in_range true W x -> fxval x (W - I) * fxval x (W - I) <= (bpow2 I / 2) * (bpow2 I / 2)).
    { intros x Hx. assert (Hb2 : bpow2 I / 2 = bpow2 (W - 1) * u) by (unfold u; rewrite <- bpow2_add; replace (W - 1 + - (W - I))%Z with (I + - (1))%Z by lia; rewrite bpow2_add, (bpow2_opp 1), bpow2_1; reflexivity). rewrite Hb2. unfold fxval. fold u. unfold in_range, imin, imax in Hx. destruct Hx as [X1 X2]. apply IZR_le in X1, X2. rewrite opp_IZR, <- bpow2_IZR in X1 by lia. rewrite minus_IZR, <- bpow2_IZR in X2 by lia. set (x' := IZR x) in *. set (q := bpow2 (W - 1)) in *. replace (x' * u * (x' * u)) with ((x' * x') * (u * u)) by ring. replace (q * u * (q * u)) with ((q * q) * (u * u)) by ring. apply Rmult_le_compat_r; [lra|]. nra. }
    pose proof (K a Ha) as KA. pose proof (K b Hb) as KB. fold A in KA. fold B in KB. nra.
  - apply le_sqrt; [apply Rabs_pos|]. rewrite <- Rabs_mult, Rabs_pos_eq by nra. nra.
  - destruct (Z.eq_dec (a * a + b * b) 1) as [G|G]; [left; exact G|right]. apply le_sqrt; [lra|]. rewrite En. assert (2 <= a * a + b * b)%Z as H2 by lia. apply IZR_le in H2. nra.
Qed.

Lemma sqrt_cplx_eval pQ MW W I f a b : (1 <= W)%Z -> (-60 <= W + I)%Z -> (1 <= MW)%Z -> in_range true W a -> in_range true W b -> (a * a + b * b < 2 ^ MW)%Z -> (a <> 0 \/ b <> 0)%Z ->
  let A := fxval a (W - I) in let B := fxval b (W - I) in let Z := sqrt (A * A + B * B) in let F2 := ((W + 23) / 2 + 22)%Z in
  exists x y, sqrt_cplx pQ MW W I f a b = Some (conv f x F2, conv f (if (b <? 0)%Z then - y else y)%Z F2) /\ in_range false (cs_W2 W I) x /\ in_range false (cs_W2 W I) y /\
    Rabs (fxval x F2 - sqrt ((Z + A) / 2)) <= 0.0258 * sqrt Z + bpow2 (- F2) /\ Rabs (fxval y F2 - sqrt ((Z - A) / 2)) <= 0.0258 * sqrt Z + bpow2 (- F2) /\
    (0 <= A -> Rabs (fxval x F2 - sqrt ((Z + A) / 2)) <= 0.0021 * sqrt Z + bpow2 (- F2)) /\ (A <= 0 -> Rabs (fxval y F2 - sqrt ((Z - A) / 2)) <= 0.0021 * sqrt Z + bpow2 (- F2)).
Proof.
  intros HW HWI HMW Ha Hb HM Hz A B Z F2. destruct (cplx_mag W I a b HW Ha Hb Hz) as (EZ & [Zlo Zhi] & HAZ & _). fold A B in EZ, Zlo, Zhi, HAZ. fold Z in EZ, Zlo, Zhi, HAZ. destruct (cs_dims W I) as (E1 & E2 & E3 & E4). destruct (E3 HW) as (EF & ET & EW). clear E3.
  unfold sqrt_cplx. rewrite mag_sqr_val by exact HM. rewrite E1, E2, EF. set (n := (a * a + b * b)%Z) in *. assert (Hn : (0 < n)%Z) by (unfold n; nia). set (F := (W - I + 22)%Z).
  destruct (sqrt_real pQ MW (MW - 2 * (W - I)) WRAP (dfmt (W + 22) I false) true n HMW ltac:(cbn [dfmt fW]; lia) eq_refl ltac:(lia) ltac:(left; reflexivity)) as (sm & V & E & C & D). rewrite E. replace (MW - (MW - 2 * (W - I)))%Z with (2 * (W - I))%Z in D by lia. unfold n in D. rewrite sum_sq in D. fold A B in D. fold Z in D. apply Rabs_le_both in D.
  pose proof (bpow2_pos (- (W - I))) as Pu. set (u := bpow2 (- (W - I))) in *. pose proof (bpow2_pos I) as PI. destruct (convR_dfmt (W + 22) I false V sm ltac:(lia) C ltac:(cbv iota; lra)) as [RS NS]. replace (W + 22 - I)%Z with F in * by (unfold F; lia). assert (EU : bpow2 (- F) = u * / 4194304). { unfold F, u. replace (- (W - I + 22))%Z with (- (W - I) + - (22))%Z by lia. rewrite bpow2_add, (bpow2_opp 22), (bpow2_IZR 22) by lia. reflexivity. } rewrite EU in NS.
  rewrite Z.sub_diag, Z.pow_0_r, Z.mul_1_r. replace (F - (W - I))%Z with 22%Z by (unfold F; lia). set (s := fxval sm F) in *. assert (ES : Rabs (s - Z) <= 0.0012003 * Z) by (apply Rabs_le; lra). assert (EA : fxval (a * 2 ^ 22) F = A). { unfold F, A. rewrite fxval_mul. replace (fxval (2 ^ 22) 22) with 1; [ring|]. unfold fxval. rewrite bpow2_opp, bpow2_IZR by lia. field. apply not_0_IZR. lia. }
  assert (PZ : 0 < Z) by lra. assert (EP : fxval (sm + a * 2 ^ 22) F = s + A) by (rewrite <- EA; unfold s, fxval; rewrite plus_IZR; ring). assert (EM : fxval (sm - a * 2 ^ 22) F = s - A) by (rewrite <- EA; unfold s, fxval; rewrite minus_IZR; ring).
  destruct (cs_part_real pQ W I (sm + a * 2 ^ 22) Z A HW HWI PZ HAZ Zhi ltac:(fold F; rewrite EP; replace (s + A - (Z + A)) with (s - Z) by ring; exact ES)) as (x & Ex & Rx & X1 & X2). destruct (cs_part_real pQ W I (sm - a * 2 ^ 22) Z (- A) HW HWI PZ ltac:(rewrite Rabs_Ropp; exact HAZ) Zhi ltac:(fold F; rewrite EM; replace (s - A - (Z + - A)) with (s - Z) by ring; exact ES)) as (y & Ey & Ry & Y1 & Y2).
  fold F in Ex, Ey. rewrite Ex, Ey. replace (cs_W2 W I - cs_I2 I)%Z with F2 by (rewrite EW, E4; unfold F2; lia). exists x, y. fold F2 in X1, X2, Y1, Y2. change (Z + - A) with (Z - A) in *. split; [reflexivity|]. split; [exact Rx|]. split; [exact Ry|]. split; [exact X1|]. split; [exact Y1|]. split; [exact X2|]. intros HA0. apply Y2. lra.
Qed.

(** ** Inverse square root *)
Lemma isqrt_one pQ MW G XO f : (1 <= MW)%Z -> (1 <= fW f)%Z -> fS f = false ->
  exists out V, inverse_sqrt_pwl pQ MW (MW - 2 * G) XO f true 1 = Some out /\ convertsR f V out /\ 0.99926 * bpow2 G <= V <= 0.99928 * bpow2 G.
Proof.
  intros HW HfW HfS. assert (P2 : (2 <= 2 ^ MW)%Z) by (change 2%Z with (2 ^ 1)%Z at 1; apply Z.pow_le_mono_r; lia). pose proof (isqrt_eval pQ MW (MW - 2 * G) XO f true 1 HW HfW HfS ltac:(lia) ltac:(left; reflexivity)) as E.
  pose proof (normalize_u_ok MW (MW - 2 * G) XO 1 HW ltac:(lia)) as N. destruct (normalize MW (MW - 2 * G) false XO 1) as [e n]. destruct N as (A & B & C). destruct E as (out & Eo & Ec). exists out, (IZR (isqrt_mant pQ e (isqrtY (pos MW 4 12 n))) * bpow2 (- 24 - e / 2)). split; [exact Eo|]. split; [apply converts2_R; exact Ec|].
  destruct (pos_bounds MW 4 12 n HW ltac:(lia) ltac:(lia) C) as [[PB PE]|]; [|lia]. change (2 ^ (4 - 1 + 12))%Z with 32768%Z in *.
  rewrite Z.mul_1_l in B. assert (K : (MW - 2 * G - e = MW - 1)%Z). { rewrite B in C. destruct C as [C1 C2]. apply Z.pow_lt_mono_r_iff in C2; [|lia|lia]. apply Z.pow_le_mono_r_iff in C1; [|lia|lia]. lia. }
  assert (Ee : (e = 1 + (- G) * 2)%Z) by lia. assert (En : (2 * n = 2 ^ MW)%Z) by (rewrite B, K; rewrite <- (Z.pow_succ_r 2 (MW - 1)) by lia; f_equal; lia). rewrite En, Z.sub_diag, Z.mul_0_l in PE. assert (T0 : pos MW 4 12 n = 0%Z) by nia. rewrite T0.
  unfold isqrt_mant. rewrite Ee, Z.mod_add, Z.div_add by lia. change (1 mod 2 =? 0)%Z with false. change (1 / 2 + - G)%Z with (0 + - G)%Z. cbv iota. pose proof (qround_near pQ (isqrtY 0 * 2896) (2 ^ 12) ltac:(lia)) as Q. assert (EY : isqrtY 0 = 23711744%Z) by (vm_compute; reflexivity). rewrite EY in *. change (2 ^ 12)%Z with 4096%Z in *. set (M := qround _ _ _) in *.
  assert (16764943 <= M <= 16764945)%Z as [M1 M2] by lia. apply IZR_le in M1, M2. replace (- 24 - (0 + - G))%Z with (G + - (24))%Z by lia. rewrite bpow2_add, (bpow2_opp 24), (bpow2_IZR 24) by lia. change (IZR (2 ^ 24)) with 16777216. pose proof (bpow2_pos G) as PG. set (g := bpow2 G) in *. split; nra.
Qed.

Lemma isq_part pQ MW W I a b : (1 <= W)%Z -> (1 <= MW)%Z -> in_range true W a -> in_range true W b -> (a * a + b * b < 2 ^ MW)%Z -> (a <> 0 \/ b <> 0)%Z ->
  let A := fxval a (W - I) in let B := fxval b (W - I) in let Z := sqrt (A * A + B * B) in
  exists q, inverse_sqrt_pwl pQ MW (MW - 2 * (W - I)) WRAP (Fmt (W + 23) (W - I) false pQ WRAP) true (mag_sqr MW a b) = Some q /\ in_range false (W + 23) q /\ Rabs (fxval q (I + 23) - / Z) <= 0.00076 * / Z.
Proof.
  intros HW HMW Ha Hb HM Hz A B Z. destruct (cplx_mag W I a b HW Ha Hb Hz) as (EZ & [Zlo Zhi] & HAZ & H1). fold A B in EZ, Zlo, Zhi, HAZ, H1. fold Z in EZ, Zlo, Zhi, HAZ, H1. rewrite mag_sqr_val by exact HM. set (f := Fmt (W + 23) (W - I) false pQ WRAP). set (u := bpow2 (- (W - I))) in *. assert (Pu : 0 < u) by apply bpow2_pos. assert (EG : bpow2 (W - I) * u = 1) by (unfold u; rewrite <- bpow2_add; replace (W - I + - (W - I))%Z with 0%Z by lia; apply bpow2_0).
  assert (PZ : 0 < Z) by lra. set (t := / Z). assert (Pt : 0 < t) by (apply Rinv_0_lt_compat; exact PZ). assert (Et : t * Z = 1) by (apply Rinv_l; lra). assert (Ulp : bpow2 (- (I + 23)) <= 0.000001 * t).
  { assert (PI : 0 < bpow2 I) by apply bpow2_pos. apply Rmult_le_reg_r with (bpow2 I); [exact PI|]. rewrite <- bpow2_add. replace (- (I + 23) + I)%Z with (- (23))%Z by lia. rewrite bpow2_opp, bpow2_IZR by lia. change (IZR (2 ^ 23)) with 8388608. assert (1 <= 0.7072 * (t * bpow2 I)) by nra. lra. } pose proof (bpow2_pos (- (I + 23))) as PU.
  assert (K : exists q V, inverse_sqrt_pwl pQ MW (MW - 2 * (W - I)) WRAP f true (a * a + b * b) = Some q /\ convertsR f V q /\ Rabs (V - t) <= 0.00075 * t /\ V + bpow2 (- (I + 23)) <= bpow2 (W - I)).
  { destruct (Z.eq_dec (a * a + b * b) 1) as [G|G].
    - assert (EZu : Z = u). { unfold Z, A, B. rewrite <- sum_sq, G. unfold fxval. rewrite Rmult_1_l. replace (- (2 * (W - I)))%Z with (- (W - I) + - (W - I))%Z by lia. rewrite bpow2_add. apply sqrt_square. fold u. lra. }
      assert (Etg : t = bpow2 (W - I)). { apply Rmult_eq_reg_r with u; [|lra]. rewrite EG, <- EZu. exact Et. } rewrite G. destruct (isqrt_one pQ MW (W - I) WRAP f HMW ltac:(unfold f; cbn [fW]; lia) eq_refl) as (q & V & E & C & D). exists q, V. split; [exact E|]. split; [exact C|]. rewrite <- Etg in *. split; [apply Rabs_le|]; lra.
    - destruct H1 as [H1|H1]; [contradiction|]. assert (Hn : (0 < a * a + b * b)%Z) by nia. destruct (isqrt_real pQ MW (MW - 2 * (W - I)) WRAP f true (a * a + b * b) HMW ltac:(unfold f; cbn [fW]; lia) eq_refl ltac:(lia) ltac:(left; reflexivity)) as (q & V & E & C & D). replace (MW - (MW - 2 * (W - I)))%Z with (2 * (W - I))%Z in D by lia. rewrite sum_sq in D. fold A B in D. fold Z in D. fold t in D. exists q, V. split; [exact E|]. split; [exact C|]. split; [exact D|]. apply Rabs_le_both in D. assert (1.4 * t <= bpow2 (W - I)). { apply Rmult_le_reg_r with u; [exact Pu|]. rewrite EG. nra. } lra. }
  destruct K as (q & V & E & C & D & U). exists q. split; [exact E|]. apply Rabs_le_both in D. destruct (convR_midO (W + 23) (W - I) pQ WRAP V q ltac:(lia) C ltac:(lra) ltac:(replace (W + 23 - (W - I))%Z with (I + 23)%Z by lia; exact U)) as [R N]. replace (W + 23 - (W - I))%Z with (I + 23)%Z in N by lia. split; [exact R|]. apply Rabs_le_both in N. apply Rabs_le. lra.
Qed.

(** Storing a computed square root in the signed type of sqrt_conj. *)
Lemma store_part pQ W I v F' P S : (1 <= W)%Z -> (-50 <= W + I)%Z -> 0 < S -> S * S <= 0.7072 * bpow2 I -> 0 <= P <= S ->
  let F2 := ((W + 23) / 2 + 22)%Z in Rabs (Rabs (fxval v F') - P) <= 0.0258 * S + bpow2 (- F2) ->
  let m := conv (Fmt (cs_W2 W I + 1) (cs_I2 I + 1) true pQ WRAP) v F' in in_range true (cs_W2 W I + 1) m /\ Rabs (fxval m F2 - fxval v F') <= bpow2 (- F2).
Proof.
  intros HW HWI PS HS HP F2 D m. destruct (cs_dims W I) as (_ & _ & E & E2). destruct (E HW) as (_ & _ & EW). clear E. pose proof (conv_R (Fmt (cs_W2 W I + 1) (cs_I2 I + 1) true pQ WRAP) v F' ltac:(cbn [fW]; rewrite EW; lia)) as C. fold m in C.
  set (g := bpow2 ((I + 2) / 2)). assert (Pg : 0 < g) by apply bpow2_pos. assert (HG : bpow2 I <= 0.5 * (g * g)). { unfold g. rewrite <- bpow2_add. replace (0.5 * bpow2 ((I + 2) / 2 + (I + 2) / 2)) with (bpow2 ((I + 2) / 2 + (I + 2) / 2 - 1)). { apply bpow2_le. lia. } replace ((I + 2) / 2 + (I + 2) / 2 - 1)%Z with ((I + 2) / 2 + (I + 2) / 2 + - (1))%Z by lia. rewrite bpow2_add, (bpow2_opp 1), bpow2_1. lra. }
  assert (S < 0.6 * g). { apply lt_sqr; [lra|]. nra. } assert (U : bpow2 (- F2) <= / 128 * g). { replace (/ 128) with (bpow2 (- (7))) by (rewrite bpow2_opp, bpow2_IZR by lia; reflexivity). unfold g. rewrite <- bpow2_add. apply bpow2_le. unfold F2. lia. } pose proof (bpow2_pos (- F2)).
  apply Rabs_le_both in D. assert (B : Rabs (fxval v F') <= 0.7 * g) by lra. apply Rabs_le_both in B. assert (EF : (cs_W2 W I + 1 - (cs_I2 I + 1) = F2)%Z) by (rewrite EW, E2; unfold F2; lia).
  pose proof (convR_mid (cs_W2 W I + 1) (cs_I2 I + 1) true pQ (fxval v F') m ltac:(rewrite EW; lia) C) as K. cbv iota in K. rewrite EF, E2 in K. replace ((I + 2) / 2 + 1 - 1)%Z with ((I + 2) / 2)%Z in K by lia. fold g in K. rewrite EW. rewrite EW in K. apply K; lra.
Qed.

(** A part of the result: the stored square root [v], which approximates s * P (s a sign), times the stored inverse square root. *)
Lemma prod_near c d d' v q P Z S e s : 0 <= d <= 0.001 -> 1.03 * d <= d' -> 0 <= c <= 0.03 -> 0 < Z -> S * S = Z -> 0 < S -> 0 <= P <= S -> Rabs s = 1 -> Rabs (v - s * P) <= c * S + e -> 0 <= e -> Rabs (q - / Z) <= d * / Z ->
  Rabs (v * q - s * (P / Z)) <= (c + d') / S + 1.001 * e / Z.
Proof.
  intros Hd Hd' Hc HZ ES HS HP Hs D He Q. assert (Pt : 0 < / Z) by (apply Rinv_0_lt_compat; exact HZ). assert (E1 : / S = S * / Z). { rewrite <- ES. field. lra. } unfold Rdiv. rewrite E1. set (t := / Z) in *. replace (v * q - s * (P * t)) with ((v - s * P) * q + s * P * (q - t)) by ring.
  eapply Rle_trans; [apply Rabs_triang|]. rewrite !Rabs_mult, Hs, Rmult_1_l, (Rabs_pos_eq P) by lra. pose proof (Rabs_pos (q - t)) as Q0. pose proof (Rabs_pos (v - s * P)). pose proof Q as Q'. apply Rabs_le_both in Q'. assert (Dt : 0 <= d * t <= 0.001 * t) by (split; nra). rewrite (Rabs_pos_eq q) by lra.
  apply Rle_trans with ((c * S + e) * ((1 + d) * t) + S * (d * t)); [apply Rplus_le_compat; [apply Rmult_le_compat; lra|apply Rmult_le_compat; lra]|]. assert (PSt : 0 < S * t) by (apply Rmult_lt_0_compat; lra). assert (Pe : 0 <= e * t) by (apply Rmult_le_pos; lra). assert (c * d <= 0.03 * d) by (apply Rmult_le_compat_r; lra). assert (K1 : (c + c * d + d) * (S * t) <= (c + d') * (S * t)) by (apply Rmult_le_compat_r; lra). assert (K2 : (1 + d) * (e * t) <= 1.001 * (e * t)) by (apply Rmult_le_compat_r; lra).
  replace ((c * S + e) * ((1 + d) * t) + S * (d * t)) with ((c + c * d + d) * (S * t) + (1 + d) * (e * t)) by ring. replace ((c + d') * (S * t) + 1.001 * e * t) with ((c + d') * (S * t) + 1.001 * (e * t)) by ring. lra.
Qed.

Lemma isq_final_real pQ MC k QW W I f a b q d d' c1 c2 : 0 <= d <= 0.001 -> 1.03 * d <= d' -> c1 = 0.0258 + d' -> c2 = 0.0021 + d' -> (0 <= QW)%Z -> in_range false QW q -> (1 <= W)%Z -> (-50 <= W + I)%Z -> (0 <= k)%Z -> (1 <= MC)%Z -> (1 <= fW f)%Z -> in_range true W a -> in_range true W b -> in_range true (W + k) (- b) -> (a * a + b * b < 2 ^ MC)%Z -> (a <> 0 \/ b <> 0)%Z ->
  let A := fxval a (W - I) in let B := fxval b (W - I) in let Z := sqrt (A * A + B * B) in let F2 := ((W + 23) / 2 + 22)%Z in let s := if (b <? 0)%Z then 1 else -1 in
  Rabs (fxval q (QW - (W - I)) - / Z) <= d * / Z ->
  exists x y r i X Y, sqrt_cplx pQ MC (W + k) (I + k) (Fmt (cs_W2 W I + 1) (cs_I2 I + 1) true pQ WRAP) a (wraps (W + k) (- b)) = Some (x, y) /\ isq_final pQ QW W I f a b x y q = (r, i) /\ convertsR f X r /\ convertsR f Y i /\
    Rabs (X - sqrt ((Z + A) / 2) / Z) <= c1 / sqrt Z + 2.002 * bpow2 (- F2) / Z /\ Rabs (Y - s * (sqrt ((Z - A) / 2) / Z)) <= c1 / sqrt Z + 2.002 * bpow2 (- F2) / Z /\
    (0 <= A -> Rabs (X - sqrt ((Z + A) / 2) / Z) <= c2 / sqrt Z + 2.002 * bpow2 (- F2) / Z) /\ (A <= 0 -> Rabs (Y - s * (sqrt ((Z - A) / 2) / Z)) <= c2 / sqrt Z + 2.002 * bpow2 (- F2) / Z).
Proof.
  intros Hd Hd' Ec1 Ec2 HQW Rq HW HWI Hk HMC HfW Ha Hb Hnb HC Hz A B Z F2 s Nq. set (QF := (QW - (W - I))%Z) in *. destruct (cplx_mag W I a b HW Ha Hb Hz) as (EZ & [Zlo Zhi] & HAZ & _). fold A B in EZ, Zlo, Zhi, HAZ. fold Z in EZ, Zlo, Zhi, HAZ. pose proof (bpow2_pos (- (W - I))) as Pu. assert (PZ : 0 < Z) by lra.
  set (f1 := Fmt (cs_W2 W I + 1) (cs_I2 I + 1) true pQ WRAP). assert (Ew : wraps (W + k) (- b) = (- b)%Z) by (apply wraps_id; [lia|]; unfold in_range, imin, imax in Hnb; lia). assert (Ha' : in_range true (W + k) a). { unfold in_range, imin, imax in *. pose proof (Z.pow_le_mono_r 2 (W - 1) (W + k - 1) ltac:(lia) ltac:(lia)). lia. }
  destruct (sqrt_cplx_eval pQ MC (W + k) (I + k) f1 a (- b) ltac:(lia) ltac:(lia) HMC Ha' Hnb ltac:(lia) ltac:(lia)) as (x & y & Es & Rx & Ry & X1 & Y1 & X2 & Y2). cbv zeta in Es, X1, Y1, X2, Y2. replace (W + k - (I + k))%Z with (W - I)%Z in * by lia. fold A in X1, Y1, X2, Y2. replace (fxval (- b) (W - I)) with (- B) in * by (unfold B, fxval; rewrite opp_IZR; ring). replace (- B * - B) with (B * B) in * by ring. fold Z in X1, Y1, X2, Y2.
  set (F' := ((W + k + 23) / 2 + 22)%Z) in *. set (S := sqrt Z) in *. assert (PS : 0 < S) by (apply sqrt_lt_R0; exact PZ). assert (ESS : S * S = Z) by (apply sqrt_sqrt; lra). assert (UU : bpow2 (- F') <= bpow2 (- F2)) by (apply bpow2_le; unfold F', F2; lia). pose proof (bpow2_pos (- F2)) as PU. pose proof (bpow2_pos (- F')) as PU'. apply Rabs_le_both in HAZ.
  assert (BP : forall t, 0 <= t <= Z -> 0 <= sqrt t <= S) by (intros t Ht; split; [apply sqrt_pos|apply sqrt_le_1_alt; lra]). pose proof (BP ((Z + A) / 2) ltac:(lra)) as BPx. pose proof (BP ((Z - A) / 2) ltac:(lra)) as BPy. set (Px := sqrt ((Z + A) / 2)) in *. set (Py := sqrt ((Z - A) / 2)) in *. assert (HS : S * S <= 0.7072 * bpow2 I) by (rewrite ESS; exact Zhi).
  assert (Px0 : 0 <= fxval x F') by (unfold fxval; apply Rmult_le_pos; [apply (IZR_le 0); unfold in_range, imin in Rx; lia|lra]). assert (Py0 : 0 <= fxval y F') by (unfold fxval; apply Rmult_le_pos; [apply (IZR_le 0); unfold in_range, imin in Ry; lia|lra]).
  set (y' := (if - b <? 0 then - y else y)%Z) in *. set (s0 := if (- b <? 0)%Z then -1 else 1). assert (Ey' : fxval y' F' = s0 * fxval y F') by (unfold y', s0; destruct (- b <? 0)%Z; unfold fxval; [rewrite opp_IZR|]; ring). assert (Es0 : Rabs s0 = 1) by (unfold s0; destruct (- b <? 0)%Z; [rewrite Rabs_left|rewrite Rabs_pos_eq]; lra).
  destruct (store_part pQ W I x F' Px S HW HWI PS HS BPx ltac:(fold F2; rewrite (Rabs_pos_eq (fxval x F')) by exact Px0; lra)) as [Sx Nx]. destruct (store_part pQ W I y' F' Py S HW HWI PS HS BPy ltac:(fold F2; rewrite Ey', Rabs_mult, Es0, Rmult_1_l, (Rabs_pos_eq (fxval y F')) by exact Py0; lra)) as [Sy Ny]. fold F2 f1 in Sx, Nx, Sy, Ny. set (mx := conv f1 x F') in *. set (my := conv f1 y' F') in *.
  destruct (cs_dims W I) as (_ & _ & E & E2). destruct (E HW) as (_ & _ & EW). clear E. set (sW := (cs_W2 W I + 1)%Z) in *. set (sI := (cs_I2 I + 1)%Z) in *. assert (HsW : (1 <= sW)%Z) by (unfold sW; rewrite EW; lia). assert (EsF : (sW - sI = F2)%Z) by (unfold sW, sI; rewrite EW, E2; unfold F2; lia). set (ot := Fmt (sW + QW) (sI + (W - I)) true pQ WRAP). set (F := (F2 + QF)%Z).
  assert (PR : forall m, in_range true sW m -> in_range true (sW + QW) (m * q) /\ in_range true (sW + QW) (- (m * q))).
  { intros m Hm. unfold in_range, imin, imax in *. replace (sW + QW - 1)%Z with (sW - 1 + QW)%Z by lia. rewrite Z.pow_add_r by lia. set (p := (2 ^ (sW - 1))%Z) in *. set (r := (2 ^ QW)%Z) in *. assert (0 < p)%Z by (apply Z.pow_pos_nonneg; lia). nia. }
  assert (CE : forall z, in_range true (sW + QW) z -> conv ot z F = z). { intros z Hz'. apply PwlFacts.conv_fits; [cbn [ot fW]; lia|unfold F, fF; cbn [ot fW fI]; lia|reflexivity|exact Hz']. }
  rewrite Ew. fold f1. exists mx, my. unfold isq_final. cbv zeta. fold sW sI. fold ot. rewrite EsF. fold QF. fold F. destruct (PR mx Sx) as [RX _]. destruct (PR my Sy) as [RY RYn]. rewrite (CE _ RX), (CE _ RY), (CE _ RYn). replace (negb (a =? 0) || negb (b =? 0))%bool with true by lia.
  set (oi := if ((a <? 0)%Z && (b =? 0)%Z)%bool then (- (my * q))%Z else (my * q)%Z). exists (conv f (mx * q) F), (conv f oi F), (fxval mx F2 * fxval q QF), (fxval oi F).
  assert (Eoi : fxval oi F = (if ((a <? 0)%Z && (b =? 0)%Z)%bool then - fxval my F2 else fxval my F2) * fxval q QF). { unfold oi. destruct ((a <? 0)%Z && (b =? 0)%Z)%bool; unfold F; [|apply fxval_mul]. rewrite <- Z.mul_opp_l, fxval_mul. unfold fxval at 1 3. rewrite opp_IZR. ring. }
  split; [exact Es|]. split; [reflexivity|]. split; [rewrite <- fxval_mul; apply conv_R; exact HfW|]. split; [apply conv_R; exact HfW|]. rewrite Eoi. clear Eoi oi.
  assert (GX : forall c, Rabs (fxval x F' - Px) <= c * S + bpow2 (- F') -> Rabs (fxval mx F2 - 1 * Px) <= c * S + 2 * bpow2 (- F2)). { intros c Hc. rewrite Rmult_1_l. apply Rabs_le_both in Hc. apply Rabs_le_both in Nx. apply Rabs_le. lra. }
  set (w := if ((a <? 0)%Z && (b =? 0)%Z)%bool then - fxval my F2 else fxval my F2).
  assert (SG : s * Py = (if ((a <? 0)%Z && (b =? 0)%Z)%bool then - (s0 * Py) else s0 * Py)).
  { unfold s, s0. destruct (b <? 0)%Z eqn:B1, (- b <? 0)%Z eqn:B2, (a <? 0)%Z eqn:A1, (b =? 0)%Z eqn:B3; cbn [andb]; try lia; try ring. assert (Eb : B = 0) by (unfold B; replace b with 0%Z by lia; unfold fxval; ring). assert (EAZ : Z = A). { unfold Z. rewrite Eb, Rmult_0_l, Rplus_0_r. apply sqrt_square. unfold A, fxval. apply Rmult_le_pos; [apply (IZR_le 0); lia|lra]. } unfold Py. rewrite EAZ. replace ((A - A) / 2) with 0 by lra. rewrite sqrt_0. ring. }
  assert (GY : forall c, Rabs (fxval y F' - Py) <= c * S + bpow2 (- F') -> Rabs (w - s * Py) <= c * S + 2 * bpow2 (- F2)).
  { intros c Hc. assert (H0 : Rabs (fxval my F2 - s0 * Py) <= c * S + 2 * bpow2 (- F2)). { replace (fxval my F2 - s0 * Py) with ((fxval my F2 - fxval y' F') + s0 * (fxval y F' - Py)) by (rewrite Ey'; ring). eapply Rle_trans; [apply Rabs_triang|]. rewrite Rabs_mult, Es0, Rmult_1_l. lra. } rewrite SG. unfold w. destruct ((a <? 0)%Z && (b =? 0)%Z)%bool; [|exact H0]. replace (- fxval my F2 - - (s0 * Py)) with (- (fxval my F2 - s0 * Py)) by ring. rewrite Rabs_Ropp. exact H0. }
  assert (Hs : Rabs s = 1) by (unfold s; destruct (b <? 0)%Z; [rewrite Rabs_pos_eq|rewrite Rabs_left]; lra). assert (PN : forall c v P s', 0 <= c <= 0.03 -> 0 <= P <= S -> Rabs s' = 1 -> Rabs (v - s' * P) <= c * S + 2 * bpow2 (- F2) -> Rabs (v * fxval q QF - s' * (P / Z)) <= (c + d') / S + 2.002 * bpow2 (- F2) / Z).
  { intros c v P s' Hc HP Hs' D. pose proof (prod_near c d d' v (fxval q QF) P Z S (2 * bpow2 (- F2)) s' Hd Hd' Hc PZ ESS PS HP Hs' D ltac:(lra) Nq) as K. replace (1.001 * (2 * bpow2 (- F2))) with (2.002 * bpow2 (- F2)) in K by lra. exact K. }
  assert (H1 : Rabs 1 = 1) by (apply Rabs_pos_eq; lra). split; [|split; [|split]].
  - pose proof (PN 0.0258 _ _ 1 ltac:(lra) BPx H1 (GX _ X1)) as K. rewrite Rmult_1_l in K. rewrite Ec1. exact K.
  - pose proof (PN 0.0258 _ _ s ltac:(lra) BPy Hs (GY _ Y1)) as K. rewrite Ec1. exact K.
  - intros HA. pose proof (PN 0.0021 _ _ 1 ltac:(lra) BPx H1 (GX _ (X2 HA))) as K. rewrite Rmult_1_l in K. rewrite Ec2. exact K.
  - intros HA. pose proof (PN 0.0021 _ _ s ltac:(lra) BPy Hs (GY _ (Y2 HA))) as K. rewrite Ec2. exact K.
Qed.
Lemma isqrt_cplx_real pQ MW MC k W I f a b : (1 <= W)%Z -> (-50 <= W + I)%Z -> (0 <= k)%Z -> (1 <= MW)%Z -> (1 <= MC)%Z -> (1 <= fW f)%Z -> in_range true W a -> in_range true W b -> in_range true (W + k) (- b) -> (a * a + b * b < 2 ^ MW)%Z -> (a * a + b * b < 2 ^ MC)%Z -> (a <> 0 \/ b <> 0)%Z ->
  let A := fxval a (W - I) in let B := fxval b (W - I) in let Z := sqrt (A * A + B * B) in let F2 := ((W + 23) / 2 + 22)%Z in let s := if (b <? 0)%Z then 1 else -1 in
  exists r i X Y, isqrt_cplx pQ MW MC k W I f a b = Some (r, i) /\ convertsR f X r /\ convertsR f Y i /\
    Rabs (X - sqrt ((Z + A) / 2) / Z) <= 0.0266 / sqrt Z + 2.002 * bpow2 (- F2) / Z /\ Rabs (Y - s * (sqrt ((Z - A) / 2) / Z)) <= 0.0266 / sqrt Z + 2.002 * bpow2 (- F2) / Z /\
    (0 <= A -> Rabs (X - sqrt ((Z + A) / 2) / Z) <= 0.0029 / sqrt Z + 2.002 * bpow2 (- F2) / Z) /\ (A <= 0 -> Rabs (Y - s * (sqrt ((Z - A) / 2) / Z)) <= 0.0029 / sqrt Z + 2.002 * bpow2 (- F2) / Z).
Proof.
  intros HW HWI Hk HMW HMC HfW Ha Hb Hnb HM HC Hz A B Z F2 s. destruct (isq_part pQ MW W I a b HW HMW Ha Hb HM Hz) as (q & Eq & Rq & Nq). cbv zeta in Eq, Nq. fold A B in Nq. fold Z in Nq.
  destruct (isq_final_real pQ MC k (W + 23) W I f a b q 0.00076 0.0008 0.0266 0.0029 ltac:(lra) ltac:(lra) ltac:(lra) ltac:(lra) ltac:(lia) Rq HW HWI Hk HMC HfW Ha Hb Hnb HC Hz ltac:(replace (W + 23 - (W - I))%Z with (I + 23)%Z by lia; exact Nq)) as (x & y & r & i & X & Y & E1 & E2 & K).
  exists r, i, X, Y. split; [|exact K]. unfold isqrt_cplx. rewrite E1, Eq, E2. reflexivity.
Qed.
