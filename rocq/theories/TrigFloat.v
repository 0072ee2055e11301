(** The ac_float overloads of the CORDIC sine, cosine, arc sine and arc cosine: accuracy. *)
From Coq Require Import Reals Lia Lra Psatz ZifyBool.
From Verif Require Import AcTypes AcFacts Spec SpecFacts SpecR SpecRFacts SoftFacts ShiftModel ShiftProofs CordicModel CordicThm ArcModel ArcThm ArcSin HcFloat TrigFloatModel.
Local Open Scope R_scope.

(** The shifted argument: rounded to the nearest multiple, then wrapped. *)
Lemma shift_R W I w i m e : (1 <= W)%Z -> (1 <= w)%Z -> in_range true W m ->
  exists z, Rabs (IZR z - fltval (W - I) m e * bpow2 (w - i)) <= / 2 /\ is_limited WRAP true w z (shift_left_si W I (Fmt w i true RND WRAP) m e).
Proof.
  intros HW Hw Hm. unfold in_range, imin, imax in Hm. pose proof (shift_left_si_spec W I (Fmt w i true RND WRAP) m e HW ltac:(cbn [fW]; lia) eq_refl ltac:(lia)) as SP. apply converts2_R in SP. replace (IZR m * bpow2 (- (W - I) + e)) with (fltval (W - I) m e) in SP by (unfold fltval, fxval; rewrite bpow2_add; ring).
  destruct SP as (z & Hr & Hl). exists z. unfold fF in Hr. cbn [fQ fW fI] in Hr. cbn [fO fS fW] in Hl. split; [|exact Hl]. destruct Hr as [Hr _]. rewrite Rabs_minus_sym. exact Hr.
Qed.

Lemma sin_period_Z x n : sin (x + 2 * IZR n * PI) = sin x.
Proof. destruct (Z.le_ge_cases 0 n) as [H|H].
  - rewrite <- (Z2Nat.id n H), <- INR_IZR_INZ. apply sin_period.
  - replace x with (x + 2 * IZR n * PI + 2 * IZR (- n) * PI) at 2 by (rewrite opp_IZR; ring). rewrite <- (Z2Nat.id (- n)) by lia. rewrite <- INR_IZR_INZ. symmetry. apply sin_period. Qed.
Lemma cos_period_Z x n : cos (x + 2 * IZR n * PI) = cos x.
Proof. rewrite !cos_sin. rewrite <- Rplus_assoc. apply sin_period_Z. Qed.

Lemma sincos_flt_real W I m e : (1 <= W)%Z -> in_range true W m -> let X := fltval (W - I) m e in
  Rabs (fxval (sin_flt W I m e) 28 - sin (PI * X)) <= 4 * bpow2 (-28) + PI * bpow2 (-26) /\ Rabs (fxval (cos_flt W I m e) 28 - cos (PI * X)) <= 4 * bpow2 (-28) + PI * bpow2 (-26).
Proof.
  intros HW Hm X. destruct (shift_R W I 40 15 m e HW ltac:(lia) Hm) as (z & D & L). fold X in D. unfold sin_flt, cos_flt. set (a := shift_left_si _ _ _ _ _) in *. destruct (sincos_one 40 15 (dfmt 35 7 true) a ltac:(lia) ltac:(cbn; lia) ltac:(unfold fF; cbn; lia) ltac:(cbn; lia) eq_refl ltac:(discriminate)) as [S C]. change (fF (dfmt 35 7 true)) with 28%Z in *. change (40 - 15)%Z with 25%Z in *. change (- (28))%Z with (-28)%Z in *.
  cbn [is_limited] in L. destruct L as [_ [k Lk]]. assert (K : exists n, a = (z + n * 2 ^ 40)%Z) by (exists (- k)%Z; lia). destruct K as [n Ea].
  assert (EA : PI * fxval a 25 = PI * fxval z 25 + 2 * IZR (n * 2 ^ 14) * PI). { rewrite Ea. unfold fxval. rewrite plus_IZR, !mult_IZR, bpow2_opp, bpow2_IZR by lia. change (IZR (2 ^ 40)) with 1099511627776. change (IZR (2 ^ 25)) with 33554432. change (IZR (2 ^ 14)) with 16384. field. }
  rewrite EA in S, C. rewrite sin_period_Z in S. rewrite cos_period_Z in C. pose proof PI_RGT_0 as PP. assert (DZ : Rabs (PI * fxval z 25 - PI * X) <= PI * bpow2 (-26)).
  { rewrite <- Rmult_minus_distr_l, Rabs_mult, (Rabs_pos_eq PI) by lra. apply Rmult_le_compat_l; [lra|]. unfold fxval. change (-26)%Z with (- (25) + - (1))%Z. rewrite bpow2_add. pose proof (bpow2_pos (- (25))) as P. set (h := bpow2 (- (25))) in *. assert (E1 : bpow2 25 * h = 1) by (unfold h; rewrite <- bpow2_add; reflexivity). replace (IZR z * h - X) with ((IZR z - X * bpow2 25) * h) by (rewrite Rmult_minus_distr_r, Rmult_assoc, E1; ring). rewrite Rabs_mult, (Rabs_pos_eq h) by lra. rewrite bpow2_opp, bpow2_1. change (/ 2)%R with (/2). rewrite (Rmult_comm h). apply Rmult_le_compat_r; [lra|exact D]. }
  pose proof (sin_lip (PI * fxval z 25) (PI * X)) as L1. pose proof (cos_lip (PI * fxval z 25) (PI * X)) as L2. split.
  - replace (fxval (sin_cordic 40 15 (dfmt 35 7 true) a) 28 - sin (PI * X)) with ((fxval (sin_cordic 40 15 (dfmt 35 7 true) a) 28 - sin (PI * fxval z 25)) + (sin (PI * fxval z 25) - sin (PI * X))) by ring. eapply Rle_trans; [apply Rabs_triang|lra].
  - replace (fxval (cos_cordic 40 15 (dfmt 35 7 true) a) 28 - cos (PI * X)) with ((fxval (cos_cordic 40 15 (dfmt 35 7 true) a) 28 - cos (PI * fxval z 25)) + (cos (PI * fxval z 25) - cos (PI * X))) by ring. eapply Rle_trans; [apply Rabs_triang|lra].
Qed.

Lemma sin_jordan d : 0 <= d <= PI / 2 -> 2 * d <= PI * sin d.
Proof.
  intros Hd. pose proof PI_RGT_0 as PP. destruct (Req_dec d 0) as [->|N0]; [rewrite sin_0; lra|]. destruct (Req_dec d (PI / 2)) as [->|N1]; [rewrite sin_PI2; lra|].
  destruct (MVT_cor2 sin cos 0 d ltac:(lra) (fun c _ => derivable_pt_lim_sin c)) as (c1 & E1 & H1). destruct (MVT_cor2 sin cos d (PI / 2) ltac:(lra) (fun c _ => derivable_pt_lim_sin c)) as (c2 & E2 & H2). rewrite sin_0 in E1. rewrite sin_PI2 in E2.
  assert (C : cos c2 <= cos c1) by (apply cos_decr_1; lra). assert (cos c2 * (PI / 2 - d) * d <= cos c1 * (PI / 2 - d) * d) by (apply Rmult_le_compat_r; [lra|apply Rmult_le_compat_r; lra]). replace (cos c2 * (PI / 2 - d) * d) with ((1 - sin d) * d) in H by (rewrite E2; ring). replace (cos c1 * (PI / 2 - d) * d) with (sin d * (PI / 2 - d)) in H; [lra|]. replace (sin d) with (sin d - 0) by ring. rewrite E1. ring.
Qed.
(** The modulus of continuity of the arc sine. *)
Lemma asin_cont a b : -1 <= b <= a -> a <= 1 -> (asin a - asin b) * (asin a - asin b) <= PI * PI * ((a - b) / 2).
Proof.
  intros Hb Ha. pose proof (asin_bound a) as BA. pose proof (asin_bound b) as BB. pose proof (sin_asin a ltac:(lra)) as SA. pose proof (sin_asin b ltac:(lra)) as SB. set (al := asin a) in *. set (be := asin b) in *. pose proof PI_RGT_0 as PP.
  set (s := (al + be) / 2). set (d := (al - be) / 2). assert (E : a - b = 2 * cos s * sin d). { rewrite <- SA, <- SB. replace al with (s + d) by (unfold s, d; lra). replace be with (s - d) by (unfold s, d; lra). rewrite sin_plus, sin_minus. ring. }
  assert (Hd : 0 <= d). { destruct (Rle_lt_dec be al) as [G|G]; [unfold d; lra|exfalso]. assert (sin al < sin be) by (apply sin_increasing_1; lra). lra. } assert (Hd2 : d <= PI / 2) by (unfold d; lra).
  assert (Cs : sin d <= cos s). { rewrite <- cos_shift. assert (Hs : - (PI / 2 - d) <= s <= PI / 2 - d) by (unfold s, d; lra). destruct (Rle_lt_dec 0 s) as [G|G]; [apply cos_decr_1; lra|]. rewrite <- (cos_neg s). apply cos_decr_1; lra. }
  assert (Sd0 : 0 <= sin d) by (apply sin_ge_0; lra). pose proof (sin_jordan d ltac:(lra)) as Sd.
  replace (al - be) with (2 * d) by (unfold d; lra). rewrite E. assert (sin d * sin d <= cos s * sin d) by (apply Rmult_le_compat_r; lra). assert (2 * d * (2 * d) <= PI * sin d * (PI * sin d)) by (apply Rmult_le_compat; lra). replace (PI * PI * (2 * cos s * sin d / 2)) with (PI * PI * (cos s * sin d)) by lra. assert (PI * PI * (sin d * sin d) <= PI * PI * (cos s * sin d)) by (apply Rmult_le_compat_l; [nra|lra]). lra.
Qed.

(** ** Arc sine and arc cosine *)
Lemma unit_arg W I m e : (1 <= W)%Z -> in_range true W m -> let X := fltval (W - I) m e in let a := shift_left_si W I (Fmt 20 2 true RND WRAP) m e in
  Rabs X <= 1 -> Rabs (fxval a 18) <= 1 /\ Rabs (fxval a 18 - X) <= bpow2 (-19).
Proof.
  intros HW Hm X a HX. destruct (shift_R W I 20 2 m e HW ltac:(lia) Hm) as (z & D & L). fold X in D. fold a in L. change (20 - 2)%Z with 18%Z in D. rewrite bpow2_IZR in D by lia. change (IZR (2 ^ 18)) with 262144 in D. apply Rabs_le_both in D. apply Rabs_le_both in HX.
  assert (Z1 : (z < 262145)%Z) by (apply lt_IZR; lra). assert (Z2 : (-262145 < z)%Z) by (apply lt_IZR; lra). assert (a = z). { cbn [is_limited] in L. unfold lowest, highest in L. destruct L as [L [k E]]. change (2 ^ (20 - 1))%Z with 524288%Z in L. change (2 ^ 20)%Z with 1048576%Z in E. lia. } subst z. unfold fxval. change (-19)%Z with (- (19))%Z. rewrite !bpow2_opp, !bpow2_IZR by lia. change (IZR (2 ^ 18)) with 262144. change (IZR (2 ^ 19)) with 524288.
  assert (IZR a <= 262144) by (apply IZR_le; lia). assert (-262144 <= IZR a) by (apply IZR_le; lia). split; apply Rabs_le; lra.
Qed.

Lemma asin_near X P : Rabs X <= 1 -> Rabs P <= 1 -> Rabs (P - X) <= bpow2 (-19) -> Rabs (asin P / PI - asin X / PI) <= bpow2 (-10).
Proof.
  intros HX HP D. apply Rabs_le_both in HX, HP, D. pose proof PI_RGT_0 as PP. assert (K : forall a b, -1 <= b <= a -> a <= 1 -> a - b <= bpow2 (-19) -> Rabs (asin a - asin b) <= PI * bpow2 (-10)).
  { intros a b Hb Ha Hab. pose proof (asin_cont a b Hb Ha) as C. pose proof (bpow2_pos (-10)) as P1. set (d := asin a - asin b) in *. assert (E : bpow2 (-19) = 2 * (bpow2 (-10) * bpow2 (-10))). { rewrite <- bpow2_add. change (-10 + -10)%Z with (-19 + - (1))%Z. rewrite bpow2_add, bpow2_opp, bpow2_1. lra. } rewrite E in Hab. set (h := bpow2 (-10)) in *. assert (D2 : d * d <= PI * h * (PI * h)). { eapply Rle_trans; [exact C|]. replace (PI * h * (PI * h)) with (PI * PI * (h * h)) by ring. apply Rmult_le_compat_l; [nra|lra]. }
    apply Rsqr_incr_0_var; [|apply Rmult_le_pos; lra]. rewrite <- Rsqr_abs. exact D2. }
  replace (asin P / PI - asin X / PI) with ((asin P - asin X) * / PI) by (unfold Rdiv; ring). assert (P2 : 0 < / PI) by (apply Rinv_0_lt_compat; exact PP). rewrite Rabs_mult, (Rabs_pos_eq (/ PI)) by lra. apply (Rmult_le_reg_r PI); [exact PP|]. rewrite Rmult_assoc, Rinv_l, Rmult_1_r by lra. rewrite (Rmult_comm _ PI).
  destruct (Rle_lt_dec X P) as [G|G]; [apply K; lra|]. rewrite Rabs_minus_sym. apply K; lra.
Qed.
Lemma acos_near X P : Rabs X <= 1 -> Rabs P <= 1 -> Rabs (P - X) <= bpow2 (-19) -> Rabs (acos P / PI - acos X / PI) <= bpow2 (-10).
Proof.
  intros HX HP D. pose proof (asin_near X P HX HP D) as K. pose proof PI_RGT_0 as PP. apply Rabs_le_both in HX, HP. rewrite !acos_asin by lra. replace ((PI / 2 - asin P) / PI - (PI / 2 - asin X) / PI) with (- (asin P / PI - asin X / PI)) by (field; lra). rewrite Rabs_Ropp. exact K.
Qed.

Lemma asin_flt_real W I m e : (1 <= W)%Z -> in_range true W m -> let X := fltval (W - I) m e in Rabs X <= 1 ->
  exists P, Rabs P <= 1 /\ Rabs (P - X) <= bpow2 (-19) /\ Rabs (fxval (asin_flt W I m e) 30 - asin P / PI) <= 5 * bpow2 (-30).
Proof.
  intros HW Hm X HX. destruct (unit_arg W I m e HW Hm HX) as [HA HD]. fold X in HD. unfold asin_flt. set (a := shift_left_si _ _ _ _ _) in *. exists (fxval a 18). split; [exact HA|]. split; [exact HD|]. destruct (arcsin_accurate 18 (dfmt 35 5 true) a ltac:(cbn; lia) ltac:(unfold fF; cbn; lia) HA) as (V & DV & C). change (fF (dfmt 35 5 true)) with 30%Z in DV. change (- (30))%Z with (-30)%Z in DV.
  assert (B : -1 <= asin (fxval a 18) / PI <= 1). { pose proof PI_RGT_0 as PP. pose proof (asin_bound (fxval a 18)) as AB. split; apply (Rmult_le_reg_r PI); try exact PP; unfold Rdiv; rewrite Rmult_assoc, Rinv_l by lra; lra. } assert (U : bpow2 (-30) = / 1073741824) by (change (-30)%Z with (- (30))%Z; rewrite bpow2_opp, bpow2_IZR by lia; reflexivity). rewrite U in *. apply Rabs_le_both in DV.
  destruct (convR_dfmt 35 5 true V _ ltac:(lia) C ltac:(cbv iota; rewrite bpow2_IZR by lia; change (IZR (2 ^ (5 - 1))) with 16; lra)) as [_ N]. change (35 - 5)%Z with 30%Z in N. change (- (30))%Z with (-30)%Z in N. rewrite U in N. apply Rabs_le. lra.
Qed.
Lemma acos_flt_real W I m e : (1 <= W)%Z -> in_range true W m -> let X := fltval (W - I) m e in Rabs X <= 1 ->
  exists P, Rabs P <= 1 /\ Rabs (P - X) <= bpow2 (-19) /\ Rabs (fxval (acos_flt W I m e) 30 - acos P / PI) <= 5 * bpow2 (-30).
Proof.
  intros HW Hm X HX. destruct (unit_arg W I m e HW Hm HX) as [HA HD]. fold X in HD. unfold acos_flt. set (a := shift_left_si _ _ _ _ _) in *. exists (fxval a 18). split; [exact HA|]. split; [exact HD|]. destruct (arccos_accurate 18 (dfmt 35 5 false) a ltac:(cbn; lia) ltac:(unfold fF; cbn; lia) HA) as (V & DV & C & NV). change (fF (dfmt 35 5 false)) with 30%Z in DV. change (- (30))%Z with (-30)%Z in DV. pose proof PI_RGT_0 as PP. pose proof (acos_bound (fxval a 18)) as AB.
  assert (B : 0 <= acos (fxval a 18) / PI <= 1). { split; apply (Rmult_le_reg_r PI); try exact PP; unfold Rdiv; rewrite Rmult_assoc, Rinv_l by lra; lra. } assert (U : bpow2 (-30) = / 1073741824) by (change (-30)%Z with (- (30))%Z; rewrite bpow2_opp, bpow2_IZR by lia; reflexivity). rewrite U in *. apply Rabs_le_both in DV.
  assert (V0 : 0 <= V). { destruct (Z.le_gt_cases 0 a) as [G|G]; [exact (NV G)|]. assert (N : fxval a 18 < 0) by (unfold fxval; apply (IZR_lt a 0) in G; pose proof (bpow2_pos (- (18))); nra). assert (PI / 2 <= acos (fxval a 18)). { apply Rabs_le_both in HA. rewrite acos_asin by lra. pose proof (asin_bound (fxval a 18)). assert (asin (fxval a 18) <= 0); [|lra]. destruct (Rle_lt_dec (asin (fxval a 18)) 0) as [H0|H0]; [exact H0|exfalso]. assert (0 < sin (asin (fxval a 18))) by (apply sin_gt_0; lra). rewrite sin_asin in H1 by lra. lra. } assert (/ 2 <= acos (fxval a 18) / PI) by (apply (Rmult_le_reg_r PI); try exact PP; unfold Rdiv; rewrite Rmult_assoc, Rinv_l by lra; lra). lra. }
  destruct (convR_dfmt 35 5 false V _ ltac:(lia) C ltac:(cbv iota; rewrite bpow2_IZR by lia; change (IZR (2 ^ 5)) with 32; lra)) as [_ N]. change (35 - 5)%Z with 30%Z in N. change (- (30))%Z with (-30)%Z in N. rewrite U in N. apply Rabs_le. lra.
Qed.
