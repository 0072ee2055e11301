(** Accuracy of the ac_float overloads of the arctangents and of the magnitude of a complex number. *)
From Coq Require Import Reals Lia Lra Psatz ZifyBool.
From Verif Require Import AcTypes AcFacts Spec SpecFacts SpecR SpecRFacts SoftFacts HcFloat AtanNum PwlModel PwlFacts PwlProofs PwlSqrt PwlReal PwlHaModel PwlHaProofs PwlHaReal
  AtanPwlProofs AtanPwlReal AtanPwlThm PwlFloatModel PwlFloat PwlFloat3 PwlCplxModel PwlCplx PwlHaFltModel PwlHaFlt ShiftModel ShiftProofs ArcProofs LeadingProofs AtanFloatModel.
Local Open Scope R_scope.

Lemma flt_ge1_real F m e : flt_ge1 F m e = true <-> 1 <= fltval F m e.
Proof.
  unfold flt_ge1, fltval, fxval. rewrite Rmult_assoc, <- bpow2_add. replace (- F + e)%Z with (e - F)%Z by lia. rewrite (bpow2_split (e - F)). replace (- (e - F))%Z with (F - e)%Z by lia.
  pose proof (pw_pos (F - e)) as P1. apply IZR_lt in P1 as Q1. rewrite Z.leb_le.
  replace (IZR m * (IZR (pw (e - F)) / IZR (pw (F - e)))) with (IZR (m * pw (e - F)) / IZR (pw (F - e))) by (rewrite mult_IZR; field; lra). split; intros H.
  - apply IZR_le in H. apply (Rmult_le_reg_r (IZR (pw (F - e)))); [exact Q1|]. unfold Rdiv. rewrite Rmult_assoc, Rinv_l by lra. lra.
  - apply le_IZR. apply (Rmult_le_compat_r (IZR (pw (F - e)))) in H; [|lra]. unfold Rdiv in H. rewrite Rmult_assoc, Rinv_l in H by lra. lra.
Qed.
Lemma atan_01 u : 0 <= u <= 1 -> 0 <= atan u <= PI / 4.
Proof.
  intros H. pose proof (atan_incr 0 u ltac:(lra)) as A. pose proof (atan_incr u 1 ltac:(lra)) as B. rewrite atan_0 in A. rewrite atan_1 in B. lra.
Qed.

Section Tail.
Variables (at_fi : Z -> Z -> fmt -> Z -> option Z) (gW : Z) (gQ : qmode) (oW p pf : Z) (et epi : R).
Hypothesis HgW : (1 <= gW)%Z.
Hypothesis HoW : (12 <= oW)%Z.
Hypothesis Hpf : (0 <= pf <= oW - 1)%Z.
Hypothesis Het : 0 <= et <= 0.01.
Hypothesis Hepi : Rabs (fxval p pf - PI / 2) <= epi.
Hypothesis Hepi2 : epi <= 0.01.
Hypothesis Acc : forall f x, (1 <= fW f)%Z -> (0 <= x < 2 ^ gW)%Z -> exists out V, at_fi gW 0%Z f x = Some out /\ convertsR f V out /\ 0 <= V /\ Rabs (V - atan (fxval x (gW - 0))) <= et.

Lemma tail_real W2 I big n e u D : (2 <= W2)%Z -> (0 <= n < 2 ^ (W2 - 1))%Z -> 0 <= u <= 1 -> Rabs (fltval (W2 - I) n e - u) <= D ->
  exists o, atan_fl_tail at_fi gW gQ oW p pf W2 I big n e = Some o /\ (0 <= o < 2 ^ oW)%Z /\
    Rabs (fxval o (oW - 1) - (if big then PI / 2 - atan u else atan u)) <= et + D + bpow2 (- gW) + bpow2 (- (oW - 1)) + (if big then epi else 0).
Proof.
  intros HW2 Hn Hu HD. unfold atan_fl_tail. pose proof (pow2_pos (W2 - 1) ltac:(lia)) as PW.
  rewrite (conv_fits (dfmt (W2 - 1) (I - 1) false) n (W2 - I)); [|cbn [dfmt fW]; lia|unfold fF; cbn [dfmt fW fI]; lia|reflexivity|unfold in_range, imin, imax; cbn [dfmt fS fW]; lia].
  set (g := Fmt gW 0 false gQ SAT). pose proof (shift_left_ui_spec (W2 - 1) (I - 1) g n e ltac:(lia) ltac:(unfold g; cbn [fW]; lia) eq_refl Hn) as C. set (x := shift_left_ui _ _ _ _ _) in *.
  apply converts2_R in C. replace (IZR n * bpow2 (- (W2 - 1 - (I - 1)) + e)) with (fltval (W2 - I) n e) in C by (unfold fltval, fxval; rewrite Rmult_assoc, <- bpow2_add; do 2 f_equal; lia).
  set (v := fltval (W2 - I) n e) in *. assert (Hv : 0 <= v) by (unfold v, fltval, fxval; apply Rmult_le_pos; [apply Rmult_le_pos; [apply (IZR_le 0); lia|apply Rlt_le, bpow2_pos]|apply Rlt_le, bpow2_pos]).
  destruct (clamp_near gW gQ v u x HgW Hv Hu C) as [N Hx]. destruct (Acc (dfmt oW 1 false) x ltac:(cbn [dfmt fW]; lia) Hx) as (o & V & E & CV & V0 & B). rewrite E. rewrite Z.sub_0_r in B.
  assert (Hx1 : 0 <= fxval x gW <= 1). { pose proof (bpow2_pos (- gW)) as Pg. unfold fxval. split; [apply Rmult_le_pos; [apply (IZR_le 0); lia|lra]|]. apply Rle_trans with (bpow2 gW * bpow2 (- gW)); [apply Rmult_le_compat_r; [lra|]|rewrite <- bpow2_add; replace (gW + - gW)%Z with 0%Z by lia; rewrite bpow2_0; lra]. rewrite bpow2_IZR by lia. apply IZR_le. lia. }
  pose proof (atan_01 _ Hx1) as A1. pose proof (atan_lip u (fxval x gW)) as AL. pose proof PI_hi as P4. pose proof PI_lo as P3.
  apply Rabs_le_both in B. destruct (convR_dfmt oW 1 false V o ltac:(lia) CV ltac:(cbv iota; rewrite (bpow2_IZR 1) by lia; change (2 ^ 1)%Z with 2%Z; lra)) as [Ro NV].
  set (q := bpow2 (- (oW - 1))) in *. assert (Pq : 0 < q) by apply bpow2_pos. assert (Ho : 0 <= fxval o (oW - 1)) by (unfold in_range, imin, imax in Ro; cbv iota in Ro; unfold fxval; apply Rmult_le_pos; [apply (IZR_le 0); lia|apply Rlt_le, bpow2_pos]).
  destruct big.
  - assert (EP : fxval p pf = fxval (p * 2 ^ (oW - 1 - pf)) (oW - 1)). { unfold fxval. rewrite mult_IZR, <- bpow2_IZR by lia. rewrite Rmult_assoc, <- bpow2_add. do 2 f_equal. lia. }
    set (P := (p * 2 ^ (oW - 1 - pf))%Z) in *. assert (ES : fxval (P - o) (oW - 1) = fxval p pf - fxval o (oW - 1)) by (rewrite EP; unfold fxval; rewrite minus_IZR; ring).
    pose proof (Rabs_le_both _ _ Hepi) as Hep. assert (Rg : (0 <= P - o < 2 ^ oW)%Z).
    { assert (G : 0 <= fxval (P - o) (oW - 1) < 2) by (rewrite ES; split; lra). unfold fxval in G. fold q in G. assert (EQ : IZR (2 ^ oW) * q = 2). { rewrite <- bpow2_IZR by lia. unfold q. rewrite <- bpow2_add. replace (oW + - (oW - 1))%Z with 1%Z by lia. apply (bpow2_IZR 1). lia. }
      split; [apply (le_IZR 0); apply Rnot_lt_le; intros Q; nra|apply lt_IZR; nra]. }
    rewrite (conv_fits (dfmt oW 1 false) (P - o) (oW - 1)); [|cbn [dfmt fW]; lia|unfold fF; cbn [dfmt fW fI]; lia|reflexivity|unfold in_range, imin, imax; cbn [dfmt fS fW]; lia].
    exists (P - o)%Z. split; [reflexivity|]. split; [exact Rg|]. rewrite ES. assert (AL' : Rabs (atan (fxval x gW) - atan u) <= D + bpow2 (- gW)) by (eapply Rle_trans; [exact AL|]; lra). apply Rabs_le_both in AL'. apply Rabs_le. lra.
  - exists o. split; [reflexivity|]. split; [unfold in_range, imin, imax in Ro; cbv iota in Ro; lia|]. assert (AL' : Rabs (atan (fxval x gW) - atan u) <= D + bpow2 (- gW)) by (eapply Rle_trans; [exact AL|]; lra). apply Rabs_le_both in AL'. apply Rabs_le. lra.
Qed.

Definition stores (st : Z -> Z -> Z -> Z * Z) (W2 I : Z) (d : R) : Prop :=
  forall F v k, (0 <= v)%Z -> fxval v F * bpow2 k <= 1.01 -> let '(n, j) := st F v k in (0 <= n < 2 ^ (W2 - 1))%Z /\ Rabs (fxval n (W2 - I) * bpow2 j - fxval v F * bpow2 k) <= d.

Lemma fl_real recip rF er W2 st W I m e d : let X := fltval (W - I) m e in
  (2 <= W2)%Z -> (0 <= m)%Z -> 0 <= er <= 0.01 ->
  ((m <> 0)%Z -> exists v k, recip m e = Some (v, k) /\ Rabs (fltval rF v k - / X) <= er * / Rabs X) ->
  stores st W2 I d ->
  exists o, atan_fl recip rF at_fi gW gQ oW p pf W2 st W I m e = Some o /\ (0 <= o < 2 ^ oW)%Z /\
    Rabs (fxval o (oW - 1) - atan X) <= et + epi + er + bpow2 (- gW) + bpow2 (- (oW - 1)) + d.
Proof.
  intros X HW2 Hm Her Hrec Hst. unfold atan_fl. pose proof (flt_ge1_real (W - I) m e) as G. fold X in G. assert (He0 : 0 <= epi) by (eapply Rle_trans; [apply Rabs_pos|exact Hepi]).
  assert (HX : 0 <= X) by (unfold X, fltval, fxval; apply Rmult_le_pos; [apply Rmult_le_pos; [apply (IZR_le 0); lia|apply Rlt_le, bpow2_pos]|apply Rlt_le, bpow2_pos]).
  destruct (flt_ge1 (W - I) m e).
  - assert (X1 : 1 <= X) by (apply G; reflexivity). assert (Hm0 : (m <> 0)%Z). { intros Z0. unfold X, fltval, fxval in X1. rewrite Z0, !Rmult_0_l in X1. lra. }
    destruct (Hrec Hm0) as (v & k & E & B). rewrite E. rewrite (Rabs_pos_eq X) in B by lra. set (u := / X) in *. assert (Hu : 0 < u <= 1) by (unfold u; split; [apply Rinv_0_lt_compat; lra|rewrite <- Rinv_1; apply Rinv_le_contravar; lra]).
    assert (Bu : er * u <= er) by nra. apply Rabs_le_both in B. assert (V0 : (0 <= v)%Z). { apply Z.lt_le_incl. apply (lt_IZR 0). assert (0 < fltval rF v k) by nra. unfold fltval, fxval in H. pose proof (bpow2_pos (- rF)). pose proof (bpow2_pos k). apply Rnot_le_lt. intros Q. assert (IZR v * bpow2 (- rF) <= 0) by nra. nra. }
    specialize (Hst rF v k V0). change (fxval v rF * bpow2 k) with (fltval rF v k) in Hst. specialize (Hst ltac:(lra)). destruct (st rF v k) as [n j]. destruct Hst as [Hn Hd]. apply Rabs_le_both in Hd.
    assert (HD : Rabs (fltval (W2 - I) n j - u) <= er + d) by (unfold fltval in *; apply Rabs_le; lra).
    destruct (tail_real W2 I true n j u (er + d) HW2 Hn ltac:(lra) HD) as (o & Eo & Ro & Bo). exists o. split; [exact Eo|]. split; [exact Ro|].
    assert (AX : atan X = PI / 2 - atan u) by (rewrite <- (Rinv_inv X); apply atan_recip; exact (proj1 Hu)). rewrite AX. lra.
  - assert (X1 : X < 1) by (apply Rnot_le_lt; intros Q; apply G in Q; discriminate). specialize (Hst (W - I)%Z m e Hm). change (fxval m (W - I) * bpow2 e) with X in Hst. specialize (Hst ltac:(lra)). destruct (st (W - I)%Z m e) as [n j]. destruct Hst as [Hn HD].
    destruct (tail_real W2 I false n j X d HW2 Hn ltac:(lra) HD) as (o & Eo & Ro & Bo). exists o. split; [exact Eo|]. split; [exact Ro|]. lra.
Qed.
End Tail.

Lemma flt_store_ok W2 I : (2 <= W2)%Z -> stores (flt_store W2 I) W2 I (1.01 * bpow2 (- (W2 - 2))).
Proof.
  intros HW F v k Hv HX. unfold flt_store. set (s := (nbits v - (W2 - 1))%Z). pose proof (nbits_ub v Hv) as U. pose proof (nbits_nonneg v) as K0. assert (PW : (0 < 2 ^ (W2 - 1))%Z) by (apply Z.pow_pos_nonneg; lia).
  pose proof (bpow2_pos (- (W2 - 2))) as Pd. set (X := fxval v F * bpow2 k) in *.
  assert (ES : forall n, fxval n (W2 - I) * bpow2 (k + s + (W2 - I) - F) = IZR n * bpow2 s * bpow2 (k - F)). { intros n. unfold fxval. rewrite !Rmult_assoc, <- !bpow2_add. do 2 f_equal. lia. }
  assert (EX : X = IZR v * bpow2 (k - F)). { unfold X, fxval. rewrite Rmult_assoc, <- bpow2_add. do 2 f_equal. lia. } pose proof (bpow2_pos (k - F)) as Pk.
  destruct (Z.leb_spec s 0) as [L|L].
  - split.
    + pose proof (Z.pow_pos_nonneg 2 (- s) ltac:(lia) ltac:(lia)) as PS. split; [nia|]. assert (E : (2 ^ (W2 - 1) = 2 ^ nbits v * 2 ^ (- s))%Z) by (rewrite <- Z.pow_add_r by (unfold s in *; lia); f_equal; unfold s; lia). rewrite E. nia.
    + rewrite ES, EX, mult_IZR, <- bpow2_IZR by lia. rewrite !Rmult_assoc, <- (Rmult_assoc (bpow2 (- s))), <- bpow2_add. replace (- s + s)%Z with 0%Z by lia. rewrite bpow2_0, Rmult_1_l, Rminus_eq_0, Rabs_R0. nra.
  - assert (PS : (0 < 2 ^ s)%Z) by (apply Z.pow_pos_nonneg; lia). assert (E : (2 ^ nbits v = 2 ^ (W2 - 1) * 2 ^ s)%Z) by (rewrite <- Z.pow_add_r by lia; f_equal; unfold s; lia).
    split; [split; [apply Z.div_pos; lia|apply Z.div_lt_upper_bound; lia]|]. rewrite ES, EX.
    assert (V1 : (1 <= v)%Z). { destruct (Z.eq_dec v 0) as [Z0|]; [|lia]. exfalso. subst v. unfold s in L. change (nbits 0) with 0%Z in L. lia. }
    pose proof (nbits_lb v ltac:(lia)) as LB. assert (E2 : (2 ^ (nbits v - 1) = 2 ^ (W2 - 2) * 2 ^ s)%Z) by (rewrite <- Z.pow_add_r by lia; f_equal; unfold s; lia).
    pose proof (Z_div_mod_eq_full v (2 ^ s)) as DM. pose proof (Z.mod_pos_bound v (2 ^ s) PS) as MB. rewrite (bpow2_IZR s) by lia. rewrite <- Rmult_minus_distr_r, Rabs_mult, (Rabs_pos_eq (bpow2 (k - F))) by lra. rewrite <- mult_IZR, <- minus_IZR, <- abs_IZR.
    assert (B : IZR (Z.abs (v / 2 ^ s * 2 ^ s - v)) <= IZR (2 ^ s)) by (apply IZR_le; lia). assert (B2 : IZR (2 ^ s) <= IZR v * bpow2 (- (W2 - 2))).
    { apply (Rmult_le_reg_r (bpow2 (W2 - 2))); [apply bpow2_pos|]. rewrite Rmult_assoc, <- bpow2_add. replace (- (W2 - 2) + (W2 - 2))%Z with 0%Z by lia. rewrite bpow2_0, Rmult_1_r, (bpow2_IZR (W2 - 2)) by lia. rewrite <- mult_IZR. apply IZR_le. lia. }
    rewrite EX in HX. clear - B B2 HX Pk Pd. set (q := bpow2 (- (W2 - 2))) in *. set (K := bpow2 (k - F)) in *. apply Rle_trans with (IZR v * q * K); [apply Rmult_le_compat_r; lra|]. replace (IZR v * q * K) with (IZR v * K * q) by ring. apply Rmult_le_compat_r; lra.
Qed.

Lemma bp14 : bpow2 (- (14)) = / 16384. Proof. rewrite bpow2_opp, bpow2_IZR by lia. reflexivity. Qed.
Lemma bp15 : bpow2 (- (15)) = / 32768. Proof. rewrite bpow2_opp, bpow2_IZR by lia. reflexivity. Qed.
Lemma bp_22 : bpow2 (- (23 - 1)) <= 0.000001. Proof. rewrite bpow2_opp, bpow2_IZR by lia. replace (2 ^ (23 - 1))%Z with 4194304%Z by reflexivity. lra. Qed.
Lemma bp_27 : bpow2 (- (28 - 1)) <= 0.0000001. Proof. rewrite bpow2_opp, bpow2_IZR by lia. replace (2 ^ (28 - 1))%Z with 134217728%Z by reflexivity. lra. Qed.
Lemma bp_32 : bpow2 (- (32)) <= 0.000000001. Proof. rewrite bpow2_opp, bpow2_IZR by lia. replace (2 ^ 32)%Z with 4294967296%Z by reflexivity. lra. Qed.
Lemma bp_42 : bpow2 (- (43 - 1)) <= 0.000000001. Proof. rewrite bpow2_opp, bpow2_IZR by lia. replace (2 ^ (43 - 1))%Z with 4398046511104%Z by reflexivity. lra. Qed.

Lemma atan_flt_real pQ st W I m e d : let X := fltval (W - I) m e in
  (2 <= W)%Z -> (0 <= m < 2 ^ (W - 1))%Z -> stores st (Z.max 1 (Z.min 10 (W - 4)) + 12) I d ->
  exists o, atan_flt pQ st W I m e = Some o /\ (0 <= o < 2 ^ 23)%Z /\ Rabs (fxval o 22 - atan X) <= 0.0079 + d.
Proof.
  intros X HW Hm Hst. unfold atan_flt. replace (Z.max 1 (Z.min 10 (W - 4)) + 10 + 2)%Z with (Z.max 1 (Z.min 10 (W - 4)) + 12)%Z by lia.
  destruct (fl_real (atan_pwl pQ) 14 RND 23 1608 10 0.0048 0.0005 ltac:(lia) ltac:(lia) ltac:(lia) ltac:(lra) an_pi ltac:(lra) (fun f x => an_real pQ 14 0 f x ltac:(lia))
    (recip_flt pQ TRN W I) (recip_flt_fb W + 9 + I) 0.0025 (Z.max 1 (Z.min 10 (W - 4)) + 12) st W I m e d ltac:(lia) ltac:(lia) ltac:(lra) (recip_flt_real pQ TRN W I m e HW ltac:(unfold in_range, imin, imax; cbv iota; lia)) Hst) as (o & E & R & B).
  exists o. split; [exact E|]. split; [exact R|]. pose proof bp14. pose proof bp_22. change (23 - 1)%Z with 22%Z in *. fold X in B. lra.
Qed.
Lemma atan_ha_flt_real pQ st W I m e d : let X := fltval (W - I) m e in
  (2 <= W)%Z -> (0 <= m < 2 ^ (W - 1))%Z -> stores st (Z.max 34 W) I d ->
  exists o, atan_ha_flt pQ st W I m e = Some o /\ (0 <= o < 2 ^ 43)%Z /\ Rabs (fxval o 42 - atan X) <= 0.00029 + d.
Proof.
  intros X HW Hm Hst. unfold atan_ha_flt.
  destruct (fl_real (atan_pwl_ha pQ) 32 RND 43 3373259426 31 0.00013 0.000000001 ltac:(lia) ltac:(lia) ltac:(lia) ltac:(lra) ah_pi ltac:(lra) (fun f x => ah_real pQ 32 0 f x ltac:(lia))
    (recip_ha_flt pQ TRN W I) (recip_ha_fb W + 15 + I) 0.00015 (Z.max 34 W) st W I m e d ltac:(lia) ltac:(lia) ltac:(lra) (recip_ha_flt_real pQ TRN W I m e ltac:(lia) ltac:(unfold in_range, imin, imax; cbv iota; lia)) Hst) as (o & E & R & B).
  exists o. split; [exact E|]. split; [exact R|]. pose proof bp_32. pose proof bp_42. change (43 - 1)%Z with 42%Z in *. fold X in B. lra.
Qed.
Lemma atan_vha_flt_real pQ st W I m e d : let X := fltval (W - I) m e in
  (2 <= W)%Z -> (0 <= m < 2 ^ (W - 1))%Z -> stores st 16 I d ->
  exists o, atan_vha_flt pQ st W I m e = Some o /\ (0 <= o < 2 ^ 28)%Z /\ Rabs (fxval o 27 - atan X) <= 0.00021 + d.
Proof.
  intros X HW Hm Hst. unfold atan_vha_flt.
  destruct (fl_real (atan_pwl_vha pQ) 15 TRN 28 51471 15 0.0001 0.000027 ltac:(lia) ltac:(lia) ltac:(lia) ltac:(lra) av_pi ltac:(lra) (fun f x => av_real pQ 15 0 f x ltac:(lia))
    (recip_vha_flt pQ TRN W I) (recip_vha_fb W + 15 + I) 0.00005 16 st W I m e d ltac:(lia) ltac:(lia) ltac:(lra) (recip_vha_flt_real pQ TRN W I m e HW ltac:(unfold in_range, imin, imax; cbv iota; lia)) Hst) as (o & E & R & B).
  exists o. split; [exact E|]. split; [exact R|]. pose proof bp15. pose proof bp_27. change (28 - 1)%Z with 27%Z in *. fold X in B. lra.
Qed.

(** ** Magnitude of a complex number *)
Lemma abs_cplx_real pQ MW W I f a b : let A := fxval a (W - I) in let B := fxval b (W - I) in
  (1 <= MW)%Z -> (1 <= fW f)%Z -> fS f = false -> (a * a + b * b < 2 ^ MW)%Z -> (a <> 0 \/ b <> 0)%Z ->
  exists out V, abs_cplx pQ MW W I f a b = Some out /\ convertsR f V out /\ Rabs (V - sqrt (A * A + B * B)) <= 0.0012 * sqrt (A * A + B * B).
Proof.
  intros A B HMW HfW HfS HM Hz. unfold abs_cplx. rewrite mag_sqr_val by exact HM. assert (Hn : (0 < a * a + b * b)%Z) by nia.
  destruct (sqrt_real pQ MW (MW - 2 * (W - I)) WRAP f true (a * a + b * b) HMW HfW HfS ltac:(lia) ltac:(left; reflexivity)) as (out & V & E & C & D).
  replace (MW - (MW - 2 * (W - I)))%Z with (2 * (W - I))%Z in D by lia. rewrite sum_sq in D. exists out, V. split; [exact E|]. split; [exact C|exact D].
Qed.
Lemma abs_cplx_zero pQ MW W I f : (1 <= MW)%Z -> abs_cplx pQ MW W I f 0 0 = Some 0%Z.
Proof. intros H. unfold abs_cplx. rewrite mag_sqr_val by (apply Z.pow_pos_nonneg; lia). apply sqrt_zero. Qed.
Lemma abs_cplx_mono pQ MW W I f a b a' b' x y : (1 <= MW)%Z -> (1 <= fW f)%Z -> fS f = false -> fO f = SAT \/ fO f = SAT_SYM ->
  (a * a + b * b <= a' * a' + b' * b' < 2 ^ MW)%Z -> abs_cplx pQ MW W I f a b = Some x -> abs_cplx pQ MW W I f a' b' = Some y -> (x <= y)%Z.
Proof.
  intros HMW HfW HfS HO HM. unfold abs_cplx. rewrite !mag_sqr_val by lia. intros Ex Ey. eapply sqrt_increasing; [exact HMW|exact HfW|exact HfS|exact HO| |exact (proj2 HM)|left; reflexivity|exact Ex|exact Ey]. nia.
Qed.
