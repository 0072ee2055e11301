(** Real-number facts about conversions that do not overflow, used for the functions built on the piecewise-linear ones. *)
From Coq Require Import Reals Lra Lia ZifyBool.
From Verif Require Import AcTypes AcFacts Spec SpecFacts SpecR SpecRFacts.
Local Open Scope R_scope.

Lemma half_lt1 : / 2 < 1. Proof. lra. Qed.

(** Rounding moves a value by at most one unit and never past an integer. *)
Lemma round_near q y z : is_roundR q y z -> Rabs (IZR z - y) <= 1.
Proof.
  unfold is_roundR. destruct q; intros H; try (destruct H as [H _]; rewrite Rabs_minus_sym in H; pose proof half_lt1; lra).
  - apply Rabs_le. lra.
  - destruct H as [A B]. apply Rabs_le. destruct (Rle_dec 0 y) as [P|P]; [specialize (A P)|specialize (B ltac:(lra))]; lra.
Qed.
Lemma round_le q y z b : is_roundR q y z -> y <= IZR b -> (z <= b)%Z.
Proof.
  unfold is_roundR. intros H Hb. destruct (Z_le_gt_dec z b) as [L|G]; [exact L|exfalso].
  assert (G' : IZR b + 1 <= IZR z) by (rewrite <- plus_IZR; apply IZR_le; lia).
  destruct q; try (destruct H as [H _]; apply Rabs_le_both in H; pose proof half_lt1; lra).
  - lra.
  - destruct H as [A B]. destruct (Rle_dec 0 y) as [P|P]; [specialize (A P)|specialize (B ltac:(lra))]; lra.
Qed.
Lemma round_ge q y z b : is_roundR q y z -> IZR b <= y -> (b <= z)%Z.
Proof.
  unfold is_roundR. intros H Hb. destruct (Z_le_gt_dec b z) as [L|G]; [exact L|exfalso].
  assert (G' : IZR z + 1 <= IZR b) by (rewrite <- plus_IZR; apply IZR_le; lia).
  destruct q; try (destruct H as [H _]; apply Rabs_le_both in H; pose proof half_lt1; lra).
  - lra.
  - destruct H as [A B]. destruct (Rle_dec 0 y) as [P|P]; [specialize (A P)|specialize (B ltac:(lra))]; lra.
Qed.

(** A value between the ends of the output type is converted without overflow. *)
Lemma convR_near f V m : (1 <= fW f)%Z -> fO f <> SAT_SYM -> convertsR f V m -> IZR (imin (fS f) (fW f)) <= V * bpow2 (fF f) <= IZR (imax (fS f) (fW f)) ->
  in_range (fS f) (fW f) m /\ Rabs (fxval m (fF f) - V) <= bpow2 (- fF f).
Proof.
  intros HW HO (z & Hr & Hl) [B1 B2]. pose proof (round_ge _ _ _ _ Hr B1) as L. pose proof (round_le _ _ _ _ Hr B2) as U.
  apply is_limited_unique in Hl; [|exact HW]. rewrite overflow_id in Hl; [|exact HW|split; assumption|intros; contradiction]. subst m.
  split; [split; assumption|]. pose proof (round_near _ _ _ Hr) as N. unfold fxval. pose proof (bpow2_pos (- fF f)) as P.
  replace (IZR z * bpow2 (- fF f) - V) with ((IZR z - V * bpow2 (fF f)) * bpow2 (- fF f)).
  - rewrite Rabs_mult, (Rabs_pos_eq (bpow2 (- fF f))) by lra. nra.
  - rewrite Rmult_minus_distr_r, Rmult_assoc, <- bpow2_add. replace (fF f + - fF f)%Z with 0%Z by lia. rewrite bpow2_0. ring.
Qed.

(** Truncation: the result is the largest representable value not above V. *)
Lemma convR_trn f V m : (1 <= fW f)%Z -> fQ f = TRN -> fO f = WRAP -> convertsR f V m ->
  IZR (imin (fS f) (fW f)) <= V * bpow2 (fF f) < IZR (imax (fS f) (fW f) + 1) ->
  in_range (fS f) (fW f) m /\ fxval m (fF f) <= V < fxval m (fF f) + bpow2 (- fF f).
Proof.
  intros HW HQ HO (z & Hr & Hl) [B1 B2]. pose proof (round_ge _ _ _ _ Hr B1) as L. rewrite HQ in Hr. cbn in Hr.
  assert (U : (z < imax (fS f) (fW f) + 1)%Z) by (apply lt_IZR; lra).
  apply is_limited_unique in Hl; [|exact HW]. rewrite HO, overflow_id in Hl; [|exact HW|split; lia|discriminate]. subst m.
  split; [split; lia|]. unfold fxval. pose proof (bpow2_pos (- fF f)) as P.
  assert (E : V = V * bpow2 (fF f) * bpow2 (- fF f)). { rewrite Rmult_assoc, <- bpow2_add. replace (fF f + - fF f)%Z with 0%Z by lia. rewrite bpow2_0. ring. }
  set (y := V * bpow2 (fF f)) in *. rewrite E. nra.
Qed.

Lemma conv_R f x F : (1 <= fW f)%Z -> convertsR f (fxval x F) (conv f x F).
Proof. intros HW. unfold fxval. apply converts2_R. eapply conv_eq_converts2; [exact HW| |reflexivity]. lia. Qed.

Lemma fxval_mul a b F G : fxval (a * b) (F + G) = fxval a F * fxval b G.
Proof. unfold fxval. rewrite mult_IZR. replace (- (F + G))%Z with (- F + - G)%Z by lia. rewrite bpow2_add. ring. Qed.
Lemma fxval_add a b F : fxval (a + b) F = fxval a F + fxval b F.
Proof. unfold fxval. rewrite plus_IZR. ring. Qed.
Lemma fxval_opp a F : fxval (- a) F = - fxval a F.
Proof. unfold fxval. rewrite opp_IZR. ring. Qed.
Lemma fxval_le a b F : (a <= b)%Z <-> fxval a F <= fxval b F.
Proof.
  unfold fxval. pose proof (bpow2_pos (- F)). split; intros H1.
  - apply IZR_le in H1. nra.
  - apply le_IZR. nra.
Qed.
Lemma fxval_lt a b F : (a < b)%Z <-> fxval a F < fxval b F.
Proof.
  unfold fxval. pose proof (bpow2_pos (- F)). split; intros H1.
  - apply IZR_lt in H1. nra.
  - apply lt_IZR. nra.
Qed.
Lemma fxval_0 F : fxval 0 F = 0. Proof. unfold fxval. ring. Qed.
Lemma fxval_scale m F : fxval m F * bpow2 F = IZR m.
Proof. unfold fxval. rewrite Rmult_assoc, <- bpow2_add. replace (- F + F)%Z with 0%Z by lia. rewrite bpow2_0. ring. Qed.
Lemma fxval_shift m F k : (0 <= k)%Z -> fxval (m * 2 ^ k) (F + k) = fxval m F.
Proof. intros Hk. unfold fxval. rewrite mult_IZR, <- bpow2_IZR by exact Hk. rewrite Rmult_assoc, <- bpow2_add. do 2 f_equal. lia. Qed.
Lemma fxval_one F : (0 <= F)%Z -> fxval (2 ^ F) F = 1.
Proof. intros HF. unfold fxval. rewrite <- bpow2_IZR by exact HF. rewrite <- bpow2_add. replace (F + - F)%Z with 0%Z by lia. apply bpow2_0. Qed.
Lemma fxval_pow k F : (0 <= k)%Z -> fxval (2 ^ k) F = bpow2 (k - F).
Proof. intros Hk. unfold fxval. rewrite <- bpow2_IZR by exact Hk. rewrite <- bpow2_add. f_equal. Qed.
Lemma bpow2_le a b : (a <= b)%Z -> bpow2 a <= bpow2 b.
Proof.
  intros H. replace b with (a + (b - a))%Z by lia. rewrite bpow2_add. pose proof (bpow2_pos a). rewrite (bpow2_IZR (b - a)) by lia.
  assert (1 <= IZR (2 ^ (b - a))) by (apply (IZR_le 1); pose proof (pow2_pos (b - a) ltac:(lia)); lia). nra.
Qed.

(** The values of a type, as reals. *)
Lemma range_R S W I x : (1 <= W)%Z -> in_range S W x -> - (if S then bpow2 (I - 1) else 0) <= fxval x (W - I) < (if S then bpow2 (I - 1) else bpow2 I).
Proof.
  intros HW H. unfold in_range, imin, imax in H. destruct S.
  - replace (bpow2 (I - 1)) with (fxval (2 ^ (W - 1)) (W - I)) by (rewrite fxval_pow by lia; f_equal; lia).
    rewrite <- fxval_opp. split; [apply fxval_le|apply fxval_lt]; lia.
  - replace (bpow2 I) with (fxval (2 ^ W) (W - I)) by (rewrite fxval_pow by lia; f_equal; lia).
    replace (- 0) with (fxval 0 (W - I)) by (rewrite fxval_0; ring). split; [apply fxval_le|apply fxval_lt]; lia.
Qed.
Lemma bpow2_m12 : bpow2 (-12) = / 4096. Proof. transitivity (/ bpow2 12); [exact (bpow2_opp 12)|rewrite bpow2_IZR by lia; reflexivity]. Qed.
Lemma bpow2_m14 : bpow2 (-14) = / 16384. Proof. transitivity (/ bpow2 14); [exact (bpow2_opp 14)|rewrite bpow2_IZR by lia; reflexivity]. Qed.
Lemma bpow2_m20 : bpow2 (-20) = / 1048576. Proof. transitivity (/ bpow2 20); [exact (bpow2_opp 20)|rewrite bpow2_IZR by lia; reflexivity]. Qed.
Lemma fits_R (S : bool) W I V : (1 <= W)%Z -> - (if S then bpow2 (I - 1) else 0) <= V < (if S then bpow2 (I - 1) else bpow2 I) ->
  IZR (imin S W) <= V * bpow2 (W - I) < IZR (imax S W + 1).
Proof.
  intros HW B. rewrite <- (fxval_scale (imin S W) (W - I)), <- (fxval_scale (imax S W + 1) (W - I)). pose proof (bpow2_pos (W - I)) as P.
  assert (E1 : fxval (imin S W) (W - I) = - (if S then bpow2 (I - 1) else 0)).
  { unfold imin. destruct S; [|rewrite fxval_0; ring]. rewrite fxval_opp, fxval_pow by lia. do 2 f_equal. lia. }
  assert (E2 : fxval (imax S W + 1) (W - I) = if S then bpow2 (I - 1) else bpow2 I).
  { unfold imax. destruct S.
    - replace (2 ^ (W - 1) - 1 + 1)%Z with (2 ^ (W - 1))%Z by lia. rewrite fxval_pow by lia. f_equal. lia.
    - replace (2 ^ W - 1 + 1)%Z with (2 ^ W)%Z by lia. rewrite fxval_pow by lia. f_equal. lia. }
  rewrite E1, E2. split; [apply Rmult_le_compat_r; lra|apply Rmult_lt_compat_r; lra].
Qed.
(** Conversion to a truncating, wrapping type wide enough for the value. *)
Lemma convR_dfmt W I (S : bool) V m : (1 <= W)%Z -> convertsR (dfmt W I S) V m -> - (if S then bpow2 (I - 1) else 0) <= V < (if S then bpow2 (I - 1) else bpow2 I) ->
  in_range S W m /\ fxval m (W - I) <= V < fxval m (W - I) + bpow2 (- (W - I)).
Proof. intros HW C B. exact (convR_trn (dfmt W I S) V m HW eq_refl eq_refl C (fits_R S W I V HW B)). Qed.

(** Saturating conversion is monotone. *)
Lemma round_monoR q y1 y2 z1 z2 : y1 <= y2 -> is_roundR q y1 z1 -> is_roundR q y2 z2 -> (z1 <= z2)%Z.
Proof.
  intros H H1 H2. destruct (Req_dec y1 y2) as [<-|Hne]; [rewrite (is_roundR_unique q y1 z1 z2 H1 H2); lia|].
  assert (L : y1 < y2) by lra. apply Z.nlt_ge. intros G. assert (G' : IZR z2 + 1 <= IZR z1) by (rewrite <- (plus_IZR z2 1); apply IZR_le; lia).
  destruct q; cbn in H1, H2;
    try (destruct H1 as [H1 _], H2 as [H2 _]; apply Rabs_le_both in H1; apply Rabs_le_both in H2; lra).
  - lra.
  - destruct H1 as [A1 B1], H2 as [A2 B2]. destruct (Rle_lt_dec 0 y1) as [D1|D1]; [specialize (A1 D1); specialize (A2 ltac:(lra)); lra|]. specialize (B1 D1).
    destruct (Rle_lt_dec 0 y2) as [D2|D2]; [specialize (A2 D2)|specialize (B2 D2); lra].
    assert (z1 < 1)%Z by (apply lt_IZR; lra). assert (-1 < z2)%Z by (apply lt_IZR; lra). lia.
Qed.
Lemma convR_mono f V1 V2 a b : fO f = SAT \/ fO f = SAT_SYM -> V1 <= V2 -> convertsR f V1 a -> convertsR f V2 b -> (a <= b)%Z.
Proof.
  intros HO HV (z1 & R1 & L1) (z2 & R2 & L2). assert (Hz : (z1 <= z2)%Z).
  { apply (round_monoR (fQ f) (V1 * bpow2 (fF f)) (V2 * bpow2 (fF f))); [|assumption|assumption]. apply Rmult_le_compat_r; [apply Rlt_le, bpow2_pos|exact HV]. }
  destruct HO as [HO|HO]; rewrite HO in L1, L2; cbn in L1, L2; destruct (fS f); lia.
Qed.
