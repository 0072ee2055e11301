(** Accuracy of the higher-accuracy reciprocals and of the very-high-accuracy inverse square root, over the reals. *)
From Coq Require Import Reals Lra Lia ZifyBool.
From Verif Require Import AcTypes AcFacts Spec SpecFacts SpecR SpecRFacts SoftFacts PwlModel PwlFacts PwlProofs PwlSqrt PwlReal PwlHaModel PwlHaProofs.
Local Open Scope R_scope.

Lemma recip_real_of S f x W I D d Y k out e : (x <> 0)%Z -> (0 < D)%Z -> (0 <= k)%Z -> IZR d = e * IZR D ->
  converts2 f ((if S && fS f && (x <? 0)%Z then -1 else 1) * Y) (W - I - k) out -> (D * Z.abs (Y * Z.abs x - 2 ^ k) <= d * 2 ^ k)%Z ->
  let X := fxval x (W - I) in exists V, convertsR f V out /\ Rabs (V - (if S && fS f then / X else / Rabs X)) <= e * / Rabs X /\ Rabs V = IZR (Z.abs Y) * bpow2 (W - I - k).
Proof.
  intros Hx0 HD Hk He C B X. set (sg := if S && fS f && (x <? 0)%Z then (-1)%Z else 1%Z) in *.
  exists (IZR (sg * Y) * bpow2 (W - I - k)). split; [apply converts2_R; exact C|]. rewrite <- and_comm. split.
  { rewrite Rabs_mult, (Rabs_pos_eq (bpow2 _)) by (apply Rlt_le, bpow2_pos). f_equal. rewrite <- abs_IZR. f_equal. rewrite Z.abs_mul. unfold sg. destruct (S && fS f && (x <? 0)%Z); lia. }
  set (A := Rabs X). assert (EA : A = IZR (Z.abs x) * bpow2 (- (W - I))).
  { unfold A, X, fxval. rewrite Rabs_mult, abs_IZR. f_equal. apply Rabs_pos_eq. apply Rlt_le, bpow2_pos. }
  assert (PA : 0 < A). { rewrite EA. apply Rmult_lt_0_compat; [apply (IZR_lt 0); lia|apply bpow2_pos]. }
  set (U := IZR Y * bpow2 (W - I - k)).
  assert (HU : Rabs (U * A - 1) <= e).
  { assert (EU : U * A = IZR (Y * Z.abs x) * bpow2 (- k)).
    { unfold U. rewrite EA, mult_IZR. replace (- k)%Z with (W - I - k + - (W - I))%Z by lia. rewrite bpow2_add. ring. }
    rewrite EU. apply IZR_le in B. rewrite mult_IZR, abs_IZR, minus_IZR, (mult_IZR d (2 ^ k)) in B. rewrite <- bpow2_IZR in B by lia.
    pose proof (bpow2_pos k). pose proof (bpow2_opp k) as Ek. rewrite Ek. apply IZR_lt in HD.
    replace (IZR (Y * Z.abs x) * / bpow2 k - 1) with ((IZR (Y * Z.abs x) - bpow2 k) * / bpow2 k) by (field; lra).
    rewrite Rabs_mult, (Rabs_pos_eq (/ bpow2 k)) by (apply Rlt_le, Rinv_0_lt_compat; lra).
    apply Rmult_le_reg_r with (bpow2 k); [lra|]. rewrite Rmult_assoc, Rinv_l, Rmult_1_r by lra. apply (Rmult_le_reg_l (IZR D)); [exact HD|]. rewrite He in B. rewrite (Rmult_comm (IZR D) (e * _)), Rmult_assoc, (Rmult_comm (bpow2 k)), <- Rmult_assoc. exact B. }
  pose proof (inv_close U A e PA HU) as Q.
  assert (ES : (sg = 1%Z /\ (S && fS f = false \/ (0 < x)%Z)) \/ (sg = (-1)%Z /\ S && fS f = true /\ (x < 0)%Z)).
  { unfold sg. destruct (S && fS f); cbn [andb]; [|left; split; [reflexivity|left; reflexivity]].
    destruct (Z.ltb_spec x 0); [right; split; [reflexivity|split; [reflexivity|assumption]]|left; split; [reflexivity|right; lia]]. }
  destruct ES as [[-> D']|[-> [-> D']]].
  - rewrite Z.mul_1_l. fold U. assert (EX : (if S && fS f then / X else / A) = / A).
    { destruct D' as [->|D']; [reflexivity|]. destruct (S && fS f); [|reflexivity]. f_equal. unfold A. symmetry. apply Rabs_pos_eq.
      unfold X, fxval. apply Rmult_le_pos; [apply (IZR_le 0); lia|apply Rlt_le, bpow2_pos]. }
    rewrite EX. exact Q.
  - assert (EX : X = - A). { unfold A. rewrite Rabs_left; [ring|]. unfold X, fxval.
      apply (IZR_lt x 0) in D'. pose proof (bpow2_pos (- (W - I))). nra. }
    rewrite EX. replace (/ - A) with (- / A) by (field; lra). rewrite mult_IZR. rewrite Rmult_assoc. fold U.
    replace (-1 * U - - / A) with (- (U - / A)) by ring. rewrite Rabs_Ropp. exact Q.
Qed.
Lemma rha_real pQ W I S f x : (1 <= W)%Z -> (1 <= fW f)%Z -> in_range S W x -> (x <> 0)%Z ->
  let X := fxval x (W - I) in
  exists out V, reciprocal_pwl_ha pQ W I S f x = Some out /\ convertsR f V out /\
    Rabs (V - (if S && fS f then / X else / Rabs X)) <= 0.00014 * / Rabs X.
Proof.
  intros HW HfW Hx Hx0 X. destruct (rha_accuracy pQ W I S f x HW HfW Hx Hx0) as (out & Y & k & E & Hk & HY & C & B). exists out.
  destruct (recip_real_of S f x W I 100000 14 Y k out 0.00014 Hx0 ltac:(lia) Hk ltac:(lra) C B) as (V & H1 & H2 & _). exists V. repeat split; assumption.
Qed.
Lemma rvha_real pQ W I S f cn x : (1 <= W)%Z -> (1 <= fW f)%Z -> in_range S W x -> (x <> 0)%Z -> (cn = true \/ (1 + b2z S <= W /\ 2 ^ (W - 1 - b2z S) <= Z.abs x))%Z ->
  let X := fxval x (W - I) in
  exists out V, reciprocal_pwl_vha pQ W I S f cn x = Some out /\ convertsR f V out /\
    Rabs (V - (if S && fS f then / X else / Rabs X)) <= 0.00004 * / Rabs X.
Proof.
  intros HW HfW Hx Hx0 Hc X. destruct (rvha_accuracy pQ W I S f cn x HW HfW Hx Hx0 Hc) as (out & Y & k & E & Hk & HY & C & B). exists out.
  destruct (recip_real_of S f x W I 100000 4 Y k out 0.00004 Hx0 ltac:(lia) Hk ltac:(lra) C B) as (V & H1 & H2 & _). exists V. repeat split; assumption.
Qed.

(** The size of the value converted: it is at most Yhi 2^(-33-q) when |X| >= 2^q. *)
Lemma recip_size x W I Y k Yhi V : (0 < Y <= Yhi)%Z -> (Z.abs x * 2 ^ 32 < 2 ^ k)%Z -> (0 <= k)%Z -> Rabs V = IZR (Z.abs Y) * bpow2 (W - I - k) ->
  forall q, bpow2 q <= Rabs (fxval x (W - I)) -> Rabs V <= IZR Yhi * bpow2 (- 33 - q).
Proof.
  intros HY Hx Hk EV q Hq. rewrite EV. apply Rmult_le_compat; [apply (IZR_le 0); lia|apply Rlt_le, bpow2_pos|apply IZR_le; lia|]. apply bpow2_le.
  assert (L : bpow2 (q + (W - I) + 32) < bpow2 k).
  { apply Rle_lt_trans with (IZR (Z.abs x * 2 ^ 32)); [|rewrite bpow2_IZR by lia; apply IZR_lt; exact Hx]. rewrite mult_IZR, abs_IZR, <- bpow2_IZR by lia. rewrite bpow2_add. apply Rmult_le_compat_r; [apply Rlt_le, bpow2_pos|].
    unfold fxval in Hq. rewrite Rabs_mult, (Rabs_pos_eq (bpow2 _)) in Hq by (apply Rlt_le, bpow2_pos). rewrite bpow2_add. apply (Rmult_le_compat_r (bpow2 (W - I))) in Hq; [|apply Rlt_le, bpow2_pos]. rewrite Rmult_assoc, <- (bpow2_add (- (W - I)) (W - I)) in Hq. replace (- (W - I) + (W - I))%Z with 0%Z in Hq by lia. rewrite bpow2_0, Rmult_1_r in Hq. exact Hq. }
  destruct (Z.le_gt_cases k (q + (W - I) + 32)) as [G|G]; [|lia]. apply bpow2_le in G. lra.
Qed.
Lemma rvha_real_size pQ W I S f cn x : (1 <= W)%Z -> (1 <= fW f)%Z -> in_range S W x -> (x <> 0)%Z -> (cn = true \/ (1 + b2z S <= W /\ 2 ^ (W - 1 - b2z S) <= Z.abs x))%Z ->
  let X := fxval x (W - I) in
  exists out V, reciprocal_pwl_vha pQ W I S f cn x = Some out /\ convertsR f V out /\
    Rabs (V - (if S && fS f then / X else / Rabs X)) <= 0.00004 * / Rabs X /\ forall q, bpow2 q <= Rabs X -> Rabs V <= 8589672448 * bpow2 (- 33 - q).
Proof.
  intros HW HfW Hx Hx0 Hc X. destruct (rvha_accuracy pQ W I S f cn x HW HfW Hx Hx0 Hc) as (out & Y & k & E & Hk & [HY HK] & C & B). exists out.
  destruct (recip_real_of S f x W I 100000 4 Y k out 0.00004 Hx0 ltac:(lia) Hk ltac:(lra) C B) as (V & H1 & H2 & H3). exists V. repeat (split; [assumption|]). exact (recip_size x W I Y k _ V HY HK Hk H3).
Qed.

(** The size of the value converted: below 2^-q when X >= 2^(2q). *)
Lemma isqv_real_size pQ W I XO f cn x : (1 <= W)%Z -> (1 <= fW f)%Z -> fS f = false -> (0 < x < 2 ^ W)%Z -> cn = true \/ (2 ^ (W - 1) <= x)%Z ->
  let X := fxval x (W - I) in
  exists out V, inverse_sqrt_pwl_vha pQ W I XO f cn x = Some out /\ convertsR f V out /\ Rabs (V - / sqrt X) <= 0.00005 * / sqrt X /\
    forall q, bpow2 (2 * q) <= X -> V <= 0.99996 * bpow2 (- q).
Proof.
  intros HW HfW HfS Hx Hcn X. destruct (isqv_accuracy pQ W I XO f cn x HW HfW HfS Hx Hcn) as (out & M & k & n & r & E & (HM & Hn2 & HMr) & C & (Hk & Hr & Hn) & B1 & B2).
  exists out, (IZR M * bpow2 (- 32 - k)). split; [exact E|]. split; [apply converts2_R; exact C|].
  pose proof (norm_value x W I k r n Hk Hn) as EX. fold X in EX.
  assert (PX : 0 < X) by (apply Rmult_lt_0_compat; [apply (IZR_lt 0); lia|apply bpow2_pos]).
  rewrite <- and_comm. split.
  { intros q Hq. assert (L : bpow2 (2 * q) < bpow2 (2 * k + r)). { apply Rle_lt_trans with X; [exact Hq|]. rewrite EX. replace (2 * k + r)%Z with (W + (2 * k + r - W))%Z at 2 by lia. rewrite (bpow2_add W). apply Rmult_lt_compat_r; [apply bpow2_pos|]. rewrite bpow2_IZR by lia. apply IZR_lt. exact Hn2. }
    assert (Lz : (2 * q < 2 * k + r)%Z) by (destruct (Z.le_gt_cases (2 * k + r) (2 * q)) as [G|G]; [apply bpow2_le in G; lra|lia]). pose proof (bpow2_pos (- q)) as Pq. replace (- 32 - k)%Z with ((- k) + - (32))%Z by lia. rewrite bpow2_add, (bpow2_opp 32), (bpow2_IZR 32) by lia. change (IZR (2 ^ 32)) with 4294967296. pose proof (bpow2_pos (- k)) as Pk.
    destruct HMr as [[Hr0 HM1]|[Hr1 HM1]]; apply IZR_le in HM1.
    - assert (bpow2 (- k) <= / 2 * bpow2 (- q)). { replace (/ 2) with (bpow2 (- (1))) by (rewrite bpow2_opp, bpow2_1; reflexivity). rewrite <- bpow2_add. apply bpow2_le. lia. } apply Rle_trans with (6073745408 * (bpow2 (- k) * / 4294967296)); [apply Rmult_le_compat_r; lra|lra].
    - assert (bpow2 (- k) <= bpow2 (- q)) by (apply bpow2_le; lia). apply Rle_trans with (4294779615 * (bpow2 (- k) * / 4294967296)); [apply Rmult_le_compat_r; lra|lra]. }
  apply isqrt_close; [lra|apply Rmult_le_pos; [apply (IZR_le 0); lia|apply Rlt_le, bpow2_pos]|lra|].
  apply IZR_le in B1, B2. rewrite !mult_IZR in B1, B2. rewrite <- !bpow2_IZR in B1, B2 by lia.
  replace (10 ^ 10)%Z with 10000000000%Z in B1, B2 by reflexivity.
  assert (EV : IZR M * bpow2 (- 32 - k) * (IZR M * bpow2 (- 32 - k)) * X * bpow2 (64 + W) = IZR M * IZR M * IZR n * bpow2 r).
  { rewrite EX. replace (IZR M * bpow2 (- 32 - k) * (IZR M * bpow2 (- 32 - k)) * (IZR n * bpow2 (2 * k + r - W)) * bpow2 (64 + W))
      with (IZR M * IZR M * IZR n * (bpow2 (- 32 - k) * bpow2 (- 32 - k) * bpow2 (2 * k + r - W) * bpow2 (64 + W))) by ring.
    rewrite <- !bpow2_add. do 2 f_equal. lia. }
  pose proof (bpow2_pos (64 + W)). set (u := IZR M * bpow2 (- 32 - k) * (IZR M * bpow2 (- 32 - k)) * X) in *.
  rewrite <- EV in B1, B2.
  replace (10000000000 * (u * bpow2 (64 + W))) with (10000000000 * u * bpow2 (64 + W)) in B1, B2 by ring.
  apply Rmult_le_reg_r in B1; [|lra]. apply Rmult_le_reg_r in B2; [|lra]. lra.
Qed.

Lemma isqv_real pQ W I XO f cn x : (1 <= W)%Z -> (1 <= fW f)%Z -> fS f = false -> (0 < x < 2 ^ W)%Z -> cn = true \/ (2 ^ (W - 1) <= x)%Z ->
  let X := fxval x (W - I) in
  exists out V, inverse_sqrt_pwl_vha pQ W I XO f cn x = Some out /\ convertsR f V out /\ Rabs (V - / sqrt X) <= 0.00005 * / sqrt X.
Proof. intros HW HfW HfS Hx Hcn X. destruct (isqv_real_size pQ W I XO f cn x HW HfW HfS Hx Hcn) as (out & V & E & C & D & _). exists out, V. repeat (split; [assumption|]). exact D. Qed.
