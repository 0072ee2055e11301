(** Accuracy of the reciprocal, square-root and inverse-square-root approximations, stated over the reals. *)
From Coq Require Import Reals Lra Lia ZifyBool.
From Verif Require Import AcTypes AcFacts Spec SpecFacts SpecR SpecRFacts PwlModel PwlFacts PwlProofs PwlSqrt.
Local Open Scope R_scope.

Lemma inv_close U A d : 0 < A -> Rabs (U * A - 1) <= d -> Rabs (U - / A) <= d * / A.
Proof.
  intros HA H. replace (U - / A) with ((U * A - 1) * / A) by (field; lra). rewrite Rabs_mult.
  rewrite (Rabs_pos_eq (/ A)) by (apply Rlt_le, Rinv_0_lt_compat, HA).
  apply Rmult_le_compat_r; [apply Rlt_le, Rinv_0_lt_compat, HA|exact H].
Qed.

Lemma recip_real pQ W I S f x : (1 <= W)%Z -> (1 <= fW f)%Z -> in_range S W x -> (x <> 0)%Z ->
  let X := fxval x (W - I) in
  exists out V, reciprocal_pwl pQ W I S f x = Some out /\ convertsR f V out /\
    Rabs (V - (if S && fS f then / X else / Rabs X)) <= 0.002 * / Rabs X.
Proof.
  intros HW HfW Hx Hx0 X. destruct (recip_accuracy pQ W I S f x HW HfW Hx Hx0) as (out & Y & k & E & Hk & HY & C & B).
  set (sg := if S && fS f && (x <? 0)%Z then (-1)%Z else 1%Z) in *.
  exists out, (IZR (sg * Y) * bpow2 (W - I - k)). split; [exact E|]. split; [apply converts2_R; exact C|].
  set (A := Rabs X). assert (EA : A = IZR (Z.abs x) * bpow2 (- (W - I))).
  { unfold A, X, fxval. rewrite Rabs_mult, abs_IZR. f_equal. apply Rabs_pos_eq. apply Rlt_le, bpow2_pos. }
  assert (PA : 0 < A). { rewrite EA. apply Rmult_lt_0_compat; [apply (IZR_lt 0); lia|apply bpow2_pos]. }
  set (U := IZR Y * bpow2 (W - I - k)).
  assert (HU : Rabs (U * A - 1) <= 0.002).
  { assert (EU : U * A = IZR (Y * Z.abs x) * bpow2 (- k)).
    { unfold U. rewrite EA, mult_IZR. replace (- k)%Z with (W - I - k + - (W - I))%Z by lia. rewrite bpow2_add. ring. }
    rewrite EU. apply IZR_le in B. rewrite mult_IZR, abs_IZR, minus_IZR, (mult_IZR 2 (2 ^ k)) in B. rewrite <- bpow2_IZR in B by lia.
    pose proof (bpow2_pos k). pose proof (bpow2_opp k) as Ek. rewrite Ek.
    replace (IZR (Y * Z.abs x) * / bpow2 k - 1) with ((IZR (Y * Z.abs x) - bpow2 k) * / bpow2 k) by (field; lra).
    rewrite Rabs_mult, (Rabs_pos_eq (/ bpow2 k)) by (apply Rlt_le, Rinv_0_lt_compat; lra).
    apply Rmult_le_reg_r with (bpow2 k); [lra|]. rewrite Rmult_assoc, Rinv_l by lra. lra. }
  pose proof (inv_close U A 0.002 PA HU) as Q.
  assert (ES : (sg = 1%Z /\ (S && fS f = false \/ (0 < x)%Z)) \/ (sg = (-1)%Z /\ S && fS f = true /\ (x < 0)%Z)).
  { unfold sg. destruct (S && fS f); cbn [andb]; [|left; split; [reflexivity|left; reflexivity]].
    destruct (Z.ltb_spec x 0); [right; split; [reflexivity|split; [reflexivity|assumption]]|left; split; [reflexivity|right; lia]]. }
  destruct ES as [[-> D]|[-> [-> D]]].
  - rewrite Z.mul_1_l. fold U. assert (EX : (if S && fS f then / X else / A) = / A).
    { destruct D as [->|D]; [reflexivity|]. destruct (S && fS f); [|reflexivity]. f_equal. unfold A. symmetry. apply Rabs_pos_eq.
      unfold X, fxval. apply Rmult_le_pos; [apply (IZR_le 0); lia|apply Rlt_le, bpow2_pos]. }
    rewrite EX. exact Q.
  - assert (EX : X = - A). { unfold A. rewrite Rabs_left; [ring|]. unfold X, fxval.
      apply (IZR_lt x 0) in D. pose proof (bpow2_pos (- (W - I))). nra. }
    rewrite EX. replace (/ - A) with (- / A) by (field; lra). rewrite mult_IZR. rewrite Rmult_assoc. fold U.
    replace (-1 * U - - / A) with (- (U - / A)) by ring. rewrite Rabs_Ropp. exact Q.
Qed.

Lemma sq_le a b : 0 <= a -> 0 <= b -> a * a <= b * b -> a <= b.
Proof. intros Ha Hb H. apply Rnot_lt_le. intros L. nra. Qed.

Lemma sqrt_close V X d : 0 < d < 1 -> 0 <= V -> 0 <= X -> (1 - d) * (1 - d) * X <= V * V <= (1 + d) * (1 + d) * X -> Rabs (V - sqrt X) <= d * sqrt X.
Proof.
  intros Hd HV HX [H1 H2]. pose proof (sqrt_sqrt X HX) as E. pose proof (sqrt_pos X). set (s := sqrt X) in *.
  assert ((1 - d) * s <= V) by (apply sq_le; [nra|lra|nra]).
  assert (V <= (1 + d) * s) by (apply sq_le; [lra|nra|nra]).
  apply Rabs_le. lra.
Qed.

Lemma isqrt_close V X d : 0 < d < 1 -> 0 <= V -> 0 < X -> (1 - d) * (1 - d) <= V * V * X <= (1 + d) * (1 + d) -> Rabs (V - / sqrt X) <= d * / sqrt X.
Proof.
  intros Hd HV HX [H1 H2]. pose proof (sqrt_sqrt X (Rlt_le _ _ HX)) as E. pose proof (sqrt_lt_R0 X HX) as P. set (s := sqrt X) in *.
  apply inv_close; [exact P|].
  assert (E2 : V * V * X = (V * s) * (V * s)) by (rewrite <- E; ring). rewrite E2 in *.
  assert (0 <= V * s) by (apply Rmult_le_pos; lra).
  assert (1 - d <= V * s) by (apply sq_le; lra). assert (V * s <= 1 + d) by (apply sq_le; lra). apply Rabs_le. lra.
Qed.

(** The input value in terms of the normalised mantissa. *)
Lemma norm_value x W I k r n : (2 * k + r <= I)%Z -> n = (x * 2 ^ (I - (2 * k + r)))%Z ->
  fxval x (W - I) = IZR n * bpow2 (2 * k + r - W).
Proof.
  intros H ->. unfold fxval. rewrite mult_IZR, <- bpow2_IZR by lia. rewrite Rmult_assoc, <- bpow2_add. do 2 f_equal. lia.
Qed.

Lemma sqrt_real pQ W I XO f cn x : (1 <= W)%Z -> (1 <= fW f)%Z -> fS f = false -> (0 < x < 2 ^ W)%Z -> cn = true \/ (2 ^ (W - 1) <= x)%Z ->
  let X := fxval x (W - I) in
  exists out V, sqrt_pwl pQ W I XO f cn x = Some out /\ convertsR f V out /\ Rabs (V - sqrt X) <= 0.0012 * sqrt X.
Proof.
  intros HW HfW HfS Hx Hcn X. destruct (sqrt_accuracy pQ W I XO f cn x HW HfW HfS Hx Hcn) as (out & M & k & n & r & E & HM & C & (Hk & Hr & Hn) & B1 & B2).
  exists out, (IZR M * bpow2 (k - 24)). split; [exact E|]. split; [apply converts2_R; exact C|].
  pose proof (norm_value x W I k r n Hk Hn) as EX. fold X in EX.
  assert (PX : 0 < X) by (apply Rmult_lt_0_compat; [apply (IZR_lt 0); lia|apply bpow2_pos]).
  apply sqrt_close; [lra|apply Rmult_le_pos; [apply (IZR_le 0); lia|apply Rlt_le, bpow2_pos]|lra|].
  apply IZR_le in B1, B2. rewrite !mult_IZR in B1, B2. rewrite <- !bpow2_IZR in B1, B2 by lia.
  replace (10 ^ 8)%Z with 100000000%Z in B1, B2 by reflexivity.
  assert (Q : forall c a b : R, (c * (IZR n * bpow2 (48 + r)) <= 100000000 * (IZR M * IZR M * bpow2 W) <-> c / 100000000 * X <= IZR M * bpow2 (k - 24) * (IZR M * bpow2 (k - 24))) /\
     (100000000 * (IZR M * IZR M * bpow2 W) <= c * (IZR n * bpow2 (48 + r)) <-> IZR M * bpow2 (k - 24) * (IZR M * bpow2 (k - 24)) <= c / 100000000 * X)).
  { intros c _ _. rewrite EX. set (Z0 := bpow2 (2 * k - 48 - W)). assert (0 < Z0) by apply bpow2_pos.
    assert (E1 : bpow2 (2 * k + r - W) = bpow2 (48 + r) * Z0) by (unfold Z0; rewrite <- bpow2_add; f_equal; lia).
    assert (E2 : IZR M * bpow2 (k - 24) * (IZR M * bpow2 (k - 24)) = IZR M * IZR M * bpow2 W * Z0).
    { replace (IZR M * bpow2 (k - 24) * (IZR M * bpow2 (k - 24))) with (IZR M * IZR M * (bpow2 (k - 24) * bpow2 (k - 24))) by ring.
      rewrite <- bpow2_add. unfold Z0. rewrite (Rmult_assoc (IZR M * IZR M)), <- bpow2_add. do 2 f_equal. lia. }
    rewrite E1, E2. replace (c / 100000000 * (IZR n * (bpow2 (48 + r) * Z0))) with (c * (IZR n * bpow2 (48 + r)) / 100000000 * Z0) by field.
    set (u := c * (IZR n * bpow2 (48 + r))). set (v := IZR M * IZR M * bpow2 W).
    split; split; intros H1; first [apply Rmult_le_compat_r; lra|apply Rmult_le_reg_r in H1; lra]. }
  destruct (Q (9988 * 9988) 0 0) as [[Q1 _] _]. destruct (Q (10012 * 10012) 0 0) as [_ [Q2 _]].
  specialize (Q1 B1). specialize (Q2 B2). lra.
Qed.

Lemma isqrt_real pQ W I XO f cn x : (1 <= W)%Z -> (1 <= fW f)%Z -> fS f = false -> (0 < x < 2 ^ W)%Z -> cn = true \/ (2 ^ (W - 1) <= x)%Z ->
  let X := fxval x (W - I) in
  exists out V, inverse_sqrt_pwl pQ W I XO f cn x = Some out /\ convertsR f V out /\ Rabs (V - / sqrt X) <= 0.00075 * / sqrt X.
Proof.
  intros HW HfW HfS Hx Hcn X. destruct (isqrt_accuracy pQ W I XO f cn x HW HfW HfS Hx Hcn) as (out & M & k & n & r & E & HM & C & (Hk & Hr & Hn) & B1 & B2).
  exists out, (IZR M * bpow2 (- 24 - k)). split; [exact E|]. split; [apply converts2_R; exact C|].
  pose proof (norm_value x W I k r n Hk Hn) as EX. fold X in EX.
  assert (PX : 0 < X) by (apply Rmult_lt_0_compat; [apply (IZR_lt 0); lia|apply bpow2_pos]).
  apply isqrt_close; [lra|apply Rmult_le_pos; [apply (IZR_le 0); lia|apply Rlt_le, bpow2_pos]|lra|].
  apply IZR_le in B1, B2. rewrite !mult_IZR in B1, B2. rewrite <- !bpow2_IZR in B1, B2 by lia.
  replace (10 ^ 10)%Z with 10000000000%Z in B1, B2 by reflexivity.
  assert (EV : IZR M * bpow2 (- 24 - k) * (IZR M * bpow2 (- 24 - k)) * X * bpow2 (48 + W) = IZR M * IZR M * IZR n * bpow2 r).
  { rewrite EX. replace (IZR M * bpow2 (- 24 - k) * (IZR M * bpow2 (- 24 - k)) * (IZR n * bpow2 (2 * k + r - W)) * bpow2 (48 + W))
      with (IZR M * IZR M * IZR n * (bpow2 (- 24 - k) * bpow2 (- 24 - k) * bpow2 (2 * k + r - W) * bpow2 (48 + W))) by ring.
    rewrite <- !bpow2_add. do 2 f_equal. lia. }
  pose proof (bpow2_pos (48 + W)). set (u := IZR M * bpow2 (- 24 - k) * (IZR M * bpow2 (- 24 - k)) * X) in *.
  rewrite <- EV in B1, B2.
  replace (10000000000 * (u * bpow2 (48 + W))) with (10000000000 * u * bpow2 (48 + W)) in B1, B2 by ring.
  apply Rmult_le_reg_r in B1; [|lra]. apply Rmult_le_reg_r in B2; [|lra]. lra.
Qed.
