(** The statements of PropAtanFloat.v. *)
From Coq Require Import Reals Lia Lra.
From Verif Require Import AcTypes AcFacts Spec SpecR SpecRFacts SoftFacts HcFloat PwlCplxModel AtanFloatModel AtanFloat.
Local Open Scope Z_scope.

Theorem atan_flt_accurate : forall pQ st W I m e d, let X := (fxval m (W - I) * bpow2 e)%R in
  let W2 := Z.max 1 (Z.min 10 (W - 4)) + 12 in 2 <= W -> 0 <= m < 2 ^ (W - 1) ->
  (forall F v k, 0 <= v -> (fxval v F * bpow2 k <= 1.01)%R -> let '(n, j) := st F v k in
    0 <= n < 2 ^ (W2 - 1) /\ (Rabs (fxval n (W2 - I) * bpow2 j - fxval v F * bpow2 k) <= d)%R) ->
  exists o, atan_flt pQ st W I m e = Some o /\ 0 <= o < 2 ^ 23 /\ (Rabs (fxval o 22 - atan X) <= 0.0079 + d)%R.
Proof. exact atan_flt_real. Qed.
Theorem atan_ha_flt_accurate : forall pQ st W I m e d, let X := (fxval m (W - I) * bpow2 e)%R in
  let W2 := Z.max 34 W in 2 <= W -> 0 <= m < 2 ^ (W - 1) ->
  (forall F v k, 0 <= v -> (fxval v F * bpow2 k <= 1.01)%R -> let '(n, j) := st F v k in
    0 <= n < 2 ^ (W2 - 1) /\ (Rabs (fxval n (W2 - I) * bpow2 j - fxval v F * bpow2 k) <= d)%R) ->
  exists o, atan_ha_flt pQ st W I m e = Some o /\ 0 <= o < 2 ^ 43 /\ (Rabs (fxval o 42 - atan X) <= 0.00029 + d)%R.
Proof. exact atan_ha_flt_real. Qed.
Theorem atan_vha_flt_accurate : forall pQ st W I m e d, let X := (fxval m (W - I) * bpow2 e)%R in
  2 <= W -> 0 <= m < 2 ^ (W - 1) ->
  (forall F v k, 0 <= v -> (fxval v F * bpow2 k <= 1.01)%R -> let '(n, j) := st F v k in
    0 <= n < 2 ^ (16 - 1) /\ (Rabs (fxval n (16 - I) * bpow2 j - fxval v F * bpow2 k) <= d)%R) ->
  exists o, atan_vha_flt pQ st W I m e = Some o /\ 0 <= o < 2 ^ 28 /\ (Rabs (fxval o 27 - atan X) <= 0.00021 + d)%R.
Proof. exact atan_vha_flt_real. Qed.

Theorem atan_flt_wide : forall pQ W I m e, let X := (fxval m (W - I) * bpow2 e)%R in 2 <= W -> 0 <= m < 2 ^ (W - 1) ->
  (exists o, atan_flt pQ (flt_store (Z.max 1 (Z.min 10 (W - 4)) + 12) I) W I m e = Some o /\ 0 <= o < 2 ^ 23 /\ (Rabs (fxval o 22 - atan X) <= 0.0084)%R) /\
  (exists o, atan_ha_flt pQ (flt_store (Z.max 34 W) I) W I m e = Some o /\ 0 <= o < 2 ^ 43 /\ (Rabs (fxval o 42 - atan X) <= 0.0003)%R) /\
  (exists o, atan_vha_flt pQ (flt_store 16 I) W I m e = Some o /\ 0 <= o < 2 ^ 28 /\ (Rabs (fxval o 27 - atan X) <= 0.00028)%R).
Proof.
  intros pQ W I m e X HW Hm. split; [|split].
  - set (W2 := Z.max 1 (Z.min 10 (W - 4)) + 12). destruct (atan_flt_real pQ (flt_store W2 I) W I m e _ HW Hm (flt_store_ok W2 I ltac:(unfold W2; lia))) as (o & E & R & B).
    exists o. split; [exact E|]. split; [exact R|]. change (fltval (W - I) m e) with X in B. pose proof (bpow2_le (- (W2 - 2)) (- (11)) ltac:(unfold W2; lia)) as L. rewrite (bpow2_opp 11), (bpow2_IZR 11) in L by lia. replace (2 ^ 11) with 2048 in L by reflexivity. lra.
  - set (W2 := Z.max 34 W). destruct (atan_ha_flt_real pQ (flt_store W2 I) W I m e _ HW Hm (flt_store_ok W2 I ltac:(unfold W2; lia))) as (o & E & R & B).
    exists o. split; [exact E|]. split; [exact R|]. change (fltval (W - I) m e) with X in B. pose proof (bpow2_le (- (W2 - 2)) (- (32)) ltac:(unfold W2; lia)) as L. rewrite (bpow2_opp 32), (bpow2_IZR 32) in L by lia. replace (2 ^ 32) with 4294967296 in L by reflexivity. lra.
  - destruct (atan_vha_flt_real pQ (flt_store 16 I) W I m e _ HW Hm (flt_store_ok 16 I ltac:(lia))) as (o & E & R & B).
    exists o. split; [exact E|]. split; [exact R|]. change (fltval (W - I) m e) with X in B. pose proof (bpow2_le (- (16 - 2)) (- (14)) ltac:(lia)) as L. rewrite (bpow2_opp 14), (bpow2_IZR 14) in L by lia. replace (2 ^ 14) with 16384 in L by reflexivity. lra.
Qed.

Theorem abs_cplx_accurate : forall pQ MW W I f a b, let A := fxval a (W - I) in let B := fxval b (W - I) in
  1 <= MW -> 1 <= fW f -> fS f = false -> a * a + b * b < 2 ^ MW -> a <> 0 \/ b <> 0 ->
  exists out V, abs_cplx pQ MW W I f a b = Some out /\ convertsR f V out /\ (Rabs (V - sqrt (A * A + B * B)) <= 0.0012 * sqrt (A * A + B * B))%R.
Proof. exact abs_cplx_real. Qed.
Theorem abs_cplx_0 : forall pQ MW W I f, 1 <= MW -> abs_cplx pQ MW W I f 0 0 = Some 0.
Proof. exact abs_cplx_zero. Qed.
Theorem abs_cplx_increasing : forall pQ MW W I f a b a' b' x y, 1 <= MW -> 1 <= fW f -> fS f = false -> fO f = SAT \/ fO f = SAT_SYM ->
  a * a + b * b <= a' * a' + b' * b' < 2 ^ MW -> abs_cplx pQ MW W I f a b = Some x -> abs_cplx pQ MW W I f a' b' = Some y -> x <= y.
Proof. exact abs_cplx_mono. Qed.
