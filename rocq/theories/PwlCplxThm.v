(** The statements about the ac_complex overloads of the piecewise-linear functions. *)
From Coq Require Import Reals Lia Lra Psatz ZifyBool.
From Verif Require Import AcTypes AcFacts Spec SpecR SpecRFacts SoftFacts AbsProofs PwlModel PwlSqrt PwlProofs PwlFloatModel PwlCplxModel PwlFloat PwlCplx.
Open Scope Z.

Theorem recip_cplx_accurate : forall pQ MW W I (S : bool) f a b,
  let A := fxval a (W - I) in let B := fxval b (W - I) in
  1 <= W -> 1 <= fW f -> 1 <= MW -> in_range S W a -> in_range S W b -> a * a + b * b < 2 ^ MW -> a <> 0 \/ b <> 0 ->
  exists r i rho, recip_cplx pQ MW W I S f a b = Some (r, i) /\ convertsR f (A * rho) r /\ convertsR f (- B * rho) i /\
    (Rabs (rho - / (A * A + B * B)) <= 0.003 * / (A * A + B * B))%R.
Proof. intros pQ MW W I S f a b A B HW Hf HM Ha Hb Hs Hz. exact (recip_cplx_real pQ MW W I S f a b HW Hf HM Ha Hb Hs Hz). Qed.

Theorem recip_cplx_zero : forall pQ MW W I S f, 1 <= MW -> recip_cplx pQ MW W I S f 0 0 = Some (imax (fS f) (fW f), imax (fS f) (fW f)).
Proof. intros pQ MW W I S f HM. unfold recip_cplx. rewrite mag_sqr_val by (apply Z.pow_pos_nonneg; lia). change (0 * 0 + 0 * 0) with 0. rewrite recip_zero by exact HM. reflexivity. Qed.

(** The principal square root. *)
Lemma principal a b F P Q : let A := fxval a F in let B := fxval b F in let Z := sqrt (A * A + B * B) in
  (P * P - Q * Q = A -> 2 * P * Q = B -> (0 < P \/ P = 0 /\ 0 <= Q) ->
  P * P + Q * Q = Z /\ P = sqrt ((Z + A) / 2) /\ Q = (if (b <? 0)%Z then -1 else 1) * sqrt ((Z - A) / 2))%R.
Proof.
  intros A B Z HA HB HP. pose proof (bpow2_pos (- F)) as PF. assert (EZ : (P * P + Q * Q = Z)%R).
  { unfold Z. replace (A * A + B * B)%R with ((P * P + Q * Q) * (P * P + Q * Q))%R by (rewrite <- HA, <- HB; ring). symmetry. apply sqrt_square. nra. }
  split; [exact EZ|]. split; [replace ((Z + A) / 2)%R with (P * P)%R by lra; symmetry; apply sqrt_square; lra|].
  destruct (Z.ltb_spec b 0) as [G|G].
  - assert (HBn : (B < 0)%R). { unfold B, fxval. apply (IZR_lt b 0) in G. nra. } assert (Q < 0)%R by (destruct HP as [HP|[HP _]]; [nra|rewrite HP in HB; lra]). replace ((Z - A) / 2)%R with ((- Q) * (- Q))%R by lra. rewrite sqrt_square by lra. ring.
  - assert (HBn : (0 <= B)%R). { unfold B, fxval. apply (IZR_le 0 b) in G. nra. } assert (0 <= Q)%R by (destruct HP as [HP|[_ HP]]; [nra|exact HP]). replace ((Z - A) / 2)%R with (Q * Q)%R by lra. rewrite sqrt_square by lra. ring.
Qed.

Theorem sqrt_cplx_accurate : forall pQ MW W I f a b P Q,
  let A := fxval a (W - I) in let B := fxval b (W - I) in let F := (W + 23) / 2 + 22 in let M := sqrt (P * P + Q * Q) in
  1 <= W -> -60 <= W + I -> 1 <= fW f -> 1 <= MW -> in_range true W a -> in_range true W b -> a * a + b * b < 2 ^ MW -> a <> 0 \/ b <> 0 ->
  (P * P - Q * Q = A -> 2 * P * Q = B -> 0 < P \/ P = 0 /\ 0 <= Q ->
  exists r i X Y, sqrt_cplx pQ MW W I f a b = Some (r, i) /\ convertsR f X r /\ convertsR f Y i /\
    0 <= X /\ (if (b <? 0)%Z then Y <= 0 else 0 <= Y) /\
    Rabs (X - P) <= 0.0258 * M + bpow2 (- F) /\ Rabs (Y - Q) <= 0.0258 * M + bpow2 (- F) /\
    (0 <= A -> Rabs (X - P) <= 0.0021 * M + bpow2 (- F)) /\ (A <= 0 -> Rabs (Y - Q) <= 0.0021 * M + bpow2 (- F)))%R.
Proof.
  intros pQ MW W I f a b P Q A B F M HW HWI Hf HM Ha Hb Hs Hz HA HB HP. destruct (principal a b (W - I) P Q HA HB HP) as (EZ & EP & EQ). fold A B in EZ, EP, EQ.
  destruct (sqrt_cplx_eval pQ MW W I f a b HW HWI HM Ha Hb Hs Hz) as (x & y & E & Rx & Ry & X1 & Y1 & X2 & Y2). cbv zeta in *. fold A B in X1, Y1, X2, Y2. fold F in E, X1, Y1, X2, Y2. rewrite <- EP in *. unfold M. rewrite EZ. set (Z := sqrt (A * A + B * B)) in *.
  pose proof (bpow2_pos (- F)) as PF. assert (NX : (0 <= fxval x F)%R) by (unfold fxval; apply Rmult_le_pos; [apply (IZR_le 0); unfold in_range, imin in Rx; lia|lra]). assert (NY : (0 <= fxval y F)%R) by (unfold fxval; apply Rmult_le_pos; [apply (IZR_le 0); unfold in_range, imin in Ry; lia|lra]).
  exists (conv f x F), (conv f (if b <? 0 then - y else y) F), (fxval x F), (fxval (if b <? 0 then - y else y) F). split; [exact E|]. split; [apply conv_R; exact Hf|]. split; [apply conv_R; exact Hf|]. split; [exact NX|].
  assert (EY : (fxval (if b <? 0 then - y else y) F = (if (b <? 0)%Z then -1 else 1) * fxval y F)%R) by (destruct (b <? 0); unfold fxval; [rewrite opp_IZR|]; ring). rewrite EY.
  assert (EDY : (Rabs ((if (b <? 0)%Z then -1 else 1) * fxval y F - Q) = Rabs (fxval y F - sqrt ((Z - A) / 2)))%R). { rewrite EQ. rewrite <- Rmult_minus_distr_l, Rabs_mult. replace (Rabs (if (b <? 0)%Z then -1 else 1)%R) with 1%R; [ring|]. symmetry. destruct (b <? 0); [rewrite Rabs_left|rewrite Rabs_pos_eq]; lra. }
  split; [destruct (b <? 0); lra|]. rewrite EDY. split; [exact X1|]. split; [exact Y1|]. split; [exact X2|exact Y2].
Qed.

Theorem sqrt_cplx_zero : forall pQ MW W I f, 1 <= W -> 1 <= fW f -> 1 <= MW -> sqrt_cplx pQ MW W I f 0 0 = Some (0, 0).
Proof.
  intros pQ MW W I f HW Hf HM. destruct (cs_dims W I) as (E1 & E2 & E & E4). destruct (E HW) as (EF & ET & EW). clear E. unfold sqrt_cplx. rewrite mag_sqr_val by (apply Z.pow_pos_nonneg; lia). change (0 * 0 + 0 * 0) with 0. rewrite sqrt_zero. rewrite !Z.mul_0_l. change (0 + 0) with 0. change (0 - 0) with 0.
  assert (K : cs_part pQ W I 0 (cs_tF W I) = Some 0). { unfold cs_part. rewrite !conv_0 by (cbn [dfmt fW]; rewrite ?ET; lia). apply sqrt_zero. } rewrite K. cbn [Z.ltb Z.compare]. rewrite conv_0 by exact Hf. reflexivity.
Qed.

Theorem sqrt_cplx_real_bad : ~ (forall pQ MW W I f a,
  1 <= W -> 1 <= fW f -> 1 <= MW -> in_range true W a -> 0 < a -> a * a < 2 ^ MW -> exists r, sqrt_cplx pQ MW W I f a 0 = Some (r, 0)).
Proof.
  intros H. destruct (H TRN 31 16 4 (Fmt 24 4 true TRN SAT) 4096 ltac:(lia) ltac:(cbn [fW]; lia) ltac:(lia) ltac:(unfold in_range, imin, imax; lia) ltac:(lia) ltac:(lia)) as (r & E).
  assert (E0 : sqrt_cplx TRN 31 16 4 (Fmt 24 4 true TRN SAT) 4096 0 = Some (1049861, 23397)) by (vm_compute; reflexivity). rewrite E0 in E. clear - E. injection E as _ E. lia.
Qed.

Theorem isqrt_cplx_accurate : forall pQ MW MC k W I f a b P Q,
  let A := fxval a (W - I) in let B := fxval b (W - I) in let F := (W + 23) / 2 + 22 in let N := (P * P + Q * Q)%R in let M := sqrt N in
  1 <= W -> -50 <= W + I -> 0 <= k -> 1 <= MW -> 1 <= MC -> 1 <= fW f -> in_range true W a -> in_range true W b -> in_range true (W + k) (- b) ->
  a * a + b * b < 2 ^ MW -> a * a + b * b < 2 ^ MC -> a <> 0 \/ b <> 0 ->
  (P * P - Q * Q = A -> 2 * P * Q = B -> 0 < P \/ P = 0 /\ 0 <= Q ->
  exists r i X Y, isqrt_cplx pQ MW MC k W I f a b = Some (r, i) /\ convertsR f X r /\ convertsR f Y i /\
    Rabs (X - P / N) <= 0.0266 / M + 2.002 * bpow2 (- F) / N /\ Rabs (Y - - Q / N) <= 0.0266 / M + 2.002 * bpow2 (- F) / N /\
    (0 <= A -> Rabs (X - P / N) <= 0.0029 / M + 2.002 * bpow2 (- F) / N) /\ (A <= 0 -> Rabs (Y - - Q / N) <= 0.0029 / M + 2.002 * bpow2 (- F) / N))%R.
Proof.
  intros pQ MW MC k W I f a b P Q A B F N M HW HWI Hk HM HC Hf Ha Hb Hnb Hs Hc Hz HA HB HP. destruct (principal a b (W - I) P Q HA HB HP) as (EZ & EP & EQ). fold A B in EZ, EP, EQ. fold N in EZ.
  destruct (isqrt_cplx_real pQ MW MC k W I f a b HW HWI Hk HM HC Hf Ha Hb Hnb Hs Hc Hz) as (r & i & X & Y & E & CX & CY & X1 & Y1 & X2 & Y2). cbv zeta in *. fold A B in X1, Y1, X2, Y2. fold F in X1, Y1, X2, Y2. rewrite <- EP, <- EZ in *. fold M in X1, Y1, X2, Y2.
  assert (ES : ((if (b <? 0)%Z then 1 else -1) * (sqrt ((N - A) / 2) / N) = - Q / N)%R) by (rewrite EQ; unfold Rdiv; destruct (b <? 0); ring). rewrite ES in *. exists r, i, X, Y. repeat (split; [assumption|]). exact Y2.
Qed.

Theorem isqrt_cplx_zero : forall pQ MW MC k W I f, 1 <= W -> -50 <= W + I -> 0 <= k -> 1 <= MW -> 1 <= MC -> 1 <= fW f ->
  isqrt_cplx pQ MW MC k W I f 0 0 = Some (imax true (fW f), imax true (fW f)).
Proof.
  intros pQ MW MC k W I f HW HWI Hk HM HC Hf. unfold isqrt_cplx. assert (E0 : wraps (W + k) (- 0) = 0) by (apply wraps_id; [lia|]; assert (0 < 2 ^ (W + k - 1)) by (apply Z.pow_pos_nonneg; lia); lia). rewrite E0, sqrt_cplx_zero; [|lia| |exact HC].
  - rewrite mag_sqr_val by (apply Z.pow_pos_nonneg; lia). change (0 * 0 + 0 * 0) with 0. rewrite isqrt_zero. reflexivity.
  - cbn [fW]. destruct (cs_dims W I) as (_ & _ & E & E2). destruct (E HW) as (_ & _ & EW). rewrite EW. lia.
Qed.

Theorem isqrt_cplx_zero_bad : ~ (forall pQ MW MC k W I f, 1 <= W -> -50 <= W + I -> 0 <= k -> 1 <= MW -> 1 <= MC -> 1 <= fW f ->
  isqrt_cplx pQ MW MC k W I f 0 0 = Some (imax true (fW f), 0)).
Proof.
  intros H. pose proof (H TRN 31 33 1 16 4 (Fmt 24 4 true TRN SAT) ltac:(lia) ltac:(lia) ltac:(lia) ltac:(lia) ltac:(lia) ltac:(cbn [fW]; lia)) as E. rewrite isqrt_cplx_zero in E by (cbn [fW]; lia). clear - E. injection E as E. unfold imax in E. cbn [fW] in E. lia.
Qed.
