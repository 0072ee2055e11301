(** The error of ac_chol_d on ac_float in terms of the diagonal of the input alone. *)
From Coq Require Import Reals Lia Lra Psatz.
From Verif Require Import AcTypes SpecLin CholThm CholFloatModel CholFloat SpecFlt CholFloatThm.
Local Open Scope R_scope.

Lemma sumR_cs x y n : sumR (fun k => Rabs (x k * y k)) n <= sqrt (sumR (fun k => x k * x k) n) * sqrt (sumR (fun k => y k * y k) n).
Proof.
  induction n as [|n IH]; cbn [sumR]; [rewrite sqrt_0; lra|].
  assert (X : 0 <= sumR (fun k => x k * x k) n) by (apply sumR_nonneg; intros; nra). assert (Y : 0 <= sumR (fun k => y k * y k) n) by (apply sumR_nonneg; intros; nra).
  set (X1 := sumR (fun k => x k * x k) n) in *. set (Y1 := sumR (fun k => y k * y k) n) in *.
  assert (Ea := sqrt_sqrt X1 X). assert (Eb := sqrt_sqrt Y1 Y). assert (Ha := sqrt_pos X1). assert (Hb := sqrt_pos Y1). set (a := sqrt X1) in *. set (b := sqrt Y1) in *.
  rewrite Rabs_mult. assert (Ep : Rabs (x n) * Rabs (x n) = x n * x n) by (rewrite <- Rabs_mult; apply Rabs_pos_eq; nra).
  assert (Eq : Rabs (y n) * Rabs (y n) = y n * y n) by (rewrite <- Rabs_mult; apply Rabs_pos_eq; nra).
  assert (Hp := Rabs_pos (x n)). assert (Hq := Rabs_pos (y n)). set (p := Rabs (x n)) in *. set (q := Rabs (y n)) in *.
  assert (Pab : 0 <= a * b) by (apply Rmult_le_pos; assumption). assert (Ppq : 0 <= p * q) by (apply Rmult_le_pos; assumption).
  assert (Pxx : 0 <= x n * x n) by (rewrite <- Ep; apply Rmult_le_pos; assumption). assert (Pyy : 0 <= y n * y n) by (rewrite <- Eq; apply Rmult_le_pos; assumption).
  apply Rle_trans with (a * b + p * q); [lra|]. rewrite <- (sqrt_mult (X1 + x n * x n) (Y1 + y n * y n)) by lra. rewrite <- (sqrt_square (a * b + p * q)) by lra.
  apply sqrt_le_1_alt. rewrite <- Ep, <- Eq. replace X1 with (a * a) by exact Ea. replace Y1 with (b * b) by exact Eb. clear - Pab. assert (0 <= (a * q - b * p) * (a * q - b * p)) by apply Rle_0_sqr. lra.
Qed.

Lemma pow_mono u n m : 0 <= u -> (n <= m)%nat -> (1 + u) ^ n <= (1 + u) ^ m.
Proof. intros. apply Rle_pow; [lra|assumption]. Qed.

Theorem chol_flt_back {Tin To Ti} (ar : flt_arith Tin To Ti) M A : exists out L (s : nat -> nat -> nat -> Ti), chol_flt ar M A = Some out /\
  (forall i j, (j <= i < M)%nat -> s i j O = fa_in ar (A i j) /\ forall k, (k < j)%nat -> s i j (S k) = fa_sub ar (s i j k) (L i k) (L j k)) /\
  ((forall j, (j < M)%nat -> fa_pos ar (s j j j) = true) -> forall vin vo vi u e, 0 <= u <= 1 -> 0 <= e <= 1 -> accurate ar vin vo vi u e M A L s ->
   let g := (1 + u) ^ (M + 1) * ((1 + e) * (1 + e)) - 1 in g < 1 ->
   forall i j, (j <= i < M)%nat -> out i j = Some (L i j) /\
     Rabs (vin (A i j) - sumR (fun k => vo (L i k) * vo (L j k)) (S j)) <=
       g * (Rabs (vin (A i j)) + (1 + g) / (1 - g) * sqrt (Rabs (vin (A i i)) * Rabs (vin (A j j))))).
Proof.
  destruct (chol_flt_final ar M A) as (out & L & s & E & Hs & HF). exists out, L, s. split; [exact E|]. split; [exact Hs|].
  intros Hp vin vo vi u e Hu He HA g Hg i j Hij. specialize (HF Hp vin vo vi u e Hu He HA). destruct (HF i j Hij) as [Ho HB]. split; [exact Ho|].
  assert (G : forall t, (t < M)%nat -> (1 + u) ^ (t + 2) * ((1 + e) * (1 + e)) - 1 <= g).
  { intros t Ht. unfold g. assert ((1 + u) ^ (t + 2) <= (1 + u) ^ (M + 1)) by (apply pow_mono; [lra|lia]). assert (0 <= (1 + e) * (1 + e)) by nra. nra. }
  assert (G0 : 0 <= g). { assert (1 <= (1 + u) ^ (M + 1)) by (apply pow_R1_Rle; lra). assert (1 <= (1 + e) * (1 + e)) by nra. unfold g. nra. }
  assert (D : forall t, (t < M)%nat -> sumR (fun k => vo (L t k) * vo (L t k)) (S t) <= (1 + g) / (1 - g) * Rabs (vin (A t t))).
  { intros t Ht. destruct (HF t t (conj (le_n t) Ht)) as [_ B].
    assert (Q : sumR (fun k => Rabs (vo (L t k) * vo (L t k))) t <= sumR (fun k => vo (L t k) * vo (L t k)) (S t)).
    { cbn [sumR]. rewrite (sumR_ext (fun k => Rabs (vo (L t k) * vo (L t k))) (fun k => vo (L t k) * vo (L t k))) by (intros; apply Rabs_pos_eq; nra). nra. }
    assert (N : 0 <= sumR (fun k => Rabs (vo (L t k) * vo (L t k))) t) by (apply sumR_nonneg; intros; apply Rabs_pos).
    set (T := sumR (fun k => vo (L t k) * vo (L t k)) (S t)) in *. set (Q1 := sumR _ t) in *. specialize (G t Ht).
    assert (P := Rabs_pos (vin (A t t))).
    assert (B1 : Rabs (vin (A t t) - T) <= g * (Rabs (vin (A t t)) + T)).
    { eapply Rle_trans; [exact B|]. apply Rle_trans with (g * (Rabs (vin (A t t)) + Q1)); [apply Rmult_le_compat_r; lra|apply Rmult_le_compat_l; lra]. }
    assert (T0 : T <= Rabs (vin (A t t)) + Rabs (vin (A t t) - T)).
    { unfold Rabs. destruct (Rcase_abs (vin (A t t))), (Rcase_abs (vin (A t t) - T)); lra. }
    apply Rmult_le_reg_r with (1 - g); [lra|]. replace ((1 + g) / (1 - g) * Rabs (vin (A t t)) * (1 - g)) with ((1 + g) * Rabs (vin (A t t))) by (field; lra). lra. }
  eapply Rle_trans; [exact HB|].
  assert (C : sumR (fun k => Rabs (vo (L i k) * vo (L j k))) j <= (1 + g) / (1 - g) * sqrt (Rabs (vin (A i i)) * Rabs (vin (A j j)))).
  { eapply Rle_trans; [apply sumR_cs|]. assert (K : 0 <= (1 + g) / (1 - g)) by (apply Rlt_le, Rdiv_lt_0_compat; lra).
    assert (Hi : sumR (fun k => vo (L i k) * vo (L i k)) j <= (1 + g) / (1 - g) * Rabs (vin (A i i))).
    { eapply Rle_trans; [|apply D; lia]. apply sumR_mono; [intros; nra|lia]. }
    assert (Hj : sumR (fun k => vo (L j k) * vo (L j k)) j <= (1 + g) / (1 - g) * Rabs (vin (A j j))).
    { eapply Rle_trans; [|apply D; lia]. apply sumR_mono; [intros; nra|lia]. }
    assert (Pi := Rabs_pos (vin (A i i))). assert (Pj := Rabs_pos (vin (A j j))).
    replace ((1 + g) / (1 - g) * sqrt (Rabs (vin (A i i)) * Rabs (vin (A j j)))) with (sqrt ((1 + g) / (1 - g) * Rabs (vin (A i i))) * sqrt ((1 + g) / (1 - g) * Rabs (vin (A j j)))).
    - apply Rmult_le_compat; try apply sqrt_pos; apply sqrt_le_1_alt; assumption.
    - rewrite !sqrt_mult by assumption. set (w := (1 + g) / (1 - g)) in *. assert (W := sqrt_sqrt w K). rewrite <- W at 3. ring. }
  assert (N : 0 <= sumR (fun k => Rabs (vo (L i k) * vo (L j k))) j) by (apply sumR_nonneg; intros; apply Rabs_pos). assert (Pa := Rabs_pos (vin (A i j))).
  specialize (G j ltac:(lia)). eapply Rle_trans; [apply Rmult_le_compat_r; [|exact G]; lra|]. apply Rmult_le_compat_l; [exact G0|lra].
Qed.
