(** ac_chol_d on ac_float: which matrices are accepted. *)
From Coq Require Import Reals Lia Lra Psatz.
From Verif Require Import AcTypes SpecLin SpecR SpecRFacts CholThm CholFloatModel CholFloat SpecFlt CholFloatThm CholFloatBack.
Local Open Scope R_scope.

Lemma first_false (p : nat -> bool) n : (forall k, (k < n)%nat -> p k = true) \/ exists j, (j < n)%nat /\ p j = false /\ forall k, (k < j)%nat -> p k = true.
Proof.
  induction n as [|n [IH|IH]]; [left; lia| |right; destruct IH as (j & H & ?); exists j; split; [lia|assumption]].
  destruct (p n) eqn:E; [left; intros k Hk; destruct (Nat.eq_dec k n) as [->|]; [exact E|apply IH; lia]|right; exists n; repeat split; [lia|exact E|exact IH]].
Qed.

Section Pd.
Context {Tin To Ti : Type}.
Variables (ar : flt_arith Tin To Ti) (vin : Tin -> R) (vo : To -> R) (vi : Ti -> R) (u e b : R) (M : nat) (A : nat -> nat -> Tin) (L : nat -> nat -> To) (s : nat -> nat -> nat -> Ti).
Hypothesis Hu : 0 <= u <= 1.
Hypothesis He : 0 <= e <= 1.
Hypothesis HA : accurate ar vin vo vi u e M A L s.
Hypothesis Hs : forall i j, (j <= i < M)%nat -> s i j O = fa_in ar (A i j) /\ forall k, (k < j)%nat -> s i j (S k) = fa_sub ar (s i j k) (L i k) (L j k).
Hypothesis Hd : forall j, (j < M)%nat -> L j j = fa_root ar (s j j j).
Hypothesis Ho : forall i j, (j < i < M)%nat -> L i j = fa_mul ar (fa_recip ar (s j j j) (L j j)) (s i j j).
Hypothesis Hb : forall i j, (j <= i < M)%nat -> Rabs (vin (A i j)) <= b.
Let g := (1 + u) ^ (M + 1) * ((1 + e) * (1 + e)) - 1.
Hypothesis Hg : g < 1.
Let w := (1 + g) / (1 - g).
Let rho := g * (b + w * b).

Lemma g_nonneg : 0 <= g.
Proof. assert (1 <= (1 + u) ^ (M + 1)) by (apply pow_R1_Rle; lra). assert (1 <= (1 + e) * (1 + e)) by nra. unfold g. nra. Qed.
Lemma g_pow n : (n <= M + 1)%nat -> (1 + u) ^ n - 1 <= g.
Proof. intros H. assert ((1 + u) ^ n <= (1 + u) ^ (M + 1)) by (apply pow_mono; [lra|exact H]). assert (1 <= (1 + u) ^ (M + 1)) by (apply pow_R1_Rle; lra). assert (1 <= (1 + e) * (1 + e)) by nra. unfold g. nra. Qed.
Lemma g_all n : (n <= M + 1)%nat -> (1 + u) ^ n * ((1 + e) * (1 + e)) - 1 <= g.
Proof. intros H. assert ((1 + u) ^ n <= (1 + u) ^ (M + 1)) by (apply pow_mono; [lra|exact H]). assert (0 <= (1 + e) * (1 + e)) by nra. unfold g. nra. Qed.
Lemma e_lt : e < 1.
Proof. assert (1 <= (1 + u) ^ (M + 1)) by (apply pow_R1_Rle; lra). assert (1 <= (1 + e) * (1 + e)) by nra. unfold g in Hg. nra. Qed.
Lemma w_ge : 1 <= w.
Proof. pose proof g_nonneg. apply Rmult_le_reg_r with (1 - g); [lra|]. unfold w, Rdiv. rewrite Rmult_assoc, Rinv_l by lra. lra. Qed.
Lemma b_pos i j : (j <= i < M)%nat -> 0 <= b.
Proof. intros H. pose proof (Hb i j H). pose proof (Rabs_pos (vin (A i j))). lra. Qed.
Lemma abs_sq (f : nat -> R) n : sumR (fun k => Rabs (f k * f k)) n = sumR (fun k => f k * f k) n.
Proof. apply sumR_ext. intros. apply Rabs_pos_eq. nra. Qed.
Lemma sq_sum (f : nat -> R) n : 0 <= sumR (fun k => f k * f k) n.
Proof. apply sumR_nonneg. intros; nra. Qed.

Lemma row_sq i m k : (m <= i < M)%nat -> 0 < vi (s i i m) -> (k <= m)%nat -> sumR (fun c => vo (L i c) * vo (L i c)) k <= w * b.
Proof.
  intros Hi P Hk. destruct (psum_err ar vin vo vi u e M A L s Hu HA Hs Hd Ho i i m ltac:(lia) ltac:(lia)) as [E _]. cbv beta in E. rewrite (abs_sq (fun c => vo (L i c))) in E.
  assert (K : sumR (fun c => vo (L i c) * vo (L i c)) k <= sumR (fun c => vo (L i c) * vo (L i c)) m) by (apply sumR_mono; [intros; nra|exact Hk]).
  pose proof (sq_sum (fun c => vo (L i c)) m) as T0. cbv beta in T0. set (T := sumR (fun c => vo (L i c) * vo (L i c)) m) in *. eapply Rle_trans; [exact K|]. clear K.
  pose proof (Hb i i ltac:(lia)) as B1. pose proof (g_pow (S m) ltac:(lia)) as G. pose proof g_nonneg as G0. pose proof (Rabs_pos (vin (A i i))) as P0.
  assert (E2 : Rabs (vi (s i i m) - (vin (A i i) - T)) <= g * (b + T)). { eapply Rle_trans; [exact E|]. apply Rle_trans with (g * (Rabs (vin (A i i)) + T)); [apply Rmult_le_compat_r; lra|apply Rmult_le_compat_l; lra]. }
  apply Rabs_le_both in E2. apply Rabs_le_both in B1. apply Rmult_le_reg_r with (1 - g); [lra|]. replace (w * b * (1 - g)) with ((1 + g) * b) by (unfold w; field; lra). lra.
Qed.

Lemma res i k : (k <= i < M)%nat -> fa_pos ar (s k k k) = true -> sumR (fun c => vo (L i c) * vo (L i c)) k <= w * b ->
  Rabs (vin (A i k) - sumR (fun c => vo (L i c) * vo (L k c)) (S k)) <= rho.
Proof.
  intros Hi P R1. assert (E := chol_flt_err ar vin vo vi u e M A L s Hu He HA Hs Hd Ho i k Hi P). cbv beta in E.
  assert (R2 : sumR (fun c => vo (L k c) * vo (L k c)) k <= w * b). { apply (row_sq k k k); [lia| |lia]. apply (ac_pos _ _ _ _ _ _ _ _ _ _ HA); [lia|exact P]. }
  assert (C : sumR (fun c => Rabs (vo (L i c) * vo (L k c))) k <= w * b).
  { eapply Rle_trans; [apply (sumR_cs (fun c => vo (L i c)) (fun c => vo (L k c)))|]. cbv beta. assert (W : 0 <= w * b) by (pose proof w_ge; pose proof (b_pos i k Hi); nra).
    rewrite <- (sqrt_sqrt (w * b) W). apply Rmult_le_compat; try apply sqrt_pos; apply sqrt_le_1_alt; rewrite ?(sqrt_sqrt (w * b) W); assumption. }
  assert (N : 0 <= sumR (fun c => Rabs (vo (L i c) * vo (L k c))) k) by (apply sumR_nonneg; intros; apply Rabs_pos).
  pose proof (Hb i k Hi) as B1. pose proof (Rabs_pos (vin (A i k))) as B0. pose proof (g_all (k + 2) ltac:(lia)) as G. pose proof g_nonneg as G0.
  eapply Rle_trans; [exact E|]. unfold rho. eapply Rle_trans; [apply Rmult_le_compat_r; [lra|exact G]|]. apply Rmult_le_compat_l; lra.
Qed.

Lemma diag_pos k : (k < M)%nat -> fa_pos ar (s k k k) = true -> 0 < vo (L k k).
Proof.
  intros Hk P. destruct (ac_root _ _ _ _ _ _ _ _ _ _ HA k Hk P) as [R1 _]. cbv zeta in R1. rewrite <- Hd in R1 by exact Hk. assert (P0 := proj1 (ac_pos _ _ _ _ _ _ _ _ _ _ HA k Hk) P).
  apply sqrt_lt_R0 in P0. apply Rabs_le_both in R1. pose proof e_lt. nra.
Qed.

Hypothesis Hsym : forall i k, (i < M)%nat -> (k < M)%nat -> vin (A i k) = vin (A k i).
Let l i k := if Nat.ltb i k then 0 else vo (L i k).
Lemma l_low i k : (k <= i)%nat -> l i k = vo (L i k).
Proof. intros H. unfold l. destruct (Nat.ltb_spec i k); [lia|reflexivity]. Qed.
Lemma l_up i k : (i < k)%nat -> l i k = 0.
Proof. intros H. unfold l. destruct (Nat.ltb_spec i k); [reflexivity|lia]. Qed.

Lemma pd_pos : (forall x, (exists i, (i < M)%nat /\ x i <> 0) -> rho * norm1sq x M < quadR (fun i j => vin (A i j)) x M) -> forall j, (j < M)%nat -> fa_pos ar (s j j j) = true.
Proof.
  intros HP. destruct (first_false (fun k => fa_pos ar (s k k k)) M) as [H|(j & Hj & Fj & PK)]; [exact H|exfalso].
  assert (Fj' : ~ 0 < vi (s j j j)). { intros H. apply (ac_pos _ _ _ _ _ _ _ _ _ _ HA j Hj) in H. cbv beta in Fj. congruence. }
  destruct (first_false (fun m => if Rlt_dec 0 (vi (s j j m)) then true else false) (S j)) as [H|(n & Hn & Fn & Pn)].
  { specialize (H j ltac:(lia)). cbv beta in H. destruct (Rlt_dec 0 (vi (s j j j))); [contradiction|discriminate]. }
  cbv beta in Fn. destruct (Rlt_dec 0 (vi (s j j n))) as [|Fn']; [discriminate|]. clear Fn.
  assert (Pn' : forall m, (m < n)%nat -> 0 < vi (s j j m)). { intros m Hm. specialize (Pn m Hm). cbv beta in Pn. destruct (Rlt_dec 0 (vi (s j j m))); [assumption|discriminate]. }
  pose proof g_nonneg as G0. pose proof w_ge as W1. pose proof (b_pos j j ltac:(lia)) as B0. assert (WB : b <= w * b) by nra. assert (HR : 0 <= rho) by (unfold rho; apply Rmult_le_pos; lra).
  destruct (small_form (fun i k => vin (A i k)) l n j M rho ltac:(lia) HR) as (x & Xj & XQ).
  - intros k Hk. rewrite l_low by lia. apply diag_pos; [lia|apply PK; lia].
  - intros i k H _. apply l_up, H.
  - exact Hsym.
  - intros i k Hk Hi. rewrite (sumR_ext _ (fun c => vo (L i c) * vo (L k c))) by (intros c Hc; rewrite !l_low by lia; reflexivity). apply res; [lia|apply PK; lia|].
    apply (row_sq i i k); [lia| |lia]. apply (ac_pos _ _ _ _ _ _ _ _ _ _ HA i ltac:(lia)). apply PK. lia.
  - intros k Hk. rewrite (sumR_ext _ (fun c => vo (L j c) * vo (L k c))) by (intros c Hc; rewrite !l_low by lia; reflexivity). apply res; [lia|apply PK; lia|].
    apply (row_sq j k k); [lia|apply Pn', Hk|lia].
  - rewrite (sumR_ext _ (fun c => vo (L j c) * vo (L j c))) by (intros c Hc; rewrite !l_low by lia; reflexivity).
    destruct (psum_err ar vin vo vi u e M A L s Hu HA Hs Hd Ho j j n ltac:(lia) ltac:(lia)) as [E _]. cbv beta in E. rewrite (abs_sq (fun c => vo (L j c))) in E. pose proof (sq_sum (fun c => vo (L j c)) n) as T0. cbv beta in T0, E.
    set (T := sumR (fun c => vo (L j c) * vo (L j c)) n) in *. pose proof (Hb j j ltac:(lia)) as B1. pose proof (g_pow (S n) ltac:(lia)) as G. pose proof (Rabs_pos (vin (A j j))) as P0.
    assert (E2 : Rabs (vi (s j j n) - (vin (A j j) - T)) <= g * (b + T)). { eapply Rle_trans; [exact E|]. apply Rle_trans with (g * (Rabs (vin (A j j)) + T)); [apply Rmult_le_compat_r; lra|apply Rmult_le_compat_l; lra]. }
    apply Rabs_le_both in E2, B1. destruct (Rle_lt_dec b T) as [C|C]; [lra|]. assert (g * (b + T) <= rho) by (unfold rho; apply Rmult_le_compat_l; lra). lra.
  - specialize (HP x ltac:(exists j; split; [lia|rewrite Xj; lra])). unfold norm1sq in HP. lra.
Qed.

Lemma npd_neg : (exists x, quadR (fun i j => vin (A i j)) x M < - (rho * norm1sq x M)) -> exists j, (j < M)%nat /\ fa_pos ar (s j j j) = false.
Proof.
  intros (x & Hx). destruct (first_false (fun k => fa_pos ar (s k k k)) M) as [PK|(j & Hj & Fj & _)]; [exfalso|exists j; split; [exact Hj|exact Fj]].
  assert (R : forall i k, (k <= i < M)%nat -> Rabs (vin (A i k) - sumR (fun c => l i c * l k c) M) <= rho).
  { intros i k H. rewrite (sumR_cut _ (S k) M) by (lia || (intros c Hc; rewrite (l_up k c) by lia; ring)).
    rewrite (sumR_ext _ (fun c => vo (L i c) * vo (L k c))) by (intros c Hc; rewrite !l_low by lia; reflexivity). apply res; [lia|apply PK; lia|].
    apply (row_sq i i k); [lia| |lia]. apply (ac_pos _ _ _ _ _ _ _ _ _ _ HA i ltac:(lia)). apply PK. lia. }
  pose proof (near_psd (fun i j => vin (A i j)) l M rho x) as N. unfold norm1sq in Hx. cbv beta in N.
  assert (H : forall i j, (i < M)%nat -> (j < M)%nat -> Rabs (vin (A i j) - sumR (fun k => l i k * l j k) M) <= rho).
  { intros i j Hi Hj. destruct (Nat.le_ge_cases j i) as [H|H]; [apply R; lia|]. rewrite Hsym by assumption. rewrite (sumR_ext _ (fun k => l j k * l i k)) by (intros; ring). apply R. lia. }
  specialize (N H). lra.
Qed.
End Pd.

Theorem chol_flt_pd {Tin To Ti} (ar : flt_arith Tin To Ti) M A : exists out L (s : nat -> nat -> nat -> Ti), chol_flt ar M A = Some out /\
  (forall i j, (j <= i < M)%nat -> s i j O = fa_in ar (A i j) /\ forall k, (k < j)%nat -> s i j (S k) = fa_sub ar (s i j k) (L i k) (L j k)) /\
  (forall j, (j < M)%nat -> L j j = fa_root ar (s j j j)) /\
  (forall i j, (j < i < M)%nat -> L i j = fa_mul ar (fa_recip ar (s j j j) (L j j)) (s i j j)) /\
  forall vin vo vi u e b, 0 <= u <= 1 -> 0 <= e <= 1 -> accurate ar vin vo vi u e M A L s ->
  (forall i j, (i < M)%nat -> (j < M)%nat -> vin (A i j) = vin (A j i) /\ Rabs (vin (A i j)) <= b) ->
  let g := (1 + u) ^ (M + 1) * ((1 + e) * (1 + e)) - 1 in g < 1 -> let rho := 2 * g / (1 - g) * b in
  ((forall x, (exists i, (i < M)%nat /\ x i <> 0) -> rho * norm1sq x M < quadR (fun i j => vin (A i j)) x M) ->
   forall i j, (j <= i < M)%nat -> out i j = Some (L i j) /\ 0 < vo (L j j) /\ Rabs (vin (A i j) - sumR (fun k => vo (L i k) * vo (L j k)) (S j)) <= rho) /\
  ((exists x, quadR (fun i j => vin (A i j)) x M < - (rho * norm1sq x M)) -> forall i j, (i < M)%nat -> (j < M)%nat -> out i j = Some (fa_zero ar)).
Proof.
  destruct (chol_flt_struct ar M A) as (out & L & s & E & Hs & Hd & Ho & _ & HP & HN). exists out, L, s. repeat (split; [assumption|]).
  intros vin vo vi u e b Hu He HA HAb g Hg rho.
  assert (Hb : forall i j, (j <= i < M)%nat -> Rabs (vin (A i j)) <= b) by (intros i j H; apply HAb; lia).
  assert (Hsym : forall i k, (i < M)%nat -> (k < M)%nat -> vin (A i k) = vin (A k i)) by (intros i k H1 H2; apply HAb; assumption).
  assert (ER : g * (b + (1 + g) / (1 - g) * b) = rho) by (unfold rho; field; lra). unfold g in ER, Hg.
  split.
  - intros Q. rewrite <- ER in Q. assert (PK := pd_pos ar vin vo vi u e b M A L s Hu He HA Hs Hd Ho Hb Hg Hsym Q).
    intros i j H. split; [apply HP; assumption|]. split; [apply (diag_pos ar vin vo vi u e M A L s Hu He HA Hd Hg j); [lia|apply PK; lia]|].
    rewrite <- ER. apply (res ar vin vo vi u e b M A L s Hu He HA Hs Hd Ho Hb Hg i j H); [apply PK; lia|].
    apply (row_sq ar vin vo vi u e b M A L s Hu He HA Hs Hd Ho Hb Hg i i j); [lia| |lia]. apply (ac_pos _ _ _ _ _ _ _ _ _ _ HA i ltac:(lia)). apply PK. lia.
  - intros Q. rewrite <- ER in Q. destruct (npd_neg ar vin vo vi u e b M A L s Hu He HA Hs Hd Ho Hb Hg Hsym Q) as (k & Hk & Fk). apply (HN k Hk Fk).
Qed.

(** The conditions hold for the unit matrix and for diag (1, -1), with errors of a thousandth. *)
Definition diag2 (d : R) (i j : nat) : R := if Nat.eqb i j then if Nat.eqb i 0 then 1 else d else 0.
Lemma g2 : (1 + / 1000) ^ (2 + 1) * ((1 + / 1000) * (1 + / 1000)) - 1 < / 100. Proof. cbn [Nat.add pow]. lra. Qed.
Lemma rho2 g : 0 <= g < / 100 -> 2 * g / (1 - g) * 1 < / 4.
Proof. intros H. apply Rmult_lt_reg_r with (1 - g); [lra|]. unfold Rdiv. rewrite Rmult_1_r, Rmult_assoc, Rinv_l by lra. lra. Qed.
Lemma pd_conditions : let g := (1 + / 1000) ^ (2 + 1) * ((1 + / 1000) * (1 + / 1000)) - 1 in let rho := 2 * g / (1 - g) * 1 in g < 1 /\
  (forall x, (exists i, (i < 2)%nat /\ x i <> 0) -> rho * norm1sq x 2 < quadR (diag2 1) x 2) /\ exists x, quadR (diag2 (-1)) x 2 < - (rho * norm1sq x 2).
Proof.
  intros g rho. assert (G : g < / 100) by exact g2. assert (G0 : 0 <= g) by (unfold g; cbn [Nat.add pow]; lra). assert (R : rho < / 4) by (apply rho2; lra). clearbody rho. split; [lra|]. split.
  - intros x (i & Hi & Hx). unfold norm1sq, quadR, diag2. cbn [sumR Nat.eqb]. assert (X0 : Rabs (x 0%nat) * Rabs (x 0%nat) = x 0%nat * x 0%nat) by (rewrite <- Rabs_mult; apply Rabs_pos_eq; nra).
    assert (X1 : Rabs (x 1%nat) * Rabs (x 1%nat) = x 1%nat * x 1%nat) by (rewrite <- Rabs_mult; apply Rabs_pos_eq; nra). set (p := Rabs (x 0%nat)) in *. set (q := Rabs (x 1%nat)) in *.
    assert (P : 0 < p * p + q * q).
    { rewrite X0, X1. pose proof (Rle_0_sqr (x 0%nat)) as S0. pose proof (Rle_0_sqr (x 1%nat)) as S1. pose proof (Rsqr_pos_lt (x i) Hx) as SI. unfold Rsqr in *. destruct i as [|[|i]]; [lra|lra|lia]. }
    assert (N : (p + q) * (p + q) <= 2 * (p * p + q * q)) by (pose proof (Rle_0_sqr (p - q)); unfold Rsqr in *; lra). assert (N0 : 0 <= (p + q) * (p + q)) by apply Rle_0_sqr. replace (0 + p + q) with (p + q) by ring.
    apply Rle_lt_trans with (/ 4 * ((p + q) * (p + q))); [apply Rmult_le_compat_r; lra|]. lra.
  - exists (fun i => if Nat.eqb i 1 then 1 else 0). unfold norm1sq, quadR, diag2. cbn [sumR Nat.eqb]. rewrite Rabs_R0, Rabs_R1. lra.
Qed.
