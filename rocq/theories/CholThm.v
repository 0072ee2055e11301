(** The factorisation reproduces the matrix; it succeeds on matrices that are positive definite with a margin. *)
From Coq Require Import Reals Lra Psatz.
From Verif Require Import AcTypes AcFacts Spec SpecFacts SpecR SpecRFacts SpecLin RtTypes MatrixModel MatrixProofs SoftFacts CholModel CholProofs CholReal.
Local Open Scope R_scope.

(** ** Sums *)
Lemma sumR_ext f g n : (forall k, (k < n)%nat -> f k = g k) -> sumR f n = sumR g n.
Proof. induction n as [|n IH]; intros H; [reflexivity|]. cbn [sumR]. rewrite H by lia. rewrite IH; [reflexivity|]. intros; apply H; lia. Qed.
Lemma sumR_nonneg f n : (forall k, (k < n)%nat -> 0 <= f k) -> 0 <= sumR f n.
Proof. induction n as [|n IH]; intros H; cbn [sumR]; [lra|]. specialize (IH ltac:(intros; apply H; lia)). specialize (H n ltac:(lia)). lra. Qed.
Lemma sumR_mono f n m : (forall k, 0 <= f k) -> (n <= m)%nat -> sumR f n <= sumR f m.
Proof. intros H. induction 1 as [|m _ IH]; [lra|]. cbn [sumR]. specialize (H m). lra. Qed.
Lemma sumR_cut f n m : (n <= m)%nat -> (forall k, (n <= k < m)%nat -> f k = 0) -> sumR f m = sumR f n.
Proof. induction 1 as [|m Hm IH]; intros H; [reflexivity|]. cbn [sumR]. rewrite H by lia. rewrite IH; [ring|]. intros; apply H; lia. Qed.
Lemma sumR_plus f g n : sumR (fun k => f k + g k) n = sumR f n + sumR g n.
Proof. induction n as [|n IH]; cbn [sumR]; [ring|rewrite IH; ring]. Qed.
Lemma sumR_scal a f n : sumR (fun k => a * f k) n = a * sumR f n.
Proof. induction n as [|n IH]; cbn [sumR]; [ring|rewrite IH; ring]. Qed.
Lemma sumR_le f g n : (forall k, (k < n)%nat -> f k <= g k) -> sumR f n <= sumR g n.
Proof. induction n as [|n IH]; intros H; cbn [sumR]; [lra|]. specialize (IH ltac:(intros; apply H; lia)). specialize (H n ltac:(lia)). lra. Qed.
Lemma sumR_swap (f : nat -> nat -> R) n m : sumR (fun i => sumR (fun j => f i j) m) n = sumR (fun j => sumR (fun i => f i j) n) m.
Proof.
  induction n as [|n IH]; cbn [sumR].
  - symmetry. induction m as [|m IHm]; cbn [sumR]; [reflexivity|rewrite IHm; ring].
  - rewrite IH, <- sumR_plus. reflexivity.
Qed.
Lemma cs_bound x y n B : sumR (fun c => x c * x c) n <= B -> sumR (fun c => y c * y c) n <= B -> Rabs (sumR (fun c => x c * y c) n) <= B.
Proof.
  intros H1 H2. assert (forall s, (s = 1 \/ s = -1) -> s * sumR (fun c => x c * y c) n <= B).
  { intros s Hs. rewrite <- sumR_scal. eapply Rle_trans; [apply (sumR_le _ (fun c => / 2 * (x c * x c) + / 2 * (y c * y c)))|rewrite sumR_plus, !sumR_scal; lra].
    intros k _. pose proof (Rle_0_sqr (x k - s * y k)) as Q. unfold Rsqr in Q. destruct Hs as [-> | ->]; lra. }
  pose proof (H 1 ltac:(left; reflexivity)). pose proof (H (-1) ltac:(right; reflexivity)). apply Rabs_le. lra.
Qed.

(** ** Quadratic forms *)
Lemma quad_gram (l : nat -> nat -> R) x M n :
  quadR (fun i j => sumR (fun k => l i k * l j k) n) x M = sumR (fun k => sumR (fun i => x i * l i k) M * sumR (fun i => x i * l i k) M) n.
Proof.
  unfold quadR. transitivity (sumR (fun i => sumR (fun j => sumR (fun k => (x i * l i k) * (x j * l j k)) n) M) M).
  { apply sumR_ext. intros i _. apply sumR_ext. intros j _. replace (x i * sumR (fun k => l i k * l j k) n * x j) with ((x i * x j) * sumR (fun k => l i k * l j k) n) by ring. rewrite <- sumR_scal. apply sumR_ext. intros k _. ring. }
  transitivity (sumR (fun i => sumR (fun k => (x i * l i k) * sumR (fun j => x j * l j k) M) n) M).
  { apply sumR_ext. intros i _. rewrite sumR_swap. apply sumR_ext. intros k _. apply sumR_scal. }
  rewrite sumR_swap. apply sumR_ext. intros k _. rewrite <- sumR_scal. apply sumR_ext. intros i _. ring.
Qed.

Lemma quad_sub A G x M : quadR A x M = quadR G x M + quadR (fun i j => A i j - G i j) x M.
Proof. unfold quadR. rewrite <- sumR_plus. apply sumR_ext. intros i _. rewrite <- sumR_plus. apply sumR_ext. intros j _. ring. Qed.

Lemma sumR_opp f n : sumR (fun k => - f k) n = - sumR f n.
Proof. induction n as [|n IH]; cbn [sumR]; [ring|rewrite IH; ring]. Qed.

Lemma abs_square x M rho : sumR (fun i => sumR (fun j => rho * (Rabs (x i) * Rabs (x j))) M) M = rho * (sumR (fun i => Rabs (x i)) M * sumR (fun i => Rabs (x i)) M).
Proof.
  transitivity (sumR (fun i => rho * (sumR (fun j => Rabs (x j)) M * Rabs (x i))) M).
  - apply sumR_ext. intros i _. rewrite sumR_scal. f_equal. rewrite sumR_scal. ring.
  - rewrite sumR_scal. f_equal. apply sumR_scal.
Qed.

Lemma quad_diff_le E x M rho : (forall i j, (i < M)%nat -> (j < M)%nat -> x i * E i j * x j <= rho * (Rabs (x i) * Rabs (x j))) ->
  quadR E x M <= rho * (sumR (fun i => Rabs (x i)) M * sumR (fun i => Rabs (x i)) M).
Proof. intros H. rewrite <- abs_square. apply sumR_le. intros i Hi. apply sumR_le. intros j Hj. apply H; assumption. Qed.

Lemma prod3_le a e c rho : Rabs e <= rho -> - (rho * (Rabs a * Rabs c)) <= a * e * c <= rho * (Rabs a * Rabs c).
Proof.
  intros H. assert (K : Rabs (a * e * c) <= rho * (Rabs a * Rabs c)).
  { rewrite !Rabs_mult. replace (Rabs a * Rabs e * Rabs c) with (Rabs e * (Rabs a * Rabs c)) by ring. apply Rmult_le_compat_r; [|exact H]. apply Rmult_le_pos; apply Rabs_pos. }
  apply Rabs_le_both in K. exact K.
Qed.

(** A matrix within rho of L L^T is nearly positive semidefinite. *)
Lemma near_psd A (l : nat -> nat -> R) M rho x : (forall i j, (i < M)%nat -> (j < M)%nat -> Rabs (A i j - sumR (fun k => l i k * l j k) M) <= rho) ->
  - (rho * (sumR (fun i => Rabs (x i)) M * sumR (fun i => Rabs (x i)) M)) <= quadR A x M.
Proof.
  intros H. rewrite (quad_sub A (fun i j => sumR (fun k => l i k * l j k) M)), quad_gram.
  assert (0 <= sumR (fun k => sumR (fun i => x i * l i k) M * sumR (fun i => x i * l i k) M) M) by (apply sumR_nonneg; intros; nra).
  assert (quadR (fun i j => - (A i j - sumR (fun k => l i k * l j k) M)) x M <= rho * (sumR (fun i => Rabs (x i)) M * sumR (fun i => Rabs (x i)) M)).
  { apply quad_diff_le. intros i j Hi Hj. pose proof (prod3_le (x i) (A i j - sumR (fun k => l i k * l j k) M) (x j) rho (H i j Hi Hj)). lra. }
  assert (E : quadR (fun i j => - (A i j - sumR (fun k => l i k * l j k) M)) x M = - quadR (fun i j => A i j - sumR (fun k => l i k * l j k) M) x M).
  { unfold quadR. rewrite <- sumR_opp. apply sumR_ext. intros i _. rewrite <- sumR_opp. apply sumR_ext. intros j _. ring. }
  lra.
Qed.

(** Back substitution. *)
Lemma sumR_upd f g k t n : (k < n)%nat -> sumR (fun i => (if Nat.eqb i k then f i + t else f i) * g i) n = sumR (fun i => f i * g i) n + t * g k.
Proof.
  induction n as [|n IH]; intros H; [lia|]. cbn [sumR]. destruct (Nat.eq_dec k n) as [->|Hn].
  - rewrite Nat.eqb_refl. rewrite (sumR_ext _ (fun i => f i * g i)); [ring|]. intros i Hi. destruct (Nat.eqb_spec i n); [lia|reflexivity].
  - rewrite IH by lia. destruct (Nat.eqb_spec n k); [lia|ring].
Qed.

Lemma solve (l : nat -> nat -> R) n j M : (n <= j < M)%nat -> (forall k, (k < n)%nat -> 0 < l k k) -> (forall i k, (i < k)%nat -> (k < n)%nat -> l i k = 0) ->
  forall m, (m <= n)%nat -> exists x, x j = 1 /\ (forall i, (n <= i)%nat -> i <> j -> x i = 0) /\ forall k, (n - m <= k < n)%nat -> sumR (fun i => x i * l i k) M = 0.
Proof.
  intros Hj HD HL. induction m as [|m IH]; intros Hm.
  - exists (fun i => if Nat.eqb i j then 1 else 0). rewrite Nat.eqb_refl. split; [reflexivity|]. split; [|lia]. intros i _ Hi. destruct (Nat.eqb_spec i j); [contradiction|reflexivity].
  - destruct (IH ltac:(lia)) as (x & Xj & X0 & XS). set (k0 := (n - S m)%nat). set (t := - sumR (fun i => x i * l i k0) M / l k0 k0).
    exists (fun i => if Nat.eqb i k0 then x i + t else x i). assert (D := HD k0 ltac:(lia)). split; [destruct (Nat.eqb_spec j k0); [lia|exact Xj]|]. split.
    + intros i Hi Hij. destruct (Nat.eqb_spec i k0); [lia|]. apply X0; assumption.
    + intros k Hk. rewrite (sumR_upd x (fun i => l i k)) by lia. destruct (Nat.eq_dec k k0) as [->|].
      * unfold t. field. lra.
      * rewrite XS by lia. rewrite (HL k0 k) by lia. ring.
Qed.

(** A leading block that factors with a last entry that does not: the quadratic form is small somewhere. *)
Lemma small_form A (l : nat -> nat -> R) n j M rho : (n <= j < M)%nat -> 0 <= rho -> (forall k, (k < n)%nat -> 0 < l k k) -> (forall i k, (i < k)%nat -> (k < n)%nat -> l i k = 0) ->
  (forall i k, (i < M)%nat -> (k < M)%nat -> A i k = A k i) ->
  (forall i k, (k <= i)%nat -> (i < n)%nat -> Rabs (A i k - sumR (fun c => l i c * l k c) (S k)) <= rho) ->
  (forall k, (k < n)%nat -> Rabs (A j k - sumR (fun c => l j c * l k c) (S k)) <= rho) ->
  A j j - sumR (fun c => l j c * l j c) n <= rho ->
  exists x, x j = 1 /\ quadR A x M <= rho * (sumR (fun i => Rabs (x i)) M * sumR (fun i => Rabs (x i)) M).
Proof.
  intros Hj HR HD HL HS H1 H2 H3. destruct (solve l n j M Hj HD HL n ltac:(lia)) as (x & Xj & X0 & XS). exists x. split; [exact Xj|].
  rewrite (quad_sub A (fun i k => sumR (fun c => l i c * l k c) n)), quad_gram.
  rewrite (sumR_ext _ (fun _ => 0 * 0)) by (intros k Hk; rewrite XS by lia; ring). rewrite sumR_scal, Rmult_0_l, Rplus_0_l.
  assert (G : forall i k, (k < n)%nat -> sumR (fun c => l i c * l k c) n = sumR (fun c => l i c * l k c) (S k)).
  { intros i k Hk. apply sumR_cut; [lia|]. intros c Hc. rewrite (HL k c) by lia. ring. }
  assert (GS : forall i k, sumR (fun c => l i c * l k c) n = sumR (fun c => l k c * l i c) n) by (intros; apply sumR_ext; intros; ring).
  assert (LOW : forall i k, (k <= i)%nat -> (k < M)%nat -> (i < M)%nat -> x i * (A i k - sumR (fun c => l i c * l k c) n) * x k <= rho * (Rabs (x i) * Rabs (x k))).
  { intros i k Hki Hk Hi. assert (Z : forall e, (x i = 0 \/ x k = 0) -> x i * e * x k <= rho * (Rabs (x i) * Rabs (x k))).
    { intros e [-> | ->]; rewrite Rabs_R0; nra. }
    destruct (Nat.lt_ge_cases i n) as [Hin|Hin].
    - apply prod3_le. rewrite G by lia. apply H1; lia.
    - destruct (Nat.eq_dec i j) as [->|]; [|apply Z; left; apply X0; lia]. destruct (Nat.lt_ge_cases k n) as [Hkn|Hkn].
      + apply prod3_le. rewrite G by lia. apply H2; lia.
      + destruct (Nat.eq_dec k j) as [->|]; [|apply Z; right; apply X0; lia]. rewrite Xj, Rabs_R1. lra. }
  apply quad_diff_le. intros i k Hi Hk. destruct (Nat.le_ge_cases k i) as [H|H]; [apply LOW; assumption|].
  rewrite (HS i k) by assumption. rewrite GS. replace (rho * (Rabs (x i) * Rabs (x k))) with (rho * (Rabs (x k) * Rabs (x i))) by ring.
  replace (x i * (A k i - sumR (fun c => l k c * l i c) n) * x k) with (x k * (A k i - sumR (fun c => l k c * l i c) n) * x i) by ring. apply LOW; assumption.
Qed.

Lemma all_pos_k M fa fo fi A L : all_pos fa fo fi A L M = true -> forall k, (k < M)%nat -> (0 < chain fo fi (L k) (L k) k (conv fi (A k k) (fF fa)))%Z.
Proof. intros H k Hk. unfold all_pos in H. rewrite forallb_forall in H. specialize (H k ltac:(apply in_seq; lia)). lia. Qed.

(** ** One row of the factor *)
Section Fact.
Variables (pwl : bool) (M : nat) (fa fo fi : fmt) (A : mat) (junk : nat -> Z) (L : nat -> nat -> Z) (b : R).
Variables (D kap del X : R).
Hypothesis TK : chol_types fo fi.
Local Notation u := (bpow2 (- fF fo)).
Local Notation ui := (bpow2 (- fF fi)).
Local Notation vo m := (fxval m (fF fo)).
Local Notation vi m := (fxval m (fF fi)).
Local Notation vA i j := (fxval (A i j) (fF fa)).
Local Notation a0 i j := (conv fi (A i j) (fF fa)).
Let B : R := b + INR (M + 1) * ui.
Hypothesis HB : B <= bpow2 (fI fi - 2).
Hypothesis HA : forall i j, (j <= i < M)%nat -> Rabs (vA i j) <= b.
Hypothesis HC : forall k, (k < M)%nat -> crout pwl M fa fo fi A junk L k.
Hypothesis HX : sqrt B <= X.
Local Notation piv k m := (chain fo fi (L k) (L k) m (a0 k k)).
Local Notation off i k m := (chain fo fi (L i) (L k) m (a0 i k)).
Hypothesis Hroot : forall k d r, (0 < piv k k)%Z -> in_range true (fW fi) (piv k k) -> vi (piv k k) <= B ->
  chol_root pwl fo fi (junk k) (piv k k) = Some (d, r) -> root_spec fo fi B X D kap del (vi (piv k k)) d r.

Lemma Ii_half : bpow2 (fW fi - 1 - fF fi) = 2 * bpow2 (fI fi - 2).
Proof. replace (fW fi - 1 - fF fi)%Z with (1 + (fI fi - 2))%Z by (unfold fF; lia). rewrite bpow2_add, bpow2_1. reflexivity. Qed.
Lemma M1 : INR (M + 1) = INR M + 1. Proof. rewrite plus_INR. reflexivity. Qed.
Lemma ui_pos : 0 < ui. Proof. apply bpow2_pos. Qed.

Lemma b_nonneg i j : (j <= i < M)%nat -> 0 <= b.
Proof. intros H. specialize (HA i j H). pose proof (Rabs_pos (vA i j)). lra. Qed.
Lemma INR_lt_M k : (k < M)%nat -> INR k + 1 <= INR M.
Proof. intros H. rewrite <- S_INR. apply le_INR. lia. Qed.

Lemma a0_ok i j : (j <= i < M)%nat -> in_range true (fW fi) (a0 i j) /\ Rabs (vi (a0 i j) - vA i j) <= ui.
Proof.
  intros H. pose proof (HA i j H) as Ha. pose proof (b_nonneg i j H) as Hb. apply Rabs_le_both in Ha. pose proof Ii_half as E. pose proof ui_pos as Pu.
  pose proof (tk_wi _ _ TK) as Wi. pose proof (INR_lt_M i ltac:(lia)) as Mi. pose proof (pos_INR i). unfold B in HB. rewrite M1 in HB.
  destruct (sat_near fi _ _ Wi ltac:(rewrite (tk_oi _ _ TK); discriminate) (conv_R fi (A i j) (fF fa) Wi)) as [R N].
  { rewrite imin_R by (try apply TK; assumption). destruct (imax_R fi) as [->|]; [|lia]. rewrite (tk_si _ _ TK), E. nra. }
  rewrite (tk_si _ _ TK) in R. split; assumption.
Qed.

(** A row with positive sums up to m is bounded. *)
Lemma row_bound i m : (i < M)%nat -> (m <= i)%nat -> (0 < piv i m)%Z ->
  (forall k, (k <= m)%nat -> sumR (fun c => vo (L i c) * vo (L i c)) k <= B) /\ vi (piv i m) <= B /\
  Rabs (vi (piv i m) - (vA i i - sumR (fun c => vo (L i c) * vo (L i c)) m)) <= (INR m + 1) * ui.
Proof.
  intros Hi Hm P. destruct (a0_ok i i ltac:(lia)) as [R N]. pose proof (HA i i ltac:(lia)) as Ha. apply Rabs_le_both in N, Ha. pose proof ui_pos as Pu.
  pose proof (pivot_chain fo fi (tk_wi _ _ TK) (tk_si _ _ TK) (tk_oi _ _ TK) (L i) _ R m P) as K.
  pose proof (INR_lt_M i Hi) as Mi. assert (Mm : INR m <= INR i) by (apply le_INR; lia). split; [|split].
  - intros k Hk. destruct (K k Hk) as [Pk Nk]. apply (fx_pos _ (fF fi)) in Pk. apply Rabs_le_both in Nk. assert (INR k <= INR m) by (apply le_INR; lia).
    unfold B. rewrite M1. nra.
  - destruct (K m ltac:(lia)) as [_ Nm]. apply Rabs_le_both in Nm. assert (0 <= sumR (fun c => vo (L i c) * vo (L i c)) m) by (apply sumR_nonneg; intros; nra).
    unfold B. rewrite M1. nra.
  - destruct (K m ltac:(lia)) as [_ Nm]. apply Rabs_le_both in Nm. apply Rabs_le. lra.
Qed.

(** The pivot column. *)
Lemma col_fact k : (k < M)%nat -> (0 < piv k k)%Z -> exists r, root_spec fo fi B X D kap del (vi (piv k k)) (L k k) r /\
  chol_root pwl fo fi (junk k) (piv k k) = Some (L k k, r) /\
  forall i, (k < i < M)%nat -> L i k = conv fo (r * off i k k) (2 * fF fi).
Proof.
  intros Hk P. destruct (HC k Hk) as (d & r & E1 & E2 & E3). destruct (row_bound k k Hk ltac:(lia) P) as (_ & PB & _).
  assert (RS := Hroot k d r P ltac:(apply chain_range; [apply TK|apply TK|apply a0_ok; lia]) PB E1).
  assert (Ed : L k k = d). { rewrite E2. apply conv_own; [pose proof (tk_wo _ _ TK); lia|rewrite (tk_oo _ _ TK); discriminate|]. rewrite (tk_so _ _ TK). apply RS. }
  exists r. rewrite Ed. split; [exact RS|split; assumption].
Qed.

(** The sums below the pivot. *)
Lemma off_fact i k : (k < i < M)%nat -> (0 < piv k k)%Z -> (forall c, (c <= k)%nat -> sumR (fun c => vo (L i c) * vo (L i c)) c <= B) ->
  Rabs (vi (off i k k) - (vA i k - sumR (fun c => vo (L i c) * vo (L k c)) k)) <= (INR k + 1) * ui /\ Rabs (vi (off i k k)) <= 2 * B.
Proof.
  intros H P SB. destruct (row_bound k k ltac:(lia) ltac:(lia) P) as (SK & _ & _). destruct (a0_ok i k ltac:(lia)) as [R N]. pose proof (HA i k ltac:(lia)) as Ha. apply Rabs_le_both in N, Ha. pose proof ui_pos as Pu.
  pose proof (INR_lt_M i ltac:(lia)) as Mi. assert (Mk : INR k + 1 <= INR i) by (rewrite <- S_INR; apply le_INR; lia).
  assert (T : forall c, (c <= k)%nat -> Rabs (vi (a0 i k) - sumR (fun c => vo (L i c) * vo (L k c)) c) <= b + ui + B).
  { intros c Hc. pose proof (cs_bound (fun c => vo (L i c)) (fun c => vo (L k c)) c B (SB c Hc) (SK c Hc)) as Q. cbv beta in Q. apply Rabs_le_both in Q. apply Rabs_le. lra. }
  assert (NB : Rabs (vi (off i k k) - (vi (a0 i k) - sumR (fun c => vo (L i c) * vo (L k c)) k)) <= INR k * ui).
  { apply (off_chain fo fi (tk_wi _ _ TK) (tk_si _ _ TK) (tk_oi _ _ TK) (L i) (L k) _ (b + ui + B) R k T). rewrite Ii_half. unfold B in *. rewrite M1 in *. nra. }
  pose proof (T k ltac:(lia)) as Tk. apply Rabs_le_both in NB, Tk. split; apply Rabs_le; [lra|]. unfold B in *. rewrite M1 in *. split; nra.
Qed.

(** The element itself, when it was not limited. *)
Lemma elem_in i k r : (k < i < M)%nat -> L i k = conv fo (r * off i k k) (2 * fF fi) -> Rabs (vo (L i k)) <= sqrt B ->
  Rabs (vo (L i k) - vi r * vi (off i k k)) <= u.
Proof.
  intros H E HL. assert (C := conv_R fo (r * off i k k) (2 * fF fi) ltac:(pose proof (tk_wo _ _ TK); lia)). rewrite <- E in C. replace (2 * fF fi)%Z with (fF fi + fF fi)%Z in C by lia. rewrite fxval_mul in C.
  set (V := vi r * vi (off i k k)) in *. pose proof (sqrtB_le fo fi B TK HB) as S2. pose proof (u_small fo fi TK) as U. pose proof (Io_half fo) as Io2. pose proof (bpow2_pos (- fF fo)) as U0.
  pose proof (tk_wo _ _ TK) as Wo. apply Rabs_le_both in HL.
  assert (EM : fxval (imax (fS fo) (fW fo)) (fF fo) = 2 * bpow2 (fI fo - 2) - u) by (destruct (imax_R fo) as [->|]; [rewrite (tk_so _ _ TK), Io2; reflexivity|lia]).
  assert (Em : fxval (imin (fS fo) (fW fo)) (fF fo) = - (2 * bpow2 (fI fo - 2))) by (rewrite imin_R by (try apply TK; lia); rewrite Io2; reflexivity).
  destruct (Rle_lt_dec (fxval (imax (fS fo) (fW fo)) (fF fo)) V) as [Hh|Hh].
  { apply (sat_high fo V _ ltac:(lia) (tk_oo _ _ TK) C) in Hh. rewrite Hh in HL. rewrite EM in HL. lra. }
  destruct (Rle_lt_dec V (fxval (imin (fS fo) (fW fo)) (fF fo))) as [Hl|Hl].
  { apply (sat_low fo V _ ltac:(lia) (tk_oo _ _ TK) C) in Hl. rewrite Hl, Em in HL. lra. }
  apply (sat_near fo V); [lia|rewrite (tk_oo _ _ TK); discriminate|exact C|lra].
Qed.

Let rho : R := INR M * ui + Rmax kap del.

Lemma diag_res k : (k < M)%nat -> (0 < piv k k)%Z -> Rabs (vA k k - sumR (fun c => vo (L k c) * vo (L k c)) (S k)) <= rho.
Proof.
  intros Hk P. destruct (col_fact k Hk P) as (r & RS & _ & _). destruct (row_bound k k Hk ltac:(lia) P) as (_ & _ & N). destruct RS as (_ & _ & K & _).
  cbn [sumR]. pose proof (INR_lt_M k Hk) as Mk. pose proof ui_pos. apply Rabs_le_both in N, K. pose proof (Rmax_l kap del). unfold rho. apply Rabs_le. nra.
Qed.

Lemma sq_le_abs x y : 0 <= y -> x * x <= y -> Rabs x <= sqrt y.
Proof. intros Hy H. rewrite <- (sqrt_square (Rabs x)) by apply Rabs_pos. apply sqrt_le_1_alt. rewrite <- Rabs_mult, Rabs_pos_eq; [exact H|nra]. Qed.

Lemma off_res i k : (k < i < M)%nat -> (0 < piv k k)%Z -> (forall c, (c <= S k)%nat -> sumR (fun c => vo (L i c) * vo (L i c)) c <= B) ->
  Rabs (vA i k - sumR (fun c => vo (L i c) * vo (L k c)) (S k)) <= rho.
Proof.
  intros H P SB. destruct (col_fact k ltac:(lia) P) as (r & RS & _ & EL). destruct (off_fact i k H P ltac:(intros; apply SB; lia)) as [N NB].
  assert (Q : vo (L i k) * vo (L i k) <= B). { specialize (SB (S k) ltac:(lia)). cbn [sumR] in SB. assert (0 <= sumR (fun c => vo (L i c) * vo (L i c)) k) by (apply sumR_nonneg; intros; nra). lra. }
  assert (HL : Rabs (vo (L i k)) <= sqrt B) by (apply sq_le_abs; [nra|exact Q]).
  pose proof (elem_in i k r H (EL i H) HL) as E. destruct RS as (_ & _ & _ & K). specialize (K _ _ NB (Rle_trans _ _ _ HL HX) E).
  cbn [sumR]. pose proof (INR_lt_M i ltac:(lia)) as Mi. assert (Mk : INR k + 1 <= INR i) by (rewrite <- S_INR; apply le_INR; lia). pose proof ui_pos. apply Rabs_le_both in N, K.
  pose proof (Rmax_r kap del). unfold rho. apply Rabs_le. nra.
Qed.

Lemma residual i j : all_pos fa fo fi A L M = true -> (j <= i < M)%nat -> Rabs (vA i j - sumR (fun c => vo (L i c) * vo (L j c)) (S j)) <= rho.
Proof.
  intros HP H. pose proof (all_pos_k _ _ _ _ _ _ HP) as K. destruct (Nat.eq_dec i j) as [->|]; [apply diag_res; [lia|apply K; lia]|].
  apply off_res; [lia|apply K; lia|]. intros c Hc. destruct (row_bound i i ltac:(lia) ltac:(lia) (K i ltac:(lia))) as (SB & _). apply SB. lia.
Qed.

(** ** Success *)
Hypothesis Hsym : forall i k, (i < M)%nat -> (k < M)%nat -> vA i k = vA k i.
Hypothesis HX2 : bpow2 (fI fo - 1) <= X.
Hypothesis Hdel : 0 <= Rmax kap del.
Hypothesis Hsat : forall k r s, (0 < piv k k)%Z -> in_range true (fW fi) (piv k k) -> vi (piv k k) <= B -> chol_root pwl fo fi (junk k) (piv k k) = Some (L k k, r) ->
  Rabs s <= 2 * B -> 2 * bpow2 (fI fo - 2) - u <= Rabs (vi r * s) -> B <= (s / vo (L k k)) * (s / vo (L k k)).

Lemma least_false (p : nat -> bool) n : (forall k, (k < n)%nat -> p k = true) \/ exists j, (j < n)%nat /\ p j = false /\ forall k, (k < j)%nat -> p k = true.
Proof.
  induction n as [|n [IH|IH]]; [left; lia| |right; destruct IH as (j & H & ?); exists j; split; [lia|assumption]].
  destruct (p n) eqn:E; [left; intros k Hk; destruct (Nat.eq_dec k n) as [->|]; [exact E|apply IH; lia]|right; exists n; repeat split; [lia|exact E|exact IH]].
Qed.

Lemma elem_cases i k r : (k < i < M)%nat -> L i k = conv fo (r * off i k k) (2 * fF fi) ->
  Rabs (vo (L i k) - vi r * vi (off i k k)) <= u \/ 2 * bpow2 (fI fo - 2) - u <= Rabs (vi r * vi (off i k k)).
Proof.
  intros H E. assert (C := conv_R fo (r * off i k k) (2 * fF fi) ltac:(pose proof (tk_wo _ _ TK); lia)). rewrite <- E in C. replace (2 * fF fi)%Z with (fF fi + fF fi)%Z in C by lia. rewrite fxval_mul in C.
  set (V := vi r * vi (off i k k)) in *. pose proof (Io_half fo) as Io2. pose proof (bpow2_pos (- fF fo)) as U0.
  pose proof (tk_wo _ _ TK) as Wo.
  assert (EM : fxval (imax (fS fo) (fW fo)) (fF fo) = 2 * bpow2 (fI fo - 2) - u) by (destruct (imax_R fo) as [->|]; [rewrite (tk_so _ _ TK), Io2; reflexivity|lia]).
  assert (Em : fxval (imin (fS fo) (fW fo)) (fF fo) = - (2 * bpow2 (fI fo - 2))) by (rewrite imin_R by (try apply TK; lia); rewrite Io2; reflexivity).
  destruct (Rle_lt_dec (fxval (imax (fS fo) (fW fo)) (fF fo)) V) as [Hh|Hh]; [right; rewrite EM in Hh; pose proof (Rle_abs V); lra|].
  destruct (Rle_lt_dec V (fxval (imin (fS fo) (fW fo)) (fF fo))) as [Hl|Hl]; [right; rewrite Em in Hl; pose proof (Rle_abs (- V)) as Q; rewrite Rabs_Ropp in Q; lra|].
  left. apply (sat_near fo V); [lia|rewrite (tk_oo _ _ TK); discriminate|exact C|lra].
Qed.

Lemma L_range i k : (k < M)%nat -> (k < i < M)%nat -> Rabs (vo (L i k)) <= X.
Proof.
  intros Hk H. destruct (HC k Hk) as (d & r & _ & _ & E). pose proof (tk_wo _ _ TK). assert (R := conv_range fo (r * off i k k) (2 * fF fi) ltac:(lia)). rewrite <- E in R by exact H.
  rewrite (tk_so _ _ TK) in R. apply (range_R true (fW fo) (fI fo)) in R; [|lia]. change (fW fo - fI fo)%Z with (fF fo) in R. apply Rabs_le. lra.
Qed.

Lemma sq_nonneg' (f : nat -> R) n : 0 <= sumR (fun c => f c * f c) n.
Proof. apply sumR_nonneg. intros; nra. Qed.

Lemma success : (forall x, (exists i, (i < M)%nat /\ x i <> 0) -> rho * (sumR (fun i => Rabs (x i)) M * sumR (fun i => Rabs (x i)) M) < quadR (fun i j => vA i j) x M) ->
  all_pos fa fo fi A L M = true.
Proof.
  intros HP. destruct (least_false (fun k => 0 <? piv k k)%Z M) as [H|(j & Hj & Fj & Pj)].
  { unfold all_pos. apply forallb_forall. intros k Hk. apply in_seq in Hk. apply H. lia. }
  exfalso. cbv beta in Fj, Pj. assert (PK : forall k, (k < j)%nat -> (0 < piv k k)%Z) by (intros k Hk; specialize (Pj k Hk); lia). clear Pj.
  destruct (least_false (fun m => 0 <? piv j m)%Z (S j)) as [H|(n & Hn & Fn & Pn)]; [specialize (H j ltac:(lia)); cbv beta in H; congruence|].
  cbv beta in Fn, Pn. assert (HR : 0 <= rho) by (unfold rho; pose proof (pos_INR M); pose proof ui_pos; nra). pose proof ui_pos as Pu.
  pose proof (INR_lt_M j Hj) as Mj. assert (Mn : INR n <= INR j) by (apply le_INR; lia).
  (* the rows before j *)
  assert (RB : forall i, (i < j)%nat -> forall c, (c <= i)%nat -> sumR (fun c => vo (L i c) * vo (L i c)) c <= B).
  { intros i Hi c Hc. apply (row_bound i i ltac:(lia) ltac:(lia) (PK i Hi)); exact Hc. }
  assert (RES : forall i k, (k <= i)%nat -> (i < j)%nat -> Rabs (vA i k - sumR (fun c => vo (L i c) * vo (L k c)) (S k)) <= rho).
  { intros i k Hk Hi. destruct (Nat.eq_dec i k) as [->|]; [apply diag_res; [lia|apply PK; lia]|]. apply off_res; [lia|apply PK; lia|]. intros c Hc. apply RB; lia. }
  assert (DP : forall k, (k < n)%nat -> 0 < vo (L k k)). { intros k Hk. destruct (col_fact k ltac:(lia) (PK k ltac:(lia))) as (r & RS & _). apply RS. }
  (* a witness from a row for j *)
  assert (WIT : forall lj : nat -> R, (forall k, (k < n)%nat -> Rabs (vA j k - (sumR (fun c => lj c * vo (L k c)) k + lj k * vo (L k k))) <= rho) ->
    vA j j - sumR (fun c => lj c * lj c) n <= rho -> False).
  { intros lj H2 H3. set (l := fun i k => if Nat.ltb i k then 0 else if Nat.eqb i j then lj k else vo (L i k)).
    assert (Ll : forall k, (k < n)%nat -> l j k = lj k). { intros k Hk. unfold l. destruct (Nat.ltb_spec j k); [lia|]. rewrite Nat.eqb_refl. reflexivity. }
    assert (Li : forall i k, (i < j)%nat -> (k <= i)%nat -> l i k = vo (L i k)). { intros i k Hi Hk. unfold l. destruct (Nat.ltb_spec i k); [lia|]. destruct (Nat.eqb_spec i j); [lia|reflexivity]. }
    destruct (small_form (fun i j => vA i j) l n j M rho ltac:(lia) HR) as (x & Xj & XQ).
    - intros k Hk. rewrite Li by lia. apply DP, Hk.
    - intros i k Hik _. unfold l. destruct (Nat.ltb_spec i k); [reflexivity|lia].
    - exact Hsym.
    - intros i k Hk Hi. rewrite (sumR_ext _ (fun c => vo (L i c) * vo (L k c))); [apply RES; lia|]. intros c Hc. rewrite !Li by lia. reflexivity.
    - intros k Hk. cbn [sumR]. rewrite Ll, Li by lia. rewrite (sumR_ext _ (fun c => lj c * vo (L k c))); [apply H2, Hk|]. intros c Hc. rewrite Ll, Li by lia. reflexivity.
    - rewrite (sumR_ext _ (fun c => lj c * lj c)); [exact H3|]. intros c Hc. rewrite Ll by lia. reflexivity.
    - specialize (HP x ltac:(exists j; split; [lia|rewrite Xj; lra])). cbv beta in XQ. lra. }
  destruct n as [|m].
  { (* the diagonal entry itself *)
    apply (WIT (fun _ => 0)); [lia|]. cbn [sumR]. change (chain fo fi (L j) (L j) 0 (a0 j j)) with (a0 j j) in Fn. destruct (a0_ok j j ltac:(lia)) as [_ N]. apply Rabs_le_both in N.
    assert (vi (a0 j j) <= 0) by (rewrite <- (fxval_0 (fF fi)); apply fxval_le; lia). unfold rho. pose proof (pos_INR j). nra. }
  specialize (Pn m ltac:(lia)) as Pm. cbv beta in Pm. assert (Pm' : (0 < piv j m)%Z) by lia. destruct (row_bound j m Hj ltac:(lia) Pm') as (SB & PB & PN). apply Rabs_le_both in PN.
  destruct (col_fact m ltac:(lia) (PK m ltac:(lia))) as (r & RS & RE & EL). specialize (EL j ltac:(lia)).
  destruct (off_fact j m ltac:(lia) (PK m ltac:(lia)) SB) as [NO NB]. assert (Mm : INR m + 1 <= INR j) by (rewrite <- S_INR; exact Mn). pose proof (pos_INR m) as Pm0.
  assert (EARLY : forall k, (k < m)%nat -> Rabs (vA j k - (sumR (fun c => vo (L j c) * vo (L k c)) k + vo (L j k) * vo (L k k))) <= rho).
  { intros k Hk. apply (off_res j k ltac:(lia) (PK k ltac:(lia))). intros c Hc. apply SB. lia. }
  destruct (elem_cases j m r ltac:(lia) EL) as [Un|Sa].
  - (* not limited: the next sum is not positive *)
    apply (WIT (fun c => vo (L j c))).
    + intros k Hk. destruct (Nat.eq_dec k m) as [->|]; [|apply EARLY; lia]. destruct RS as (_ & _ & _ & K). specialize (K _ _ NB (L_range j m ltac:(lia) ltac:(lia)) Un).
      apply Rabs_le_both in K, NO. pose proof (Rmax_r kap del). unfold rho. apply Rabs_le. nra.
    + cbn [sumR]. assert (St := chain_step fo fi (tk_wi _ _ TK) (L j) (L j) m (a0 j j)). set (V := vi (piv j m) - vo (L j m) * vo (L j m)) in *.
      assert (V <= ui).
      { destruct (Rle_lt_dec V ui) as [|Hlt]; [assumption|]. exfalso. destruct St as (z & Hr & Hl). assert (1 <= z)%Z.
        { apply (round_ge _ _ _ _ Hr). replace 1 with (ui * bpow2 (fF fi)) by (rewrite <- bpow2_add, Z.add_opp_diag_l; reflexivity). apply Rmult_le_compat_r; [left; apply bpow2_pos|lra]. }
        apply is_limited_unique in Hl; [|apply (tk_wi _ _ TK)]. rewrite (tk_oi _ _ TK), (tk_si _ _ TK) in Hl. cbn [overflow] in Hl.
        assert (1 <= imax true (fW fi))%Z. { apply Z.le_trans with (piv j m); [lia|]. assert (R := chain_range fo fi (tk_wi _ _ TK) (tk_si _ _ TK) (L j) (L j) m (a0 j j) ltac:(apply a0_ok; lia)). apply R. }
        revert Hl. repeat match goal with |- context [(?a <? ?b)%Z] => destruct (Z.ltb_spec a b) end; intros; unfold imin in *; pose proof (pow2_pos (fW fi - 1)); lia. }
      pose proof (Rmax_l kap del). unfold rho, V in *. nra.
  - (* limited: take the exact quotient instead *)
    assert (RBm := proj1 (proj2 RS)). destruct RBm as [D0 _]. set (s := vi (off j m m)) in *. set (d := vo (L m m)) in *.
    assert (SQ : B <= (s / d) * (s / d)).
    { destruct (row_bound m m ltac:(lia) ltac:(lia) (PK m ltac:(lia))) as (_ & PBm & _). apply (Hsat m r s (PK m ltac:(lia))); [apply chain_range; [apply TK|apply TK|apply a0_ok; lia]|exact PBm|exact RE|exact NB|exact Sa]. }
    apply (WIT (fun c => if Nat.eqb c m then s / d else vo (L j c))).
    + intros k Hk. rewrite (sumR_ext _ (fun c => vo (L j c) * vo (L k c))) by (intros c Hc; destruct (Nat.eqb_spec c m); [lia|reflexivity]).
      destruct (Nat.eqb_spec k m) as [->|]; [|apply EARLY; lia]. fold d. replace (s / d * d) with s by (field; lra). apply Rabs_le_both in NO. unfold rho. apply Rabs_le. nra.
    + cbn [sumR]. rewrite Nat.eqb_refl. rewrite (sumR_ext _ (fun c => vo (L j c) * vo (L j c))) by (intros c Hc; destruct (Nat.eqb_spec c m); [lia|reflexivity]).
      unfold rho. nra.
Qed.
End Fact.

(** ** The factorisation with ac_sqrt and ac_div *)
Section Exact.
Variables (M : nat) (fa fo fi : fmt) (A : mat) (junk : nat -> Z) (b : R).
Hypothesis TK : chol_types fo fi.
Hypothesis HB : chol_room M fi b <= bpow2 (fI fi - 2).
Local Notation u := (bpow2 (- fF fo)).
Local Notation ui := (bpow2 (- fF fi)).
Local Notation vA i j := (fxval (A i j) (fF fa)).
Hypothesis HA : forall i j, (j <= i < M)%nat -> Rabs (vA i j) <= b.
Let B := chol_room M fi b.

Lemma err_le : 0 <= B -> INR M * ui + Rmax (2 * (sqrt B + u) * u) ((sqrt B + u) * (u + 2 * B * ui)) <= chol_err M fo fi b.
Proof.
  intros H0. unfold chol_err. fold B. pose proof (bpow2_pos (- fF fo)). pose proof (bpow2_pos (- fF fi)). pose proof (sqrt_pos B).
  assert (0 <= B * ui) by (apply Rmult_le_pos; lra). assert (0 <= (sqrt B + u) * u) by (apply Rmult_le_pos; lra). assert (0 <= (sqrt B + u) * (B * ui)) by (apply Rmult_le_pos; lra).
  apply Rplus_le_compat_l. apply Rmax_lub; lra.
Qed.

Lemma B_pos : (0 < M)%nat -> 0 <= B.
Proof. intros H. assert (0 <= b) by (apply (b_nonneg M fa A b HA 0 0); lia). unfold B, chol_room. pose proof (pos_INR (M + 1)). pose proof (bpow2_pos (- fF fi)). nra. Qed.

Local Notation factors := (chol_factors M (fun i j => vA i j) (fF fo) (chol_err M fo fi b)).

Lemma chol_exact : exists out, chol_d false M fa fo fi A junk = Some out /\ ((exists L, factors out L) \/ zero_out M out) /\
  ((fI fi - fI fo + 2 <= fF fi)%Z -> (forall i j, (i < M)%nat -> (j < M)%nat -> vA i j = vA j i) ->
   (forall x, (exists i, (i < M)%nat /\ x i <> 0) -> chol_err M fo fi b * norm1sq x M < quadR (fun i j => vA i j) x M) -> exists L, factors out L).
Proof.
  destruct (chol_d_eq false M fa fo fi A junk ltac:(pose proof (tk_wo _ _ TK); lia) (tk_wi _ _ TK)) as (out & L & E & HC & HO). exists out. split; [exact E|].
  set (X := Rmax (sqrt B) (bpow2 (fI fo - 1))).
  assert (HR : forall k d r, (0 < chain fo fi (L k) (L k) k (conv fi (A k k) (fF fa)))%Z -> in_range true (fW fi) (chain fo fi (L k) (L k) k (conv fi (A k k) (fF fa))) ->
    fxval (chain fo fi (L k) (L k) k (conv fi (A k k) (fF fa))) (fF fi) <= B -> chol_root false fo fi (junk k) (chain fo fi (L k) (L k) k (conv fi (A k k) (fF fa))) = Some (d, r) ->
    root_spec fo fi B X (sqrt B + u) (2 * (sqrt B + u) * u) ((sqrt B + u) * (u + 2 * B * ui)) (fxval (chain fo fi (L k) (L k) k (conv fi (A k k) (fF fa))) (fF fi)) d r)
    by (intros k d r P R PB RE; apply (root_exact fo fi B TK HB (junk k)); assumption).
  assert (FA : all_pos fa fo fi A L M = true -> exists L, factors out L).
  { intros AP. exists (fun i j => if Nat.ltb i j then 0%Z else L i j). split; [|split; [|split]].
    - intros i j Hi Hj. rewrite HO by assumption. rewrite AP, orb_false_r. reflexivity.
    - intros i j H. destruct (Nat.ltb_spec i j); [reflexivity|lia].
    - intros j Hj. rewrite Nat.ltb_irrefl. destruct (col_fact false M fa fo fi A junk L b _ _ _ X TK HB HA HC HR j Hj (all_pos_k M fa fo fi A L AP j Hj)) as (r & RS & _). apply (fx_pos _ (fF fo)), RS.
    - intros i j H. eapply Rle_trans; [|apply err_le, B_pos; lia]. rewrite (sumR_cut _ (S j)); [|lia|intros k Hk; destruct (Nat.ltb_spec j k); [rewrite fxval_0; ring|lia]].
      rewrite (sumR_ext _ (fun c => fxval (L i c) (fF fo) * fxval (L j c) (fF fo))) by (intros k Hk; destruct (Nat.ltb_spec i k); [lia|]; destruct (Nat.ltb_spec j k); [lia|reflexivity]).
      apply (residual false M fa fo fi A junk L b (sqrt B + u) (2 * (sqrt B + u) * u) ((sqrt B + u) * (u + 2 * B * ui)) X TK HB HA HC (Rmax_l _ _) HR i j AP H). }
  split.
  - destruct (all_pos fa fo fi A L M) eqn:AP; [left; apply FA; reflexivity|right]. intros i j Hi Hj. rewrite HO by assumption. rewrite orb_true_r. reflexivity.
  - intros HF Hsym HP. apply FA. destruct (Nat.eq_dec M 0) as [E0|]; [unfold all_pos; rewrite E0; reflexivity|]. assert (B0 : 0 <= B) by (apply B_pos; lia).
    pose proof (bpow2_pos (- fF fo)) as U0. pose proof (bpow2_pos (- fF fi)) as U1. pose proof (sqrt_pos B) as S0.
    apply (success false M fa fo fi A junk L b (sqrt B + u) (2 * (sqrt B + u) * u) ((sqrt B + u) * (u + 2 * B * ui)) X TK HB HA HC (Rmax_l _ _) HR Hsym (Rmax_r _ _)).
    + eapply Rle_trans; [|apply Rmax_l]. apply Rmult_le_pos; lra.
    + intros k r s P R PB RE Hs Hv. destruct (root_exact fo fi B TK HB _ _ _ _ X P R PB RE) as [RS Nr]. destruct RS as (_ & [D0 _] & _). set (d := fxval (L k k) (fF fo)) in *. set (vr := fxval r (fF fi)) in *.
      pose proof (sqrtB_le fo fi B TK HB) as S2. pose proof (u_small fo fi TK) as U.
      assert (Q : 2 * B * ui <= bpow2 (fI fo - 2) / 2).
      { replace (bpow2 (fI fo - 2) / 2) with (bpow2 (fI fo - 3)) by (replace (fI fo - 2)%Z with (1 + (fI fo - 3))%Z by lia; rewrite bpow2_add, bpow2_1; field).
        apply Rle_trans with (2 * bpow2 (fI fi - 2) * ui); [apply Rmult_le_compat_r; [lra|apply Rmult_le_compat_l; [lra|exact HB]]|]. replace (2 * bpow2 (fI fi - 2)) with (bpow2 (fI fi - 1)) by (replace (fI fi - 1)%Z with (1 + (fI fi - 2))%Z by lia; rewrite bpow2_add, bpow2_1; ring).
        rewrite <- bpow2_add. apply bpow2_le. lia. }
      assert (AB : bpow2 (fI fo - 2) <= Rabs (s / d)).
      { assert (Rabs (vr * s) <= Rabs (s / d) + ui * (2 * B)); [|lra]. replace (vr * s) with (s / d + (vr - / d) * s) by (unfold Rdiv; ring). eapply Rle_trans; [apply Rabs_triang|]. apply Rplus_le_compat_l.
        rewrite Rabs_mult. apply Rmult_le_compat; try apply Rabs_pos; assumption. }
      assert (E2 : (s / d) * (s / d) = Rabs (s / d) * Rabs (s / d)) by (rewrite <- Rabs_mult, Rabs_pos_eq by nra; reflexivity).
      rewrite E2. apply Rle_trans with (sqrt B * sqrt B); [right; symmetry; apply sqrt_sqrt; exact B0|]. apply Rmult_le_compat; lra.
    + intros x Hx. specialize (HP x Hx). eapply Rle_lt_trans; [|exact HP]. unfold norm1sq. apply Rmult_le_compat_r; [|apply err_le, B0].
      assert (0 <= sumR (fun i => Rabs (x i)) M) by (apply sumR_nonneg; intros; apply Rabs_pos). nra.
Qed.
End Exact.

(** A matrix that is not positive semidefinite by a margin is rejected. *)
Lemma chol_reject M fa fo fi A junk b : chol_types fo fi -> chol_room M fi b <= bpow2 (fI fi - 2) ->
  (forall i j, (j <= i < M)%nat -> Rabs (fxval (A i j) (fF fa)) <= b) ->
  (forall i j, (i < M)%nat -> (j < M)%nat -> fxval (A i j) (fF fa) = fxval (A j i) (fF fa)) ->
  (exists x, quadR (fun i j => fxval (A i j) (fF fa)) x M < - (chol_err M fo fi b * norm1sq x M)) ->
  exists out, chol_d false M fa fo fi A junk = Some out /\ zero_out M out.
Proof.
  intros TK HB HA HS (x & Hx). destruct (chol_exact M fa fo fi A junk b TK HB HA) as (out & E & [(L & _ & _ & _ & R)|Z] & _); exists out; (split; [exact E|]); [exfalso|exact Z].
  pose proof (near_psd (fun i j => fxval (A i j) (fF fa)) (fun i k => fxval (L i k) (fF fo)) M (chol_err M fo fi b) x) as N. unfold norm1sq in Hx. cbv beta in N.
  assert (forall i j, (i < M)%nat -> (j < M)%nat -> Rabs (fxval (A i j) (fF fa) - sumR (fun k => fxval (L i k) (fF fo) * fxval (L j k) (fF fo)) M) <= chol_err M fo fi b).
  { intros i j Hi Hj. destruct (Nat.le_ge_cases j i) as [H|H]; [apply R; lia|]. rewrite HS by assumption.
    rewrite (sumR_ext _ (fun k => fxval (L j k) (fF fo) * fxval (L i k) (fF fo))) by (intros; ring). apply R. lia. }
  specialize (N H). lra.
Qed.
