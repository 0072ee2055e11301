(** The vectoring CORDIC iteration: the angle left and the vector stay within their error bounds. *)
From Coq Require Import Reals Lia Lra Psatz.
From Verif Require Import AcTypes AcFacts Spec SpecFacts SpecR SpecRFacts SpecLin SoftFacts CholReal CholThm QrdThm CordicModel CordicNum CordicProofs CordicThm Atan2Model Atan2Num.
Local Open Scope R_scope.

Lemma shr_fx F x i : exists r, 0 <= r <= bpow2 (- F) /\ (i = O -> r = 0) /\ fxval (Z.shiftr x (Z.of_nat i)) F = fxval x F * / 2 ^ i - r.
Proof. pose proof (shr_R 2 0 F ltac:(lia) x i) as H. assert (E : fF (dfmt F 0 true) = F) by (unfold fF, dfmt; cbn [fW fI]; lia). rewrite E in H. exact H. Qed.

Section Vec.
Variables (Nz m : Z) (N : nat).
Hypotheses (HNz : Z.of_nat N = Nz) (HN : (2 <= N <= 70)%nat) (Hm : (- Nz <= m)%Z).
Let icw := cd_icw Nz.
Let F := a2_F Nz.
Let q := bpow2 (- F).
Let h := bpow2 (- icw).
Let G i := sqrt (gain2 i).
Variables (r th0 : R).
Hypotheses (Hr : bpow2 (- Nz) <= r <= 14143 / 10000 * bpow2 (m - 1)) (Hth : - (PI / 2) <= th0 <= PI / 2).
Let al i := atan (/ 2 ^ i).
Let delta := 128 / 100 * INR N * q / r.

Lemma log_ok : (4 <= cd_log Nz <= 7)%Z /\ (Nz + 1 <= 2 ^ cd_log Nz)%Z.
Proof. unfold cd_log. destruct (Z.ltb_spec Nz 16), (Z.ltb_spec Nz 32), (Z.ltb_spec Nz 64); try lia; change (2 ^ 4)%Z with 16%Z; change (2 ^ 5)%Z with 32%Z; change (2 ^ 6)%Z with 64%Z; change (2 ^ 7)%Z with 128%Z; lia. Qed.
Lemma n_hq : (INR N + 1) * h <= bpow2 (- Nz) /\ q = / 16 * h /\ 0 < h.
Proof.
  destruct log_ok as [L1 L2]. assert (0 < h) by apply bpow2_pos. split; [|split; [|assumption]].
  - assert (A : INR N + 1 <= bpow2 (cd_log Nz)) by (rewrite bpow2_IZR, INR_IZR_INZ, HNz, <- plus_IZR by lia; apply IZR_le; exact L2). replace (bpow2 (- Nz)) with (bpow2 (cd_log Nz) * h) by (unfold h; rewrite <- bpow2_add; f_equal; unfold icw, cd_icw; lia). apply Rmult_le_compat_r; lra.
  - unfold q, h, F, a2_F. fold icw. replace (- (icw + 4))%Z with (- (4) + - icw)%Z by lia. rewrite bpow2_add, bpow2_opp, bpow2_IZR by lia. reflexivity.
Qed.
Lemma r_pos : 0 < r.
Proof. pose proof (bpow2_pos (- Nz)). lra. Qed.
Lemma delta_small : 0 <= delta <= 8 / 100 * bpow2 (- Nz) / r /\ delta <= 8 / 100.
Proof.
  destruct n_hq as (A & B & C). pose proof r_pos as R0. pose proof (pos_INR N). assert (RI : 0 < / r) by (apply Rinv_0_lt_compat, R0). unfold delta, Rdiv. rewrite B. assert (P : 0 <= INR N * h) by (apply Rmult_le_pos; lra).
  assert (D : 128 * / 100 * INR N * (/ 16 * h) <= 8 * / 100 * bpow2 (- Nz)) by lra. assert (D0 : 0 <= 128 * / 100 * INR N * (/ 16 * h)) by lra. repeat split.
  - apply Rmult_le_pos; lra.
  - apply Rmult_le_compat_r; lra.
  - apply (Rmult_le_reg_r r); [exact R0|]. rewrite Rmult_assoc, Rinv_l by lra. lra.
Qed.

Lemma al_pos i : 0 < al i <= / 2 ^ i.
Proof. destruct (two_pow_pos i). split; [apply atan_pos; assumption|]. apply atan_le. lra. Qed.
Lemma al_half i : al i <= 2 * al (S i).
Proof.
  unfold al. destruct (two_pow_pos i) as [A B]. cbn [pow]. rewrite Rinv_mult. assert (E : / 2 ^ i = 2 * (/ 2 * / 2 ^ i)) by lra. rewrite E at 1. apply atan_double. lra.
Qed.
(** What is left of the angles when n steps remain. *)
Fixpoint vrem (n : nat) : R := match n with O => al (N - 1) | S n' => al (N - S n') + vrem n' end.
Lemma al_le_rem n : (S n <= N)%nat -> al (N - S n) <= vrem n.
Proof.
  induction n as [|n IH]; intros H; cbn [vrem]; [lra|]. specialize (IH ltac:(lia)). pose proof (al_half (N - S (S n))) as D. replace (S (N - S (S n))) with (N - S n)%nat in D by lia. lra.
Qed.
Lemma vrem_bound n : (n < N)%nat -> vrem n <= 2 * / 2 ^ (N - n) /\ 0 <= vrem n.
Proof.
  induction n as [|n IH]; intros H; cbn [vrem].
  - destruct (al_pos (N - 1)) as [A B]. split; [|lra]. replace (N - 0)%nat with (S (N - 1)) by lia. cbn [pow]. rewrite Rinv_mult. lra.
  - destruct (IH ltac:(lia)) as [C D]. destruct (al_pos (N - S n)) as [A B]. split; [|lra]. replace (N - n)%nat with (S (N - S n)) in C by lia. cbn [pow] in C. rewrite Rinv_mult in C. lra.
Qed.
Lemma vrem_1 n : (n < N)%nat -> vrem n <= 1.
Proof. intros H. destruct (vrem_bound n H) as [A _]. assert (B : / 2 ^ (N - n) <= / 2); [|lra]. replace (N - n)%nat with (S (N - n - 1)) by lia. cbn [pow]. rewrite Rinv_mult. pose proof (two_pow_pos (N - n - 1)). lra. Qed.
Lemma vrem_N : PI / 2 <= vrem N.
Proof.
  assert (A : forall k, (S k = N) -> vrem (S k) = al 0 + vrem k) by (intros k Hk; cbn [vrem]; replace (N - S k)%nat with 0%nat by lia; reflexivity). specialize (A (N - 1)%nat ltac:(lia)). replace (S (N - 1)) with N in A by lia.
  pose proof (al_le_rem (N - 1) ltac:(lia)) as B. replace (N - S (N - 1))%nat with 0%nat in B by lia. assert (E : al 0 = PI / 4) by (unfold al; cbn [pow]; rewrite Rinv_1; apply atan_1). lra.
Qed.

Definition vd (i : nat) : Z := conv (dfmt icw 0 false) (atan_2mi i) 71.
Lemma vd_near i : (i < 70)%nat -> 0 <= fxval (vd i) icw /\ fxval (vd i) icw <= rad i < fxval (vd i) icw + h.
Proof.
  intros Hi. destruct log_ok as [L1 L2]. assert (W1 : (1 <= icw)%Z) by (unfold icw, cd_icw; lia). pose proof (conv_R (dfmt icw 0 false) (atan_2mi i) 71 W1) as C.
  assert (E : atan_2mi i = nth i rad_tab 0%Z) by (unfold atan_2mi; destruct (Nat.leb_spec 70 i); [lia|reflexivity]). assert (EA : fxval (atan_2mi i) 71 = rad i) by (rewrite E; reflexivity). rewrite EA in C.
  assert (FE : fF (dfmt icw 0 false) = icw) by (unfold fF, dfmt; cbn [fW fI]; lia).
  assert (RB : 0 <= rad i < 1).
  { assert (FB : forallb (fun z => (0 <=? z) && (z <? 2 ^ 71))%Z rad_tab = true) by reflexivity. rewrite forallb_forall in FB. assert (IN : In (nth i rad_tab 0%Z) rad_tab) by (apply nth_In; cbn; lia). specialize (FB _ IN). apply andb_prop in FB. destruct FB as [F1 F2]. apply Z.leb_le in F1. apply Z.ltb_lt in F2. unfold rad. split.
    - rewrite <- (fxval_0 71). apply fxval_le, F1.
    - replace 1 with (fxval (2 ^ 71) 71) by (rewrite fxval_pow by lia; replace (71 - 71)%Z with 0%Z by lia; apply bpow2_0). apply fxval_lt, F2. }
  destruct (convR_trn (dfmt icw 0 false) _ _ W1 eq_refl eq_refl C) as [_ T].
  { rewrite FE. unfold imin, imax, dfmt. cbn [fS fW]. replace (2 ^ icw - 1 + 1)%Z with (2 ^ icw)%Z by lia. rewrite <- bpow2_IZR by lia. pose proof (bpow2_pos icw). split; nra. }
  rewrite FE in T. fold h in T. fold (vd i) in T. split; [|exact T]. assert (0 <= vd i)%Z; [|rewrite <- (fxval_0 icw); apply fxval_le; assumption]. assert (fxval (-1) icw < fxval (vd i) icw) as L by (unfold fxval at 1; unfold h in T; lra). apply fxval_lt in L. lia.
Qed.

Fixpoint verr (n : nat) : R := match n with O => 0 | S i => verr i + (h + bpow2 (- (71)) + bpow2 (- (53 + Z.of_nat i))) end.
Lemma verr_bound n : verr n <= INR n * (h + bpow2 (- (71))) + (bpow2 (- (52)) - bpow2 (- (52 + Z.of_nat n))) /\ 0 <= verr n.
Proof.
  induction n as [|n IH]; cbn [verr]; [cbn; lra|]. rewrite S_INR. replace (- (52 + Z.of_nat (S n)))%Z with (- (53 + Z.of_nat n))%Z by lia. assert (E2 : bpow2 (- (52 + Z.of_nat n)) = 2 * bpow2 (- (53 + Z.of_nat n))) by (rewrite <- bpow2_1, <- bpow2_add; f_equal; lia).
  pose proof (bpow2_pos (- (53 + Z.of_nat n))). pose proof (bpow2_pos (- (71))). assert (0 < h) by apply bpow2_pos. lra.
Qed.
Lemma verr_N : verr N <= INR N * h + bpow2 (- (51)).
Proof.
  destruct (verr_bound N) as [A _]. pose proof (bpow2_pos (- (52 + Z.of_nat N))). assert (E : bpow2 (- (51)) = 2 * bpow2 (- (52))) by (rewrite <- bpow2_1, <- bpow2_add; f_equal). assert (B : INR N * bpow2 (- (71)) <= bpow2 (- (52))); [|lra].
  apply Rle_trans with (bpow2 7 * bpow2 (- (71))); [|rewrite <- bpow2_add; apply bpow2_le; lia]. apply Rmult_le_compat_r; [apply Rlt_le, bpow2_pos|]. rewrite bpow2_IZR, INR_IZR_INZ by lia. apply IZR_le. change (2 ^ 7)%Z with 128%Z. lia.
Qed.
Lemma verr_mono i j : (i <= j)%nat -> verr i <= verr j.
Proof. induction 1 as [|j H IH]; [lra|]. cbn [verr]. pose proof (bpow2_pos (- (53 + Z.of_nat j))). pose proof (bpow2_pos (- (71))). assert (0 < h) by apply bpow2_pos. lra. Qed.

Let E i := G i * q * (14143 / 10000 + 895 / 1000 * INR (i - 1)).
Lemma q_pos' : 0 < q. Proof. apply bpow2_pos. Qed.
Lemma VE_pos i : 0 <= E i.
Proof. unfold E. pose proof (sgain_pos i) as A. fold (G i) in A. pose proof q_pos'. pose proof (pos_INR (i - 1)). apply Rmult_le_pos; [|lra]. apply Rmult_le_pos; lra. Qed.
Lemma VE_step i : sqrt (1 + / 4 ^ i) * E i + (if Nat.eqb i 0 then 0 else 14143 / 10000 * q) <= E (S i).
Proof.
  unfold E. pose proof (gain_S i) as GS. fold (G i) (G (S i)) in GS. set (w := sqrt (1 + / 4 ^ i)) in *. pose proof q_pos' as Q. destruct i as [|i]; cbn [Nat.eqb].
  - change (0 - 1)%nat with 0%nat. change (1 - 1)%nat with 0%nat. cbn [INR]. rewrite GS. lra.
  - replace (S (S i) - 1)%nat with (S (S i - 1)) by lia. rewrite S_INR. set (n := INR (S i - 1)). rewrite GS. pose proof (sgain_mono 2 (S (S i)) ltac:(lia)) as M. fold (G (S (S i))) in M. rewrite GS in M. rewrite (Rmult_comm (G (S i)) w) in *.
    assert (G2 : 1581 / 1000 <= sqrt (gain2 2)). { apply sq_le; [apply sqrt_pos|]. rewrite sqrt_sqrt by (pose proof (gain2_ge 2); lra). cbn [gain2 pow]. lra. }
    set (wg := w * G (S i)) in *. assert (1581 / 1000 <= wg) by lra. replace (w * (G (S i) * q * (14143 / 10000 + 895 / 1000 * n))) with (wg * q * (14143 / 10000 + 895 / 1000 * n)) by (unfold wg; ring). assert (14143 / 10000 <= wg * (895 / 1000)) by lra. nra.
Qed.
Lemma G_N : G N <= 165 / 100 /\ 1 <= G N.
Proof.
  split; [|apply sgain_pos]. destruct (Nat.eq_dec N 70) as [->|Hn].
  - unfold G. rewrite gain_S. destruct (gain_near 69 ltac:(lia)) as (_ & A & _). assert (B : sqrt (gain2 69) <= 16469 / 10000) by (apply sq_le; [lra|]; rewrite sqrt_sqrt by (pose proof (gain2_ge 69); lra); lra). assert (C : sqrt (1 + / 4 ^ 69) <= 1001 / 1000).
    { apply sq_le; [lra|]. assert (P : 0 < / 4 ^ 69) by (apply Rinv_0_lt_compat, pow_lt; lra). rewrite sqrt_sqrt by lra. assert (/ 4 ^ 69 <= / 4 ^ 5) by (apply Rinv_le_contravar; [apply pow_lt; lra|apply Rle_pow; [lra|lia]]). assert (E5 : 4 ^ 5 = 1024) by ring. rewrite E5 in *. lra. }
    pose proof (sqrt_pos (gain2 69)). pose proof (sqrt_pos (1 + / 4 ^ 69)). nra.
  - destruct (gain_near N ltac:(lia)) as (_ & A & _). unfold G. apply sq_le; [lra|]. rewrite sqrt_sqrt by (pose proof (gain2_ge N); lra). lra.
Qed.
Lemma G_mono i : (i <= N)%nat -> 1 <= G i <= 165 / 100.
Proof. intros H. pose proof (sgain_mono i N H) as M. fold (G i) (G N) in M. pose proof G_N. pose proof (sgain_pos i) as A. fold (G i) in A. lra. Qed.
Lemma VE_small i : (i <= N)%nat -> E i <= 2 / 10 * bpow2 (- Nz).
Proof.
  intros H. pose proof (G_mono i H) as GM. destruct n_hq as (A & B & C). pose proof q_pos' as Q. assert (I : INR (i - 1) <= INR N - 1). { apply Rle_trans with (INR (N - 1)); [apply le_INR; lia|]. rewrite minus_INR by lia. cbn [INR]. lra. }
  assert (N2 : 2 <= INR N) by (apply (le_INR 2); lia). pose proof (pos_INR (i - 1)). unfold E. apply Rle_trans with (165 / 100 * q * (14143 / 10000 + 895 / 1000 * (INR N - 1))).
  - apply Rmult_le_compat; [apply Rmult_le_pos; lra|lra| |lra]. apply Rmult_le_compat_r; lra.
  - rewrite B. nra.
Qed.
Lemma pow_m : bpow2 (- Nz) <= 2 * bpow2 (m - 1).
Proof. rewrite <- bpow2_1, <- bpow2_add. apply bpow2_le. lia. Qed.
Lemma room : forall i, (i <= N)%nat -> r * G i + E i <= 28 / 10 * bpow2 (m - 1).
Proof. intros i H. pose proof (G_mono i H). pose proof (VE_small i H). pose proof pow_m. pose proof r_pos. pose proof (bpow2_pos (m - 1)). assert (r * G i <= r * (165 / 100)) by (apply Rmult_le_compat_l; lra). lra. Qed.

Definition v_inv (i : nat) (st : Z * Z * Z) : Prop := let '(x, y, acc) := st in (0 <= x)%Z /\ (i = O -> fxval x F <= bpow2 (m - 1)) /\ exists th,
  Rabs th <= vrem (N - i) + delta /\ (i = O -> th = th0 /\ ((0 <= y)%Z -> 0 <= th) /\ ((y < 0)%Z -> th <= 0)) /\ Rabs (th0 - th - fxval acc (icw + 1)) <= verr i /\
  (fxval x F - r * G i * cos th) * (fxval x F - r * G i * cos th) + (fxval y F - r * G i * sin th) * (fxval y F - r * G i * sin th) <= E i * E i.

Lemma q_m : q <= / 16 * bpow2 (- Nz) /\ bpow2 (- Nz) <= / 4.
Proof.
  destruct n_hq as (A & B & C). pose proof (pos_INR N). split; [rewrite B; nra|]. apply Rle_trans with (bpow2 (- (2))); [apply bpow2_le; lia|]. rewrite bpow2_opp, bpow2_IZR by lia. change (2 ^ 2)%Z with 4%Z. lra.
Qed.
Lemma F_ok : (Nz + 8 <= F)%Z /\ (1 <= icw)%Z.
Proof. destruct log_ok. unfold F, a2_F, icw, cd_icw. lia. Qed.
Lemma free_u I z : (1 <= F + I)%Z -> (0 <= z)%Z -> fxval z F < bpow2 I -> conv (dfmt (F + I) I false) z F = z.
Proof.
  intros HI H0 H1. assert (FE : fF (dfmt (F + I) I false) = F) by (unfold fF, dfmt; cbn [fW fI]; lia). apply conv_exact; [unfold dfmt; cbn [fW]; lia|discriminate|rewrite FE; reflexivity|]. unfold in_range, imin, imax, dfmt. cbn [fS fW]. split; [exact H0|].
  assert (IZR z < IZR (2 ^ (F + I))); [|apply lt_IZR in H; lia]. rewrite <- bpow2_IZR by lia. replace (bpow2 (F + I)) with (bpow2 I * bpow2 F) by (rewrite <- bpow2_add; f_equal; lia). unfold fxval in H1. pose proof (bpow2_pos F) as P. apply (Rmult_lt_compat_r (bpow2 F)) in H1; [|exact P].
  rewrite Rmult_assoc, <- bpow2_add in H1. replace (- F + F)%Z with 0%Z in H1 by lia. rewrite bpow2_0 in H1. lra.
Qed.
Lemma free_1 z : (0 <= z)%Z -> fxval z F <= 28 / 10 * bpow2 (m - 1) -> conv (a2_xy1 Nz m) z F = z.
Proof.
  intros H0 H1. unfold a2_xy1. fold F. replace (F + (m + 2) - 1)%Z with (F + (m + 2 - 1))%Z by lia. destruct F_ok. apply free_u; [lia|exact H0|]. replace (m + 2 - 1)%Z with (2 + (m - 1))%Z by lia. rewrite bpow2_add, (bpow2_IZR 2) by lia. change (2 ^ 2)%Z with 4%Z. pose proof (bpow2_pos (m - 1)). lra.
Qed.
Lemma free_2 z : (0 <= z)%Z -> fxval z F <= 14 / 10 * bpow2 (m - 1) -> conv (a2_xy2 Nz m) z F = z.
Proof.
  intros H0 H1. unfold a2_xy2. fold F. replace (F + (m + 2) - 2)%Z with (F + (m + 2 - 2))%Z by lia. destruct F_ok. apply free_u; [lia|exact H0|]. replace (m + 2 - 2)%Z with (1 + (m - 1))%Z by lia. rewrite bpow2_add, bpow2_1. pose proof (bpow2_pos (m - 1)). lra.
Qed.
Lemma free_0 z : Rabs (fxval z F) <= 28 / 10 * bpow2 (m - 1) -> conv (a2_xy Nz m) z F = z.
Proof.
  intros H. destruct F_ok as [F8 _]. assert (FE : fF (a2_xy Nz m) = F) by (unfold fF, a2_xy, dfmt; cbn [fW fI]; fold F; lia). assert (W1 : (1 <= fW (a2_xy Nz m))%Z) by (unfold a2_xy, dfmt; cbn [fW]; fold F; lia).
  apply conv_exact; [exact W1|discriminate|rewrite FE; reflexivity|]. apply range_of; [reflexivity|exact W1|]. rewrite FE. fold q. change (fI (a2_xy Nz m)) with (m + 2)%Z. replace (m + 2 - 1)%Z with (2 + (m - 1))%Z by lia. rewrite bpow2_add, (bpow2_IZR 2) by lia. change (2 ^ 2)%Z with 4%Z.
  pose proof (bpow2_pos (m - 1)). destruct q_m. pose proof pow_m. lra.
Qed.
Lemma free_a z : Rabs (fxval z (icw + 1)) <= 39 / 10 -> conv (a2_fa Nz) z (icw + 1) = z.
Proof.
  intros H. assert (FE : fF (a2_fa Nz) = (icw + 1)%Z) by (unfold fF, a2_fa, dfmt; cbn [fW fI]; fold icw; lia). destruct F_ok as [_ I1]. assert (W1 : (1 <= fW (a2_fa Nz))%Z) by (unfold a2_fa, dfmt; cbn [fW]; fold icw; lia).
  apply conv_exact; [exact W1|discriminate|rewrite FE; reflexivity|]. apply range_of; [reflexivity|exact W1|]. rewrite FE. change (fI (a2_fa Nz)) with 3%Z. change (bpow2 (3 - 1)) with (bpow2 2). rewrite (bpow2_IZR 2) by lia. change (2 ^ 2)%Z with 4%Z.
  assert (bpow2 (- (icw + 1)) <= / 32). { apply Rle_trans with (bpow2 (- (5))); [apply bpow2_le; destruct log_ok; unfold icw, cd_icw; lia|rewrite bpow2_opp, bpow2_IZR by lia; change (2 ^ 5)%Z with 32%Z; lra]. } lra.
Qed.
(** The test is on the sign of the computed y: where it errs, the angle is small. *)
Lemma sign_err i Y th : (1 <= i < N)%nat -> 0 <= th <= 5 / 4 -> Y <= 0 -> (Y - r * G i * sin th) * (Y - r * G i * sin th) <= E i * E i -> th <= delta.
Proof.
  intros Hi Ht HY H. pose proof (G_mono i ltac:(lia)) as GM. pose proof r_pos as R0. pose proof (sin_low th Ht) as SL. pose proof q_pos' as Q0.
  assert (A : r * G i * sin th <= E i). { assert (r * G i * sin th - Y <= E i); [|lra]. apply sq_le; [apply VE_pos|]. nra. }
  unfold E in A. assert (I : INR (i - 1) <= INR N - 2). { apply Rle_trans with (INR (N - 2)); [apply le_INR; lia|]. rewrite minus_INR by lia. cbn [INR]. lra. }
  assert (B : r * sin th <= q * (14143 / 10000 + 895 / 1000 * INR (i - 1))). { apply (Rmult_le_reg_l (G i)); [lra|]. lra. }
  assert (D : r * sin th <= q * (895 / 1000 * INR N)) by (eapply Rle_trans; [exact B|]; apply Rmult_le_compat_l; lra).
  unfold delta. apply (Rmult_le_reg_l (7 / 10 * r)); [lra|]. replace (7 / 10 * r * (128 / 100 * INR N * q / r)) with (896 / 1000 * INR N * q) by (field; lra).
  assert (r * (7 / 10 * th) <= r * sin th) by (apply Rmult_le_compat_l; lra). pose proof (pos_INR N). assert (0 <= INR N * q) by (apply Rmult_le_pos; lra). lra.
Qed.

Lemma v_step i st : (i < N)%nat -> v_inv i st -> v_inv (S i) (a2_step Nz m st i).
Proof.
  intros Hi. destruct st as [[x y] acc]. intros (X0 & X1 & th & HT & H0 & HP & HV). unfold a2_step. fold icw F. fold (vd i). cbv zeta. set (s := / 2 ^ i). set (w := sqrt (1 + / 4 ^ i)).
  destruct (shr_fx F x i) as (rx & Rx & Rx0 & Ex). destruct (shr_fx F y i) as (ry & Ry & Ry0 & Ey). fold q in Rx, Ry. fold s in Ex, Ey. destruct (vd_near i ltac:(lia)) as (D0 & D1 & D2).
  set (d := vd i) in *. set (xr := fxval x F) in *. set (yr := fxval y F) in *. pose proof (VE_pos i) as E0. pose proof r_pos as R0. pose proof (G_mono i ltac:(lia)) as GM. pose proof (room i ltac:(lia)) as RM.
  assert (GA : Rabs (r * G i) = r * G i) by (apply Rabs_pos_eq, Rmult_le_pos; lra).
  pose proof (Rle_0_sqr (xr - r * G i * cos th)) as SX. pose proof (Rle_0_sqr (yr - r * G i * sin th)) as SY. unfold Rsqr in SX, SY.
  pose proof (comp_bound xr (r * G i) (cos th) (E i) E0 (COS_bound th) ltac:(lra)) as BX. pose proof (comp_bound yr (r * G i) (sin th) (E i) E0 (SIN_bound th) ltac:(lra)) as BY. rewrite GA in BX, BY.
  destruct (two_pow_pos i) as [S0 S1]. fold s in S0, S1. pose proof (bpow2_pos (m - 1)) as M0.
  assert (XP : 0 <= xr) by (unfold xr; rewrite <- (fxval_0 F); apply fxval_le, X0). rewrite Rabs_pos_eq in BX by exact XP.
  assert (XS : conv (a2_xy2 Nz m) (Z.shiftr x (Z.of_nat i)) F = Z.shiftr x (Z.of_nat i)).
  { apply free_2; [apply Z.shiftr_nonneg; exact X0|]. rewrite Ex. destruct i as [|i']; [specialize (X1 eq_refl); unfold s; cbn [pow]; rewrite Rinv_1; lra|].
    assert (s <= / 2) by (unfold s; cbn [pow]; rewrite Rinv_mult; pose proof (two_pow_pos i'); lra). assert (xr * s <= xr * / 2) by (apply Rmult_le_compat_l; lra). lra. }
  assert (YB : Rabs (fxval (Z.shiftr y (Z.of_nat i)) F) <= 28 / 10 * bpow2 (m - 1)).
  { rewrite Ey. fold yr. destruct i as [|i']; [rewrite (Ry0 eq_refl); unfold s; cbn [pow]; rewrite Rinv_1; replace (yr * 1 - 0) with yr by ring; lra|].
    assert (s <= / 2) by (unfold s; cbn [pow]; rewrite Rinv_mult; pose proof (two_pow_pos i'); lra). assert (AB : Rabs (yr * s) <= Rabs yr * / 2) by (rewrite Rabs_mult, (Rabs_pos_eq s) by lra; apply Rmult_le_compat_l; [apply Rabs_pos|lra]).
    destruct q_m as [QM _]. pose proof pow_m. apply Rabs_le_both in AB. apply Rabs_le. lra. }
  rewrite XS, (free_0 _ YB). set (xs := Z.shiftr x (Z.of_nat i)) in *. set (ys := Z.shiftr y (Z.of_nat i)) in *.
  assert (RMN : vrem (N - i) = al i + vrem (N - S i)). { replace (N - i)%nat with (S (N - S i)) by lia. cbn [vrem]. replace (N - S (N - S i))%nat with i by lia. reflexivity. }
  pose proof (al_le_rem (N - S i) ltac:(lia)) as AL. replace (N - S (N - S i))%nat with i in AL by lia. destruct (al_pos i) as [A0 A1]. destruct delta_small as ((DL0 & _) & DL1). pose proof (vrem_1 (N - S i) ltac:(lia)) as V1.
  assert (KEY : forall sg (sz : Z), sg = IZR sz -> sg = 1 \/ sg = -1 -> (0 <= x - sz * ys)%Z -> Rabs (th + sg * al i) <= vrem (N - S i) + delta ->
    v_inv (S i) (conv (a2_xy1 Nz m) (x - sz * ys) F, conv (a2_xy Nz m) (y + sz * xs) F, conv (a2_fa Nz) (acc - sz * (2 * d)) (icw + 1))).
  { intros sg sz Esg Hsg HX' HT'. assert (MV : forall z k, fxval (sz * z) k = sg * fxval z k) by (intros z k; unfold fxval; rewrite mult_IZR, <- Esg; ring).
    assert (XE : fxval (x - sz * ys) F = xr - sg * (yr * s - ry)) by (unfold Z.sub; rewrite fxval_add, fxval_opp, MV, Ey; fold xr yr; ring).
    assert (YE : fxval (y + sz * xs) F = yr + sg * (xr * s - rx)) by (rewrite fxval_add, MV, Ex; reflexivity).
    assert (AE : fxval (acc - sz * (2 * d)) (icw + 1) = fxval acc (icw + 1) - sg * fxval d icw).
    { unfold Z.sub. rewrite fxval_add, fxval_opp, MV. replace (2 * d)%Z with (d * 2 ^ 1)%Z by lia. rewrite fxval_shift by lia. ring. }
    destruct (rot_cs sg i th Hsg) as [RC RS]. cbv zeta in RC, RS. fold s in RC, RS. fold w in RC, RS. change (al i) with (atan s) in *. set (th' := th + sg * atan s) in *.
    assert (GS : G (S i) = G i * w) by apply gain_S. set (a := xr - r * G i * cos th) in *. set (b := yr - r * G i * sin th) in *.
    assert (SQ : sg * sg = 1) by (destruct Hsg as [-> | ->]; ring).
    assert (WW : w * w = 1 + s * s). { unfold w. rewrite sqrt_sqrt; [unfold s; rewrite <- four_pow; reflexivity|]. pose proof (Rinv_0_lt_compat _ (pow_lt 4 i ltac:(lra))). lra. }
    assert (W0 : 0 <= w) by apply sqrt_pos. pose proof q_pos' as Q0.
    assert (N1 : (a - sg * s * b) * (a - sg * s * b) + (b + sg * s * a) * (b + sg * s * a) <= (w * E i) * (w * E i)).
    { rewrite rot_norm. replace (w * E i * (w * E i)) with (w * w * (E i * E i)) by ring. rewrite WW. replace (sg * s * (sg * s)) with (sg * sg * (s * s)) by ring. rewrite SQ, Rmult_1_l. apply Rmult_le_compat_l; [pose proof (Rle_0_sqr s) as Z; unfold Rsqr in Z; lra|exact HV]. }
    set (Q := if Nat.eqb i 0 then 0 else 14143 / 10000 * q).
    assert (N2 : (sg * ry) * (sg * ry) + (- (sg * rx)) * (- (sg * rx)) <= Q * Q /\ 0 <= Q).
    { replace (sg * ry * (sg * ry) + - (sg * rx) * - (sg * rx)) with (sg * sg * (ry * ry + rx * rx)) by ring. rewrite SQ. unfold Q. destruct (Nat.eqb_spec i 0) as [Ei|]; [rewrite (Rx0 Ei), (Ry0 Ei); lra|]. clear - Rx Ry Q0. split; nra. }
    destruct N2 as [N2 Q1]. pose proof (norm_tri _ _ _ _ _ _ (Rmult_le_pos _ _ W0 E0) Q1 N1 N2) as N3.
    assert (XD : a - sg * s * b + sg * ry = fxval (x - sz * ys) F - r * G (S i) * cos th').
    { rewrite XE, GS. replace (r * (G i * w) * cos th') with (r * G i * (w * cos th')) by ring. rewrite RC. unfold a, b. ring. }
    assert (YD : b + sg * s * a + - (sg * rx) = fxval (y + sz * xs) F - r * G (S i) * sin th').
    { rewrite YE, GS. replace (r * (G i * w) * sin th') with (r * G i * (w * sin th')) by ring. rewrite RS. unfold a, b. ring. }
    rewrite XD, YD in N3. pose proof (VE_step i) as ES. fold w in ES. fold Q in ES. pose proof (VE_pos (S i)) as E1.
    assert (N4 : (w * E i + Q) * (w * E i + Q) <= E (S i) * E (S i)) by (apply Rmult_le_compat; try assumption; (apply Rplus_le_le_0_compat; [apply Rmult_le_pos|]; assumption)).
    pose proof (Rle_trans _ _ _ N3 N4) as N5. set (X := fxval (x - sz * ys) F) in *. set (Y := fxval (y + sz * xs) F) in *.
    pose proof (G_mono (S i) ltac:(lia)) as GM'. pose proof (room (S i) ltac:(lia)) as RM'. assert (GA' : Rabs (r * G (S i)) = r * G (S i)) by (apply Rabs_pos_eq, Rmult_le_pos; lra).
    pose proof (Rle_0_sqr (X - r * G (S i) * cos th')) as X2. pose proof (Rle_0_sqr (Y - r * G (S i) * sin th')) as Y2. unfold Rsqr in X2, Y2.
    pose proof (comp_bound X (r * G (S i)) (cos th') (E (S i)) E1 (COS_bound th') ltac:(lra)) as BX'. pose proof (comp_bound Y (r * G (S i)) (sin th') (E (S i)) E1 (SIN_bound th') ltac:(lra)) as BY'. rewrite GA' in BX', BY'.
    rewrite (free_1 (x - sz * ys)); [|exact HX'|fold X; apply Rabs_le_both in BX'; lra]. rewrite (free_0 (y + sz * xs)) by (fold Y; lra).
    assert (HP' : Rabs (th0 - th' - (fxval acc (icw + 1) - sg * fxval d icw)) <= verr (S i)).
    { cbn [verr]. unfold th'. pose proof (rad_near i ltac:(lia)) as AN. fold s in AN. replace (th0 - (th + sg * atan s) - (fxval acc (icw + 1) - sg * fxval d icw)) with ((th0 - th - fxval acc (icw + 1)) + sg * ((rad i - atan s) - (rad i - fxval d icw))) by ring.
      apply Rabs_le_both in HP, AN. apply Rabs_le. destruct Hsg as [-> | ->]; lra. }
    rewrite (free_a (acc - sz * (2 * d))).
    - split; [exact HX'|]. split; [intros Z; discriminate|]. exists th'. split; [exact HT'|]. split; [intros Z; discriminate|]. split; [rewrite AE; exact HP'|exact N5].
    - rewrite AE. pose proof (verr_mono (S i) N ltac:(lia)) as VM. pose proof verr_N as VN. destruct n_hq as (NH & _ & H0'). destruct q_m as [_ N4'].
      assert (B51 : bpow2 (- (51)) <= / 4) by (apply Rle_trans with (bpow2 (- (2))); [apply bpow2_le; lia|rewrite bpow2_opp, bpow2_IZR by lia; change (2 ^ 2)%Z with 4%Z; lra]). pose proof PI_4. apply Rabs_le_both in HP', HT'. apply Rabs_le. lra. }
  apply Rabs_le_both in HT. destruct (Z.ltb_spec y 0) as [C|C].
  - replace (x - ys)%Z with (x - 1 * ys)%Z by ring. replace (y + xs)%Z with (y + 1 * xs)%Z by ring. replace (acc - 2 * d)%Z with (acc - 1 * (2 * d))%Z by ring. assert (YN : yr <= 0) by (unfold yr; rewrite <- (fxval_0 F); apply fxval_le; lia).
    apply (KEY 1); [reflexivity|left; reflexivity|assert (ys < 0)%Z by (apply Z.shiftr_neg; exact C); lia|]. destruct (Rle_lt_dec th 0) as [T|T]; [apply Rabs_le; lra|].
    destruct i as [|i']; [destruct (H0 eq_refl) as (_ & _ & Z); specialize (Z C); lra|]. assert (TD : th <= delta). { apply (sign_err (S i') yr th); [lia| |exact YN|lra]. pose proof (vrem_1 (N - S i') ltac:(lia)). lra. } apply Rabs_le. lra.
  - replace (x + ys)%Z with (x - -1 * ys)%Z by ring. replace (y - xs)%Z with (y + -1 * xs)%Z by ring. replace (acc + 2 * d)%Z with (acc - -1 * (2 * d))%Z by ring. assert (YN : 0 <= yr) by (unfold yr; rewrite <- (fxval_0 F); apply fxval_le; lia).
    apply (KEY (-1)); [reflexivity|right; reflexivity|assert (0 <= ys)%Z by (apply Z.shiftr_nonneg; exact C); lia|]. destruct (Rle_lt_dec 0 th) as [T|T]; [apply Rabs_le; lra|].
    destruct i as [|i']; [destruct (H0 eq_refl) as (_ & Z & _); specialize (Z C); lra|]. assert (TD : - th <= delta). { apply (sign_err (S i') (- yr) (- th)); [lia| |lra|rewrite sin_neg; lra]. pose proof (vrem_1 (N - S i') ltac:(lia)). lra. } apply Rabs_le. lra.
Qed.
Lemma v_loop st : v_inv 0 st -> v_inv N (fold_left (a2_step Nz m) (seq 0 N) st).
Proof.
  intros H0. enough (L : forall n, (n <= N)%nat -> v_inv n (fold_left (a2_step Nz m) (seq 0 n) st)) by (apply L; lia).
  induction n as [|n IH]; intros Hn; [exact H0|]. rewrite seq_S, fold_left_app. cbn [fold_left Nat.add]. apply v_step; [lia|apply IH; lia].
Qed.
(** The angle that the loop accumulates. *)
Lemma v_acc st : v_inv 0 st -> Rabs (th0 - fxval (snd (fold_left (a2_step Nz m) (seq 0 N) st)) (icw + 1)) <= 2 * bpow2 (- Nz) + delta + INR N * h + bpow2 (- (51)).
Proof.
  intros H0. pose proof (v_loop st H0) as L. destruct (fold_left _ _ _) as [[x y] acc]. destruct L as (_ & _ & th & A & _ & B & _). cbn [snd]. rewrite Nat.sub_diag in A. cbn [vrem] in A. pose proof verr_N as VN. destruct (al_pos (N - 1)) as [_ A1].
  assert (E1 : / 2 ^ (N - 1) = 2 * bpow2 (- Nz)). { rewrite <- HNz, bpow2_opp, bpow2_IZR by lia. rewrite <- pow_IZR. replace N with (S (N - 1)) at 2 by lia. cbn [pow]. rewrite Rinv_mult. lra. }
  apply Rabs_le_both in A, B. apply Rabs_le. lra.
Qed.
End Vec.
