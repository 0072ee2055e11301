(** Numerical facts for the piecewise-linear arctangents: enclosures of atan(j/256), and the chord and tangent bounds. *)
From Coq Require Import Reals Ratan Machin Lia Lra Psatz.
From Verif Require Import AcTypes SpecR SpecRFacts CordicNum.
Local Open Scope R_scope.

(** ** Concavity *)
Lemma datan x y : 0 <= x -> x <= y -> / (1 + y ^ 2) <= / (1 + x ^ 2).
Proof. intros. apply Rinv_le_contravar; nra. Qed.
Lemma atan_mvt a b : a < b -> exists c, atan b - atan a = / (1 + c ^ 2) * (b - a) /\ a < c < b.
Proof. intros H. apply MVT_cor2; [exact H|]. intros. apply derivable_pt_lim_atan. Qed.
Lemma atan_up a b : 0 <= a -> a <= b -> atan b <= atan a + / (1 + a ^ 2) * (b - a).
Proof.
  intros Ha [H|<-]; [|lra]. destruct (atan_mvt a b H) as (c & E & Hc). pose proof (datan a c Ha ltac:(lra)). assert (/ (1 + c ^ 2) * (b - a) <= / (1 + a ^ 2) * (b - a)) by (apply Rmult_le_compat_r; lra). lra.
Qed.
Lemma atan_incr a b : a <= b -> atan a <= atan b.
Proof. intros [H|<-]; [left; apply atan_increasing, H|lra]. Qed.
Lemma atan_lip a b : Rabs (atan b - atan a) <= Rabs (b - a).
Proof.
  assert (G : forall a b, a <= b -> Rabs (atan b - atan a) <= Rabs (b - a)).
  { intros x y [H|<-]; [|rewrite !Rminus_eq_0; lra]. destruct (atan_mvt x y H) as (c & E & Hc). rewrite E, Rabs_mult. rewrite <- (Rmult_1_l (Rabs (y - x))) at 2. apply Rmult_le_compat_r; [apply Rabs_pos|].
    pose proof (pow2_ge_0 c). rewrite Rabs_pos_eq by (apply Rlt_le, Rinv_0_lt_compat; lra). rewrite <- Rinv_1. apply Rinv_le_contravar; lra. }
  destruct (Rle_dec a b) as [H|H]; [apply G, H|]. rewrite (Rabs_minus_sym (atan b)), (Rabs_minus_sym b). apply G. lra.
Qed.
Lemma atan_chord a b l : 0 <= a -> a <= b -> 0 <= l <= 1 -> (1 - l) * atan a + l * atan b <= atan (a + l * (b - a)).
Proof.
  intros Ha [Hab|<-] Hl; [|replace (a + l * (a - a)) with a by ring; lra].
  destruct (Req_dec l 0) as [->|L0]; [right; replace (a + 0 * (b - a)) with a by ring; ring|]. destruct (Req_dec l 1) as [->|L1]; [right; replace (a + 1 * (b - a)) with b by ring; ring|].
  set (t := a + l * (b - a)). assert (a < t) by (unfold t; nra). assert (t < b) by (unfold t; nra).
  destruct (atan_mvt a t ltac:(assumption)) as (c & E & Hc). destruct (atan_mvt t b ltac:(assumption)) as (d & F & Hd). pose proof (datan c d ltac:(lra) ltac:(lra)) as D.
  assert (T1 : t - a = l * (b - a)) by (unfold t; ring). assert (T2 : b - t = (1 - l) * (b - a)) by (unfold t; ring). rewrite T1 in E. rewrite T2 in F.
  assert (0 <= l * (1 - l) * (b - a)) by (apply Rmult_le_pos; nra).
  assert (/ (1 + d ^ 2) * (l * (1 - l) * (b - a)) <= / (1 + c ^ 2) * (l * (1 - l) * (b - a))) by (apply Rmult_le_compat_r; assumption).
  assert (E' : (1 - l) * (atan t - atan a) = / (1 + c ^ 2) * (l * (1 - l) * (b - a))) by (rewrite E; ring). assert (F' : l * (atan b - atan t) = / (1 + d ^ 2) * (l * (1 - l) * (b - a))) by (rewrite F; ring). nra.
Qed.

(** ** Enclosures of atan (j / 256), in units of 2^-60 *)
Lemma floor_div (a b : Z) : (0 < b)%Z -> IZR (a / b) <= IZR a / IZR b <= IZR (a / b) + 1.
Proof.
  intros Hb. pose proof (Z.div_mod a b ltac:(lia)) as DM. pose proof (Z.mod_pos_bound a b Hb) as MB. apply IZR_lt in Hb as HbR.
  split; apply (Rmult_le_reg_r (IZR b)); try exact HbR; unfold Rdiv; rewrite ?Rmult_assoc, Rinv_l, Rmult_1_r by lra; rewrite <- ?plus_IZR, <- mult_IZR; apply IZR_le; nia.
Qed.
Definition E60 : Z := (2 ^ 60)%Z.
Definition uden (j : Z) : Z := (65536 + j * (j + 1))%Z.
Definition uterm (j k : Z) : Z := (E60 * 256 ^ k / (k * uden j ^ k))%Z.
Definition t_lo (j : Z) : Z := (uterm j 1 - (uterm j 3 + 1) + uterm j 5 - (uterm j 7 + 1))%Z.
Definition t_hi (j : Z) : Z := (uterm j 1 + 1 - uterm j 3 + (uterm j 5 + 1))%Z.
Lemma uterm_ok j (k : nat) : (0 <= j)%Z -> (k > 0)%nat -> IZR (uterm j (Z.of_nat k)) <= IZR E60 * ((256 / IZR (uden j)) ^ k / INR k) <= IZR (uterm j (Z.of_nat k)) + 1.
Proof.
  intros Hj Hk. assert (D : (0 < uden j)%Z) by (unfold uden; nia). assert (P : (0 < uden j ^ Z.of_nat k)%Z) by (apply Z.pow_pos_nonneg; lia).
  assert (IZR E60 * ((256 / IZR (uden j)) ^ k / INR k) = IZR (E60 * 256 ^ Z.of_nat k) / IZR (Z.of_nat k * uden j ^ Z.of_nat k)) as ->.
  { rewrite !mult_IZR, <- !pow_IZR, <- INR_IZR_INZ. unfold Rdiv. rewrite Rpow_mult_distr, Rinv_mult, pow_inv. ring. }
  apply floor_div. nia.
Qed.
Lemma t_ok j : (0 <= j)%Z -> IZR (t_lo j) <= IZR E60 * atan (256 / IZR (uden j)) <= IZR (t_hi j).
Proof.
  intros Hj. assert (D : (65536 <= uden j)%Z) by (unfold uden; nia). apply IZR_le in D. set (u := 256 / IZR (uden j)).
  assert (Hu : 0 < u < 1). { unfold u. split; [apply Rdiv_lt_0_compat; lra|]. apply (Rmult_lt_reg_r (IZR (uden j))); [lra|]. unfold Rdiv. rewrite Rmult_assoc, Rinv_l by lra. lra. }
  destruct (atan_series u 1 Hu) as [L H].
  pose proof (uterm_ok j 1 Hj ltac:(lia)) as T1. pose proof (uterm_ok j 3 Hj ltac:(lia)) as T3. pose proof (uterm_ok j 5 Hj ltac:(lia)) as T5. pose proof (uterm_ok j 7 Hj ltac:(lia)) as T7. fold u in T1, T3, T5, T7. cbn [Z.of_nat Pos.of_succ_nat Pos.succ] in T1, T3, T5, T7.
  unfold t_lo, t_hi. rewrite !minus_IZR, !plus_IZR, !minus_IZR, !plus_IZR.
  assert (EL : sum_f_R0 (tg_alt (Ratan_seq u)) (S (2 * 1)) = u ^ 1 / INR 1 - u ^ 3 / INR 3 + u ^ 5 / INR 5 - u ^ 7 / INR 7) by (cbn [sum_f_R0 Nat.mul Nat.add]; unfold tg_alt, Ratan_seq; cbn [Nat.mul Nat.add]; unfold Rdiv; ring).
  assert (EH : sum_f_R0 (tg_alt (Ratan_seq u)) (2 * 1) = u ^ 1 / INR 1 - u ^ 3 / INR 3 + u ^ 5 / INR 5) by (cbn [sum_f_R0 Nat.mul Nat.add]; unfold tg_alt, Ratan_seq; cbn [Nat.mul Nat.add]; unfold Rdiv; ring).
  rewrite EL in L. rewrite EH in H. set (a := u ^ 1 / INR 1) in *. set (b := u ^ 3 / INR 3) in *. set (c := u ^ 5 / INR 5) in *. set (d := u ^ 7 / INR 7) in *. clearbody a b c d.
  assert (PE : 0 <= IZR E60) by (apply (IZR_le 0); discriminate). apply (Rmult_le_compat_l _ _ _ PE) in L, H. rewrite !Rmult_minus_distr_l, !Rmult_plus_distr_l, !Rmult_minus_distr_l in *. lra.
Qed.
Lemma atan_step j : (0 <= j)%Z -> atan (IZR (j + 1) / 256) = atan (IZR j / 256) + atan (256 / IZR (uden j)).
Proof.
  intros Hj. apply IZR_le in Hj. set (a := IZR j / 256). assert (Ha : 0 <= a) by (unfold a; lra). assert (Eb : IZR (j + 1) / 256 = a + / 256) by (rewrite plus_IZR; unfold a; field). rewrite Eb.
  assert (E : 256 / IZR (uden j) = atan_sub (a + / 256) a). { unfold atan_sub, uden. rewrite plus_IZR, mult_IZR, plus_IZR. unfold a. field. nra. }
  rewrite E. apply atan_sub_correct; [nra| |destruct (atan_bound (atan_sub (a + / 256) a)); lra].
  pose proof (atan_bound (a + / 256)). pose proof (atan_incr 0 a Ha) as H0. rewrite atan_0 in H0. pose proof (atan_increasing a (a + / 256) ltac:(lra)). pose proof PI_RGT_0. lra.
Qed.

(** Running through the points j/256, with the enclosures at hand. *)
Fixpoint at_all (P : Z -> Z -> Z -> Z -> bool) (k : nat) (j lo hi : Z) : bool :=
  match k with
  | O => true
  | S k' => let lo' := (lo + t_lo j)%Z in P j lo hi lo' && at_all P k' (j + 1) lo' (hi + t_hi j)
  end.
Lemma at_all_ok P k : forall j lo hi, (0 <= j)%Z -> IZR lo <= IZR E60 * atan (IZR j / 256) <= IZR hi -> at_all P k j lo hi = true ->
  forall i, (j <= i < j + Z.of_nat k)%Z -> exists lo hi lo', P i lo hi lo' = true /\ IZR lo <= IZR E60 * atan (IZR i / 256) <= IZR hi /\ IZR lo' <= IZR E60 * atan (IZR (i + 1) / 256).
Proof.
  induction k as [|k IH]; intros j lo hi Hj B H i Hi; [lia|]. cbn [at_all] in H. apply andb_prop in H. destruct H as [H1 H2].
  pose proof (t_ok j Hj) as T. pose proof (atan_step j Hj) as S. assert (B' : IZR (lo + t_lo j) <= IZR E60 * atan (IZR (j + 1) / 256) <= IZR (hi + t_hi j)) by (rewrite S, !plus_IZR, Rmult_plus_distr_l; lra).
  destruct (Z.eq_dec i j) as [->|N]; [exists lo, hi, (lo + t_lo j)%Z; repeat split; try tauto; apply B'|]. apply (IH (j + 1)%Z (lo + t_lo j)%Z (hi + t_hi j)%Z); [lia|exact B'|exact H2|lia].
Qed.
Lemma at_all_256 P : at_all P 256 0 0 0 = true -> forall i, (0 <= i < 256)%Z -> exists lo hi lo', P i lo hi lo' = true /\ IZR lo <= IZR E60 * atan (IZR i / 256) <= IZR hi /\ IZR lo' <= IZR E60 * atan (IZR (i + 1) / 256).
Proof. intros H i Hi. apply (at_all_ok P 256 0 0 0 ltac:(lia)); [|exact H|lia]. replace (0 / 256) with 0 by field. rewrite atan_0. lra. Qed.
