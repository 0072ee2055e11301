(** Numerical facts for the CORDIC inverse sine and cosine: the table entries, the gain and the angles. *)
From Coq Require Import Reals Ratan Machin Lia Lra Psatz.
From Verif Require Import AcTypes Spec SpecR SpecRFacts SoftFacts CordicModel CordicNum CordicProofs CordicThm Atan2Num ArcModel.
Local Open Scope R_scope.

(** ** Pi to 100 bits and more *)
Definition BB : Z := (2 ^ 120)%Z.
Definition ppi_lo : Z := (16 * at_lo BB 5 14 - 4 * at_hi BB 239 4)%Z.
Definition ppi_hi : Z := (16 * at_hi BB 5 14 - 4 * at_lo BB 239 4)%Z.
Lemma ppi_Z : IZR ppi_lo <= IZR BB * PI <= IZR ppi_hi.
Proof.
  pose proof (atan_Z BB 5 14 ltac:(lia) ltac:(discriminate)) as A5. pose proof (atan_Z BB 239 4 ltac:(lia) ltac:(discriminate)) as A239. pose proof Machin_4_5_239 as E.
  assert (PI = 16 * atan (/ 5) - 4 * atan (/ 239)) as -> by lra. unfold ppi_lo, ppi_hi. rewrite !minus_IZR, !mult_IZR. lra.
Qed.

(** ** The table *)
Definition arc_terms (i : nat) : nat := (120 / (4 * i) + 1)%nat.
Definition arc_ok (lo hi : Z) (i : nat) (T : Z) : bool :=
  let m := (2 ^ Z.of_nat i)%Z in
  ((T * hi <=? 2 ^ 129 * at_lo BB m (arc_terms i) + 2 ^ 148) && (2 ^ 129 * at_hi BB m (arc_terms i) <=? T * lo + 2 ^ 148))%Z.
Lemma arcs_ok : let lo := ppi_lo in let hi := ppi_hi in forallb (fun i => arc_ok lo hi i (nth i arc_tab 0%Z)) (seq 1 129) = true.
Proof. vm_compute. reflexivity. Qed.
Lemma arc_tab_range i : (0 <= nth i arc_tab 0 <= 2 ^ 127)%Z.
Proof.
  destruct (Nat.lt_ge_cases i 130) as [H|H]; [|rewrite nth_overflow by exact H; split; [lia|discriminate]].
  assert (F : forallb (fun z => (0 <=? z) && (z <=? 2 ^ 127))%Z arc_tab = true) by reflexivity. rewrite forallb_forall in F. assert (IN : In (nth i arc_tab 0%Z) arc_tab) by (apply nth_In; exact H). specialize (F _ IN). apply andb_prop in F. rewrite !Z.leb_le in F. exact F.
Qed.

(** The angle by which step i turns. *)
Definition ang (i : nat) : R := 2 * atan (/ 2 ^ i).
Lemma ang_near i : (1 <= i < 130)%nat -> Rabs (PI * fxval (nth i arc_tab 0%Z) 128 - ang i) <= bpow2 (- (100)).
Proof.
  intros Hi. pose proof arcs_ok as A. cbv zeta in A. rewrite forallb_forall in A. specialize (A i ltac:(apply in_seq; lia)). unfold arc_ok in A. apply andb_prop in A. destruct A as [A1 A2]. apply Z.leb_le in A1, A2.
  assert (Hm : (1 < 2 ^ Z.of_nat i)%Z) by (apply Z.pow_gt_1; lia). pose proof (atan_Z BB (2 ^ Z.of_nat i) (arc_terms i) Hm ltac:(discriminate)) as AZ. pose proof ppi_Z as PZ.
  assert (EM : IZR (2 ^ Z.of_nat i) = 2 ^ i) by (rewrite pow_IZR; reflexivity). rewrite EM in AZ.
  pose proof (arc_tab_range i) as [T0 _]. apply IZR_le in T0. set (T := nth i arc_tab 0%Z) in *. clearbody T. unfold ang. set (at_ := atan (/ 2 ^ i)) in *.
  apply IZR_le in A1, A2. rewrite !plus_IZR, !mult_IZR in A1, A2. set (lo := at_lo BB (2 ^ Z.of_nat i) (arc_terms i)) in *. set (hi := at_hi BB (2 ^ Z.of_nat i) (arc_terms i)) in *. clearbody lo hi.
  unfold BB in *. rewrite <- (bpow2_IZR 120) in AZ, PZ by lia. rewrite <- (bpow2_IZR 129), <- (bpow2_IZR 148) in A1, A2 by lia. pose proof (bpow2_pos 129) as P129. pose proof (bpow2_pos 120) as P120.
  assert (Q1 : IZR T * (bpow2 120 * PI) <= bpow2 129 * (bpow2 120 * at_) + bpow2 148) by (eapply Rle_trans; [apply Rmult_le_compat_l; [exact T0|apply PZ]|]; eapply Rle_trans; [exact A1|]; apply Rplus_le_compat_r, Rmult_le_compat_l; [lra|apply AZ]).
  assert (Q2 : bpow2 129 * (bpow2 120 * at_) <= IZR T * (bpow2 120 * PI) + bpow2 148) by (eapply Rle_trans; [apply Rmult_le_compat_l; [lra|apply AZ]|]; eapply Rle_trans; [exact A2|]; apply Rplus_le_compat_r, Rmult_le_compat_l; [exact T0|apply PZ]).
  assert (C1 : bpow2 148 = bpow2 128 * bpow2 120 * bpow2 (- (100))) by (rewrite <- !bpow2_add; f_equal).
  assert (C2 : bpow2 129 = 2 * bpow2 128) by (rewrite <- bpow2_1, <- bpow2_add; f_equal). rewrite C1, C2 in *. pose proof (bpow2_pos 128) as P128.
  unfold fxval. rewrite (bpow2_opp 128). set (g := bpow2 128) in *. set (h := bpow2 120) in *. assert (P : 0 < g * h) by (apply Rmult_lt_0_compat; assumption).
  apply Rabs_le. split; apply (Rmult_le_reg_l (g * h)); try exact P; replace (g * h * (PI * (IZR T * / g) - 2 * at_)) with (IZR T * (h * PI) - 2 * g * (h * at_)) by (field; lra); lra.
Qed.

(** ** The angles *)
Lemma ang_pos i : 0 < ang i <= 2 * / 2 ^ i.
Proof. unfold ang. destruct (two_pow_pos i) as [A B]. pose proof (atan_pos _ A). pose proof (atan_le (/ 2 ^ i) ltac:(lra)). lra. Qed.
Lemma ang_half i : ang i <= 2 * ang (S i).
Proof.
  unfold ang. destruct (two_pow_pos i) as [A B]. cbn [pow]. rewrite Rinv_mult. assert (E : / 2 ^ i = 2 * (/ 2 * / 2 ^ i)) by lra. rewrite E at 1. pose proof (atan_double (/ 2 * / 2 ^ i) ltac:(lra)). lra.
Qed.
(** The angles of the steps i, i+1, ..., i+n-1. *)
Fixpoint asum (i n : nat) : R := match n with O => 0 | S n' => ang i + asum (S i) n' end.
Lemma asum_pos n : forall i, 0 <= asum i n.
Proof. induction n as [|n IH]; intros i; cbn [asum]; [lra|]. pose proof (ang_pos i). specialize (IH (S i)). lra. Qed.
Lemma asum_le n : forall i, asum i n <= 4 * / 2 ^ i - 4 * / 2 ^ (i + n).
Proof.
  induction n as [|n IH]; intros i; cbn [asum]; [rewrite Nat.add_0_r; lra|]. specialize (IH (S i)). replace (S i + n)%nat with (i + S n)%nat in IH by lia. pose proof (ang_pos i). cbn [pow] in IH. rewrite Rinv_mult in IH. lra.
Qed.
Lemma asum_last n : forall i, asum i (S n) = asum i n + ang (i + n).
Proof. induction n as [|n IH]; intros i; [cbn [asum]; rewrite Nat.add_0_r; lra|]. change (asum i (S (S n))) with (ang i + asum (S i) (S n)). rewrite IH. cbn [asum]. replace (S i + n)%nat with (i + S n)%nat by lia. lra. Qed.
(** An angle is at most the sum of the next ones, with the last one counted twice. *)
Lemma ang_le_sum n : forall i, ang i <= asum (S i) n + ang (i + n).
Proof.
  induction n as [|n IH]; intros i; cbn [asum]; [rewrite Nat.add_0_r; lra|]. specialize (IH (S i)). replace (S i + n)%nat with (i + S n)%nat in IH by lia. pose proof (ang_half i). lra.
Qed.

(** ** The gain *)
Lemma gain_up n : (5 <= n)%nat -> gain2 n <= 272 / 100 - 4 * / 4 ^ n.
Proof.
  induction 1 as [|n H IH]; [cbn [gain2 pow]; lra|]. cbn [gain2 pow]. rewrite Rinv_mult. pose proof (Rinv_0_lt_compat _ (pow_lt 4 n ltac:(lra))) as P. set (p := / 4 ^ n) in *. assert (gain2 n * p <= 272 / 100 * p) by (apply Rmult_le_compat_r; lra). lra.
Qed.
Lemma gain_bounds n : (2 <= n)%nat -> 25 / 10 <= gain2 n <= 272 / 100.
Proof.
  intros H. split.
  - pose proof (gain_mono 2 n H) as M. cbn [gain2 pow] in M. lra.
  - destruct (Nat.le_gt_cases 5 n) as [D|D]; [pose proof (gain_up n D); pose proof (Rinv_0_lt_compat _ (pow_lt 4 n ltac:(lra))); lra|]. pose proof (gain_mono n 5 ltac:(lia)). pose proof (gain_up 5 (le_n 5)). pose proof (Rinv_0_lt_compat _ (pow_lt 4 5 ltac:(lra))). lra.
Qed.
Lemma gain_1 : gain2 1 = 2.
Proof. cbn [gain2 pow]. lra. Qed.
