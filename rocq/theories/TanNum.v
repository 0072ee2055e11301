(** Numerical facts for the piecewise-linear tangent: convexity of tan, and enclosures of tan (32 B / 10433). *)
From Coq Require Import Reals Ratan Lia Lra Psatz.
From Verif Require Import AcTypes SpecR SpecRFacts CordicNum AtanNum.
Local Open Scope R_scope.

(** ** Convexity, from the concavity of the arctangent *)
Lemma PI2_lo : 1.57 < PI / 2.
Proof. pose proof pi_Z as [L _]. apply (Rmult_lt_reg_l (IZR B90)); [apply (IZR_lt 0); reflexivity|]. assert (157 * IZR B90 < 50 * IZR pi_lo) by (rewrite <- !mult_IZR; apply IZR_lt; vm_compute; reflexivity). lra. Qed.
Lemma tan_at a : 0 <= a <= 1.57 -> atan (tan a) = a.
Proof. intros H. apply atan_tan. pose proof PI2_lo. lra. Qed.
Lemma tan_incr a b : 0 <= a -> a <= b -> b <= 1.57 -> tan a <= tan b.
Proof. intros Ha [H|<-] Hb; [|lra]. pose proof PI2_lo. left. apply tan_increasing; lra. Qed.
Lemma tan_pos0 a : 0 <= a <= 1.57 -> 0 <= tan a.
Proof. intros H. rewrite <- tan_0. apply tan_incr; lra. Qed.
Lemma tan_le_of_atan u b : 0 <= b <= 1.57 -> atan u <= b -> u <= tan b.
Proof. intros Hb H. destruct (Rle_dec u (tan b)) as [D|D]; [exact D|]. apply Rnot_le_lt in D. apply atan_increasing in D. rewrite tan_at in D by exact Hb. lra. Qed.
Lemma tan_ge_of_atan u b : 0 <= b <= 1.57 -> b <= atan u -> tan b <= u.
Proof. intros Hb H. destruct (Rle_dec (tan b) u) as [D|D]; [exact D|]. apply Rnot_le_lt in D. apply atan_increasing in D. rewrite tan_at in D by exact Hb. lra. Qed.
Lemma tan_tangent a b : 0 <= a <= 1.57 -> 0 <= b <= 1.57 -> tan a + (b - a) * (1 + tan a * tan a) <= tan b.
Proof.
  intros Ha Hb. set (u := tan a). set (v := tan b). assert (Eu : atan u = a) by (apply tan_at; exact Ha). assert (Ev : atan v = b) by (apply tan_at; exact Hb).
  assert (U : 0 <= u) by (apply tan_pos0; exact Ha). assert (V : 0 <= v) by (apply tan_pos0; exact Hb). rewrite <- Eu, <- Ev.
  destruct (Rtotal_order u v) as [L|[->|L]].
  - destruct (atan_mvt u v L) as (c & E & Hc). rewrite E. assert (I : 0 < / (1 + c ^ 2)) by (apply Rinv_0_lt_compat; nra). set (k := / (1 + c ^ 2)) in *. assert (K : k * (1 + c ^ 2) = 1) by (unfold k; apply Rinv_l; nra).
    assert (k * (1 + u * u) <= 1) by nra. nra.
  - lra.
  - destruct (atan_mvt v u L) as (c & E & Hc). replace (atan v - atan u) with (- (atan u - atan v)) by ring. rewrite E. assert (I : 0 < / (1 + c ^ 2)) by (apply Rinv_0_lt_compat; nra). set (k := / (1 + c ^ 2)) in *. assert (K : k * (1 + c ^ 2) = 1) by (unfold k; apply Rinv_l; nra).
    assert (1 <= k * (1 + u * u)) by nra. nra.
Qed.
Lemma tan_chord a b l : 0 <= a -> a <= b -> b <= 1.57 -> 0 <= l <= 1 -> tan (a + l * (b - a)) <= (1 - l) * tan a + l * tan b.
Proof.
  intros Ha Hab Hb Hl. assert (M : a <= a + l * (b - a) <= b) by nra. apply tan_ge_of_atan; [lra|].
  pose proof (atan_chord (tan a) (tan b) l (tan_pos0 a ltac:(lra)) (tan_incr a b Ha Hab Hb) Hl) as C. rewrite !tan_at in C by lra. replace ((1 - l) * tan a + l * tan b) with (tan a + l * (tan b - tan a)) by ring. lra.
Qed.

(** ** Addition *)
Lemma tan_add a b : 0 <= a -> 0 <= b -> a + b <= 1.57 -> 0 < 1 - tan a * tan b /\ tan (a + b) = (tan a + tan b) / (1 - tan a * tan b).
Proof.
  intros Ha Hb H. pose proof PI2_lo. assert (C : forall x, 0 <= x <= 1.57 -> 0 < cos x) by (intros; apply cos_gt_0; lra).
  pose proof (C a ltac:(lra)) as Ca. pose proof (C b ltac:(lra)) as Cb. pose proof (C (a + b) ltac:(lra)) as Cab.
  assert (E : 1 - tan a * tan b = cos (a + b) / (cos a * cos b)) by (rewrite cos_plus; unfold tan; field; lra).
  assert (P : 0 < 1 - tan a * tan b) by (rewrite E; apply Rdiv_lt_0_compat; nra). split; [exact P|]. apply tan_plus; lra.
Qed.

(** ** Enclosures of tan (32 B / 10433), in units of 2^-30 *)
Definition P30 : Z := (2 ^ 30)%Z.
Definition tg_lo : Z := 3293380%Z.
Definition tg_hi : Z := 3293383%Z.
Definition tg2_hi : Z := 6586827%Z.
Lemma P30R : IZR P30 = 1073741824. Proof. reflexivity. Qed.

Lemma atan_cubic x : 0 < x < 1 -> x - x ^ 3 / 3 <= atan x <= x - x ^ 3 / 3 + x ^ 5 / 5.
Proof.
  intros Hx. destruct (atan_series x 1 Hx) as [_ H]. destruct (atan_series x 0 Hx) as [L _].
  assert (EL : sum_f_R0 (tg_alt (Ratan_seq x)) (S (2 * 0)) = x - x ^ 3 / 3) by (cbn [sum_f_R0 Nat.mul Nat.add]; unfold tg_alt, Ratan_seq; cbn [Nat.mul Nat.add INR]; field).
  assert (EH : sum_f_R0 (tg_alt (Ratan_seq x)) (2 * 1) = x - x ^ 3 / 3 + x ^ 5 / 5) by (cbn [sum_f_R0 Nat.mul Nat.add]; unfold tg_alt, Ratan_seq; cbn [Nat.mul Nat.add INR]; field).
  rewrite EL in L. rewrite EH in H. lra.
Qed.
Lemma tg_ok : IZR tg_lo / IZR P30 <= tan (32 / 10433) <= IZR tg_hi / IZR P30 /\ tan (64 / 10433) <= IZR tg2_hi / IZR P30.
Proof.
  rewrite P30R. unfold tg_lo, tg_hi, tg2_hi. split; [split|].
  - apply tan_le_of_atan; [lra|]. destruct (atan_cubic (3293380 / 1073741824) ltac:(lra)) as [_ H]. eapply Rle_trans; [exact H|]. lra.
  - apply tan_ge_of_atan; [lra|]. destruct (atan_cubic (3293383 / 1073741824) ltac:(lra)) as [H _]. eapply Rle_trans; [|exact H]. lra.
  - apply tan_ge_of_atan; [lra|]. destruct (atan_cubic (6586827 / 1073741824) ltac:(lra)) as [H _]. eapply Rle_trans; [|exact H]. lra.
Qed.

Definition tg_down (a b : Z) : Z := ((a + b) * (P30 * P30) / (P30 * P30 - a * b))%Z.
Definition tg_up (a b : Z) : Z := (tg_down a b + 1)%Z.
Lemma tg_frac a b x y : 0 <= a <= x -> 0 <= b <= y -> x * y < 1 -> (a + b) / (1 - a * b) <= (x + y) / (1 - x * y).
Proof.
  intros Ha Hb H. assert (a * b <= x * y) by nra. unfold Rdiv. apply Rmult_le_compat; [lra|apply Rlt_le, Rinv_0_lt_compat; lra|lra|apply Rinv_le_contravar; lra].
Qed.
Lemma tg_real a b : (0 <= a)%Z -> (0 <= b)%Z -> (a * b < P30 * P30)%Z -> IZR (tg_down a b) <= IZR P30 * ((IZR a / IZR P30 + IZR b / IZR P30) / (1 - IZR a / IZR P30 * (IZR b / IZR P30))) <= IZR (tg_up a b).
Proof.
  intros Ha Hb H. assert (D : (0 < P30 * P30 - a * b)%Z) by lia. unfold tg_up. rewrite plus_IZR. unfold tg_down.
  assert (IZR P30 * ((IZR a / IZR P30 + IZR b / IZR P30) / (1 - IZR a / IZR P30 * (IZR b / IZR P30))) = IZR ((a + b) * (P30 * P30)) / IZR (P30 * P30 - a * b)) as ->.
  { apply IZR_lt in D. rewrite mult_IZR, plus_IZR, minus_IZR, !mult_IZR in *. assert (PP : 0 < IZR P30) by (apply (IZR_lt 0); reflexivity). set (p := IZR P30) in *. set (x := IZR a) in *. set (y := IZR b) in *. clearbody p x y. field. repeat split; try lra; intros E; nra. }
  apply floor_div. exact D.
Qed.

Definition th (B : Z) : R := 32 * IZR B / 10433.

Lemma th_range B : (0 <= B <= 258)%Z -> 0 <= th B <= 0.792.
Proof. intros [H1 H2]. apply IZR_le in H1, H2. unfold th. lra. Qed.
Lemma tg_up_ok a ha b hb x y : (0 <= ha)%Z -> (0 <= hb)%Z -> (ha * hb < P30 * P30)%Z -> a = tan x -> b = tan y -> 0 <= x -> 0 <= y -> x + y <= 1.57 -> IZR P30 * a <= IZR ha -> IZR P30 * b <= IZR hb -> IZR P30 * tan (x + y) <= IZR (tg_up ha hb).
Proof.
  intros H1 H2 H3 -> -> Hx Hy Hxy Ba Bb. destruct (tan_add x y Hx Hy Hxy) as [P E]. rewrite E. pose proof (tg_real ha hb H1 H2 H3) as [_ R]. eapply Rle_trans; [|exact R].
  assert (PP : 0 < IZR P30) by (apply (IZR_lt 0); reflexivity). apply Rmult_le_compat_l; [lra|]. apply tg_frac.
  - split; [apply tan_pos0; lra|]. apply (Rmult_le_reg_l (IZR P30)); [exact PP|]. replace (IZR P30 * (IZR ha / IZR P30)) with (IZR ha) by (field; lra). exact Ba.
  - split; [apply tan_pos0; lra|]. apply (Rmult_le_reg_l (IZR P30)); [exact PP|]. replace (IZR P30 * (IZR hb / IZR P30)) with (IZR hb) by (field; lra). exact Bb.
  - apply (Rmult_lt_reg_l (IZR P30 * IZR P30)); [nra|]. replace (IZR P30 * IZR P30 * (IZR ha / IZR P30 * (IZR hb / IZR P30))) with (IZR (ha * hb)) by (rewrite mult_IZR; field; lra). rewrite Rmult_1_r, <- mult_IZR. apply IZR_lt. exact H3.
Qed.
Lemma tg_down_ok a la b lb x y : (0 <= la)%Z -> (0 <= lb)%Z -> a = tan x -> b = tan y -> 0 <= x -> 0 <= y -> x + y <= 1.57 -> IZR la <= IZR P30 * a -> IZR lb <= IZR P30 * b -> IZR (tg_down la lb) <= IZR P30 * tan (x + y).
Proof.
  intros H1 H2 -> -> Hx Hy Hxy Ba Bb. destruct (tan_add x y Hx Hy Hxy) as [P E]. rewrite E.
  assert (PP : 0 < IZR P30) by (apply (IZR_lt 0); reflexivity).
  assert (A : 0 <= IZR la / IZR P30 <= tan x). { apply IZR_le in H1. split; [apply Rle_mult_inv_pos; assumption|]. apply (Rmult_le_reg_l (IZR P30)); [exact PP|]. replace (IZR P30 * (IZR la / IZR P30)) with (IZR la) by (field; lra). exact Ba. }
  assert (B : 0 <= IZR lb / IZR P30 <= tan y). { apply IZR_le in H2. split; [apply Rle_mult_inv_pos; assumption|]. apply (Rmult_le_reg_l (IZR P30)); [exact PP|]. replace (IZR P30 * (IZR lb / IZR P30)) with (IZR lb) by (field; lra). exact Bb. }
  assert (H3 : (la * lb < P30 * P30)%Z). { apply lt_IZR. rewrite !mult_IZR. assert (IZR la / IZR P30 * (IZR lb / IZR P30) <= tan x * tan y) by (apply Rmult_le_compat; lra). assert (Ea : IZR la * IZR lb = IZR P30 * IZR P30 * (IZR la / IZR P30 * (IZR lb / IZR P30))) by (field; lra). rewrite Ea. assert (0 < IZR P30 * IZR P30) by nra. nra. }
  pose proof (tg_real la lb H1 H2 H3) as [R _]. eapply Rle_trans; [exact R|]. apply Rmult_le_compat_l; [lra|]. apply tg_frac; [exact A|exact B|lra].
Qed.

(** Running through the points, with the enclosures at hand; [P] sees B, both bounds of tan (th B) and an upper bound of
    tan (th (B + 2)). *)
Fixpoint tg_all (P : Z -> Z -> Z -> Z -> bool) (k : nat) (B lo hi : Z) : bool :=
  match k with
  | O => true
  | S k' => (hi <=? 2 * P30)%Z && P B lo hi (tg_up hi tg2_hi) && tg_all P k' (B + 1) (tg_down lo tg_lo) (tg_up hi tg_hi)
  end.
Lemma tg_all_ok P k : forall B lo hi, (0 <= B)%Z -> (B + Z.of_nat k <= 256)%Z -> (0 <= lo)%Z -> IZR lo <= IZR P30 * tan (th B) <= IZR hi -> tg_all P k B lo hi = true ->
  forall i, (B <= i < B + Z.of_nat k)%Z -> exists lo hi hi2, P i lo hi hi2 = true /\ (0 <= lo)%Z /\ IZR lo <= IZR P30 * tan (th i) <= IZR hi /\ IZR P30 * tan (th (i + 2)) <= IZR hi2.
Proof.
  induction k as [|k IH]; intros B lo hi HB Hk Hlo E H i Hi; [lia|]. cbn [tg_all] in H. apply andb_prop in H. destruct H as [H H3]. apply andb_prop in H. destruct H as [H1 H2]. apply Z.leb_le in H1.
  assert (PP : 0 < IZR P30) by (apply (IZR_lt 0); reflexivity). destruct tg_ok as [[T1 T2] T3].
  assert (S1 : IZR tg_lo <= IZR P30 * tan (32 / 10433)) by (apply (Rmult_le_compat_l (IZR P30)) in T1; [|lra]; replace (IZR P30 * (IZR tg_lo / IZR P30)) with (IZR tg_lo) in T1 by (field; lra); exact T1).
  assert (S2 : IZR P30 * tan (32 / 10433) <= IZR tg_hi) by (apply (Rmult_le_compat_l (IZR P30)) in T2; [|lra]; replace (IZR P30 * (IZR tg_hi / IZR P30)) with (IZR tg_hi) in T2 by (field; lra); exact T2).
  assert (S3 : IZR P30 * tan (64 / 10433) <= IZR tg2_hi) by (apply (Rmult_le_compat_l (IZR P30)) in T3; [|lra]; replace (IZR P30 * (IZR tg2_hi / IZR P30)) with (IZR tg2_hi) in T3 by (field; lra); exact T3).
  pose proof (th_range B ltac:(lia)) as RB. assert (HH : (lo <= hi)%Z) by (apply le_IZR; lra). unfold P30 in H1.
  assert (E1 : th (B + 1) = th B + 32 / 10433) by (unfold th; rewrite plus_IZR; field). assert (E2 : th (B + 2) = th B + 64 / 10433) by (unfold th; rewrite plus_IZR; field).
  assert (U2 : IZR P30 * tan (th (B + 2)) <= IZR (tg_up hi tg2_hi)). { rewrite E2. eapply tg_up_ok; try reflexivity; try lra; try (unfold tg2_hi, P30; lia). }
  destruct (Z.eq_dec i B) as [->|N]; [exists lo, hi, (tg_up hi tg2_hi); repeat split; try assumption; lra|].
  apply (IH (B + 1)%Z (tg_down lo tg_lo) (tg_up hi tg_hi)); [lia|lia| | |exact H3|lia].
  - unfold tg_down. apply Z.div_pos; unfold tg_lo, P30; nia.
  - rewrite E1. split; [eapply tg_down_ok; try reflexivity; try lra; try (unfold tg_lo; lia)|eapply tg_up_ok; try reflexivity; try lra; try (unfold tg_hi, P30; lia)].
Qed.
Lemma tg_all_256 P : tg_all P 256 0 0 0 = true -> forall i, (0 <= i < 256)%Z -> exists lo hi hi2, P i lo hi hi2 = true /\ (0 <= lo)%Z /\ IZR lo <= IZR P30 * tan (th i) <= IZR hi /\ IZR P30 * tan (th (i + 2)) <= IZR hi2.
Proof. intros H i Hi. apply (tg_all_ok P 256 0 0 0 ltac:(lia) ltac:(lia) ltac:(lia)); [|exact H|lia]. unfold th. replace (32 * 0 / 10433) with 0 by field. rewrite tan_0. lra. Qed.
