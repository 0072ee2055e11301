(** Proofs about the model of ac_random. *)
From Coq Require Import Lia ZifyBool.
From Verif Require Import AcTypes AcFacts SqrtFacts RandomModel MatrixProofs.

Lemma set_low_16 s w r t : 16 <= w -> set_low s w 16 (wraps 16 r) (wrap s w (t * 2 ^ 16)) = wrap s w (t * 2 ^ 16 + r mod 2 ^ 16).
Proof.
  intros Hw. unfold set_low. rewrite Z.shiftl_mul_pow2, Z.shiftr_div_pow2 by lia.
  assert (D : wrap s w (t * 2 ^ 16) mod 2 ^ 16 = 0).
  { rewrite (mod_pow2_sub w 16 _ (t * 2 ^ 16)); [apply Z.mod_mul; lia|lia|apply wrap_mod; lia]. }
  replace (wrap s w (t * 2 ^ 16) / 2 ^ 16 * 2 ^ 16) with (wrap s w (t * 2 ^ 16)) by (pose proof (Z.div_mod (wrap s w (t * 2 ^ 16)) (2 ^ 16)); lia).
  unfold wrapu. rewrite (wrap_mod true 16) by lia. apply wrap_add. lia.
Qed.

(** The chunks read as a number, most significant first. *)
Fixpoint digits (k : nat) (rs : nat -> Z) : Z :=
  match k with O => 0 | S k => rs O mod 2 ^ 16 * 2 ^ (16 * Z.of_nat k) + digits k (fun n => rs (S n)) end.

Lemma loop_val s w k : 16 <= w -> forall rs t,
  rnd_loop s w k rs (wrap s w t) = wrap s w (t * 2 ^ (16 * Z.of_nat k) + digits k rs).
Proof.
  intros Hw. induction k as [|k IH]; intros rs t.
  - cbn [rnd_loop digits]. f_equal. change (2 ^ (16 * Z.of_nat 0)) with 1. lia.
  - cbn [rnd_loop digits]. cbv zeta. unfold shl.
    replace (wrap s w (Z.shiftl (wrap s w t) 16)) with (wrap s w (t * 2 ^ 16)).
    2:{ rewrite Z.shiftl_mul_pow2 by lia. apply wrap_congr; [lia|]. pose proof (pow2_pos w ltac:(lia)).
        rewrite <- (Zmult_mod_idemp_l (wrap s w t)), wrap_mod, Zmult_mod_idemp_l by lia. reflexivity. }
    rewrite set_low_16 by lia. rewrite IH. f_equal. rewrite Nat2Z.inj_succ.
    replace (16 * Z.succ (Z.of_nat k)) with (16 + 16 * Z.of_nat k) by lia. rewrite pow2_add by lia. ring.
Qed.

Lemma random_large_val s w v rs : 16 < w ->
  random_large s w v rs = wrap s w (digits (S (Z.to_nat ((w - 1) / 16))) rs).
Proof.
  intros Hw. unfold random_large. cbv zeta. replace 0 with (wrap s w (0 * 2 ^ 16)) at 1.
  2:{ apply wrap_id; [lia|]. apply in_range_0. lia. }
  rewrite set_low_16 by lia. rewrite loop_val by lia. reflexivity.
Qed.
Lemma random_small_val s w v rs : 1 <= w -> random_small s w v rs = wrap s w (rs O).
Proof.
  intros Hw. unfold random_small, set_low. rewrite Z.shiftl_mul_pow2, Z.shiftr_div_pow2 by lia.
  apply wrap_congr; [lia|]. pose proof (pow2_pos w ltac:(lia)). rewrite Z.add_comm, Z.mod_add by lia. unfold wrapu.
  rewrite Z.mod_mod by lia. apply (wrap_mod true). lia.
Qed.

Lemma digits_ex k : forall u, 0 <= u < 2 ^ (16 * Z.of_nat k) -> exists rs, (forall n, 0 <= rs n <= 65535) /\ digits k rs = u.
Proof.
  induction k as [|k IH]; intros u Hu.
  - exists (fun _ => 0). split; [lia|]. cbn [digits]. change (2 ^ (16 * Z.of_nat 0)) with 1 in Hu. lia.
  - rewrite Nat2Z.inj_succ in Hu. replace (16 * Z.succ (Z.of_nat k)) with (16 + 16 * Z.of_nat k) in Hu by lia. rewrite pow2_add in Hu by lia.
    set (p := 2 ^ (16 * Z.of_nat k)) in *. assert (P : 0 < p) by (apply pow2_pos; lia).
    destruct (IH (u mod p)) as (rs & R & D); [apply Z.mod_pos_bound; exact P|].
    assert (Q : 0 <= u / p < 2 ^ 16) by (split; [apply Z.div_pos; lia|apply Z.div_lt_upper_bound; lia]).
    exists (fun n => match n with O => u / p | S n => rs n end). split; [intros [|n]; [change (2 ^ 16) with 65536 in Q; lia|apply R]|].
    cbn [digits]. fold p. change (fun n => rs n) with rs. rewrite D, (Z.mod_small (u / p)) by lia.
    pose proof (Z.div_mod u p ltac:(lia)). lia.
Qed.

Theorem random_reach s w v R : 1 <= w -> in_range s w v -> 65535 <= R ->
  exists rs, (forall n, 0 <= rs n <= R) /\ forall old, random_ac s w old rs = v.
Proof.
  intros Hw Hv HR. pose proof (pow2_pos w ltac:(lia)) as P. pose proof (Z.mod_pos_bound v (2 ^ w) P) as B.
  unfold random_ac. destruct (Z.leb_spec w 16) as [L|L].
  - exists (fun _ => v mod 2 ^ w). split.
    + intros _. assert (2 ^ w <= 2 ^ 16) by (apply pow2_le; lia). change (2 ^ 16) with 65536 in *. lia.
    + intros old. rewrite random_small_val by lia. apply wrap_unique; [assumption|assumption|]. apply Z.mod_mod. lia.
  - destruct (digits_ex (S (Z.to_nat ((w - 1) / 16))) (v mod 2 ^ w)) as (rs & HRs & D).
    { split; [lia|]. eapply Z.lt_le_trans; [apply B|]. apply pow2_le. split; [lia|].
      pose proof (Z.div_mod (w - 1) 16). pose proof (Z.mod_pos_bound (w - 1) 16). assert (0 <= (w - 1) / 16) by (apply Z.div_pos; lia). lia. }
    exists rs. split; [intros n; specialize (HRs n); lia|]. intros old. rewrite random_large_val by lia. rewrite D.
    apply wrap_unique; [assumption|assumption|]. apply Z.mod_mod. lia.
Qed.

Theorem random_independent s w old old' rs : 1 <= w -> random_ac s w old rs = random_ac s w old' rs.
Proof.
  intros Hw. unfold random_ac. destruct (w <=? 16); [rewrite !random_small_val by lia; reflexivity|reflexivity].
Qed.

Theorem random_range s w old rs : 1 <= w -> in_range s w (random_ac s w old rs).
Proof.
  intros Hw. unfold random_ac. destruct (Z.leb_spec w 16); [rewrite random_small_val by lia|rewrite random_large_val by lia]; apply wrap_range; lia.
Qed.

(** rand() limited to 15 bits. *)
Theorem random_15 s w v : 1 <= w <= 15 -> in_range s w v ->
  exists rs, (forall n, 0 <= rs n <= 32767) /\ forall old, random_ac s w old rs = v.
Proof.
  intros Hw Hv. pose proof (pow2_pos w ltac:(lia)) as P. pose proof (Z.mod_pos_bound v (2 ^ w) P) as B.
  exists (fun _ => v mod 2 ^ w). split.
  - intros _. assert (2 ^ w <= 2 ^ 15) by (apply pow2_le; lia). change (2 ^ 15) with 32768 in *. lia.
  - intros old. unfold random_ac. replace (w <=? 16) with true by lia. rewrite random_small_val by lia.
    apply wrap_unique; [lia|assumption|]. apply Z.mod_mod. lia.
Qed.

Lemma digits_low k rs : exists n, (digits (S k) rs) mod 2 ^ 16 = rs n mod 2 ^ 16.
Proof.
  revert rs. induction k as [|k IH]; intros rs.
  - exists O. cbn [digits]. change (2 ^ (16 * Z.of_nat 0)) with 1. rewrite Z.mul_1_r, Z.add_0_r. apply Z.mod_mod. lia.
  - destruct (IH (fun n => rs (S n))) as [n E]. exists (S n). rewrite <- E.
    change (digits (S (S k)) rs) with (rs O mod 2 ^ 16 * 2 ^ (16 * Z.of_nat (S k)) + digits (S k) (fun n => rs (S n))).
    rewrite Nat2Z.inj_succ. replace (16 * Z.succ (Z.of_nat k)) with (16 * Z.of_nat k + 16) by lia.
    rewrite pow2_add by lia. rewrite Z.mul_assoc, Z.add_comm, Z.mod_add by lia. reflexivity.
Qed.

Lemma bit15 x : Z.testbit x 15 = Z.testbit (x mod 2 ^ 16) 15.
Proof. symmetry. apply Z.mod_pow2_bits_low. lia. Qed.

Theorem random_15_missing s w old rs : 16 <= w -> (forall n, 0 <= rs n <= 32767) -> Z.testbit (random_ac s w old rs) 15 = false.
Proof.
  intros Hw HR.
  assert (K : exists n, random_ac s w old rs mod 2 ^ 16 = rs n mod 2 ^ 16).
  { unfold random_ac. destruct (Z.leb_spec w 16) as [L|L].
    - exists O. rewrite random_small_val by lia. replace w with 16 by lia. apply wrap_mod. lia.
    - rewrite random_large_val by lia. destruct (digits_low (Z.to_nat ((w - 1) / 16)) rs) as [n E]. exists n. rewrite <- E.
      apply (mod_pow2_sub w 16); [lia|]. apply wrap_mod. lia. }
  destruct K as [n E]. rewrite bit15, E. specialize (HR n). rewrite Z.mod_small by (change (2 ^ 16) with 65536; lia).
  rewrite Z.testbit_eqb by lia. rewrite Z.div_small by (change (2 ^ 15) with 32768; lia). reflexivity.
Qed.

(** *** C integers *)
Lemma builtin_val bits k : 0 <= bits -> forall rs t, 0 <= t -> t * 2 ^ (16 * Z.of_nat k) < 2 ^ bits -> (2 ^ (16 * Z.of_nat k) | 2 ^ bits) ->
  builtin_loop bits k rs t = t * 2 ^ (16 * Z.of_nat k) + digits k rs.
Proof.
  intros Hb. induction k as [|k IH]; intros rs t Ht Hlt Hd.
  - cbn [builtin_loop digits]. change (2 ^ (16 * Z.of_nat 0)) with 1. lia.
  - cbn [builtin_loop digits]. rewrite Nat2Z.inj_succ in *. replace (16 * Z.succ (Z.of_nat k)) with (16 + 16 * Z.of_nat k) in * by lia.
    rewrite pow2_add in * by lia. set (p := 2 ^ (16 * Z.of_nat k)) in *. assert (P : 0 < p) by (apply pow2_pos; lia).
    rewrite Z.shiftl_mul_pow2 by lia. change 65535 with (Z.ones 16). rewrite Z.land_ones by lia.
    pose proof (Z.mod_pos_bound (rs O) (2 ^ 16) ltac:(lia)) as B.
    assert (T : t * 2 ^ 16 < 2 ^ bits) by nia.
    rewrite wrapu_id by nia.
    assert (L : Z.lor (t * 2 ^ 16) (rs O mod 2 ^ 16) = t * 2 ^ 16 + rs O mod 2 ^ 16).
    { apply lor_low; lia. }
    rewrite L, IH; [ring|lia| |].
    + fold p. destruct Hd as [c Hc]. rewrite Hc in *. replace (c * (2 ^ 16 * p)) with (c * 2 ^ 16 * p) by ring.
      apply Z.mul_lt_mono_pos_r; [exact P|]. assert (t < c) by nia. nia.
    + fold p. destruct Hd as [c Hc]. exists (c * 2 ^ 16). lia.
Qed.

Theorem builtin_ok size rs : (2 <= size)%nat -> random_builtin size rs = digits size rs.
Proof.
  intros H. unfold random_builtin. cbv zeta. change 65535 with (Z.ones 16). rewrite Z.land_ones by lia.
  pose proof (Z.mod_pos_bound (rs O) (2 ^ 16) ltac:(lia)) as B. destruct size as [|k]; [lia|]. cbn [Nat.sub]. rewrite Nat.sub_0_r.
  assert (E : 2 ^ (16 * Z.of_nat (S k)) = 2 ^ 16 * 2 ^ (16 * Z.of_nat k)) by (rewrite <- pow2_add by lia; f_equal; lia).
  pose proof (pow2_pos (16 * Z.of_nat k) ltac:(lia)) as P.
  rewrite wrapu_id by nia. rewrite builtin_val; [reflexivity|lia|lia| |].
  - rewrite E. apply Z.mul_lt_mono_pos_r; lia.
  - exists (2 ^ 16). exact E.
Qed.
Theorem builtin_reach size v R : (2 <= size)%nat -> 0 <= v < 2 ^ (16 * Z.of_nat size) -> 65535 <= R ->
  exists rs, (forall n, 0 <= rs n <= R) /\ random_builtin size rs = v.
Proof.
  intros H Hv HR. destruct (digits_ex size v Hv) as (rs & A & D). exists rs. split; [intros n; specialize (A n); lia|].
  rewrite builtin_ok by exact H. exact D.
Qed.
