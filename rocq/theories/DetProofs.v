(** Proofs about the model of ac_determinant. *)
From Coq Require Import Lia ZifyBool.
From Verif Require Import AcTypes AcFacts Spec SpecFacts ShiftFacts SpecMat RtTypes MatrixModel DetModel DetFacts MatrixProofs.
From Verif Require AbsProofs.

(** Every v * 2^-e with |v| <= b is a value of the signed format f, and of its symmetric part. *)
Definition holds (f : fmt) (e b : Z) : Prop :=
  fS f = true /\ 1 <= fW f /\ e <= fF f /\ b * 2 ^ (fF f - e) <= 2 ^ (fW f - 1) - 1.

Lemma holds_conv f e b v : holds f e b -> Z.abs v <= b -> conv f v e = v * 2 ^ (fF f - e).
Proof.
  intros (HS & HW & HE & HB) Hv. rewrite conv_unfold. rewrite (pw_nonneg_eq (fF f - e)), (pw_nonpos_eq (e - fF f)) by lia.
  rewrite qround_int. pose proof (pow2_pos (fF f - e) ltac:(lia)) as P.
  assert (A : Z.abs (v * 2 ^ (fF f - e)) <= 2 ^ (fW f - 1) - 1) by (rewrite Z.abs_mul, (Z.abs_eq (2 ^ _)) by lia; nia).
  rewrite HS. apply overflow_id; [exact HW|unfold in_range, imin, imax; lia|]. intros _ _. unfold imin. lia.
Qed.

Lemma holds_le f e b b' : holds f e b -> b' <= b -> holds f e b'.
Proof. intros (HS & HW & HE & HB) H. repeat split; try assumption. pose proof (pow2_pos (fF f - e) ltac:(lia)). nia. Qed.

Lemma conv_rescale f v e g : e <= g -> conv f (v * 2 ^ (g - e)) g = conv f v e.
Proof.
  intros H. unfold conv. apply conv_rat_eqq; [apply pw_pos|apply pw_pos|].
  assert (E : 2 ^ (g - e) * (pw (- g) * pw e) = pw (- e) * pw g); [|rewrite <- !Z.mul_assoc, E; ring].
  unfold pw. rewrite <- !pow2_add by lia. f_equal. lia.
Qed.

Lemma iter_pr j : Nat.iter (S j) (fun pr => -1 * pr) (-1) = alt j.
Proof.
  induction j as [|j IH]; [reflexivity|]. change (Nat.iter (S (S j)) (fun pr => -1 * pr) (-1)) with (-1 * Nat.iter (S j) (fun pr => -1 * pr) (-1)).
  rewrite IH. unfold alt. rewrite Nat.even_succ. rewrite <- Nat.negb_even. destruct (Nat.even j); reflexivity.
Qed.

Section Exact.
  Variable T : det_types.
  Variables lo hi : Z.
  Variable bnd : nat -> Z.
  Variable n : nat.
  Definition entries (k : nat) (A : mat) := forall i j, (i < k)%nat -> (j < k)%nat -> lo <= A i j <= hi.
  Let F := fF (t_in T).
  Hypothesis Hbnd : forall k A m, (1 <= k <= n)%nat -> entries k A -> (m <= k)%nat ->
    Z.abs (zsum m (fun j => A O j * (alt j * det (k - 1) (det_minor j A)))) <= bnd k.
  Hypothesis Htemp : forall k, (2 <= k < n)%nat -> holds (t_temp T) (Z.of_nat k * F) (bnd k).
  Hypothesis Hc : forall k, (2 <= k < n)%nat -> holds (t_c T) (Z.of_nat k * F) (bnd k).
  Hypothesis Hd : forall k, (3 <= k <= n)%nat -> holds (t_d T) (Z.of_nat k * F) (bnd k).
  Hypothesis Hout : forall k, (3 <= k < n)%nat -> holds (t_out T) (Z.of_nat k * F) (bnd k).
  Hypothesis Hbase1 : holds (t_base T) F (bnd 1).
  Hypothesis Hbase2 : (2 <= n)%nat -> holds (t_base T) (2 * F) (bnd 2).
  Hypothesis Hprod : (2 <= n)%nat -> forall x y, lo <= x <= hi -> lo <= y <= hi -> Z.abs (x * y) <= bnd 2.

  Lemma det_bnd k A : (1 <= k <= n)%nat -> entries k A -> Z.abs (det k A) <= bnd k.
  Proof.
    clear -Hbnd. intros Hk HA. destruct k as [|k]; [lia|]. rewrite det_laplace. pose proof (Hbnd (S k) A (S k) Hk HA (le_n _)) as B. cbn [Nat.sub] in B.
    rewrite Nat.sub_0_r in B. exact B.
  Qed.
  Lemma entries_minor k j A : entries (S k) A -> entries k (det_minor j A).
  Proof. intros H p q Hp Hq. rewrite minor_skip. apply H; [lia|]. unfold skip. destruct (Nat.ltb q j); lia. Qed.

  (** The sum d before it is returned. *)
  Definition det_d (M : nat) (A : mat) : Z :=
    fold_left (fun d j => det_acc T d (A O j * conv (t_c T) (Nat.iter (S j) (fun pr => -1 * pr) (-1) *
        conv (t_temp T) (det_compute T (M - 1) (det_minor j A)) (fF (ret_type T (M - 1)))) (fF (t_temp T)))) (seq 0 M) (conv (t_d T) 0 0).
  Lemma det_compute_d M A : (3 <= M)%nat -> det_compute T M A = conv (t_out T) (det_d M A) (fF (t_d T)).
  Proof. intros H. destruct M as [|[|[|m]]]; try lia. unfold det_d. rewrite Nat.sub_succ, Nat.sub_0_r. reflexivity. Qed.

  Lemma det_exact_both k : forall A, (1 <= k <= n)%nat -> entries k A ->
    ((k <= 2)%nat \/ (k < n)%nat -> Z.of_nat k * F <= fF (ret_type T k) /\ det_compute T k A = det k A * 2 ^ (fF (ret_type T k) - Z.of_nat k * F)) /\
    ((3 <= k)%nat -> det_d k A = det k A * 2 ^ (fF (t_d T) - Z.of_nat k * F)).
  Proof.
    induction k as [|k IH]; intros A Hk HA; [lia|].
    destruct k as [|[|k]].
    - split; [|lia]. intros _. cbn [det_compute ret_type Nat.leb]. unfold ret_type. cbn [Nat.leb]. replace (Z.of_nat 1 * F) with F by lia.
      split; [apply Hbase1|]. rewrite det_1. change (fF (t_in T)) with F. apply (holds_conv _ _ (bnd 1)); [exact Hbase1|].
      rewrite <- det_1. apply det_bnd; assumption.
    - split; [|lia]. intros _. unfold ret_type. cbn [Nat.leb]. replace (Z.of_nat 2 * F) with (2 * F) by lia.
      specialize (Hbase2 ltac:(lia)). specialize (Hprod ltac:(lia)). split; [apply Hbase2|].
      cbn [det_compute]. change (fF (t_in T)) with F.
      rewrite !(holds_conv (t_base T) (2 * F) (bnd 2)) by (first [exact Hbase2|apply Hprod; apply HA; lia]).
      rewrite <- Z.mul_sub_distr_r. rewrite conv_rescale by apply Hbase2. rewrite <- det2_eq.
      apply (holds_conv _ _ (bnd 2)); [exact Hbase2|]. apply det_bnd; assumption.
    - set (m := S (S k)) in *. specialize (IH).
      assert (DD : det_d (S m) A = det (S m) A * 2 ^ (fF (t_d T) - Z.of_nat (S m) * F)).
      { unfold det_d. replace (S m - 1)%nat with m by lia.
        pose proof (Htemp m ltac:(lia)) as HT. pose proof (Hc m ltac:(lia)) as HC. pose proof (Hd (S m) ltac:(lia)) as HD.
        rewrite det_laplace. rewrite AbsProofs.conv_0 by apply HD.
        assert (G : forall q, (q <= S m)%nat -> fold_left (fun d j => det_acc T d (A O j * conv (t_c T) (Nat.iter (S j) (fun pr => -1 * pr) (-1) *
            conv (t_temp T) (det_compute T m (det_minor j A)) (fF (ret_type T m))) (fF (t_temp T)))) (seq 0 q) 0
            = zsum q (fun j => A O j * (alt j * det m (det_minor j A))) * 2 ^ (fF (t_d T) - Z.of_nat (S m) * F)); [|apply G; lia].
        induction q as [|q IHq]; intros Hq; [reflexivity|]. rewrite seq_S, fold_left_app, IHq by lia. cbn [fold_left plus zsum].
        rewrite iter_pr.
        pose proof (entries_minor m q A HA) as HM. destruct (IH (det_minor q A) ltac:(lia) HM) as [[FR ER] _]; [right; lia|].
        pose proof (det_bnd m (det_minor q A) ltac:(lia) HM) as BM.
        rewrite ER. rewrite conv_rescale by exact FR. rewrite (holds_conv _ _ (bnd m) _ HT BM).
        rewrite Z.mul_assoc. rewrite conv_rescale by apply HT.
        rewrite (holds_conv _ _ (bnd m)) by (first [exact HC|rewrite Z.abs_mul, alt_abs, Z.mul_1_l; exact BM]).
        unfold det_acc. change (fF (t_in T)) with F. set (Fp := F + fF (t_c T)). set (FF := Z.max (fF (t_d T)) Fp).
        set (s := zsum q _). set (dm := det m (det_minor q A)).
        assert (EF : Z.of_nat (S m) * F = F + Z.of_nat m * F) by lia.
        destruct HC as (_ & _ & HC & _). destruct HD as (HD1 & HD2 & HD & HD3).
        assert (S1 : s * 2 ^ (fF (t_d T) - Z.of_nat (S m) * F) * 2 ^ (FF - fF (t_d T)) + A O q * (alt q * dm * 2 ^ (fF (t_c T) - Z.of_nat m * F)) * 2 ^ (FF - Fp)
          = (s + A O q * (alt q * dm)) * 2 ^ (FF - Z.of_nat (S m) * F)).
        { replace (FF - Z.of_nat (S m) * F) with ((fF (t_d T) - Z.of_nat (S m) * F) + (FF - fF (t_d T))) at 1 by lia.
          rewrite Z.mul_add_distr_r. f_equal.
          - replace (FF - Z.of_nat (S m) * F) with ((fF (t_d T) - Z.of_nat (S m) * F) + (FF - fF (t_d T))) by lia. rewrite (pow2_add (fF (t_d T) - _)) by lia. ring.
          - replace (fF (t_d T) - Z.of_nat (S m) * F + (FF - fF (t_d T))) with ((fF (t_c T) - Z.of_nat m * F) + (FF - Fp)) by lia.
            rewrite (pow2_add (fF (t_c T) - _)) by lia. ring. }
        rewrite S1, conv_rescale by lia.
        apply (holds_conv _ _ (bnd (S m))); [repeat split; assumption|].
        pose proof (Hbnd (S m) A (S q) ltac:(lia) HA Hq) as BB. replace (S m - 1)%nat with m in BB by lia. exact BB. }
      split; [|intros _; exact DD]. intros [H|H]; [lia|]. unfold ret_type. replace (Nat.leb (S m) 2) with false by lia.
      pose proof (Hout (S m) ltac:(lia)) as HO. split; [apply HO|]. rewrite det_compute_d by lia. rewrite DD.
      rewrite conv_rescale by (apply (Hd (S m)); lia). apply (holds_conv _ _ (bnd (S m))); [exact HO|]. apply det_bnd; assumption.
  Qed.

  Theorem determinant_d A : (1 <= n)%nat -> entries n A -> holds (t_d T) (Z.of_nat n * F) (bnd n) ->
    (n <= 2)%nat -> determinant T n A = conv (t_out T) (det n A) (Z.of_nat n * F).
  Proof.
    intros H1 HA HD H2. destruct (det_exact_both n A ltac:(lia) HA) as [[L E] _]; [left; exact H2|].
    unfold determinant. rewrite E, conv_rescale by exact L. rewrite (holds_conv _ _ (bnd n) _ HD) by (apply det_bnd; [lia|exact HA]).
    apply conv_rescale. apply HD.
  Qed.
  Theorem determinant_3 A : (3 <= n)%nat -> entries n A ->
    determinant T n A = conv (t_out T) (conv (t_d T) (conv (t_out T) (det n A) (Z.of_nat n * F)) (fF (t_out T))) (fF (t_d T)).
  Proof.
    intros H1 HA. destruct (det_exact_both n A ltac:(lia) HA) as [_ E]. specialize (E H1).
    unfold determinant. rewrite det_compute_d, E by lia. rewrite conv_rescale by (apply (Hd n); lia).
    unfold ret_type. replace (Nat.leb n 2) with false by lia. reflexivity.
  Qed.
End Exact.

(** *** All sizes, entries bounded by B *)
Lemma fact_le k n : (k <= n)%nat -> (fact k <= fact n)%nat.
Proof. apply fact_le. Qed.

Theorem determinant_exact T M A B : (1 <= M)%nat -> 0 <= B ->
  (forall i j, (i < M)%nat -> (j < M)%nat -> Z.abs (A i j) <= B) ->
  let F := fF (t_in T) in
  let b k := Z.of_nat (fact k) * B ^ Z.of_nat k in
  (forall k, (1 <= k <= M)%nat -> holds (t_temp T) (Z.of_nat k * F) (b k) /\ holds (t_c T) (Z.of_nat k * F) (b k) /\
     holds (t_d T) (Z.of_nat k * F) (b k) /\ holds (t_out T) (Z.of_nat k * F) (b k) /\
     ((k <= 2)%nat -> holds (t_base T) (Z.of_nat k * F) (b k))) ->
  determinant T M A = det M A * 2 ^ (fF (t_out T) - Z.of_nat M * F).
Proof.
  intros HM HB HA F b H.
  assert (Bd : forall k A m, (1 <= k <= M)%nat -> entries (- B) B k A -> (m <= k)%nat ->
    Z.abs (zsum m (fun j => A O j * (alt j * det (k - 1) (det_minor j A)))) <= b k).
  { intros k A' m Hk HA' Hm. apply (det_bound k A' B HB); [|exact Hm]. intros i j Hi Hj. specialize (HA' i j Hi Hj). lia. }
  assert (E : entries (- B) B M A) by (intros i j Hi Hj; specialize (HA i j Hi Hj); lia).
  assert (P2 : (2 <= M)%nat -> forall x y, - B <= x <= B -> - B <= y <= B -> Z.abs (x * y) <= b 2%nat).
  { intros _ x y Hx Hy. rewrite Z.abs_mul. unfold b. change (Z.of_nat (fact 2)) with 2. change (Z.of_nat 2) with 2. rewrite Z.pow_2_r.
    assert (Z.abs x * Z.abs y <= B * B) by (apply Z.mul_le_mono_nonneg; lia). nia. }
  pose proof (det_bnd (- B) B b M Bd M A ltac:(lia) E) as BM.
  assert (H1 : holds (t_base T) F (b 1%nat)) by (replace F with (Z.of_nat 1 * F) by lia; apply H; lia).
  assert (H2 : (2 <= M)%nat -> holds (t_base T) (2 * F) (b 2%nat)) by (intros; replace (2 * F) with (Z.of_nat 2 * F) by lia; apply H; lia).
  destruct (H M ltac:(lia)) as (_ & _ & HD & HO & _).
  destruct (Nat.le_gt_cases M 2) as [L|L].
  - rewrite (determinant_d T (- B) B b M Bd) by (try assumption; try (intros; apply H; lia); exact HD).
    apply (holds_conv _ _ (b M) _ HO BM).
  - rewrite (determinant_3 T (- B) B b M Bd) by (try assumption; try lia; intros; apply H; lia).
    change (fF (t_in T)) with F. rewrite (holds_conv _ _ (b M) _ HO BM). rewrite conv_rescale by apply HO.
    rewrite (holds_conv _ _ (b M) _ HD BM). rewrite conv_rescale by apply HD. apply (holds_conv _ _ (b M) _ HO BM).
Qed.

(** *** The default internal types *)
Lemma holds_fmt W I e b q o : 1 <= W -> e <= W - I -> b * 2 ^ (W - I - e) <= 2 ^ (W - 1) - 1 -> holds (Fmt W I true q o) e b.
Proof. intros. repeat split; assumption. Qed.

Lemma pow_mul_base a n : 0 <= n -> 2 ^ (n * a) = (2 ^ a) ^ n \/ a < 0.
Proof. intros. destruct (Z.lt_ge_cases a 0); [right; assumption|left]. rewrite Z.mul_comm. apply Z.pow_mul_r; lia. Qed.

Lemma default_bound W F M B k : 1 <= W -> 0 <= F -> 2 ^ F <= B -> (k <= M)%nat ->
  Z.of_nat (fact M) * B ^ Z.of_nat M <= 2 ^ (Z.of_nat M * W - 1) - 1 ->
  Z.of_nat (fact k) * B ^ Z.of_nat k * 2 ^ (Z.of_nat M * F - Z.of_nat k * F) <= 2 ^ (Z.of_nat M * W - 1) - 1.
Proof.
  intros HW HF HB Hk H. eapply Z.le_trans; [|exact H].
  assert (B0 : 0 < B) by (pose proof (pow2_pos F HF); lia).
  assert (E : 2 ^ (Z.of_nat M * F - Z.of_nat k * F) <= B ^ (Z.of_nat M - Z.of_nat k)).
  { replace (Z.of_nat M * F - Z.of_nat k * F) with (F * (Z.of_nat M - Z.of_nat k)) by lia. rewrite Z.pow_mul_r by lia.
    apply Z.pow_le_mono_l. pose proof (pow2_pos F HF). lia. }
  assert (Pk : 0 <= B ^ Z.of_nat k) by (apply Z.pow_nonneg; lia).
  replace (B ^ Z.of_nat M) with (B ^ Z.of_nat k * B ^ (Z.of_nat M - Z.of_nat k)) by (rewrite <- Z.pow_add_r by lia; f_equal; lia).
  rewrite <- Z.mul_assoc. apply Z.mul_le_mono_nonneg; [lia|apply Nat2Z.inj_le, fact_le; exact Hk| |].
  - apply Z.mul_nonneg_nonneg; [exact Pk|]. apply Z.pow_nonneg. lia.
  - apply Z.mul_le_mono_nonneg_l; assumption.
Qed.

Theorem determinant_default_exact M L tin tout A B : (1 <= M)%nat -> 0 <= L -> 1 <= fW tin -> 0 <= fF tin ->
  2 ^ fF tin <= B <= 2 ^ (fW tin - 1) ->
  (forall i j, (i < M)%nat -> (j < M)%nat -> Z.abs (A i j) <= B) ->
  Z.of_nat (fact M) * B ^ Z.of_nat M <= 2 ^ (Z.of_nat M * fW tin - 1) - 1 ->
  (forall k, (1 <= k <= M)%nat -> holds tout (Z.of_nat k * fF tin) (Z.of_nat (fact k) * B ^ Z.of_nat k)) ->
  determinant (det_default (Z.of_nat M) L tin tout) M A = det M A * 2 ^ (fF tout - Z.of_nat M * fF tin).
Proof.
  intros HM HL HW HF HB HA HS HO. pose proof (pow2_pos (fF tin) HF) as PF.
  refine (determinant_exact (det_default (Z.of_nat M) L tin tout) M A B HM ltac:(lia) HA _).
  intros k Hk. cbn [det_default t_in t_temp t_c t_d t_out t_base].
  pose proof (default_bound (fW tin) (fF tin) M B k HW HF ltac:(lia) ltac:(lia) HS) as D.
  set (W := fW tin) in *. set (I := fI tin) in *. assert (EF : fF tin = W - I) by reflexivity. set (F := fF tin) in *.
  set (b := Z.of_nat (fact k) * B ^ Z.of_nat k) in *.
  assert (MF : Z.of_nat M * W - Z.of_nat M * I = Z.of_nat M * F) by (rewrite EF; ring).
  assert (KM : Z.of_nat k * F <= Z.of_nat M * F) by (apply Z.mul_le_mono_nonneg_r; lia).
  assert (MW : 1 <= Z.of_nat M * W) by nia.
  assert (D' : b * 2 ^ (Z.of_nat M * W - Z.of_nat M * I - Z.of_nat k * F) <= 2 ^ (Z.of_nat M * W - 1) - 1) by (rewrite MF; exact D).
  split; [|split; [|split; [|split]]].
  - apply holds_fmt; [lia|lia|exact D'].
  - apply holds_fmt; [lia|lia|]. replace (Z.of_nat M * W + L - (Z.of_nat M * I + L) - Z.of_nat k * F) with (Z.of_nat M * W - Z.of_nat M * I - Z.of_nat k * F) by lia.
    eapply Z.le_trans; [exact D'|]. assert (2 ^ (Z.of_nat M * W - 1) <= 2 ^ (Z.of_nat M * W + L - 1)) by (apply pow2_le; lia). lia.
  - apply holds_fmt; [lia|lia|exact D'].
  - apply HO. exact Hk.
  - intros K2. assert (P1 : 2 ^ (2 * W + 1 - 1) = 2 * (2 * (2 ^ (W - 1) * 2 ^ (W - 1)))).
    { rewrite <- pow2_add by lia. rewrite <- !pow2_succ by lia. f_equal. lia. }
    pose proof (pow2_pos (W - 1) ltac:(lia)) as PW.
    assert (B * B <= 2 ^ (W - 1) * 2 ^ (W - 1)) by (apply Z.mul_le_mono_nonneg; lia).
    apply holds_fmt; [lia|nia|]. rewrite P1.
    assert (k = 1 \/ k = 2)%nat as [->| ->] by lia; unfold b.
    + change (Z.of_nat (fact 1)) with 1. change (Z.of_nat 1) with 1. rewrite Z.pow_1_r.
      replace (2 * W + 1 - (2 * I + 1) - 1 * F) with F by lia.
      assert (B * 2 ^ F <= B * B) by (apply Z.mul_le_mono_nonneg_l; lia). lia.
    + change (Z.of_nat (fact 2)) with 2. change (Z.of_nat 2) with 2. rewrite Z.pow_2_r.
      replace (2 * W + 1 - (2 * I + 1) - 2 * F) with 0 by lia. change (2 ^ 0) with 1. lia.
Qed.

(** *** Sizes 1 to 3, signed elements, all entries *)
