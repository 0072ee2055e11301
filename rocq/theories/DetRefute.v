(** Determinants that ac_determinant's internal types cannot hold. *)
From Coq Require Import Lia.
From Verif Require Import AcTypes AcFacts Spec SpecFacts SpecMat MatrixModel MatrixProofs DetModel DetFacts DetProofs DetSmall.
From Coq Require Import ZifyBool.

Definition diag (x : Z) : mat := fun i j => if Nat.eqb i j then x else 0.
Lemma det_diag n x : det n (diag x) = x ^ Z.of_nat n.
Proof.
  induction n as [|n IH]; [reflexivity|]. rewrite det_laplace.
  assert (K : forall k, (1 <= k)%nat -> zsum k (fun j => diag x O j * (alt j * det n (det_minor j (diag x)))) = x * x ^ Z.of_nat n).
  { induction k as [|k IHk]; intros Hk; [lia|]. destruct k as [|k].
    - cbn [zsum]. rewrite <- IH. rewrite (det_ext n (det_minor 0 (diag x)) (diag x)).
      + unfold diag at 1. cbn [Nat.eqb]. unfold alt. cbn [Nat.even]. ring.
      + intros i j _ _. rewrite minor_skip. unfold skip, diag. cbn [Nat.ltb Nat.leb Nat.eqb]. reflexivity.
    - change (zsum (S (S k)) ?f) with (zsum (S k) f + f (S k)). rewrite IHk by lia. unfold diag at 1. cbn [Nat.eqb]. ring. }
  rewrite K by lia. rewrite Nat2Z.inj_succ, Z.pow_succ_r by lia. reflexivity.
Qed.

Lemma bernoulli p n : 1 <= p -> p ^ Z.of_nat n * p <= (p - 1) ^ Z.of_nat n * p + Z.of_nat n * p ^ Z.of_nat n.
Proof.
  intros Hp. induction n as [|n IH]; [cbn; lia|]. rewrite Nat2Z.inj_succ, !Z.pow_succ_r by lia.
  set (P := p ^ Z.of_nat n) in *. set (Q := (p - 1) ^ Z.of_nat n) in *. set (m := Z.of_nat n) in *.
  assert (0 <= P) by (apply Z.pow_nonneg; lia). assert (0 <= Q) by (apply Z.pow_nonneg; lia). assert (0 <= m) by lia.
  assert (Q <= P) by (apply Z.pow_le_mono_l; lia).
  assert (p * (P * p) <= p * (Q * p + m * P)) by (apply Z.mul_le_mono_nonneg_l; lia). nia.
Qed.

Lemma conv_int_id Wo q o v : 1 <= Wo -> - 2 ^ (Wo - 1) < v < 2 ^ (Wo - 1) -> conv (Fmt Wo Wo true q o) v 0 = v.
Proof.
  intros HW H. assert (E : 0 = fF (Fmt Wo Wo true q o)) by (unfold fF; cbn [fW fI]; lia).
  replace (conv (Fmt Wo Wo true q o) v 0) with (conv (Fmt Wo Wo true q o) v (fF (Fmt Wo Wo true q o))) by (rewrite <- E; reflexivity).
  rewrite conv_same_f. cbn [fO fS fW]. apply overflow_id; [exact HW|unfold in_range, imin, imax; lia|]. intros _ _. unfold imin. lia.
Qed.

(** For every size there is an unsigned element type and a matrix whose determinant is lost although the
    output type can hold it. *)
Theorem determinant_unsigned_wrong M L : (1 <= M)%nat -> 0 <= L -> exists tin tout A,
  fS tin = false /\ fI tin = fW tin /\ 1 <= fW tin /\ fS tout = true /\ fI tout = fW tout /\
  (forall i j, 0 <= A i j < 2 ^ fW tin) /\ 0 <= det M A < 2 ^ (fW tout - 1) /\
  ~ converts2 tout (det M A) 0 (determinant (det_default (Z.of_nat M) L tin tout) M A).
Proof.
  intros HM HL. set (m := Z.of_nat M). set (W := m + 1). set (x := 2 ^ W - 1). set (Wo := m * W + 1).
  exists (Fmt W W false TRN WRAP), (Fmt Wo Wo true TRN WRAP), (diag x).
  assert (m1 : 1 <= m) by lia. assert (PW : 2 <= 2 ^ W) by (change 2 with (2 ^ 1) at 1; apply pow2_le; lia).
  assert (MW : 1 <= m * W) by nia.
  cbn [fS fI fW]. do 5 (split; [first [reflexivity|lia]|]).
  assert (D : det M (diag x) = x ^ m) by apply det_diag. rewrite D.
  assert (U : 0 <= x ^ m < 2 ^ (Wo - 1)).
  { split; [apply Z.pow_nonneg; lia|]. replace (Wo - 1) with (W * m) by lia. rewrite Z.pow_mul_r by lia. apply Z.pow_lt_mono_l; lia. }
  assert (Lo : 2 ^ (m * W - 1) <= x ^ m).
  { pose proof (bernoulli (2 ^ W) M ltac:(lia)) as B. fold m in B. change (2 ^ W - 1) with x in B.
    assert (E : (2 ^ W) ^ m = 2 * 2 ^ (m * W - 1)).
    { rewrite <- Z.pow_mul_r by lia. rewrite <- pow2_succ by lia. f_equal. lia. }
    rewrite E in B. set (P := 2 ^ (m * W - 1)) in *. assert (0 < P) by (apply pow2_pos; lia).
    assert (M2 : 2 * m <= 2 ^ W). { unfold W. rewrite pow2_add by lia. change (2 ^ 1) with 2. pose proof (Z.pow_gt_lin_r 2 m ltac:(lia) ltac:(lia)). lia. }
    assert (m * (2 * P) <= 2 ^ W * P) by nia. apply (Z.mul_le_mono_pos_r P (x ^ m) (2 ^ W)); [lia|]. nia. }
  split; [|split; [exact U|]].
  - intros i j. unfold diag. destruct (Nat.eqb i j); unfold x; lia.
  - intros C. set (T := det_default _ _ _ _) in C.
    assert (F : conv (Fmt Wo Wo true TRN WRAP) (x ^ m) 0 = x ^ m) by (apply conv_int_id; [unfold Wo; lia|destruct U; split; [|assumption]; lia]).
    assert (C2 : converts2 (Fmt Wo Wo true TRN WRAP) (x ^ m) 0 (x ^ m)) by (apply (conv_eq_converts2 _ _ _ 0); [cbn [fW]; lia|lia|symmetry; exact F]).
    assert (HWo : 1 <= Wo) by lia. pose proof (converts2_unique (Fmt Wo Wo true TRN WRAP) _ _ _ _ HWo C C2) as E.
    revert E. unfold determinant. set (y := conv (t_d T) _ _).
    assert (R : in_range true (m * W) y) by (apply (conv_range (t_d T)); unfold T; cbn [det_default t_d fW]; lia).
    clearbody y. replace (fF (t_d T)) with 0 by (unfold T, fF; cbn [det_default t_d fW fI]; lia). change (t_out T) with (Fmt Wo Wo true TRN WRAP).
    unfold in_range, imin, imax in R. assert (2 ^ (Wo - 1) = 2 * 2 ^ (m * W - 1)) by (rewrite <- pow2_succ by lia; f_equal; lia).
    pose proof (pow2_pos (m * W - 1) ltac:(lia)). rewrite conv_int_id by lia. lia.
Qed.

Definition of_rows (l : list (list Z)) : mat := fun i j => nth j (nth i l nil) 0.

Lemma converts2_dec_no f x e y : 1 <= fW f -> conv f x (- e) <> y -> ~ converts2 f x e y.
Proof.
  intros HW N C. apply N. assert (C2 : converts2 f x e (conv f x (- e))) by (apply (conv_eq_converts2 _ _ _ (- e)); [exact HW|lia|reflexivity]).
  exact (converts2_unique _ _ _ _ _ HW C2 C).
Qed.

(** A 4 x 4 matrix of 8-bit signed integers with determinant 4228250625 and a 64-bit output. *)
Definition had4 : mat := of_rows [[-128; -128; -128; -128]; [-128; 127; -128; 127]; [-128; -128; 127; 127]; [-128; 127; 127; -128]].
Theorem determinant_signed4_wrong : exists L tin tout A, 0 <= L /\ fS tin = true /\ fI tin = fW tin /\ fS tout = true /\ fI tout = fW tout /\
  signed_mat (fW tin) 4 A /\ Z.abs (det 4 A) < 2 ^ (fW tout - 1) /\
  ~ converts2 tout (det 4 A) 0 (determinant (det_default 4 L tin tout) 4 A).
Proof.
  exists 4, (Fmt 8 8 true TRN WRAP), (Fmt 64 64 true TRN WRAP), had4. cbn [fS fI fW].
  split; [lia|]. do 4 (split; [reflexivity|]). split; [|split].
  - intros i j Hi Hj. change (2 ^ (8 - 1)) with 128.
    assert (i = 0 \/ i = 1 \/ i = 2 \/ i = 3)%nat as [->|[->|[->| ->]]] by lia;
    assert (j = 0 \/ j = 1 \/ j = 2 \/ j = 3)%nat as [->|[->|[->| ->]]] by lia; cbv; split; congruence.
  - vm_compute. reflexivity.
  - apply converts2_dec_no; [cbn; lia|]. vm_compute. discriminate.
Qed.

(** Default types, the determinant is 1.5 * 0.5 = 0.75, the integer output rounds to nearest: 1, not 2. *)
Definition frac4 : mat := of_rows [[6; 0; 0; 0]; [0; 2; 0; 0]; [0; 0; 4; 0]; [0; 0; 0; 4]].
Theorem determinant_minor_precision_wrong : exists L tin tout A, 0 <= L /\ fS tin = true /\ 0 <= fI tin <= fW tin /\ fS tout = true /\ 1 <= fW tout /\
  signed_mat (fW tin) 4 A /\ det 4 A <= 2 ^ (4 * fF tin) /\
  converts2 tout (det 4 A) (- (4 * fF tin)) 1 /\ determinant (det_default 4 L tin tout) 4 A = 2.
Proof.
  exists 4, (Fmt 4 2 true TRN WRAP), (Fmt 16 16 true RND SAT), frac4. cbn [fS fI fW].
  split; [lia|]. split; [reflexivity|]. split; [lia|]. split; [reflexivity|]. split; [lia|]. split; [|split; [|split]].
  - intros i j Hi Hj. change (2 ^ (4 - 1)) with 8.
    assert (i = 0 \/ i = 1 \/ i = 2 \/ i = 3)%nat as [->|[->|[->| ->]]] by lia;
    assert (j = 0 \/ j = 1 \/ j = 2 \/ j = 3)%nat as [->|[->|[->| ->]]] by lia; cbv; split; congruence.
  - vm_compute. discriminate.
  - apply (conv_eq_converts2 _ _ _ 8); [cbn; lia|reflexivity|vm_compute; reflexivity].
  - vm_compute. reflexivity.
Qed.
