(** Property C28: ac_determinant against the Leibniz determinant [det] of SpecMat.v. *)
From Coq Require Import Lia.
From Verif Require Import AcTypes Spec SpecMat MatrixModel DetModel DetProofs DetSmall DetRefute.

(** Up to 3 x 3, signed elements, default internal types, every output format that is at most or at least as wide
    as the internal type on both sides (any output format for 1 x 1 and 2 x 2): the correctly converted determinant. *)
Theorem C28_determinant_small : forall M L tin tout A, (1 <= M <= 3)%nat -> 0 <= L -> fS tin = true -> 1 <= fW tin -> 0 <= fI tin <= fW tin ->
  fS tout = true -> 1 <= fW tout ->
  (M = 3%nat -> fF tout <= 3 * fF tin /\ fI tout <= 3 * fI tin \/ 3 * fF tin <= fF tout /\ 3 * fI tin <= fI tout) ->
  signed_mat (fW tin) M A ->
  converts2 tout (det M A) (- (Z.of_nat M * fF tin)) (determinant (det_default (Z.of_nat M) L tin tout) M A).
Proof. exact determinant_small. Qed.
Print Assumptions C28_determinant_small.
(** Every size, default internal types: exact when M! * B^M fits, B a bound on the elements, and the output type can
    hold the determinants of all minors. *)
Theorem C28_determinant_bounded : forall M L tin tout A B, (1 <= M)%nat -> 0 <= L -> 1 <= fW tin -> 0 <= fF tin ->
  2 ^ fF tin <= B <= 2 ^ (fW tin - 1) ->
  (forall i j, (i < M)%nat -> (j < M)%nat -> Z.abs (A i j) <= B) ->
  Z.of_nat (fact M) * B ^ Z.of_nat M <= 2 ^ (Z.of_nat M * fW tin - 1) - 1 ->
  (forall k, (1 <= k <= M)%nat -> holds tout (Z.of_nat k * fF tin) (Z.of_nat (fact k) * B ^ Z.of_nat k)) ->
  determinant (det_default (Z.of_nat M) L tin tout) M A = det M A * 2 ^ (fF tout - Z.of_nat M * fF tin).
Proof. exact determinant_default_exact. Qed.
Print Assumptions C28_determinant_bounded.
(** Every size and every choice of internal types (override included): exact when each of them holds the minors. *)
Theorem C28_determinant_any_types : forall T M A B, (1 <= M)%nat -> 0 <= B ->
  (forall i j, (i < M)%nat -> (j < M)%nat -> Z.abs (A i j) <= B) ->
  let F := fF (t_in T) in
  let b k := Z.of_nat (fact k) * B ^ Z.of_nat k in
  (forall k, (1 <= k <= M)%nat -> holds (t_temp T) (Z.of_nat k * F) (b k) /\ holds (t_c T) (Z.of_nat k * F) (b k) /\
     holds (t_d T) (Z.of_nat k * F) (b k) /\ holds (t_out T) (Z.of_nat k * F) (b k) /\
     ((k <= 2)%nat -> holds (t_base T) (Z.of_nat k * F) (b k))) ->
  determinant T M A = det M A * 2 ^ (fF (t_out T) - Z.of_nat M * F).
Proof. exact determinant_exact. Qed.
Print Assumptions C28_determinant_any_types.
Example C28_case : let A := of_rows [[2; -3; 1; 4]; [0; 5; -2; 1]; [3; 1; 1; -1]; [-4; 2; 0; 3]] in
  det 4 A = 233 /\ determinant (det_default 4 4 (Fmt 8 8 true TRN WRAP) (Fmt 32 32 true TRN WRAP)) 4 A = 233 /\
  determinant (det_override (Fmt 8 8 true TRN WRAP) (Fmt 32 32 true TRN WRAP) (Fmt 32 32 true TRN WRAP)) 4 A = 233 /\
  Z.of_nat (fact 4) * 5 ^ 4 <= 2 ^ 31 - 1.
Proof. vm_compute. repeat split; try reflexivity; discriminate. Qed.
Example C28_case_3 : let A := of_rows [[-128; 127; 127]; [127; -128; 127]; [127; 127; -128]] in
  determinant (det_default 3 2 (Fmt 8 4 true TRN WRAP) (Fmt 16 12 true RND SAT)) 3 A = conv (Fmt 16 12 true RND SAT) (det 3 A) 12 /\ det 3 A = 8193150.
Proof. vm_compute. split; reflexivity. Qed.

(** C28 as stated is false.  Unsigned elements: the internal types are signed with M * W bits, one too few, at every size. *)
Theorem C28_unsigned_refuted : forall M L, (1 <= M)%nat -> 0 <= L -> exists tin tout A,
  fS tin = false /\ fI tin = fW tin /\ 1 <= fW tin /\ fS tout = true /\ fI tout = fW tout /\
  (forall i j, 0 <= A i j < 2 ^ fW tin) /\ 0 <= det M A < 2 ^ (fW tout - 1) /\
  ~ converts2 tout (det M A) 0 (determinant (det_default (Z.of_nat M) L tin tout) M A).
Proof. exact determinant_unsigned_wrong. Qed.
Print Assumptions C28_unsigned_refuted.
(** Signed 4 x 4: the internal type saturates. *)
Theorem C28_signed4_refuted : exists L tin tout A, 0 <= L /\ fS tin = true /\ fI tin = fW tin /\ fS tout = true /\ fI tout = fW tout /\
  signed_mat (fW tin) 4 A /\ Z.abs (det 4 A) < 2 ^ (fW tout - 1) /\
  ~ converts2 tout (det 4 A) 0 (determinant (det_default 4 L tin tout) 4 A).
Proof. exact determinant_signed4_wrong. Qed.
Print Assumptions C28_signed4_refuted.
(** 4 x 4 and up: the minors are rounded to the output type, although the internal type could hold them. *)
Theorem C28_minor_precision_refuted : exists L tin tout A, 0 <= L /\ fS tin = true /\ 0 <= fI tin <= fW tin /\ fS tout = true /\ 1 <= fW tout /\
  signed_mat (fW tin) 4 A /\ det 4 A <= 2 ^ (4 * fF tin) /\
  converts2 tout (det 4 A) (- (4 * fF tin)) 1 /\ determinant (det_default 4 L tin tout) 4 A = 2.
Proof. exact determinant_minor_precision_wrong. Qed.
Print Assumptions C28_minor_precision_refuted.
