(** Properties C111, C112: ac_matrixmul and ac_determinant on complex elements, against sums of products and Leibniz' formula. *)
From Coq Require Import ZArith Lia List Factorial.
From Verif Require Import AcTypes Spec SpecMat SpecCplx RtTypes MatrixModel DetModel MatCplxModel DetProofs MatCplx MatCplxThm.
Import ListNotations.
Open Scope Z.

(** C111: each part of each element is the exact sum converted once, when the type ac_types gives the product holds all products, ... *)
Theorem C111_complex_matrixmul_exact : forall M N P ta tb tp tc a b i j, holds_products ta tb tp -> 1 <= fW tc -> (1 <= N)%nat ->
  (forall i j, (i < M)%nat -> (j < N)%nat -> fits ta (fst (a i j)) /\ fits ta (snd (a i j))) ->
  (forall i j, (i < N)%nat -> (j < P)%nat -> fits tb (fst (b i j)) /\ fits tb (snd (b i j))) -> (i < M)%nat -> (j < P)%nat ->
  let r := cmatrixmul N tp tc (fF ta + fF tb) a b i j in
  converts2 tc (zsum N (fun k => fst (a i k) * fst (b k j) - snd (a i k) * snd (b k j))) (- (fF ta + fF tb)) (fst r) /\
  converts2 tc (zsum N (fun k => fst (a i k) * snd (b k j) + snd (a i k) * fst (b k j))) (- (fF ta + fF tb)) (snd r).
Proof. exact cmatrixmul_ok. Qed.
Print Assumptions C111_complex_matrixmul_exact.
(** ... which a signed type one bit wider than the product of the parts does if an operand is signed (two bits if none is). *)
Theorem C111_product_type : forall ta tb W, 1 <= fW ta -> 1 <= fW tb ->
  fW ta + fW tb + (if fS ta || fS tb then 1 else 2) <= W -> holds_products ta tb (dfmt W (W - (fF ta + fF tb)) true).
Proof. exact products_signed. Qed.
Print Assumptions C111_product_type.
Example C111_case : let a i k := nth k (nth i [[(3, -2); (7, 5)]; [(-8, -8); (1, 0)]] []) (0, 0) in
  let b k j := nth j (nth k [[(-8, -8)]; [(2, -3)]] []) (0, 0) in
  cmatrixmul 2 (dfmt 9 5 true) (Fmt 12 12 true RND SAT) 4 a b 0 0 = (-1, -1) /\ cmatrixmul 2 (dfmt 9 5 true) (Fmt 12 8 true RND SAT) 4 a b 0 0 = (-11, -19) /\
  cmatrixmul 2 (dfmt 9 5 true) (Fmt 12 8 true RND SAT) 4 a b 1 0 = (2, 125).
Proof. vm_compute. repeat split. Qed.

(** C112: every size and every choice of internal types (override included): exact when each of them holds the minors. *)
Theorem C112_complex_determinant_any_types : forall T M A B, (1 <= M)%nat -> 0 <= B ->
  (forall i j, (i < M)%nat -> (j < M)%nat -> norm1 (A i j) <= B) ->
  let F := fF (t_in T) in
  let b k := Z.of_nat (fact k) * B ^ Z.of_nat k in
  (forall k, (1 <= k <= M)%nat -> holds (t_temp T) (Z.of_nat k * F) (b k) /\ holds (t_c T) (Z.of_nat k * F) (b k) /\
     holds (t_d T) (Z.of_nat k * F) (b k) /\ holds (t_out T) (Z.of_nat k * F) (b k) /\
     ((k <= 2)%nat -> holds (t_base T) (Z.of_nat k * F) (b k))) ->
  cdeterminant T M A = gscale (2 ^ (fF (t_out T) - Z.of_nat M * F)) (gdet M A).
Proof. exact cdeterminant_exact. Qed.
Print Assumptions C112_complex_determinant_any_types.
(** Every size, default internal types: exact when M! B^M fits, B a bound on the sum of the magnitudes of the parts. *)
Theorem C112_complex_determinant_bounded : forall M L tin tout A B, (1 <= M)%nat -> 0 <= L -> 1 <= fW tin -> 0 <= fF tin ->
  2 ^ fF tin <= B <= 2 ^ (fW tin - 1) ->
  (forall i j, (i < M)%nat -> (j < M)%nat -> norm1 (A i j) <= B) ->
  Z.of_nat (fact M) * B ^ Z.of_nat M <= 2 ^ (Z.of_nat M * fW tin - 1) - 1 ->
  (forall k, (1 <= k <= M)%nat -> holds tout (Z.of_nat k * fF tin) (Z.of_nat (fact k) * B ^ Z.of_nat k)) ->
  cdeterminant (cdet_default (Z.of_nat M) L tin tout) M A = gscale (2 ^ (fF tout - Z.of_nat M * fF tin)) (gdet M A).
Proof. exact cdeterminant_default_exact. Qed.
Print Assumptions C112_complex_determinant_bounded.
(** 2 x 2, default types, all signed elements: a part is converted correctly if it fits in twice the width of the elements. *)
Theorem C112_complex_determinant_2 : forall L tin tout A, 0 <= L -> fS tin = true -> 1 <= fW tin -> 0 <= fF tin -> fS tout = true -> 1 <= fW tout ->
  csigned (fW tin) 2 A ->
  let d := gdet 2 A in let r := cdeterminant (cdet_default 2 L tin tout) 2 A in
  (- 2 ^ (2 * fW tin - 1) <= fst d < 2 ^ (2 * fW tin - 1) -> converts2 tout (fst d) (- (2 * fF tin)) (fst r)) /\
  (- 2 ^ (2 * fW tin - 1) <= snd d < 2 ^ (2 * fW tin - 1) -> converts2 tout (snd d) (- (2 * fF tin)) (snd r)).
Proof. exact cdeterminant_2. Qed.
Print Assumptions C112_complex_determinant_2.
Example C112_case : let A i j := nth j (nth i [[(2, 1); (-3, 0); (1, 1)]; [(0, 2); (5, -1); (-2, 0)]; [(3, 3); (1, 0); (0, -1)]] []) (0, 0) in
  gdet 3 A = (23, -19) /\ cdeterminant (cdet_default 3 2 (Fmt 8 8 true TRN WRAP) (Fmt 32 32 true TRN WRAP)) 3 A = (23, -19) /\
  cdeterminant (cdet_override (Fmt 8 4 true TRN WRAP) (Fmt 32 20 true TRN WRAP) (Fmt 40 20 true TRN WRAP)) 3 A = (23, -19).
Proof. vm_compute. repeat split. Qed.

(** C112 as stated is false: at every element width the internal type, of twice that width, loses a 2 x 2 determinant. *)
Theorem C112_complex_determinant_2_refuted : forall W L Wo, 1 <= W -> 0 <= L -> 2 * W + 1 <= Wo ->
  let tin := Fmt W W true TRN WRAP in let tout := Fmt Wo Wo true TRN WRAP in
  let A := cdiag2 (- 2 ^ (W - 1), - 2 ^ (W - 1)) in
  csigned W 2 A /\ gdet 2 A = (0, 2 ^ (2 * W - 1)) /\ converts2 tout (2 ^ (2 * W - 1)) 0 (2 ^ (2 * W - 1)) /\
  cdeterminant (cdet_default 2 L tin tout) 2 A = (0, 2 ^ (2 * W - 1) - 1).
Proof. exact cdeterminant_2_wrong. Qed.
Print Assumptions C112_complex_determinant_2_refuted.
