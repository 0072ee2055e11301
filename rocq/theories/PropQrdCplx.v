(** C121-C123: ac_qrd on complex matrices. *)
From Coq Require Import Reals.
From Verif Require Import AcTypes Spec SpecR SpecLin SpecCplx SpecQrC RtTypes MatrixModel CholModel CholStruct QrdCplxModel QrdCplxThm QrdCplxCase.

Definition qr_rows (o : option ((nat -> nat -> gi) * (nat -> nat -> gi))) : option (list (list gi) * list (list gi)) :=
  match o with Some (Q, U) => Some (map (fun i => map (Q i) (seq 0 3)) (seq 0 3), map (fun i => map (U i) (seq 0 3)) (seq 0 3)) | None => None end.

(** ** C121 *)
(** Where no rotation finds a pair of elements shorter than nu ([cqr_pivots]), with the exact functions and with the piecewise-linear ones. *)
Theorem C121_complex_qrd_reconstruction_partial : forall pwl M fa fo mI A junk lam nu, cqr_types pwl M fa fo mI lam nu ->
  let P := fun i j => fxval (fst (A i j)) (fF fa) in let N := fun i j => fxval (snd (A i j)) (fF fa) in
  (forall j, (j < M)%nat -> (sumR (fun i => P i j * P i j + N i j * N i j) M <= lam * lam)%R) ->
  cqr_pivots pwl M fa mI A junk nu ->
  let u := bpow2 (- fF fo) in let n := INR (M * (M - 1) / 2) in
  exists Q U, cqrd false pwl M fa fo mI A junk = Some (Q, U) /\
    qr_factorsC false M P N (fun i j => fxval (fst (Q i j)) (fF fo)) (fun i j => fxval (snd (Q i j)) (fF fo))
      (fun i j => fxval (fst (U i j)) (fF fo)) (fun i j => fxval (snd (U i j)) (fF fo))
      (6 * lam * (n * cqr_eps pwl lam nu) + INR M * (2 * (u * (2 + 2 * lam + u)))) (6 * (n * cqr_eps pwl lam nu) + INR M * (2 * (u * (4 + u))))
      (21 * n * lam * bpow2 (- (32)) + u) /\
    ((42 * n * lam * bpow2 (- (32)) < u)%R -> fQ fo <> TRN ->
     (forall i j, (j < i < M)%nat -> U i j = (0, 0)) /\ (forall i, (S i < M)%nat -> snd (U i i) = 0)).
Proof. exact cqrd_final. Qed.
Print Assumptions C121_complex_qrd_reconstruction_partial.
(** [[4+i 2-i 1+3i] [2+2i 5 3-2i] [1-i 3+i 6+2i]]. *)
Example C121_conditions : forall pwl, cqr_types pwl 3 f32_16 f32_16 38 8 1 /\
  (forall j, (j < 3)%nat -> (sumR (fun i => fxval (fst (cplx3 i j)) 16 * fxval (fst (cplx3 i j)) 16 + fxval (snd (cplx3 i j)) 16 * fxval (snd (cplx3 i j)) 16) 3 <= 8 * 8)%R) /\
  cqr_pivots pwl 3 f32_16 38 cplx3 0 1.
Proof. exact (fun pwl => conj (cplx3_types pwl) (conj cplx3_cols (cplx3_pivots pwl))). Qed.
Example C121_case : qr_rows (cqrd false false 3 f32_16 f32_16 38 cplx3 0) =
  Some ([[(50450, 12612); (-17883, 1052); (-2733, -35530)]; [(25225, 25225); (38396, -7364); (-27330, 27330)]; [(12612, -12612); (38922, 30506); (38263, -8199)]],
        [[(340535, 0); (239636, -151349); (163961, 113512)]; [(0, 0); (302435, 0); (409734, -214597)]; [(0, 0); (0, 0); (-32796, 125720)]]).
Proof. vm_compute; reflexivity. Qed.

(** For 2 x 2 matrices the condition is on the length of the first column only. *)
Theorem C121_complex_qrd_2x2_pivots : forall pwl fa fo mI A junk lam nu, cqr_types pwl 2 fa fo mI lam nu ->
  let sq := fun i j => (fxval (fst (A i j)) (fF fa) * fxval (fst (A i j)) (fF fa) + fxval (snd (A i j)) (fF fa) * fxval (snd (A i j)) (fF fa))%R in
  (forall j, (j < 2)%nat -> (sumR (fun i => sq i j) 2 <= lam * lam)%R) -> (nu * nu <= sumR (fun i => sq i 0%nat) 2)%R ->
  cqr_pivots pwl 2 fa mI A junk nu.
Proof. exact cqr_pivots_2. Qed.
Print Assumptions C121_complex_qrd_2x2_pivots.

(** The result is defined whatever the matrix, when the division is used. *)
Theorem C121_complex_qrd_defined : forall rd M fa fo mI A junk, cqrd rd false M fa fo mI A junk <> None.
Proof. exact cqrd_total. Qed.
Print Assumptions C121_complex_qrd_defined.

(** The second row of Q comes out as zero for the identity matrix of size 3. *)
Theorem C121_complex_qrd_reconstruction_refuted : forall pwl, ~ (forall M fa fo mI A junk,
  (2 <= M)%nat -> fF fa = 16 -> fF fo = 16 -> fS fa = true -> fS fo = true -> 16 <= fI fa -> 16 <= fI fo ->
  2 * fI (cqr_fmt (Z.of_nat M) (fI fa)) - 1 <= mI <= 2 * fI (cqr_fmt (Z.of_nat M) (fI fa)) ->
  (forall i j, (i < M)%nat -> (j < M)%nat -> (Rabs (fxval (fst (A i j)) (fF fa)) <= 1)%R /\ snd (A i j) = 0) ->
  exists Q U, cqrd false pwl M fa fo mI A junk = Some (Q, U) /\
    forall i j, (i < M)%nat -> (j < M)%nat ->
      (Rabs (mulCr M (fun i j => fxval (fst (Q i j)) (fF fo)) (fun i j => fxval (snd (Q i j)) (fF fo))
        (fun i j => fxval (fst (U i j)) (fF fo)) (fun i j => fxval (snd (U i j)) (fF fo)) i j - fxval (fst (A i j)) (fF fa)) < 1)%R).
Proof. exact cqrd_false. Qed.
Print Assumptions C121_complex_qrd_reconstruction_refuted.

(** ** C122 *)
(** With real_diag, where the bottom right element is not shorter than nu either ([cqr_corner]). *)
Theorem C122_complex_qrd_real_diagonal_partial : forall pwl M fa fo mI A junk lam nu, cqr_types pwl M fa fo mI lam nu ->
  let P := fun i j => fxval (fst (A i j)) (fF fa) in let N := fun i j => fxval (snd (A i j)) (fF fa) in
  (forall j, (j < M)%nat -> (sumR (fun i => P i j * P i j + N i j * N i j) M <= lam * lam)%R) ->
  cqr_pivots pwl M fa mI A junk nu -> cqr_corner pwl M fa mI A junk nu ->
  let u := bpow2 (- fF fo) in let n := INR (M * (M - 1) / 2) in
  exists Q U, cqrd true pwl M fa fo mI A junk = Some (Q, U) /\
    qr_factorsC true M P N (fun i j => fxval (fst (Q i j)) (fF fo)) (fun i j => fxval (snd (Q i j)) (fF fo))
      (fun i j => fxval (fst (U i j)) (fF fo)) (fun i j => fxval (snd (U i j)) (fF fo))
      (36 * lam * (n * cqr_eps pwl lam nu) + INR M * (2 * (u * (2 + 2 * lam + u)))) (14 * (n * cqr_eps pwl lam nu) + INR M * (2 * (u * (4 + u))))
      (21 * n * lam * bpow2 (- (32)) + u) /\
    ((42 * n * lam * bpow2 (- (32)) < u)%R -> fQ fo <> TRN ->
     (forall i j, (j < i < M)%nat -> U i j = (0, 0)) /\ (forall i, (i < M)%nat -> snd (U i i) = 0)).
Proof. exact cqrd_real_final. Qed.
Print Assumptions C122_complex_qrd_real_diagonal_partial.
Example C122_conditions : forall pwl, cqr_corner pwl 3 f32_16 38 cplx3 0 1.
Proof. exact cplx3_corner. Qed.
Example C122_case : qr_rows (cqrd true false 3 f32_16 f32_16 38 cplx3 0) =
  Some ([[(50450, 12612); (-17883, 1052); (35069, 6324)]; [(25225, 25225); (38396, -7364); (-19547, -33344)]; [(12612, -12612); (38922, 30506); (-1725, 39093)]],
        [[(340535, 0); (239636, -151349); (163961, 113512)]; [(0, 0); (302435, 0); (409734, -214597)]; [(0, 0); (0, 0); (129927, 0)]]).
Proof. vm_compute; reflexivity. Qed.

(** For every matrix, and with the piecewise-linear functions too: the bottom right element is real, and nothing else changes but the
    last column of Q. *)
Theorem C122_complex_qrd_real_corner : forall pwl M fa fo mI A junk Q U, -31 <= fI fa -> 1 <= fW fo -> cqrd true pwl M fa fo mI A junk = Some (Q, U) ->
  exists Q0 U0, cqrd false pwl M fa fo mI A junk = Some (Q0, U0) /\ snd (U (M - 1)%nat (M - 1)%nat) = 0 /\
    (forall i j, (i < M)%nat -> (j < M)%nat -> (i <> M - 1 \/ j <> M - 1)%nat -> U i j = U0 i j) /\
    (forall i j, (i < M)%nat -> (j < M)%nat -> (j <> M - 1)%nat -> Q i j = Q0 i j).
Proof. exact cqrd_diag. Qed.
Print Assumptions C122_complex_qrd_real_corner.
Example C122_case_pwl : qr_rows (cqrd true true 3 f32_16 f32_16 38 cplx3 0) =
  Some ([[(50471, 12618); (-17890, 1052); (35069, 6324)]; [(25205, 25205); (38394, -7352); (-19547, -33344)]; [(12603, -12603); (38908, 30484); (-1725, 39093)]],
        [[(340528, 0); (239557, -151323); (163940, 113589)]; [(0, 0); (302345, 0); (409569, -214544)]; [(0, 0); (0, 0); (129922, 0)]]).
Proof. vm_compute; reflexivity. Qed.

(** Without the condition on the bottom right element Q need not be unitary: for [[1 0] [0 0]] its last column is zero. *)
Theorem C122_complex_qrd_real_unitary_refuted : forall pwl, ~ (forall M fa fo mI A junk lam nu, cqr_types pwl M fa fo mI lam nu -> fF fo = 16 ->
  let sq := fun i j => (fxval (fst (A i j)) (fF fa) * fxval (fst (A i j)) (fF fa) + fxval (snd (A i j)) (fF fa) * fxval (snd (A i j)) (fF fa))%R in
  (forall j, (j < M)%nat -> (sumR (fun i => sq i j) M <= lam * lam)%R) -> cqr_pivots pwl M fa mI A junk nu ->
  exists Q U, cqrd true pwl M fa fo mI A junk = Some (Q, U) /\
    forall i j, (i < M)%nat -> (j < M)%nat ->
      (Rabs (mulCr M (fun i j => fxval (fst (Q i j)) (fF fo)) (fun i j => fxval (snd (Q i j)) (fF fo))
        (fun k j => fxval (fst (Q j k)) (fF fo)) (fun k j => - fxval (snd (Q j k)) (fF fo)) i j - (if Nat.eqb i j then 1 else 0)) < 1)%R).
Proof. exact cqrd_diag_false. Qed.
Print Assumptions C122_complex_qrd_real_unitary_refuted.

(** ** C123 *)
Theorem C123_complex_qrd_real_matrix : forall rd pwl M fa fo mI A junk Q U, -31 <= fI fa -> 1 <= fW fo -> (forall i j, snd (A i j) = 0) ->
  cqrd rd pwl M fa fo mI A junk = Some (Q, U) -> forall i j, snd (Q i j) = 0 /\ snd (U i j) = 0.
Proof. exact cqrd_reals. Qed.
Print Assumptions C123_complex_qrd_real_matrix.
(** [[4 2 1] [2 5 3] [1 3 6]], with the factors that the real overload returns in C44_case. *)
Example C123_case : qr_rows (cqrd true false 3 f32_16 f32_16 38 (fun i j => (fst (cplx3 i j), 0)) 0) =
  Some ([[(57205, 0); (-31790, 0); (3469, 0)]; [(28602, 0); (47684, 0); (-34685, 0)]; [(14301, 0); (31790, 0); (55497, 0)]],
        [[(300324, 0); (300324, 0); (228818, 0)]; [(0, 0); (270212, 0); (302001, 0)]; [(0, 0); (0, 0); (232392, 0)]]).
Proof. vm_compute; reflexivity. Qed.
