(** C118-C120: ac_cholinv on complex matrices. *)
From Coq Require Import Reals.
From Verif Require Import AcTypes Spec SpecR SpecLin SpecCplx SpecLinC RtTypes DivModel MatrixModel CholModel CholStruct CholCplxModel CholCplxThm CholInvCplxModel CholInvCplx CholInvCplxThm CholInvCplxCase.

(** ** C118 *)
Theorem C118_complex_cholinv_structure : forall pwl1 pwl2 MW M fa fo ft A V0 j1 j2, 1 <= fW fo -> 1 <= fW ft -> 2 * fW ft <= MW ->
  exists out, ccholinv pwl1 pwl2 MW M fa fo ft A V0 j1 j2 = Some out /\
  forall i j, (i < M)%nat -> (j < M)%nat -> fst (out i j) = fst (out j i) /\ snd (out i i) = 0 /\
    in_range (fS fo) (fW fo) (fst (out i j)) /\ in_range (fS fo) (fW fo) (snd (out i j)).
Proof. exact ccholinv_ok. Qed.
Print Assumptions C118_complex_cholinv_structure.
Definition cirows (M : nat) (o : option (nat -> nat -> gi)) : option (list (list gi)) :=
  match o with Some out => Some (map (fun i => map (out i) (seq 0 M)) (seq 0 M)) | None => None end.
(** The inverse of [[4 2-i i] [2+i 5 1-2i] [-i 1+2i 6]], with the division and with the piecewise-linear reciprocal. *)
Example C118_case :
  cirows 3 (ccholinv false false 64 3 f32_16 f32_16 f32_16 hermi3 (fun _ _ => (7, 7)) (fun _ => 0) 0) =
    Some [[(29789, 0); (-16682, 8342); (-1, -11916)]; [(-16682, -8342); (27407, 0); (-5958, 11916)]; [(-1, 11916); (-5958, -11916); (17873, 0)]] /\
  cirows 3 (ccholinv false true 64 3 f32_16 f32_16 f32_16 hermi3 (fun _ _ => (7, 7)) (fun _ => 0) 0) =
    Some [[(29705, 0); (-16659, 8329); (0, -11909)]; [(-16659, -8329); (27403, 0); (-5963, 11926)]; [(0, 11909); (-5963, -11926); (17893, 0)]].
Proof. vm_compute; split; reflexivity. Qed.

(** The uninitialised Linv does not matter. *)
Theorem C118_complex_cholinv_uninitialised : forall pwl1 pwl2 MW M fa fo ft A V0 V1 j1 j2 out0 out1, 1 <= fW ft -> 2 * fW ft <= MW ->
  ccholinv pwl1 pwl2 MW M fa fo ft A V0 j1 j2 = Some out0 -> ccholinv pwl1 pwl2 MW M fa fo ft A V1 j1 j2 = Some out1 ->
  forall i j, (i < M)%nat -> (j < M)%nat -> out0 i j = out1 i j.
Proof. exact ccholinv_uninit. Qed.
Print Assumptions C118_complex_cholinv_uninitialised.

(** A matrix of real numbers has the inverse that the real overload computes. *)
Theorem C118_complex_cholinv_real : forall pwl1 MW M fa fo ft A V0 V1 j1 j2, 1 <= fW fo -> 1 <= fW ft -> 2 * fW ft <= MW ->
  exists out outr, ccholinv pwl1 false MW M fa fo ft (fun i j => (A i j, 0)) V0 j1 j2 = Some out /\ cholinv pwl1 false M fa fo ft A V1 j1 j2 = Some outr /\
  forall i j, (i < M)%nat -> (j < M)%nat -> out i j = (outr i j, 0).
Proof. exact ccholinv_real. Qed.
Print Assumptions C118_complex_cholinv_real.

(** ** C119 *)
(** The matrix is P + i N, the result X + i Y. *)
Theorem C119_complex_cholinv_inverse : forall MW M fa fo ft A V0 j1 j2 b be ga g, let fi := imd_fmt ft 0 0 RND SAT in
  let P := fun i j => fxval (fst (A i j)) (fF fa) in let N := fun i j => fxval (snd (A i j)) (fF fa) in
  chol_types ft fi -> 2 * fW ft <= MW -> (chol_room M fi b <= bpow2 (fI fi - 2))%R -> hermitian M P N ->
  (forall i j, (i < M)%nat -> (j < M)%nat -> (Rabs (P i j) <= b)%R /\ (Rabs (N i j) <= b)%R) ->
  (b + chol_err M ft fi b <= be * be)%R -> (g + bpow2 (- fF fo) + INR (2 * M) * bpow2 (- fF ft) <= ga * ga)%R -> inv_room (2 * M) ft fo be ga ->
  exists out, ccholinv false false MW M fa fo ft A V0 j1 j2 = Some out /\
    let X := fun i j => fxval (fst (out i j)) (fF fo) in let Y := fun i j => fxval (snd (out i j)) (fF fo) in
    ((forall i, (i < M)%nat -> (X i i <= g)%R) -> forall i j, (i < M)%nat -> (j < M)%nat ->
      (Rabs (sumR (fun k => P i k * X k j - N i k * Y k j) M - (if Nat.eqb i j then 1 else 0)) <= inv_err (2 * M) ft fo (chol_err M ft fi b) be ga)%R /\
      (Rabs (sumR (fun k => P i k * Y k j + N i k * X k j) M) <= inv_err (2 * M) ft fo (chol_err M ft fi b) be ga)%R /\
      (Rabs (Y i j + Y j i) <= 2 * (INR (2 * M) * bpow2 (- fF ft) + bpow2 (- fF fo)))%R).
Proof. exact ccholinv_near. Qed.
Print Assumptions C119_complex_cholinv_inverse.
(** The conditions hold for the matrix of C118_case in ac_fixed<50,18>, and the product with the inverse is within 1/1000 of the identity. *)
Example C119_case : exists out, ccholinv false false 100 3 f32_16 f50_18 f50_18 hermi3 (fun _ _ => (0, 0)) (fun _ => 0) 0 = Some out /\
  let P := fun i j => fxval (fst (hermi3 i j)) 16 in let N := fun i j => fxval (snd (hermi3 i j)) 16 in
  let X := fun i j => fxval (fst (out i j)) 32 in let Y := fun i j => fxval (snd (out i j)) 32 in
  forall i j, (i < 3)%nat -> (j < 3)%nat ->
    (Rabs (sumR (fun k => P i k * X k j - N i k * Y k j) 3 - (if Nat.eqb i j then 1 else 0)) <= 1 / 1000)%R /\
    (Rabs (sumR (fun k => P i k * Y k j + N i k * X k j) 3) <= 1 / 1000)%R.
Proof. exact ccholinv_case. Qed.

(** ** C120 *)
(** Formats that treat both signs alike give a Hermitian result. *)
Theorem C120_complex_cholinv_hermitian_partial : forall pwl1 pwl2 MW M fa fo ft A V0 j1 j2 out, sym_fmt fo -> sym_fmt ft -> 2 * fW ft <= MW ->
  ccholinv pwl1 pwl2 MW M fa fo ft A V0 j1 j2 = Some out -> forall i j, out i j = c_conj (out j i).
Proof. exact ccholinv_hermitian. Qed.
Print Assumptions C120_complex_cholinv_hermitian_partial.
Definition f16_8s : fmt := Fmt 16 8 true RND_INF SAT_SYM.
(** [[1 -i/128] [i/128 4]], with AC_RND, the default, and with AC_RND_INF. *)
Example C120_case :
  cirows 2 (ccholinv false false 32 2 f16_8 f16_8 f16_8 (herm2 256 2 1024) (fun _ _ => (0, 0)) (fun _ => 0) 0) = Some [[(256, 0); (0, 1)]; [(0, 0); (64, 0)]] /\
  cirows 2 (ccholinv false false 32 2 f16_8 f16_8s f16_8s (herm2 256 2 1024) (fun _ _ => (0, 0)) (fun _ => 0) 0) = Some [[(256, 0); (0, 1)]; [(0, -1); (64, 0)]].
Proof. vm_compute; split; reflexivity. Qed.

(** The full statement. *)
Theorem C120_complex_cholinv_hermitian_refuted : ~ (forall M fo A V0 j1 j2 MW out, 1 <= fW fo -> fS fo = true -> fO fo = SAT -> 2 * fW fo <= MW ->
  (forall i j, (i < M)%nat -> (j < M)%nat -> A i j = c_conj (A j i)) -> ccholinv false false MW M fo fo fo A V0 j1 j2 = Some out ->
  forall i j, (i < M)%nat -> (j < M)%nat -> out i j = c_conj (out j i)).
Proof. exact ccholinv_not_hermitian. Qed.
Print Assumptions C120_complex_cholinv_hermitian_refuted.

(** The zeros that ac_chol_d returns for a matrix that is not positive definite become the largest values. *)
Theorem C120_complex_cholinv_zero_refuted : ~ (forall M fo A V0 j1 j2 MW, 1 <= fW fo -> 2 * fW fo <= MW -> (forall i j, (i < M)%nat -> (j < M)%nat -> A i j = c_conj (A j i)) ->
  (exists outL, cchol_d false M fo fo (imd_fmt fo 0 0 RND SAT) A j1 = Some outL /\ zero_outC M outL) ->
  exists out, ccholinv false false MW M fo fo fo A V0 j1 j2 = Some out /\ forall i j, (i < M)%nat -> (j < M)%nat -> out i j = (0, 0)).
Proof. exact ccholinv_zero_false. Qed.
Print Assumptions C120_complex_cholinv_zero_refuted.
