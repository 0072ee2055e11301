(** C115-C117: ac_chol_d on complex matrices. *)
From Coq Require Import Reals.
From Verif Require Import AcTypes Spec SpecR SpecLin SpecCplx SpecLinC RtTypes DivModel MatrixModel CholModel CholStruct CholCplxModel CholCplxThm.

(** ** C115 *)
(** s j k is the j-th pivot after k subtractions, s j j the pivot that is tested. *)
Theorem C115_complex_chol_structure : forall pwl M fa fo fi A junk, 1 <= fW fo -> 1 <= fW fi ->
  exists out L (s : nat -> nat -> Z), cchol_d pwl M fa fo fi A junk = Some out /\
    (forall i j, (i < M)%nat -> (j < M)%nat -> in_range (fS fo) (fW fo) (fst (L i j)) /\ in_range (fS fo) (fW fo) (snd (L i j))) /\
    (forall j, (j < M)%nat -> snd (L j j) = 0) /\
    (forall j, (j < M)%nat -> convertsR fi (fxval (fst (A j j)) (fF fa)) (s j O) /\
       forall k, (k < j)%nat -> convertsR fi (fxval (s j k) (fF fi) - (fxval (fst (L j k)) (fF fo) * fxval (fst (L j k)) (fF fo)
                                                                     + fxval (snd (L j k)) (fF fo) * fxval (snd (L j k)) (fF fo))) (s j (S k))) /\
    (forall i j, (i < j < M)%nat -> out i j = Some (0, 0)) /\
    ((forall j, (j < M)%nat -> 0 < s j j) -> forall i j, (j <= i < M)%nat -> out i j = Some (L i j)) /\
    ((exists j, (j < M)%nat /\ s j j <= 0) -> zero_outC M out).
Proof. exact cchol_struct. Qed.
Print Assumptions C115_complex_chol_structure.
Definition crows (M : nat) (o : option (nat -> nat -> option gi)) : option (list (list (option gi))) :=
  match o with Some out => Some (map (fun i => map (out i) (seq 0 M)) (seq 0 M)) | None => None end.
Definition herm3 (i j : nat) : gi :=
  match i, j with
  | O, O => (262144, 0) | 1%nat, O => (131072, 65536) | O, 1%nat => (131072, -65536)
  | 1%nat, 1%nat => (327680, 0) | 2%nat, O => (0, -65536) | O, 2%nat => (0, 65536)
  | 2%nat, 1%nat => (65536, 131072) | 1%nat, 2%nat => (65536, -131072) | _, _ => (393216, 0) end.
(** [[4 2-i i] [2+i 5 1-2i] [-i 1+2i 6]] and the same with 5 replaced by 1, which is not positive definite. *)
Example C115_case :
  crows 3 (cchol_d false 3 f32_16 f32_16 f32_16 herm3 (fun _ => 0)) =
    Some [[Some (131072, 0); Some (0, 0); Some (0, 0)]; [Some (65536, 32768); Some (126910, 0); Some (0, 0)]; [Some (0, -32768); Some (42304, 84608); Some (125491, 0)]] /\
  crows 3 (cchol_d false 3 f32_16 f32_16 f32_16 (fun i j => match i, j with 1%nat, 1%nat => (65536, 0) | _, _ => herm3 i j end) (fun _ => 0)) =
    Some [[Some (0, 0); Some (0, 0); Some (0, 0)]; [Some (0, 0); Some (0, 0); Some (0, 0)]; [Some (0, 0); Some (0, 0); Some (0, 0)]].
Proof. vm_compute; split; reflexivity. Qed.

(** The uninitialised local does not matter. *)
Theorem C115_complex_chol_no_uninitialised : forall pwl M fa fo fi A j1 j2, 0 < 1 + fF fo + fF fi + guard (fQ fi) ->
  cchol_d pwl M fa fo fi A j1 = cchol_d pwl M fa fo fi A j2.
Proof. exact cchol_junk. Qed.
Print Assumptions C115_complex_chol_no_uninitialised.

(** A matrix of real numbers has the factor that the real overload computes. *)
Theorem C115_complex_chol_real : forall pwl M fa fo fi A junk, 1 <= fW fo -> 1 <= fW fi ->
  exists out outr, cchol_d pwl M fa fo fi (fun i j => (A i j, 0)) junk = Some out /\ chol_d pwl M fa fo fi A junk = Some outr /\
  forall i j, (i < M)%nat -> (j < M)%nat -> out i j = option_map (fun v => (v, 0)) (outr i j).
Proof. exact cchol_real. Qed.
Print Assumptions C115_complex_chol_real.

(** ** C116 *)
Theorem C116_complex_chol_reconstruction : forall M fa fo fi A junk b,
  let P := fun i j => fxval (fst (A i j)) (fF fa) in let N := fun i j => fxval (snd (A i j)) (fF fa) in
  chol_types fo fi -> (chol_room M fi b <= bpow2 (fI fi - 2))%R ->
  (forall i j, (j <= i < M)%nat -> (Rabs (P i j) <= b)%R /\ ((j < i)%nat -> (Rabs (N i j) <= b)%R)) ->
  exists out, cchol_d false M fa fo fi A junk = Some out /\
    ((exists L, chol_factorsC M P N (fF fo) (chol_err M fo fi b) out L) \/ zero_outC M out) /\
    (fI fi - fI fo + 2 <= fF fi -> hermitian M P N ->
     (forall x y, (exists i, (i < M)%nat /\ (x i <> 0%R \/ y i <> 0%R)) -> (chol_err M fo fi b * norm1sqC x y M < quadC P N x y M)%R) ->
     exists L, chol_factorsC M P N (fF fo) (chol_err M fo fi b) out L).
Proof. exact cchol_exact. Qed.
Print Assumptions C116_complex_chol_reconstruction.
Theorem C116_complex_chol_reconstruction_pwl : forall M fa fo fi A junk b,
  let P := fun i j => fxval (fst (A i j)) (fF fa) in let N := fun i j => fxval (snd (A i j)) (fF fa) in
  chol_types fo fi -> 4 <= fW fo -> (chol_room M fi b <= bpow2 (fI fi - 2))%R ->
  (forall i j, (j <= i < M)%nat -> (Rabs (P i j) <= b)%R /\ ((j < i)%nat -> (Rabs (N i j) <= b)%R)) ->
  exists out, cchol_d true M fa fo fi A junk = Some out /\
    ((exists L, chol_factorsC M P N (fF fo) (chol_err_pwl M fo fi b) out L) \/ zero_outC M out).
Proof. exact cchol_pwl. Qed.
Print Assumptions C116_complex_chol_reconstruction_pwl.
Example C116_case_pwl : crows 2 (cchol_d true 2 f32_16 f32_16 f32_16 herm3 (fun _ => 0)) =
    Some [[Some (131202, 0); Some (0, 0)]; [Some (65488, 32744); Some (126911, 0)]].
Proof. vm_compute; reflexivity. Qed.

(** ** C117 *)
Theorem C117_complex_chol_rejection_partial : forall M fa fo fi A junk b,
  let P := fun i j => fxval (fst (A i j)) (fF fa) in let N := fun i j => fxval (snd (A i j)) (fF fa) in
  chol_types fo fi -> (chol_room M fi b <= bpow2 (fI fi - 2))%R ->
  (forall i j, (j <= i < M)%nat -> (Rabs (P i j) <= b)%R /\ ((j < i)%nat -> (Rabs (N i j) <= b)%R)) ->
  hermitian M P N -> (exists x y, (quadC P N x y M < - (chol_err M fo fi b * norm1sqC x y M))%R) ->
  exists out, cchol_d false M fa fo fi A junk = Some out /\ zero_outC M out.
Proof. exact cchol_reject. Qed.
Print Assumptions C117_complex_chol_rejection_partial.
(** [[1 -2i] [2i 1]]. *)
Example C117_case : crows 2 (cchol_d false 2 f32_16 f32_16 f32_16 (herm2 65536 131072 65536) (fun _ => 0)) = Some [[Some (0, 0); Some (0, 0)]; [Some (0, 0); Some (0, 0)]].
Proof. vm_compute; reflexivity. Qed.

(** A matrix that is not positive semi-definite may be accepted when it is near to one that is. *)
Theorem C117_complex_chol_rejection_refuted : ~ (forall M fo fi A junk out, chol_types fo fi ->
  (forall i j, (i < M)%nat -> (j < M)%nat -> in_range (fS fo) (fW fo) (fst (A i j)) /\ in_range (fS fo) (fW fo) (snd (A i j)) /\ A i j = (fst (A j i), - snd (A j i))) ->
  (exists x y, (quadC (fun i j => fxval (fst (A i j)) (fF fo)) (fun i j => fxval (snd (A i j)) (fF fo)) x y M < 0)%R) ->
  cchol_d false M fo fo fi A junk = Some out -> zero_outC M out).
Proof. exact cchol_not_psd. Qed.
Print Assumptions C117_complex_chol_rejection_refuted.
