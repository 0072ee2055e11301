(** C42-C44, C60, C61: ac_chol_d, ac_cholinv and ac_qrd. *)
From Coq Require Import Reals.
From Verif Require Import AcTypes Spec SpecR SpecLin RtTypes DivModel MatrixModel CholModel CholThm CholPwl CholStruct QrdThm CholInv.

(** ** C42 *)
(** s j k is the j-th pivot after k subtractions, s j j the pivot that is tested. *)
Theorem C42_chol_structure : forall pwl M fa fo fi A junk, 1 <= fW fo -> 1 <= fW fi ->
  exists out L (s : nat -> nat -> Z), chol_d pwl M fa fo fi A junk = Some out /\
    (forall i j, (i < M)%nat -> (j < M)%nat -> in_range (fS fo) (fW fo) (L i j)) /\
    (forall j, (j < M)%nat -> convertsR fi (fxval (A j j) (fF fa)) (s j O) /\
       forall k, (k < j)%nat -> convertsR fi (fxval (s j k) (fF fi) - fxval (L j k) (fF fo) * fxval (L j k) (fF fo)) (s j (S k))) /\
    (forall i j, (i < j < M)%nat -> out i j = Some 0) /\
    ((forall j, (j < M)%nat -> 0 < s j j) -> forall i j, (j <= i < M)%nat -> out i j = Some (L i j)) /\
    ((exists j, (j < M)%nat /\ s j j <= 0) -> zero_out M out).
Proof. exact chol_struct. Qed.
Print Assumptions C42_chol_structure.
Definition rows (M : nat) (o : option (nat -> nat -> option Z)) : option (list (list (option Z))) :=
  match o with Some out => Some (map (fun i => map (out i) (seq 0 M)) (seq 0 M)) | None => None end.
(** [[4 2 1] [2 5 3] [1 3 6]] and the same with 5 replaced by 1, which is singular. *)
Example C42_case :
  rows 3 (chol_d false 3 f32_16 f32_16 f32_16 sym3 (fun _ => 0)) =
    Some [[Some 131072; Some 0; Some 0]; [Some 65536; Some 131072; Some 0]; [Some 32768; Some 81920; Some 134109]] /\
  rows 3 (chol_d false 3 f32_16 f32_16 f32_16 (fun i j => match i, j with 1%nat, 1%nat => 65536 | _, _ => sym3 i j end) (fun _ => 0)) =
    Some [[Some 0; Some 0; Some 0]; [Some 0; Some 0; Some 0]; [Some 0; Some 0; Some 0]].
Proof. vm_compute; split; reflexivity. Qed.

(** The uninitialised local does not matter. *)
Theorem C42_chol_no_uninitialised : forall pwl M fa fo fi A j1 j2, 0 < 1 + fF fo + fF fi + guard (fQ fi) ->
  chol_d pwl M fa fo fi A j1 = chol_d pwl M fa fo fi A j2.
Proof. exact chol_junk. Qed.
Print Assumptions C42_chol_no_uninitialised.

(** ** C60 *)
Theorem C60_chol_reconstruction : forall M fa fo fi A junk b, chol_types fo fi -> (chol_room M fi b <= bpow2 (fI fi - 2))%R ->
  (forall i j, (j <= i < M)%nat -> (Rabs (fxval (A i j) (fF fa)) <= b)%R) ->
  exists out, chol_d false M fa fo fi A junk = Some out /\
    ((exists L, chol_factors M (fun i j => fxval (A i j) (fF fa)) (fF fo) (chol_err M fo fi b) out L) \/ zero_out M out) /\
    (fI fi - fI fo + 2 <= fF fi ->
     (forall i j, (i < M)%nat -> (j < M)%nat -> fxval (A i j) (fF fa) = fxval (A j i) (fF fa)) ->
     (forall x, (exists i, (i < M)%nat /\ x i <> 0%R) ->
        (chol_err M fo fi b * norm1sq x M < quadR (fun i j => fxval (A i j) (fF fa)) x M)%R) ->
     exists L, chol_factors M (fun i j => fxval (A i j) (fF fa)) (fF fo) (chol_err M fo fi b) out L).
Proof. exact chol_exact. Qed.
Print Assumptions C60_chol_reconstruction.
Example C60_types : chol_types f32_16 f32_16.
Proof. exact types_32_16. Qed.

Theorem C60_chol_reconstruction_pwl : forall M fa fo fi A junk b, chol_types fo fi -> 4 <= fW fo -> (chol_room M fi b <= bpow2 (fI fi - 2))%R ->
  (forall i j, (j <= i < M)%nat -> (Rabs (fxval (A i j) (fF fa)) <= b)%R) ->
  exists out, chol_d true M fa fo fi A junk = Some out /\
    ((exists L, chol_factors M (fun i j => fxval (A i j) (fF fa)) (fF fo) (chol_err_pwl M fo fi b) out L) \/ zero_out M out).
Proof. exact chol_pwl. Qed.
Print Assumptions C60_chol_reconstruction_pwl.
Example C60_case_pwl : rows 3 (chol_d true 3 f32_16 f32_16 f32_16 sym3 (fun _ => 0)) =
    Some [[Some 131202; Some 0; Some 0]; [Some 65488; Some 131225; Some 0]; [Some 32744; Some 81871; Some 134139]].
Proof. vm_compute; reflexivity. Qed.

(** ** C61 *)
Theorem C61_chol_rejection_partial : forall M fa fo fi A junk b, chol_types fo fi -> (chol_room M fi b <= bpow2 (fI fi - 2))%R ->
  (forall i j, (j <= i < M)%nat -> (Rabs (fxval (A i j) (fF fa)) <= b)%R) ->
  (forall i j, (i < M)%nat -> (j < M)%nat -> fxval (A i j) (fF fa) = fxval (A j i) (fF fa)) ->
  (exists x, (quadR (fun i j => fxval (A i j) (fF fa)) x M < - (chol_err M fo fi b * norm1sq x M))%R) ->
  exists out, chol_d false M fa fo fi A junk = Some out /\ zero_out M out.
Proof. exact chol_reject. Qed.
Print Assumptions C61_chol_rejection_partial.
Example C61_case : rows 2 (chol_d false 2 f32_16 f32_16 f32_16 (mat2 65536 131072 65536) (fun _ => 0)) = Some [[Some 0; Some 0]; [Some 0; Some 0]].
Proof. vm_compute; reflexivity. Qed.

(** A matrix that is not positive semi-definite may be accepted when it is near to one that is. *)
Theorem C61_chol_rejection_refuted : ~ (forall M fo fi A junk out, chol_types fo fi ->
  (forall i j, (i < M)%nat -> (j < M)%nat -> in_range (fS fo) (fW fo) (A i j) /\ A i j = A j i) ->
  (exists x, (quadR (fun i j => fxval (A i j) (fF fo)) x M < 0)%R) -> chol_d false M fo fo fi A junk = Some out -> zero_out M out).
Proof. exact chol_not_psd. Qed.
Print Assumptions C61_chol_rejection_refuted.

(** With ac_fixed<32,8> the reciprocal of a small diagonal element saturates, and a matrix far from positive definite is accepted. *)
Theorem C61_chol_small_pivot_refuted : exists A x L00 L10 out, (forall i j, (i < 2)%nat -> (j < 2)%nat -> in_range true 32 (A i j) /\ A i j = A j i) /\
  (quadR (fun i j => fxval (A i j) 24) x 2 < -900)%R /\
  chol_d false 2 f32_8 f32_8 f32_8 A (fun _ => 0) = Some out /\ out O O = Some L00 /\ out 1%nat O = Some L10 /\
  (fxval (A 1%nat O) 24 - fxval L10 24 * fxval L00 24 >= 0.02)%R.
Proof. exact chol_recip_limited. Qed.
Print Assumptions C61_chol_small_pivot_refuted.

(** ** C43 *)
Theorem C43_cholinv_symmetric_partial : forall pwl1 pwl2 M fa fo ft A V0 j1 j2, 1 <= fW fo -> 1 <= fW ft ->
  exists out, cholinv pwl1 pwl2 M fa fo ft A V0 j1 j2 = Some out /\
    forall i j, (i < M)%nat -> (j < M)%nat -> out i j = out j i /\ in_range (fS fo) (fW fo) (out i j).
Proof. exact cholinv_ok. Qed.
Print Assumptions C43_cholinv_symmetric_partial.
Example C43_case : match cholinv false false 3 f32_16 f32_16 f32_16 sym3 (fun _ _ => 0) (fun _ => 0) 0 with
  | Some V => map (fun i => map (V i) (seq 0 3)) (seq 0 3) = [[20541; -8803; 978]; [-8803; 22497; -9781]; [978; -9781; 15650]] | None => False end.
Proof. vm_compute; reflexivity. Qed.

(** For minus the identity the largest values come out, not zeros. *)
Theorem C43_cholinv_zero_refuted : ~ (forall M fo A V0 j1 j2, 1 <= fW fo -> (forall i j, (i < M)%nat -> (j < M)%nat -> A i j = A j i) ->
  (exists x, (quadR (fun i j => fxval (A i j) (fF fo)) x M < 0)%R) ->
  exists out, cholinv false false M fo fo fo A V0 j1 j2 = Some out /\ forall i j, (i < M)%nat -> (j < M)%nat -> out i j = 0).
Proof. exact cholinv_zero_false. Qed.
Print Assumptions C43_cholinv_zero_refuted.

(** What the uninitialised Linv contained does not matter. *)
Theorem C43_cholinv_uninitialised : forall pwl1 pwl2 M fa fo ft A V0 V1 j1 j2 out0 out1, 1 <= fW ft ->
  cholinv pwl1 pwl2 M fa fo ft A V0 j1 j2 = Some out0 -> cholinv pwl1 pwl2 M fa fo ft A V1 j1 j2 = Some out1 ->
  forall i j, (i < M)%nat -> (j < M)%nat -> out0 i j = out1 i j.
Proof. exact cholinv_uninit. Qed.
Print Assumptions C43_cholinv_uninitialised.

(** ** C62 *)
(** If the diagonal of the output is at most g, well below the limits, then A times the output is the identity. *)
Theorem C62_cholinv_inverse : forall M fa fo ft A V0 j1 j2 b be ga g, let fi := imd_fmt ft 0 0 RND SAT in
  chol_types ft fi -> (chol_room M fi b <= bpow2 (fI fi - 2))%R ->
  (forall i j, (i < M)%nat -> (j < M)%nat -> (Rabs (fxval (A i j) (fF fa)) <= b)%R /\ fxval (A i j) (fF fa) = fxval (A j i) (fF fa)) ->
  (b + chol_err M ft fi b <= be * be)%R -> (g + bpow2 (- fF fo) + INR M * bpow2 (- fF ft) <= ga * ga)%R -> inv_room M ft fo be ga ->
  exists out, cholinv false false M fa fo ft A V0 j1 j2 = Some out /\
    ((forall i, (i < M)%nat -> (fxval (out i i) (fF fo) <= g)%R) -> forall i j, (i < M)%nat -> (j < M)%nat ->
      (Rabs (mulR M (fun i j => fxval (A i j) (fF fa)) (fun i j => fxval (out i j) (fF fo)) i j - (if Nat.eqb i j then 1 else 0))
        <= inv_err M ft fo (chol_err M ft fi b) be ga)%R).
Proof. exact cholinv_near. Qed.
Print Assumptions C62_cholinv_inverse.
(** For [[4 2 1] [2 5 3] [1 3 6]] the bound is below 1/8. *)
Example C62_case : exists out, cholinv false false 3 f32_16 f32_16 f32_16 sym3 (fun _ _ => 0) (fun _ => 0) 0 = Some out /\
  forall i j, (i < 3)%nat -> (j < 3)%nat ->
    (Rabs (mulR 3 (fun i j => fxval (sym3 i j) 16) (fun i j => fxval (out i j) 16) i j - (if Nat.eqb i j then 1 else 0)) <= 1 / 8)%R.
Proof. exact cholinv_sym3. Qed.

(** ** C44 *)
(** Where no rotation finds a pair of elements shorter than nu ([qr_pivots]). *)
Theorem C44_qrd_reconstruction_partial : forall pwl M fa fo A junk lam nu, qr_types pwl M fa fo lam nu ->
  (forall j, (j < M)%nat -> (sumR (fun i => fxval (A i j) (fF fa) * fxval (A i j) (fF fa)) M <= lam * lam)%R) ->
  qr_pivots pwl M fa A junk nu ->
  let u := bpow2 (- fF fo) in let n := INR (M * (M - 1) / 2) in
  exists Q U, qrd pwl M fa fo A junk = Some (Q, U) /\
    qr_factors M (fun i j => fxval (A i j) (fF fa)) (fun i j => fxval (Q i j) (fF fo)) (fun i j => fxval (U i j) (fF fo))
      (6 * lam * (n * qr_eps pwl lam nu) + INR M * (u * (2 + 2 * lam + u))) (6 * (n * qr_eps pwl lam nu) + INR M * (u * (4 + u)))
      (9 * n * lam * bpow2 (- (32)) + u) /\
    ((18 * n * lam * bpow2 (- (32)) < u)%R -> fQ fo <> TRN -> forall i j, (j < i < M)%nat -> U i j = 0).
Proof. exact qrd_final. Qed.
Print Assumptions C44_qrd_reconstruction_partial.
Example C44_conditions : forall pwl, qr_types pwl 3 f32_16 f32_16 7 1 /\ (forall j, (j < 3)%nat -> (sumR (fun i => fxval (sym3 i j) 16 * fxval (sym3 i j) 16) 3 <= 7 * 7)%R) /\
  qr_pivots pwl 3 f32_16 sym3 0 1.
Proof. exact (fun pwl => conj (sym3_types pwl) (conj sym3_cols (sym3_pivots pwl))). Qed.
Example C44_case : match qrd false 3 f32_16 f32_16 sym3 0 with
  | Some (Q, U) => map (fun i => map (Q i) (seq 0 3)) (seq 0 3) = [[57205; -31790; 3469]; [28602; 47684; -34685]; [14301; 31790; 55497]] /\
                   map (fun i => map (U i) (seq 0 3)) (seq 0 3) = [[300324; 300324; 228818]; [0; 270212; 302001]; [0; 0; 232392]]
  | None => False end.
Proof. vm_compute; split; reflexivity. Qed.
Example C44_pwl_case : match qrd true 3 f32_16 f32_16 sym3 0 with
  | Some (Q, U) => map (fun i => map (Q i) (seq 0 3)) (seq 0 3) = [[57229; -31799; 3468]; [28574; 47702; -34681]; [14287; 31794; 55490]] /\
                   map (fun i => map (U i) (seq 0 3)) (seq 0 3) = [[300350; 300190; 228674]; [0; 270291; 302069]; [0; 0; 232364]]
  | None => False end.
Proof. vm_compute; split; reflexivity. Qed.

(** For 2 x 2 matrices the condition is on the length of the first column only. *)
Theorem C44_qrd_2x2_partial : forall pwl fa fo A junk lam nu, qr_types pwl 2 fa fo lam nu ->
  (forall j, (j < 2)%nat -> (sumR (fun i => fxval (A i j) (fF fa) * fxval (A i j) (fF fa)) 2 <= lam * lam)%R) ->
  (nu * nu <= sumR (fun i => fxval (A i 0%nat) (fF fa) * fxval (A i 0%nat) (fF fa)) 2)%R ->
  let u := bpow2 (- fF fo) in
  exists Q U, qrd pwl 2 fa fo A junk = Some (Q, U) /\
    qr_factors 2 (fun i j => fxval (A i j) (fF fa)) (fun i j => fxval (Q i j) (fF fo)) (fun i j => fxval (U i j) (fF fo))
      (6 * lam * qr_eps pwl lam nu + 2 * (u * (2 + 2 * lam + u))) (6 * qr_eps pwl lam nu + 2 * (u * (4 + u))) (9 * lam * bpow2 (- (32)) + u) /\
    ((18 * lam * bpow2 (- (32)) < u)%R -> fQ fo <> TRN -> U 1%nat 0%nat = 0).
Proof. exact qrd_2x2. Qed.
Print Assumptions C44_qrd_2x2_partial.

(** The identity matrix of size 3 comes out as diag(1,0,0) diag(1,0,0). *)
Theorem C44_qrd_reconstruction_refuted : forall pwl, ~ (forall M fa fo A junk, (2 <= M)%nat -> fF fa = 16 -> fF fo = 16 -> fS fa = true -> fS fo = true -> 16 <= fI fa -> 16 <= fI fo ->
  (forall i j, (i < M)%nat -> (j < M)%nat -> (Rabs (fxval (A i j) (fF fa)) <= 1)%R) ->
  exists Q U, qrd pwl M fa fo A junk = Some (Q, U) /\
    forall i j, (i < M)%nat -> (j < M)%nat ->
      (Rabs (mulR M (fun i j => fxval (Q i j) (fF fo)) (fun i j => fxval (U i j) (fF fo)) i j - fxval (A i j) (fF fa)) < 1)%R).
Proof. exact qrd_false. Qed.
Print Assumptions C44_qrd_reconstruction_refuted.
