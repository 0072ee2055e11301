(** C126, C127, C129: ac_chol_d on ac_float, for every arithmetic of ac_float. *)
From Coq Require Import Reals QArith.
From Verif Require Import AcTypes SpecLin SpecFlt CholFloatModel CholFloat CholFloatThm CholFloatBack CholFloatPd.

(** ** C126 *)
(** s i j k is the sum for the element (i, j) after k subtractions. *)
Theorem C126_chol_float_structure : forall (Tin To Ti : Type) (ar : flt_arith Tin To Ti) M A,
  exists out L (s : nat -> nat -> nat -> Ti), chol_flt ar M A = Some out /\
  (forall i j, (j <= i < M)%nat -> s i j O = fa_in ar (A i j) /\ forall k, (k < j)%nat -> s i j (S k) = fa_sub ar (s i j k) (L i k) (L j k)) /\
  (forall j, (j < M)%nat -> L j j = fa_root ar (s j j j)) /\
  (forall i j, (j < i < M)%nat -> L i j = fa_mul ar (fa_recip ar (s j j j) (L j j)) (s i j j)) /\
  (forall i j, (i < j < M)%nat -> out i j = Some (fa_zero ar)) /\
  ((forall j, (j < M)%nat -> fa_pos ar (s j j j) = true) -> forall i j, (j <= i < M)%nat -> out i j = Some (L i j)) /\
  (forall k, (k < M)%nat -> fa_pos ar (s k k k) = false -> forall i j, (i < M)%nat -> (j < M)%nat -> out i j = Some (fa_zero ar)).
Proof. exact @chol_flt_struct. Qed.
Print Assumptions C126_chol_float_structure.
(** In rational arithmetic with whole roots. *)
Definition rat_arith : flt_arith Z Q Q :=
  Build_flt_arith Z Q Q inject_Z (fun s x y => Qred (s - x * y)) (fun s => (0 <? Qnum s)%Z) (fun s => Z.sqrt (Qnum s) # Pos.sqrt (Qden s)) (fun _ d => Qinv d) (fun r s => Qred (r * s)) 0%Q.
Definition rat3 (d : Z) (i j : nat) : Z := nth j (nth i [[4; 2; 8]; [2; 10; 7]; [8; 7; d]]%Z []) 0%Z.
Example C126_case : match chol_flt rat_arith 3 (rat3 42) with
  | Some out => map (fun i => map (out i) (seq 0 3)) (seq 0 3) = map (map Some) [[2; 0; 0]; [1; 3; 0]; [4; 1; 5]]%Q
  | None => False end.
Proof. vm_compute; reflexivity. Qed.
Example C126_not_positive : match chol_flt rat_arith 3 (rat3 17) with
  | Some out => map (fun i => map (out i) (seq 0 3)) (seq 0 3) = map (map Some) [[0; 0; 0]; [0; 0; 0]; [0; 0; 0]]%Q
  | None => False end.
Proof. vm_compute; reflexivity. Qed.

(** ** C127 *)
(** u bounds the relative errors of the additions and products that the run performs, e those of its roots and reciprocals. *)
Theorem C127_chol_float_reconstruction : forall (Tin To Ti : Type) (ar : flt_arith Tin To Ti) M A,
  exists out L (s : nat -> nat -> nat -> Ti), chol_flt ar M A = Some out /\
  (forall i j, (j <= i < M)%nat -> s i j O = fa_in ar (A i j) /\ forall k, (k < j)%nat -> s i j (S k) = fa_sub ar (s i j k) (L i k) (L j k)) /\
  ((forall j, (j < M)%nat -> fa_pos ar (s j j j) = true) -> forall vin vo vi u e, (0 <= u <= 1)%R -> (0 <= e <= 1)%R -> accurate ar vin vo vi u e M A L s ->
   forall i j, (j <= i < M)%nat -> out i j = Some (L i j) /\
     (Rabs (vin (A i j) - sumR (fun k => vo (L i k) * vo (L j k)) (S j)) <=
       ((1 + u) ^ (j + 2) * ((1 + e) * (1 + e)) - 1) * (Rabs (vin (A i j)) + sumR (fun k => Rabs (vo (L i k) * vo (L j k))) j))%R).
Proof. exact @chol_flt_final. Qed.
Print Assumptions C127_chol_float_reconstruction.
(** The same in terms of the diagonal of the input alone. *)
Theorem C127_chol_float_backward : forall (Tin To Ti : Type) (ar : flt_arith Tin To Ti) M A,
  exists out L (s : nat -> nat -> nat -> Ti), chol_flt ar M A = Some out /\
  (forall i j, (j <= i < M)%nat -> s i j O = fa_in ar (A i j) /\ forall k, (k < j)%nat -> s i j (S k) = fa_sub ar (s i j k) (L i k) (L j k)) /\
  ((forall j, (j < M)%nat -> fa_pos ar (s j j j) = true) -> forall vin vo vi u e, (0 <= u <= 1)%R -> (0 <= e <= 1)%R -> accurate ar vin vo vi u e M A L s ->
   let g := ((1 + u) ^ (M + 1) * ((1 + e) * (1 + e)) - 1)%R in (g < 1)%R ->
   forall i j, (j <= i < M)%nat -> out i j = Some (L i j) /\
     (Rabs (vin (A i j) - sumR (fun k => vo (L i k) * vo (L j k)) (S j)) <=
       g * (Rabs (vin (A i j)) + (1 + g) / (1 - g) * sqrt (Rabs (vin (A i i)) * Rabs (vin (A j j)))))%R).
Proof. exact @chol_flt_back. Qed.
Print Assumptions C127_chol_float_backward.
(** An arithmetic whose results are too small by the factors 1 - u and 1 - e is accurate in this sense. *)
Example C127_accurate : forall u e M A L s, (0 <= u)%R -> (0 <= e)%R -> accurate (low_arith u e) (fun x => x) (fun x => x) (fun x => x) u e M A L s.
Proof. exact low_accurate. Qed.

(** ** C129 *)
(** b bounds the elements.  A matrix whose quadratic form exceeds rho times the squared 1-norm is factored; one whose form is below minus that is rejected. *)
Theorem C129_chol_float_definite : forall (Tin To Ti : Type) (ar : flt_arith Tin To Ti) M A,
  exists out L (s : nat -> nat -> nat -> Ti), chol_flt ar M A = Some out /\
  (forall i j, (j <= i < M)%nat -> s i j O = fa_in ar (A i j) /\ forall k, (k < j)%nat -> s i j (S k) = fa_sub ar (s i j k) (L i k) (L j k)) /\
  (forall j, (j < M)%nat -> L j j = fa_root ar (s j j j)) /\
  (forall i j, (j < i < M)%nat -> L i j = fa_mul ar (fa_recip ar (s j j j) (L j j)) (s i j j)) /\
  forall vin vo vi u e b, (0 <= u <= 1)%R -> (0 <= e <= 1)%R -> accurate ar vin vo vi u e M A L s ->
  (forall i j, (i < M)%nat -> (j < M)%nat -> vin (A i j) = vin (A j i) /\ (Rabs (vin (A i j)) <= b)%R) ->
  let g := ((1 + u) ^ (M + 1) * ((1 + e) * (1 + e)) - 1)%R in (g < 1)%R -> let rho := (2 * g / (1 - g) * b)%R in
  ((forall x, (exists i, (i < M)%nat /\ x i <> 0%R) -> (rho * norm1sq x M < quadR (fun i j => vin (A i j)) x M)%R) ->
   forall i j, (j <= i < M)%nat -> out i j = Some (L i j) /\ (0 < vo (L j j))%R /\ (Rabs (vin (A i j) - sumR (fun k => vo (L i k) * vo (L j k)) (S j)) <= rho)%R) /\
  ((exists x, (quadR (fun i j => vin (A i j)) x M < - (rho * norm1sq x M))%R) -> forall i j, (i < M)%nat -> (j < M)%nat -> out i j = Some (fa_zero ar)).
Proof. exact @chol_flt_pd. Qed.
Print Assumptions C129_chol_float_definite.
(** Both conditions are met with errors of a thousandth: by the unit matrix and by diag (1, -1). *)
Example C129_conditions : (let g := (1 + / 1000) ^ (2 + 1) * ((1 + / 1000) * (1 + / 1000)) - 1 in let rho := 2 * g / (1 - g) * 1 in g < 1 /\
  (forall x, (exists i, (i < 2)%nat /\ x i <> 0) -> rho * norm1sq x 2 < quadR (diag2 1) x 2) /\ exists x, quadR (diag2 (-1)) x 2 < - (rho * norm1sq x 2))%R.
Proof. exact pd_conditions. Qed.
