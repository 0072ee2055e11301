(** Properties C30 and C31: the ac_float adder trees. *)
From Coq Require Import Lia.
From Verif Require Import AcTypes Spec SpecFloat AddTreeModel AddTreeProofs.

(** C30: the accumulated pair (M, E) that is converted to the output is never above the exact sum, and below it by at
    most one unit less than 2^emax (in accumulator units of 2^-X) per addition; emax bounds the exponents of the
    non-zero inputs and c is any common lower bound, used as the unit. *)
Theorem C30_add_tree : forall WE IE EE X use_sl f xs, 1 <= WE -> 1 <= EE <= 31 -> 0 <= X -> 1 <= fW f -> xs <> [] -> Forall (valid_flt WE EE) xs ->
  exists M E, converts2 f M (E - (WE - IE + X)) (add_tree_fx WE IE EE X use_sl f xs) /\ In E (map snd xs) /\
    forall c emax, Forall (fun x => c <= snd x) xs -> Forall (fun x => fst x <> 0 -> snd x <= emax) xs -> c <= emax ->
      M * 2 ^ (E - c) <= 2 ^ X * fsum c xs <= M * 2 ^ (E - c) + (Z.of_nat (length xs) - 1) * (2 ^ (emax - c) - 1).
Proof. exact add_tree_fx_ok. Qed.
Print Assumptions C30_add_tree.
(** The result mantissa type never overflows and the core result, also what the ac_float overload normalises, obeys the
    same bounds. *)
Theorem C30_add_core : forall WE IE EE X xs, 1 <= WE -> 1 <= EE <= 31 -> 0 <= X -> xs <> [] -> Forall (valid_flt WE EE) xs ->
  let '(M, E) := add_r (length xs) WE IE X xs in
  let n := Z.of_nat (length xs) in
  In E (map snd xs) /\ - 2 ^ (WE + Z.log2_up n + X - 1) <= M < 2 ^ (WE + Z.log2_up n + X - 1) /\
  forall c emax, Forall (fun x => c <= snd x) xs -> Forall (fun x => fst x <> 0 -> snd x <= emax) xs -> c <= emax ->
    M * 2 ^ (E - c) <= 2 ^ X * fsum c xs <= M * 2 ^ (E - c) + (n - 1) * (2 ^ (emax - c) - 1).
Proof. exact add_core_ok. Qed.
Print Assumptions C30_add_core.
(** Equal exponents (zeros may have larger ones): the exact sum, converted once to the output format. *)
Theorem C30_same_exponent : forall WE IE EE X use_sl f xs e, 1 <= WE -> 1 <= EE <= 31 -> 0 <= X -> 1 <= fW f -> xs <> [] -> Forall (valid_flt WE EE) xs ->
  Forall (fun x => fst x <> 0 -> snd x = e) xs -> Forall (fun x => e <= snd x) xs ->
  converts2 f (fold_right Z.add 0 (map fst xs)) (e - (WE - IE)) (add_tree_fx WE IE EE X use_sl f xs).
Proof. exact add_tree_fx_same_exp. Qed.
Print Assumptions C30_same_exponent.
Example C30_case : let xs := [(5, 2); (-7, 0); (3, -1); (0, 7); (6, 2)] in
  fsum (-1) xs = 77 /\ add_r 5 4 2 0 xs = (9, 2) /\ add_r 5 4 2 3 xs = (77, 2) /\
  add_tree_fx 4 2 8 3 true (Fmt 16 8 true TRN SAT) xs = 2464 /\ add_tree_fx 4 2 8 3 false (Fmt 16 8 true TRN SAT) xs = 2464.
Proof. vm_compute. repeat split; reflexivity. Qed.

(** C31 *)
Theorem C31_block_add_tree : forall WE IE EE X ZH use_sl f xs, 1 <= WE -> 2 <= EE <= 31 -> 0 <= X -> 1 <= fW f -> xs <> [] -> Forall (valid_flt WE EE) xs ->
  exists M E, converts2 f M (E - (WE - IE + X)) (block_add_tree_fx WE IE EE X ZH use_sl f xs) /\
    (forall x, In x xs -> fst x <> 0 -> snd x <= E) /\
    forall c emax, Forall (fun x => c <= snd x) xs -> Forall (fun x => fst x <> 0 \/ ZH = false -> snd x <= emax) xs -> c <= emax ->
      M * 2 ^ (E - c) <= 2 ^ X * fsum c xs <= M * 2 ^ (E - c) + (Z.of_nat (length xs) - 1) * (2 ^ (emax - c) - 1).
Proof. exact block_add_tree_fx_ok. Qed.
Print Assumptions C31_block_add_tree.
Example C31_case : let xs := [(5, 2); (-7, 0); (3, -1); (0, 7); (6, 2)] in
  block_add_core 4 2 8 0 true xs = (9, 2) /\ block_add_core 4 2 8 0 false xs = (-1, 7) /\ block_add_core 4 2 8 3 true xs = (77, 2) /\
  block_add_tree_fx 4 2 8 3 true true (Fmt 16 8 true TRN SAT) xs = 2464.
Proof. vm_compute. repeat split; reflexivity. Qed.
