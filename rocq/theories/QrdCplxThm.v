(** Error of the complex ac_qrd. *)
From Coq Require Import Reals Lia Lra Psatz.
From Verif Require Import AcTypes AcFacts Spec SpecFacts SpecR SpecRFacts SpecLin SpecCplx SpecQrC RtTypes MatrixModel MatrixProofs
  MatCplxModel SoftFacts CholModel CholProofs CholReal CholThm CholCplxModel CholInvCplxModel QrdProofs QrdThm QrdCplxModel QrdCplx QrdCplxRun.
Local Open Scope R_scope.

Local Notation eta := (bpow2 (- (32))).
Local Notation v m := (fxval m 32).
Local Notation re x := (fxval (fst x) 32).
Local Notation im x := (fxval (snd x) 32).
Notation cmat := (nat -> nat -> gi).

(** The pair of elements turned by each rotation has length at least nu, in the matrix that the rotation finds. *)
Definition cqr_pivots (pwl : bool) (M : nat) (fa : fmt) (mI : Z) (A : cmat) (junk : Z) (nu : R) : Prop :=
  let t := cqr_fmt (Z.of_nat M) (fI fa) in
  forall l1 row col l2 X, qr_order M = l1 ++ (row, col) :: l2 ->
    fold_left (cqr_step pwl M t mI junk) l1 (Some (cqr_init M fa t A)) = Some X ->
    nu * nu <= csq (X (row - 1)%nat col) + csq (X row col).
(** The bottom right element has magnitude at least nu after the rotations. *)
Definition cqr_corner (pwl : bool) (M : nat) (fa : fmt) (mI : Z) (A : cmat) (junk : Z) (nu : R) : Prop :=
  let t := cqr_fmt (Z.of_nat M) (fI fa) in
  forall X, fold_left (cqr_step pwl M t mI junk) (qr_order M) (Some (cqr_init M fa t A)) = Some X -> nu * nu <= csq (X (M - 1)%nat (M - 1)%nat).

Lemma even_mul M : (2 * (M * (M - 1) / 2) = M * (M - 1))%Z.
Proof. symmetry. apply Z_div_exact_2; [lia|]. destruct (Z.Even_or_Odd M) as [[k ->]|[k ->]]; [replace (2 * k * (2 * k - 1))%Z with ((k * (2 * k - 1)) * 2)%Z by ring|replace ((2 * k + 1) * (2 * k + 1 - 1))%Z with (((2 * k + 1) * k) * 2)%Z by ring]; apply Z_mod_mult. Qed.

Lemma order_diag M l1 r c l2 k : qr_order M = l1 ++ (r, c) :: l2 -> done l1 (S k) k = true -> (k < r - 1)%nat.
Proof.
  intros E D. apply (done_order M l1 r c l2) in D; [|exact E]. destruct D as [D B]. assert (IN : In (r, c) (qr_order M)) by (rewrite E; apply in_or_app; right; left; reflexivity).
  apply order_in in IN. unfold before in B. cbn [fst snd] in B. lia.
Qed.

Lemma part_le x b : 0 <= b -> csq x <= b * b -> Rabs (re x) <= b /\ Rabs (im x) <= b.
Proof. intros Hb H. unfold csq in H. pose proof (Rle_0_sqr (re x)). pose proof (Rle_0_sqr (im x)). unfold Rsqr in *. split; apply Rabs_le; split; nra. Qed.

Section Final.
Variables (pwl : bool) (M : nat) (fa fo : fmt) (mI : Z) (A : cmat) (junk : Z) (lam nu : R).
Hypothesis T : cqr_types pwl M fa fo mI lam nu.
Let are i j := fxval (fst (A i j)) (fF fa).
Let aim i j := fxval (snd (A i j)) (fF fa).
Hypothesis Hcol : forall j, (j < M)%nat -> sumR (fun i => are i j * are i j + aim i j * aim i j) M <= lam * lam.
Hypothesis Hpiv : cqr_pivots pwl M fa mI A junk nu.
Let t := cqr_fmt (Z.of_nat M) (fI fa).
Let n := (M * (M - 1) / 2)%nat.
Let X0 := cqr_init M fa t A.
Let u := bpow2 (- fF fo).

Lemma c_It : fI t = (fI fa + Z.log2_up (Z.of_nat M * (Z.of_nat M - 1) + 1))%Z. Proof. unfold t, cqr_fmt. cbn [fI]. rewrite even_mul. reflexivity. Qed.
Lemma c_f : fF t = 32%Z. Proof. unfold t, cqr_fmt, fF. cbn [fW fI]. lia. Qed.
Lemma c_shape : exists I, t = Fmt (I + 32) I true RND SAT. Proof. eexists. reflexivity. Qed.
Lemma c_l2 : 2 * lam <= bpow2 (fI t - 1) - eta. Proof. rewrite c_It. exact (ct_l2 _ _ _ _ _ _ _ T). Qed.
Lemma c_mI : (2 * fI t - 1 <= mI <= 2 * fI t)%Z. Proof. rewrite c_It. exact (ct_mI _ _ _ _ _ _ _ T). Qed.
Lemma cn_pos : (1 <= n)%nat.
Proof. pose proof (ct_m _ _ _ _ _ _ _ T). unfold n. apply Nat.div_le_lower_bound; [lia|]. destruct M as [|[|m]]; [lia|lia|]. nia. Qed.
Lemma cnu_ok : 0 < nu <= 1. Proof. pose proof (ct_nu _ _ _ _ _ _ _ T). pose proof (bpow2_pos (-14)). lra. Qed.
Lemma cnu_eta : eta <= nu * nu / 16.
Proof. pose proof (proj1 (ct_nu _ _ _ _ _ _ _ T)) as H. replace eta with (bpow2 (-14) * bpow2 (-14) / 16). - pose proof (bpow2_pos (-14)). nra. - rewrite <- bpow2_add. replace (- (32))%Z with (-14 + -14 + - (4))%Z by lia. rewrite (bpow2_add (-14 + -14)), (bpow2_opp 4), (bpow2_IZR 4) by lia. reflexivity. Qed.
Lemma cnu2_pos : 0 < nu * nu. Proof. pose proof cnu_ok. nra. Qed.
Lemma ceps_parts : 0 <= eta / (nu * nu) /\ 0 <= lam * eta.
Proof. pose proof cnu2_pos. pose proof eta_1. pose proof (ct_l1 _ _ _ _ _ _ _ T). split; [apply Rmult_le_pos; [lra|left; apply Rinv_0_lt_compat; assumption]|apply Rmult_le_pos; lra]. Qed.
Lemma cn_eps : INR n * cqr_eps pwl lam nu <= 3 / 10. Proof. exact (ct_n _ _ _ _ _ _ _ T). Qed.
Lemma pe_pos : 0 <= pwl_err pwl <= / 600. Proof. unfold pwl_err. case_eq pwl; intros; lra. Qed.
Lemma ceps_nonneg : 0 <= cqr_eps pwl lam nu. Proof. pose proof pe_pos. pose proof ceps_parts. pose proof eta_1. unfold cqr_eps. change (bpow2 (-32)) with eta. lra. Qed.
Lemma ceps_1 : cqr_eps pwl lam nu <= INR n * cqr_eps pwl lam nu.
Proof. pose proof (le_INR 1 n cn_pos) as Hn. cbn [INR] in Hn. pose proof ceps_nonneg. nra. Qed.
Lemma clam_eta : lam * eta <= / 32.
Proof. pose proof pe_pos as HP. pose proof cn_eps as H. pose proof ceps_1. pose proof ceps_parts. pose proof eta_1. unfold cqr_eps in *. change (bpow2 (-32)) with eta in *. lra. Qed.

(** The initial matrix. *)
Lemma ccol_entry i j : (i < M)%nat -> (j < M)%nat -> Rabs (are i j) <= lam /\ Rabs (aim i j) <= lam.
Proof.
  intros Hi Hj. pose proof (ct_l1 _ _ _ _ _ _ _ T). pose proof (sumR_entry (fun i => are i j * are i j + aim i j * aim i j) M i ltac:(intros; cbv beta; nra) Hi) as H1. cbv beta in H1. specialize (Hcol j Hj).
  pose proof (Rle_0_sqr (are i j)). pose proof (Rle_0_sqr (aim i j)). unfold Rsqr in *. split; apply Rabs_le; split; nra.
Qed.
Lemma c_room V : Rabs V <= 2 * lam -> Rabs V <= bpow2 (fI t - 1) - bpow2 (- fF t).
Proof. intros H. pose proof c_l2. rewrite c_f. lra. Qed.
Lemma c_w : (1 <= fW t)%Z.
Proof.
  pose proof c_l2 as H. pose proof (ct_l1 _ _ _ _ _ _ _ T). pose proof eta_1. destruct (Z.lt_ge_cases (fI t - 1) 1) as [L|L].
  - pose proof (bpow2_le (fI t - 1) 0 ltac:(lia)) as B. rewrite bpow2_0 in B. lra.
  - pose proof c_f as F. unfold fF in F. lia.
Qed.
Lemma c_exact z F V : fxval z 32 = V -> Rabs V <= 2 * lam -> forall x, fxval x F = V -> v (conv t x F) = V.
Proof.
  intros E B x Ex. rewrite (conv_exact t x F z); [exact E|apply c_w|discriminate|rewrite c_f, Ex; symmetry; exact E|]. apply range_of; [reflexivity|apply c_w|]. apply c_room. rewrite c_f, E. exact B.
Qed.
Lemma c_lift x : Rabs (fxval x (fF fa)) <= lam -> v (conv t x (fF fa)) = fxval x (fF fa).
Proof.
  intros B. pose proof (ct_fa _ _ _ _ _ _ _ T) as HF. pose proof (ct_l1 _ _ _ _ _ _ _ T). apply (c_exact (x * 2 ^ (32 - fF fa))); [|lra|reflexivity]. rewrite <- (fxval_shift x (fF fa) (32 - fF fa)) by lia. f_equal. lia.
Qed.
Lemma cx0_a i j : (i < M)%nat -> (j < M)%nat -> re (X0 i j) = are i j /\ im (X0 i j) = aim i j.
Proof.
  intros Hi Hj. unfold X0, cqr_init, c_conv. destruct (Nat.ltb_spec j M); [|lia]. cbn [fst snd]. destruct (ccol_entry i j Hi Hj) as [B1 B2]. split; apply c_lift; assumption.
Qed.
Lemma cx0_e p i : (p < M)%nat -> (i < M)%nat -> re (X0 p (M + i)%nat) = (if Nat.eqb p i then 1 else 0) /\ im (X0 p (M + i)%nat) = 0.
Proof.
  intros Hp Hi. unfold X0, cqr_init, c_conv. destruct (Nat.ltb_spec (M + i) M); [lia|]. replace (M + i - M)%nat with i by lia. rewrite Nat.eqb_sym. cbn [fst snd].
  pose proof (ct_l1 _ _ _ _ _ _ _ T). split.
  - apply (c_exact (if Nat.eqb p i then 2 ^ 32 else 0)%Z); destruct (Nat.eqb p i); try apply fxval_0; try (apply fxval_one; lia); try (exact (fxval_one 0 ltac:(lia))); rewrite ?Rabs_R1, ?Rabs_R0; lra.
  - apply (c_exact 0%Z); try apply fxval_0. rewrite Rabs_R0. lra.
Qed.
Lemma cx0_cols j : (j < 2 * M)%nat -> ccolsq M X0 j <= lj M lam j * lj M lam j.
Proof.
  intros Hj. unfold ccolsq, csq, lj. destruct (Nat.ltb_spec j M) as [L|L].
  - rewrite (sumR_ext _ (fun i => are i j * are i j + aim i j * aim i j)); [apply Hcol, L|]. intros k Hk. destruct (cx0_a k j Hk L) as [-> ->]. reflexivity.
  - right. rewrite (sumR_ext _ (fun p => (if Nat.eqb p (j - M) then 1 else 0) * 1)).
    + rewrite (sumR_delta M (fun _ => 1)) by lia. ring.
    + intros p Hp. replace j with (M + (j - M))%nat at 1 2 3 4 by lia. destruct (cx0_e p (j - M) Hp ltac:(lia)) as [-> ->]. destruct (Nat.eqb p (j - M)); ring.
Qed.
Lemma cx0_lr i j : (i < M)%nat -> (j < M)%nat -> lrR M X0 i j = are i j /\ lrI M X0 i j = aim i j.
Proof.
  intros Hi Hj. unfold lrR, lrI. split.
  - rewrite (sumR_ext _ (fun p => (if Nat.eqb p i then 1 else 0) * are p j)); [apply (sumR_delta M (fun p => are p j) i Hi)|].
    intros p Hp. unfold pR. destruct (cx0_e p i Hp Hi) as [-> ->]. destruct (cx0_a p j Hp Hj) as [-> ->]. ring.
  - rewrite (sumR_ext _ (fun p => (if Nat.eqb p i then 1 else 0) * aim p j)); [apply (sumR_delta M (fun p => aim p j) i Hi)|].
    intros p Hp. unfold pI. destruct (cx0_e p i Hp Hi) as [-> ->]. destruct (cx0_a p j Hp Hj) as [-> ->]. ring.
Qed.
Lemma cx0_ll i j : (i < M)%nat -> (j < M)%nat -> llR M X0 i j = (if Nat.eqb i j then 1 else 0) /\ llI M X0 i j = 0.
Proof.
  intros Hi Hj. unfold llR, llI. split.
  - rewrite (sumR_ext _ (fun p => (if Nat.eqb p i then 1 else 0) * (if Nat.eqb p j then 1 else 0))); [apply (sumR_delta M (fun p => if Nat.eqb p j then 1 else 0) i Hi)|].
    intros p Hp. unfold hR. destruct (cx0_e p i Hp Hi) as [-> ->]. destruct (cx0_e p j Hp Hj) as [-> ->]. ring.
  - rewrite (sumR_ext _ (fun _ => 0)); [apply sumR_0|]. intros p Hp. unfold hI. destruct (cx0_e p i Hp Hi) as [-> ->]. destruct (cx0_e p j Hp Hj) as [-> ->]. ring.
Qed.

(** The matrix after the rotations. *)
Lemma cfinal_x : exists X, fold_left (cqr_step pwl M t mI junk) (qr_order M) (Some X0) = Some X /\
  (forall p j, (p < M)%nat -> (j < M)%nat -> csq (X p j) <= 3 * (lam * lam) /\ csq (X p (M + j)%nat) <= 3) /\
  (forall i j, (i < M)%nat -> (j < M)%nat -> (Rabs (lrR M X i j - are i j) <= 6 * lam * (INR n * cqr_eps pwl lam nu) /\ Rabs (lrI M X i j - aim i j) <= 6 * lam * (INR n * cqr_eps pwl lam nu)) /\
     (Rabs (llR M X i j - (if Nat.eqb i j then 1 else 0)) <= 6 * (INR n * cqr_eps pwl lam nu) /\ Rabs (llI M X i j) <= 6 * (INR n * cqr_eps pwl lam nu))) /\
  (forall i j, (j < i < M)%nat -> csq (X i j) <= 21 * INR n * lam * eta * (21 * INR n * lam * eta)) /\
  (forall i, (S i < M)%nat -> Rabs (im (X i i)) <= 9 * lam * eta).
Proof.
  pose proof (ct_l1 _ _ _ _ _ _ _ T) as HL. pose proof eta_1 as E1. pose proof (le_INR 1 n cn_pos) as HN. cbn [INR] in HN. pose proof cn_eps as NE. pose proof ceps_nonneg as EN. pose proof ceps_parts as [EPa EPb]. pose proof pe_pos as PE0'.
  set (d := / (3 * INR n)). assert (Hd : 0 < d) by (apply Rinv_0_lt_compat; lra).
  pose proof (pow_bound (cqr_eps pwl lam nu) n EN ltac:(lra)) as PB.
  assert (LEN : length (qr_order M) = n) by apply order_len.
  destruct (crun_ok pwl M t mI lam nu junk c_shape c_mI HL c_l2 clam_eta cnu_ok cnu_eta (proj1 (ct_nu _ _ _ _ _ _ _ T)) X0 cx0_cols d (qr_order M) Hd) as (X & EX & (I1 & I2 & I3) & SX & DX).
  - intros r c H. apply order_in in H. lia.
  - rewrite LEN. change (pwl_err pwl + 7 * (eta / (nu * nu)) + 14 * (lam * eta) + 4 * eta) with (cqr_eps pwl lam nu). lra.
  - intros l1 r c l2 E. exact (order_done M l1 r c l2 E).
  - intros l1 r c l2 k E. exact (order_diag M l1 r c l2 k E).
  - exact Hpiv.
  - rewrite LEN in *. change (pwl_err pwl + 7 * (eta / (nu * nu)) + 14 * (lam * eta) + 4 * eta) with (cqr_eps pwl lam nu) in *. set (g := (1 + cqr_eps pwl lam nu) ^ n) in *.
    exists X. split; [exact EX|]. split; [|split; [|split]].
    + intros p j Hp Hj. assert (K : forall j, (j < 2 * M)%nat -> csq (X p j) <= 3 * (lj M lam j * lj M lam j)).
      { intros k Hk. specialize (I1 k Hk). pose proof (lj_ok M lam HL k) as LJ. pose proof (sumR_entry (fun p => csq (X p k)) M p ltac:(intros; apply csq_nonneg) Hp) as S1. cbv beta in S1. fold (ccolsq M X k) in S1.
        assert (1 <= lj M lam k * lj M lam k) by nra. assert (g * (4 * (lj M lam k * lj M lam k)) <= 3 / 2 * (4 * (lj M lam k * lj M lam k))) by (apply Rmult_le_compat_r; lra). lra. }
      split.
      * specialize (K j ltac:(lia)). unfold lj in K. destruct (Nat.ltb_spec j M); [exact K|lia].
      * specialize (K (M + j)%nat ltac:(lia)). unfold lj in K. destruct (Nat.ltb_spec (M + j) M); [lia|lra].
    + intros i j Hi Hj. destruct (I2 i j Hi Hj) as [I2a I2b]. destruct (I3 i j Hi Hj) as [I3a I3b]. destruct (cx0_lr i j Hi Hj) as [L1 L2]. destruct (cx0_ll i j Hi Hj) as [L3 L4]. rewrite L1 in I2a. rewrite L2 in I2b. rewrite L3 in I3a. rewrite L4, Rminus_0_r in I3b.
      assert (lam * (g - 1) <= lam * (3 / 2 * (INR n * cqr_eps pwl lam nu))) by (apply Rmult_le_compat_l; lra). split; split; (eapply Rle_trans; [eassumption|]); lra.
    + intros i j Hij. specialize (SX j ltac:(lia)). pose proof (sumR_entry (fun p => if done (qr_order M) p j then csq (X p j) else 0) M i ltac:(intros k; cbv beta; destruct (done _ k j); [apply csq_nonneg|lra]) ltac:(lia)) as S1. cbv beta in S1.
      rewrite (proj2 (done_in (qr_order M) i j) (proj2 (order_in M i j) Hij)) in S1. fold (csub M (qr_order M) X j) in S1.
      set (eps := pwl_err pwl + 7 * (eta / (nu * nu)) + 14 * (lam * eta)) in *. assert (E0 : 0 <= eps <= cqr_eps pwl lam nu) by (unfold eps, cqr_eps; change (bpow2 (-32)) with eta; lra).
      pose proof (pow_bound d n ltac:(lra) ltac:(right; unfold d; field; lra)) as PD. replace (INR n * d) with (/ 3) in PD by (unfold d; field; lra).
      assert (PE : (1 + eps) ^ n <= g) by (apply pow_incr; lra). assert (PE0 : 1 <= (1 + eps) ^ n) by (apply pow_R1_Rle; lra). rewrite Rpow_mult_distr in SX.
      assert (PP : (1 + d) ^ n * (1 + eps) ^ n <= 9 / 4). { apply Rle_trans with (3 / 2 * (3 / 2)); [|lra]. apply Rmult_le_compat; lra. }
      replace (/ d) with (3 * INR n) in SX by (unfold d; field; lra). assert (L2 : 1 <= lam * lam) by nra. set (N := INR n) in *. set (G := (1 + d) ^ n * (1 + eps) ^ n) in *.
      assert (EE : 0 <= eta * eta) by nra. assert (Q : 162 * (lam * lam) + 4 * (1 + 3 * N) <= 178 * (N * (lam * lam))) by nra.
      assert (Q2 : (162 * (lam * lam) + 4 * (1 + 3 * N)) * (eta * eta) <= 178 * (N * (lam * lam)) * (eta * eta)) by (apply Rmult_le_compat_r; assumption).
      assert (Q3 : N * ((162 * (lam * lam) + 4 * (1 + 3 * N)) * (eta * eta)) <= N * (178 * (N * (lam * lam)) * (eta * eta))) by (apply Rmult_le_compat_l; lra).
      assert (Q4 : 0 <= N * (178 * (N * (lam * lam)) * (eta * eta))). { apply Rmult_le_pos; [lra|]. apply Rmult_le_pos; [|exact EE]. apply Rmult_le_pos; [lra|]. apply Rmult_le_pos; lra. }
      assert (Q5 : G * (N * ((162 * (lam * lam) + 4 * (1 + 3 * N)) * (eta * eta))) <= 9 / 4 * (N * (178 * (N * (lam * lam)) * (eta * eta)))).
      { apply Rle_trans with (G * (N * (178 * (N * (lam * lam)) * (eta * eta)))); [apply Rmult_le_compat_l; [unfold G; apply Rmult_le_pos; lra|exact Q3]|apply Rmult_le_compat_r; assumption]. }
      set (z := N * lam * eta). replace (21 * N * lam * eta) with (21 * z) by (unfold z; ring).
      replace (9 / 4 * (N * (178 * (N * (lam * lam)) * (eta * eta)))) with (801 / 2 * (z * z)) in Q5 by (unfold z; field). pose proof (Rle_0_sqr z) as ZZ. unfold Rsqr in ZZ. lra.
    + intros i Hi. apply DX; [lia|]. apply done_in, order_in. lia.
Qed.

(** Rounding to the output. *)
Lemma cround (Q U Q' U' : nat -> nat -> R * R) :
  (forall i j, (i < M)%nat -> (j < M)%nat -> (Rabs (fst (Q i j)) <= 2 /\ Rabs (snd (Q i j)) <= 2) /\ (Rabs (fst (U i j)) <= 2 * lam /\ Rabs (snd (U i j)) <= 2 * lam)) ->
  (forall i j, (i < M)%nat -> (j < M)%nat -> (Rabs (fst (Q' i j) - fst (Q i j)) <= u /\ Rabs (snd (Q' i j) - snd (Q i j)) <= u) /\ (Rabs (fst (U' i j) - fst (U i j)) <= u /\ Rabs (snd (U' i j) - snd (U i j)) <= u)) ->
  let p1 (F : nat -> nat -> R * R) i j := fst (F i j) in let p2 (F : nat -> nat -> R * R) i j := snd (F i j) in
  forall i j, (i < M)%nat -> (j < M)%nat ->
    (Rabs (mulCr M (p1 Q') (p2 Q') (p1 U') (p2 U') i j - mulCr M (p1 Q) (p2 Q) (p1 U) (p2 U) i j) <= INR M * (2 * (u * (2 + 2 * lam + u))) /\
     Rabs (mulCi M (p1 Q') (p2 Q') (p1 U') (p2 U') i j - mulCi M (p1 Q) (p2 Q) (p1 U) (p2 U) i j) <= INR M * (2 * (u * (2 + 2 * lam + u)))) /\
    (Rabs (mulCr M (p1 Q') (p2 Q') (fun k j => p1 Q' j k) (fun k j => - p2 Q' j k) i j - mulCr M (p1 Q) (p2 Q) (fun k j => p1 Q j k) (fun k j => - p2 Q j k) i j) <= INR M * (2 * (u * (4 + u))) /\
     Rabs (mulCi M (p1 Q') (p2 Q') (fun k j => p1 Q' j k) (fun k j => - p2 Q' j k) i j - mulCi M (p1 Q) (p2 Q) (fun k j => p1 Q j k) (fun k j => - p2 Q j k) i j) <= INR M * (2 * (u * (4 + u)))).
Proof.
  intros HB HN p1 p2 i j Hi Hj. unfold mulCr, mulCi, p1, p2. split; split; apply sumR_abs; intros k Hk;
    destruct (HB i k Hi Hk) as ((B1 & B2) & _); destruct (HN i k Hi Hk) as ((N1 & N2) & _); destruct (HB k j Hk Hj) as (_ & (B3 & B4)); destruct (HN k j Hk Hj) as (_ & (N3 & N4));
    destruct (HB j k Hj Hk) as ((B5 & B6) & _); destruct (HN j k Hj Hk) as ((N5 & N6) & _).
  - pose proof (Rabs_le_both _ _ (prod_near _ _ _ _ _ _ _ B1 B3 N1 N3)). pose proof (Rabs_le_both _ _ (prod_near _ _ _ _ _ _ _ B2 B4 N2 N4)). apply Rabs_le. lra.
  - pose proof (Rabs_le_both _ _ (prod_near _ _ _ _ _ _ _ B1 B4 N1 N4)). pose proof (Rabs_le_both _ _ (prod_near _ _ _ _ _ _ _ B2 B3 N2 N3)). apply Rabs_le. lra.
  - pose proof (Rabs_le_both _ _ (prod_near _ _ _ _ _ _ _ B1 B5 N1 N5)). pose proof (Rabs_le_both _ _ (prod_near _ _ _ _ _ _ _ B2 B6 N2 N6)). apply Rabs_le. lra.
  - pose proof (Rabs_le_both _ _ (prod_near _ _ _ _ _ _ _ B1 B6 N1 N6)). pose proof (Rabs_le_both _ _ (prod_near _ _ _ _ _ _ _ B2 B5 N2 N5)). apply Rabs_le. lra.
Qed.

Lemma cout x F : Rabs (fxval x F) <= 2 * lam -> Rabs (fxval (conv fo x F) (fF fo) - fxval x F) <= u.
Proof.
  intros H. apply out_near; [exact (ct_so _ _ _ _ _ _ _ T)|exact (ct_wo _ _ _ _ _ _ _ T)|exact (ct_oo _ _ _ _ _ _ _ T)|]. eapply Rle_trans; [exact H|exact (ct_l3 _ _ _ _ _ _ _ T)].
Qed.
Lemma csmall x F : fQ fo <> TRN -> Rabs (fxval x F) < / 2 * u -> conv fo x F = 0%Z.
Proof. intros HQ H. apply (round_small 0 fa (fun _ _ => 0%Z) 0); [intros j Hj; inversion Hj|exact (ct_wo _ _ _ _ _ _ _ T)|exact HQ|exact H]. Qed.

Lemma cqrd_final : exists Q U, cqrd false pwl M fa fo mI A junk = Some (Q, U) /\
  qr_factorsC false M are aim (fun i j => fxval (fst (Q i j)) (fF fo)) (fun i j => fxval (snd (Q i j)) (fF fo)) (fun i j => fxval (fst (U i j)) (fF fo)) (fun i j => fxval (snd (U i j)) (fF fo))
    (6 * lam * (INR n * cqr_eps pwl lam nu) + INR M * (2 * (u * (2 + 2 * lam + u)))) (6 * (INR n * cqr_eps pwl lam nu) + INR M * (2 * (u * (4 + u)))) (21 * INR n * lam * eta + u) /\
  (42 * INR n * lam * eta < u -> fQ fo <> TRN -> (forall i j, (j < i < M)%nat -> U i j = (0%Z, 0%Z)) /\ (forall i, (S i < M)%nat -> snd (U i i) = 0%Z)).
Proof.
  destruct cfinal_x as (X & EX & HB & HP & HS & HD). pose proof (ct_l1 _ _ _ _ _ _ _ T) as HL. pose proof (bpow2_pos (- fF fo)) as U0. fold u in U0. pose proof eta_1 as E1.
  pose proof (le_INR 1 n cn_pos) as HN. cbn [INR] in HN. assert (LE : 0 <= lam * eta) by nra. assert (NE : lam * eta <= INR n * lam * eta) by nra. assert (Z0 : 0 <= 21 * INR n * lam * eta) by lra.
  assert (BP : forall p j, (p < M)%nat -> (j < M)%nat -> (Rabs (re (X p j)) <= 2 * lam /\ Rabs (im (X p j)) <= 2 * lam) /\ (Rabs (re (X p (M + j)%nat)) <= 2 /\ Rabs (im (X p (M + j)%nat)) <= 2)).
  { intros p j Hp Hj. destruct (HB p j Hp Hj) as [B1 B2]. split; apply part_le; [lra|nra|lra|lra]. }
  exists (fun i j => c_conv fo (X j (i + M)%nat) (fF t)), (fun i j => c_conv fo (X i j) (fF t)). split; [unfold cqrd; fold t X0; rewrite EX; reflexivity|]. rewrite c_f. unfold c_conv. cbn [fst snd].
  assert (NU : forall i j, (i < M)%nat -> (j < M)%nat -> Rabs (fxval (conv fo (fst (X i j)) 32) (fF fo) - re (X i j)) <= u /\ Rabs (fxval (conv fo (snd (X i j)) 32) (fF fo) - im (X i j)) <= u).
  { intros i j Hi Hj. destruct (BP i j Hi Hj) as ((B1 & B2) & _). split; apply cout; assumption. }
  assert (NQ : forall i j, (i < M)%nat -> (j < M)%nat -> Rabs (fxval (conv fo (fst (X j (i + M)%nat)) 32) (fF fo) - re (X j (M + i)%nat)) <= u /\ Rabs (fxval (conv fo (snd (X j (i + M)%nat)) 32) (fF fo) - im (X j (M + i)%nat)) <= u).
  { intros i j Hi Hj. rewrite (Nat.add_comm i M). destruct (BP j i Hj Hi) as (_ & (B1 & B2)). split; apply cout; lra. }
  pose proof (cround (fun i j => (re (X j (M + i)%nat), im (X j (M + i)%nat))) (fun i j => (re (X i j), im (X i j)))
    (fun i j => (fxval (conv fo (fst (X j (i + M)%nat)) 32) (fF fo), fxval (conv fo (snd (X j (i + M)%nat)) 32) (fF fo)))
    (fun i j => (fxval (conv fo (fst (X i j)) 32) (fF fo), fxval (conv fo (snd (X i j)) 32) (fF fo)))) as CR. cbv zeta in CR. cbn [fst snd] in CR.
  specialize (CR ltac:(intros i j Hi Hj; split; [apply (BP j i Hj Hi)|apply (BP i j Hi Hj)]) ltac:(intros i j Hi Hj; split; [apply NQ; assumption|apply NU; assumption])).
  split.
  - intros i j Hi Hj. destruct (HP i j Hi Hj) as ((P1 & P2) & (P3 & P4)). destruct (CR i j Hi Hj) as ((C1 & C2) & (C3 & C4)).
    change (mulCr M (fun i' j' => re (X j' (M + i')%nat)) (fun i' j' => im (X j' (M + i')%nat)) (fun i j => re (X i j)) (fun i j => im (X i j)) i j) with (lrR M X i j) in C1.
    change (mulCi M (fun i' j' => re (X j' (M + i')%nat)) (fun i' j' => im (X j' (M + i')%nat)) (fun i j => re (X i j)) (fun i j => im (X i j)) i j) with (lrI M X i j) in C2.
    replace (mulCr M (fun i' j' => re (X j' (M + i')%nat)) (fun i' j' => im (X j' (M + i')%nat)) (fun k j => re (X k (M + j)%nat)) (fun k j => - im (X k (M + j)%nat)) i j) with (llR M X i j) in C3 by (apply sumR_ext; intros; unfold hR; ring).
    replace (mulCi M (fun i' j' => re (X j' (M + i')%nat)) (fun i' j' => im (X j' (M + i')%nat)) (fun k j => re (X k (M + j)%nat)) (fun k j => - im (X k (M + j)%nat)) i j) with (llI M X i j) in C4 by (apply sumR_ext; intros; unfold hI; ring).
    apply Rabs_le_both in P1, P2, P3, P4, C1, C2, C3, C4.
    split; [split; apply Rabs_le; lra|]. split; [split; apply Rabs_le; lra|]. destruct (NU i j Hi Hj) as [N1 N2]. split.
    + intros Hij. destruct (part_le _ _ Z0 (HS i j ltac:(lia))) as [S1 S2]. apply Rabs_le_both in N1, N2, S1, S2. split; apply Rabs_le; lra.
    + intros [Hs|Hs]; [|discriminate Hs]. specialize (HD i Hs). destruct (NU i i Hi Hi) as [_ N3]. apply Rabs_le_both in HD, N3. apply Rabs_le. lra.
  - intros HU HQ. split.
    + intros i j Hij. destruct (part_le _ _ Z0 (HS i j ltac:(lia))) as [S1 S2]. f_equal; apply csmall; try assumption; lra.
    + intros i Hi. specialize (HD i Hi). apply csmall; [exact HQ|]. lra.
Qed.

(** The stage that makes the bottom right element real. *)
Lemma creal_ok br : nu * nu <= csq br -> csq br <= 3 * (lam * lam) -> exists m e, cqr_real pwl t mI junk br = Some (m, e) /\ 0 <= v m <= 2 * lam /\
  Rabs (csq e - 1) <= cqr_eps pwl lam nu /\ Rabs (re e * v m - re br) <= 4 * (lam * cqr_eps pwl lam nu) /\ Rabs (im e * v m - im br) <= 4 * (lam * cqr_eps pwl lam nu).
Proof.
  intros HB HB2. pose proof (ct_l1 _ _ _ _ _ _ _ T) as HL. pose proof eta_1 as E1. pose proof cnu_ok as NU. pose proof c_mI as HM. pose proof c_l2 as L2. pose proof (t_I t lam HL L2) as HI.
  set (z := sqrt (csq br)). assert (NN : z * z = csq br) by (apply sqrt_sqrt; nra). assert (NP : nu <= z) by (unfold z; rewrite <- (sqrt_square nu) by lra; apply sqrt_le_1_alt, HB).
  assert (NL : z <= 2 * lam) by (unfold z; rewrite <- (sqrt_square (2 * lam)) by lra; apply sqrt_le_1_alt; nra).
  assert (EF : fxval (c_mag_sqr br) (32 + 32) = csq br) by (unfold c_mag_sqr, csq; rewrite fxval_add, !fxval_mul; reflexivity).
  unfold cqr_real. cbv zeta. rewrite c_f. change (2 * 32)%Z with 64%Z. change (32 + 32)%Z with 64%Z in EF.
  assert (RM : in_range false (mI + 64) (c_mag_sqr br)).
  { unfold in_range, imin, imax. assert (0 <= c_mag_sqr br)%Z by (unfold c_mag_sqr; nia). split; [lia|]. cut (c_mag_sqr br < 2 ^ (mI + 64))%Z; [lia|]. apply lt_IZR. rewrite <- bpow2_IZR by lia.
    assert (P2 : bpow2 (fI t - 1) * bpow2 (fI t - 1) <= bpow2 mI) by (rewrite <- bpow2_add; apply bpow2_le; lia).
    assert (CL : csq br < bpow2 mI) by (assert (2 * lam * (2 * lam) < bpow2 (fI t - 1) * bpow2 (fI t - 1)) by nra; nra).
    unfold fxval in EF. rewrite bpow2_add. pose proof (bpow2_pos 64) as P64. replace (IZR (c_mag_sqr br)) with (csq br * bpow2 64).
    - apply Rmult_lt_compat_r; assumption.
    - rewrite <- EF, Rmult_assoc, <- bpow2_add. change (- (64) + 64)%Z with 0%Z. rewrite bpow2_0. ring. }
  assert (FQ : fxval (c_mag_sqr br) (mI + 64 - mI) = z * z) by (rewrite NN, <- EF; f_equal; lia).
  destruct (iroot_ok pwl t mI lam nu HM HL L2 clam_eta NU cnu_eta (proj1 (ct_nu _ _ _ _ _ _ _ T)) (mI + 64) junk (c_mag_sqr br) z ltac:(lia) RM (conj NP NL) ltac:(rewrite FQ; lra)) as (m & r & -> & -> & Mp & Mr & R0 & G1 & G2).
  pose proof pe_pos as PE. cbn [obind]. eexists. eexists. split; [reflexivity|].
  assert (ML : v m <= 2 * lam). { assert (z <= 175 / 100 * lam) by (apply Rnot_lt_le; intros L; assert (175 / 100 * lam * (175 / 100 * lam) < z * z) by (apply Rmult_le_0_lt_compat; lra); nra). assert ((1 + pwl_err pwl) * z <= (1 + / 600) * z) by (apply Rmult_le_compat_r; lra). lra. }
  split; [lra|]. unfold c_conv. cbn [fst snd]. change (32 + 32)%Z with 64%Z.
  unfold csq in NN.
  assert (NR : forall x, v x * v x <= z * z -> let e := conv (dfmt 34 2 true) (x * r) 64 in v e <= v x * v r < v e + eta).
  { intros x Hx e. assert (C := conv_R (dfmt 34 2 true) (x * r) 64 ltac:(unfold dfmt; cbn [fW]; lia)). fold e in C. change 64%Z with (32 + 32)%Z in C at 1. rewrite fxval_mul in C.
    assert (A1 : Rabs (v x) <= z) by (apply Rabs_le; nra). assert (A2 : Rabs (v x * v r) <= 12 / 10). { rewrite Rabs_mult, (Rabs_pos_eq (v r)) by lra. apply Rle_trans with (z * v r); [apply Rmult_le_compat_r; lra|lra]. }
    apply Rabs_le_both in A2. apply convR_dfmt in C; [|lia|].
    - change (34 - 2)%Z with 32%Z in C. apply C.
    - change (2 - 1)%Z with 1%Z. rewrite bpow2_1. lra. }
  pose proof (NR (fst br) ltac:(nra)) as N1. pose proof (NR (snd br) ltac:(nra)) as N2. cbv zeta in N1, N2. set (e1 := conv (dfmt 34 2 true) (fst br * r) 64) in *. set (e2 := conv (dfmt 34 2 true) (snd br * r) 64) in *.
  split; [|assert (K : forall x e, v x * v x <= z * z -> v e <= v x * v r < v e + eta -> Rabs (v e * v m - v x) <= 4 * (lam * cqr_eps pwl lam nu))].
  - destruct (coeff4 eta (re br) (im br) 0 0 (v r) (v e1) (v e2) 0 0 z (pwl_err pwl + 4 * (lam * eta)) (pwl_err pwl + 7 * (eta / (nu * nu))) lam) as (K1 & _); try lra.
    + rewrite eta_val. lra.
    + apply Rabs_le. lra.
    + apply Rabs_le. lra.
    + rewrite Ropp_0, Rmult_0_l, Rminus_0_r, Rabs_R0. lra.
    + rewrite Ropp_0, Rmult_0_l, Rminus_0_r, Rabs_R0. lra.
    + unfold csq. cbn [fst snd]. pose proof ceps_parts. assert (eta <= lam * eta) by (assert (1 * eta <= lam * eta) by (apply Rmult_le_compat_r; lra); lra). unfold cqr_eps. change (bpow2 (-32)) with eta. apply Rabs_le. lra.
  - intros x e Hx He. assert (A1 : Rabs (v x) <= 2 * lam) by (apply Rabs_le; nra).
    replace (v e * v m - v x) with (v x * (v r * v m - 1) - (v x * v r - v e) * v m) by ring.
    assert (T1 : Rabs (v x * (v r * v m - 1)) <= 2 * lam * (2 * pwl_err pwl + 3 * (lam * eta) + 2 * (eta / (nu * nu)))) by (rewrite Rabs_mult; apply Rmult_le_compat; try apply Rabs_pos; assumption).
    assert (T2 : 0 <= (v x * v r - v e) * v m <= eta * (2 * lam)) by (split; [apply Rmult_le_pos; lra|apply Rmult_le_compat; lra]).
    pose proof ceps_parts as [P1 P2]. assert (T3 : 2 * lam * (2 * pwl_err pwl + 3 * (lam * eta) + 2 * (eta / (nu * nu))) + eta * (2 * lam) <= 4 * (lam * cqr_eps pwl lam nu)).
    { replace (2 * lam * (2 * pwl_err pwl + 3 * (lam * eta) + 2 * (eta / (nu * nu))) + eta * (2 * lam)) with (lam * (4 * pwl_err pwl + 6 * (lam * eta) + 4 * (eta / (nu * nu)) + 2 * eta)) by ring.
      replace (4 * (lam * cqr_eps pwl lam nu)) with (lam * (4 * cqr_eps pwl lam nu)) by ring. apply Rmult_le_compat_l; [lra|]. unfold cqr_eps. change (bpow2 (-32)) with eta. lra. }
    apply Rabs_le_both in T1. apply Rabs_le. lra.
  - split; apply K; try assumption; nra.
Qed.

Lemma sumR_last f g m : (forall k, (k < m)%nat -> f k = g k) -> sumR f (S m) - sumR g (S m) = f m - g m.
Proof. intros H. cbn [sumR]. rewrite (sumR_ext f g m H). ring. Qed.
Lemma mul2_abs a b c d x y : Rabs a <= x -> Rabs b <= x -> Rabs c <= y -> Rabs d <= y -> Rabs (a * c - b * d) <= 2 * (x * y) /\ Rabs (a * d + b * c) <= 2 * (x * y) /\ Rabs (a * c + b * d) <= 2 * (x * y) /\ Rabs (b * c - a * d) <= 2 * (x * y).
Proof.
  intros Ha Hb Hc Hd. assert (P : forall p q, Rabs p <= x -> Rabs q <= y -> - (x * y) <= p * q <= x * y).
  { intros p q Hp Hq. apply Rabs_le_both. rewrite Rabs_mult. apply Rmult_le_compat; try apply Rabs_pos; assumption. }
  pose proof (P a c Ha Hc). pose proof (P b d Hb Hd). pose proof (P a d Ha Hd). pose proof (P b c Hb Hc). repeat split; apply Rabs_le; lra.
Qed.

Lemma near3 a b c d x y z w : Rabs (a - b) <= x -> Rabs (b - c) <= y -> Rabs (c - d) <= z -> z + y + x <= w -> Rabs (a - d) <= w.
Proof. intros H1 H2 H3 H. apply Rabs_le_both in H1, H2, H3. apply Rabs_le. lra. Qed.
Lemma near3' a b c x y z w : Rabs (a - b) <= x -> Rabs (b - c) <= y -> Rabs c <= z -> z + y + x <= w -> Rabs a <= w.
Proof. intros H1 H2 H3 H. apply Rabs_le_both in H1, H2, H3. apply Rabs_le. lra. Qed.

Lemma cqrd_real_final : cqr_corner pwl M fa mI A junk nu -> exists Q U, cqrd true pwl M fa fo mI A junk = Some (Q, U) /\
  qr_factorsC true M are aim (fun i j => fxval (fst (Q i j)) (fF fo)) (fun i j => fxval (snd (Q i j)) (fF fo)) (fun i j => fxval (fst (U i j)) (fF fo)) (fun i j => fxval (snd (U i j)) (fF fo))
    (36 * lam * (INR n * cqr_eps pwl lam nu) + INR M * (2 * (u * (2 + 2 * lam + u)))) (14 * (INR n * cqr_eps pwl lam nu) + INR M * (2 * (u * (4 + u)))) (21 * INR n * lam * eta + u) /\
  (42 * INR n * lam * eta < u -> fQ fo <> TRN -> (forall i j, (j < i < M)%nat -> U i j = (0%Z, 0%Z)) /\ (forall i, (i < M)%nat -> snd (U i i) = 0%Z)).
Proof.
  intros HC. destruct cfinal_x as (X & EX & HB & HP & HS & HD). pose proof (ct_l1 _ _ _ _ _ _ _ T) as HL. pose proof (bpow2_pos (- fF fo)) as U0. fold u in U0. pose proof eta_1 as E1.
  pose proof (le_INR 1 n cn_pos) as HN. cbn [INR] in HN. assert (LE : 0 <= lam * eta) by nra. assert (NE : lam * eta <= INR n * lam * eta) by nra. assert (Z0 : 0 <= 21 * INR n * lam * eta) by lra.
  pose proof (ct_m _ _ _ _ _ _ _ T) as HM. pose proof ceps_nonneg as EN. pose proof cn_eps as NE3. pose proof ceps_1 as NE1. pose proof ceps_parts as [EP1 EP2]. pose proof pe_pos as EP3.
  set (w := (M - 1)%nat) in *. assert (Hw : (w < M)%nat) by (unfold w; lia). assert (MS : M = S w) by (unfold w; lia).
  destruct (creal_ok (X w w) (HC X EX) (proj1 (HB w w Hw Hw))) as (m & e & ER & Hm & He & Hr1 & Hr2).
  assert (BP : forall p j, (p < M)%nat -> (j < M)%nat -> (Rabs (re (X p j)) <= 2 * lam /\ Rabs (im (X p j)) <= 2 * lam) /\ (Rabs (re (X p (M + j)%nat)) <= 2 /\ Rabs (im (X p (M + j)%nat)) <= 2)).
  { intros p j Hp Hj. destruct (HB p j Hp Hj) as [B1 B2]. split; apply part_le; [lra|nra|lra|lra]. }
  set (X' := cput X w w (conv t m 32, conv t 0 0)).
  assert (XQ : forall p i, X' p (i + M)%nat = X p (i + M)%nat). { intros p i. unfold X', cput. replace (Nat.eqb (i + M) w) with false by (symmetry; apply Nat.eqb_neq; unfold w; lia). rewrite andb_false_r. reflexivity. }
  exists (fun i j => if Nat.eqb j w then c_conv fo (c_mul (X' j (i + M)%nat) e) (fF t + 32) else c_conv fo (X' j (i + M)%nat) (fF t)), (fun i j => c_conv fo (X' i j) (fF t)).
  split; [unfold cqrd; fold t X0 w; rewrite EX; cbn [obind]; rewrite ER; reflexivity|]. rewrite c_f.
  assert (Xm : re (X' w w) = v m /\ im (X' w w) = 0).
  { unfold X', cput. rewrite !Nat.eqb_refl. cbn [andb fst snd]. split; [apply (c_exact m); [reflexivity|apply Rabs_le; lra|reflexivity]|apply (c_exact 0%Z); try apply fxval_0; rewrite Rabs_R0; lra]. }
  assert (XU : forall i j, i <> w \/ j <> w -> X' i j = X i j).
  { intros i j H. unfold X', cput. destruct (Nat.eqb_spec i w), (Nat.eqb_spec j w); cbn [andb]; try reflexivity. exfalso. destruct H; contradiction. }
  assert (EC : csq e <= 13 / 10) by (apply Rabs_le_both in He; lra). assert (EB : Rabs (re e) <= 12 / 10 /\ Rabs (im e) <= 12 / 10) by (apply part_le; lra).
  set (qh := fun i j => if Nat.eqb j w then (pR (X w (M + i)%nat) e, pI (X w (M + i)%nat) e) else (re (X j (M + i)%nat), im (X j (M + i)%nat))).
  set (uh := fun i j => (re (X' i j), im (X' i j))).
  assert (HBh : forall i j, (i < M)%nat -> (j < M)%nat -> (Rabs (fst (qh i j)) <= 2 /\ Rabs (snd (qh i j)) <= 2) /\ (Rabs (fst (uh i j)) <= 2 * lam /\ Rabs (snd (uh i j)) <= 2 * lam)).
  { intros i j Hi Hj. split.
    - unfold qh. destruct (Nat.eqb_spec j w); cbn [fst snd]; [|apply BP; assumption]. destruct (HB w i Hw Hi) as [_ B]. set (x := X w (M + i)%nat) in *.
      assert (E4 : pR x e * pR x e + pI x e * pI x e = csq x * csq e) by (unfold pR, pI, csq; ring). assert (csq x * csq e <= 3 * (13 / 10)) by (apply Rmult_le_compat; try apply csq_nonneg; assumption).
      pose proof (Rle_0_sqr (pR x e)). pose proof (Rle_0_sqr (pI x e)). unfold Rsqr in *. split; apply Rabs_le; split; nra.
    - unfold uh. cbn [fst snd]. destruct (Nat.eq_dec i w) as [->|Hi']; [destruct (Nat.eq_dec j w) as [->|Hj']|]; [|rewrite XU by tauto; apply BP; assumption|rewrite XU by tauto; apply BP; assumption].
      destruct Xm as [-> ->]. rewrite Rabs_R0. split; [apply Rabs_le; lra|lra]. }
  assert (NU : forall i j, (i < M)%nat -> (j < M)%nat -> Rabs (fxval (conv fo (fst (X' i j)) 32) (fF fo) - re (X' i j)) <= u /\ Rabs (fxval (conv fo (snd (X' i j)) 32) (fF fo) - im (X' i j)) <= u).
  { intros i j Hi Hj. destruct (HBh i j Hi Hj) as (_ & (B1 & B2)). split; apply cout; assumption. }
  set (Qo := fun i j => if Nat.eqb j w then c_conv fo (c_mul (X' j (i + M)%nat) e) (32 + 32) else c_conv fo (X' j (i + M)%nat) 32).
  assert (NQ : forall i j, (i < M)%nat -> (j < M)%nat -> Rabs (fxval (fst (Qo i j)) (fF fo) - fst (qh i j)) <= u /\ Rabs (fxval (snd (Qo i j)) (fF fo) - snd (qh i j)) <= u).
  { intros i j Hi Hj. destruct (HBh i j Hi Hj) as ((B1 & B2) & _). unfold Qo, qh in *. rewrite XQ, (Nat.add_comm i M). destruct (Nat.eqb_spec j w) as [->|]; cbn [fst snd] in *; unfold c_conv; cbn [fst snd]; [|split; apply cout; lra].
    assert (F1 : fxval (fst (c_mul (X w (M + i)%nat) e)) (32 + 32) = pR (X w (M + i)%nat) e) by (unfold c_mul, Z.sub, pR; cbn [fst]; rewrite fxval_add, fxval_opp, !fxval_mul; ring).
    assert (F2 : fxval (snd (c_mul (X w (M + i)%nat) e)) (32 + 32) = pI (X w (M + i)%nat) e) by (unfold c_mul, pI; cbn [snd]; rewrite fxval_add, !fxval_mul; ring).
    rewrite <- F1, <- F2 in *. split; apply cout; lra. }
  pose proof (cround qh uh (fun i j => (fxval (fst (Qo i j)) (fF fo), fxval (snd (Qo i j)) (fF fo))) (fun i j => (fxval (conv fo (fst (X' i j)) 32) (fF fo), fxval (conv fo (snd (X' i j)) 32) (fF fo))) HBh) as CR. cbv zeta in CR. cbn [fst snd] in CR.
  specialize (CR ltac:(intros i j Hi Hj; split; [apply NQ; assumption|apply NU; assumption])).
  assert (QO : forall i j, j <> w -> qh i j = (re (X j (M + i)%nat), im (X j (M + i)%nat))) by (intros i j Hj; unfold qh; destruct (Nat.eqb_spec j w); [contradiction|reflexivity]).
  assert (QW : forall i, qh i w = (pR (X w (M + i)%nat) e, pI (X w (M + i)%nat) e)) by (intros i; unfold qh; rewrite Nat.eqb_refl; reflexivity).
  (* the product *)
  assert (PD : forall i j, (i < M)%nat -> (j < M)%nat ->
    Rabs (mulCr M (fun i j => fst (qh i j)) (fun i j => snd (qh i j)) (fun i j => fst (uh i j)) (fun i j => snd (uh i j)) i j - lrR M X i j) <= 30 * lam * (INR n * cqr_eps pwl lam nu) /\
    Rabs (mulCi M (fun i j => fst (qh i j)) (fun i j => snd (qh i j)) (fun i j => fst (uh i j)) (fun i j => snd (uh i j)) i j - lrI M X i j) <= 30 * lam * (INR n * cqr_eps pwl lam nu)).
  { intros i j Hi Hj. unfold mulCr, mulCi, lrR, lrI. rewrite MS, !sumR_last by (intros k Hk; rewrite QO by lia; unfold uh, pR, pI; rewrite XU by lia; cbn [fst snd]; rewrite MS; reflexivity).
    rewrite <- MS. rewrite !QW. unfold uh. cbn [fst snd]. destruct (BP w i Hw Hi) as (_ & (B1 & B2)). set (x := X w (M + i)%nat) in *.
    assert (NL : INR n * lam * eta * 14 <= INR n * cqr_eps pwl lam nu) by (pose proof pe_pos; replace (INR n * lam * eta * 14) with (INR n * (14 * (lam * eta))) by ring; apply Rmult_le_compat_l; [lra|]; unfold cqr_eps; change (bpow2 (-32)) with eta; lra).
    destruct (Nat.eq_dec j w) as [->|Hj'].
    - destruct Xm as [-> ->]. replace (pR x e * v m - pI x e * 0 - pR x (X w w)) with (re x * (re e * v m - re (X w w)) - im x * (im e * v m - im (X w w))) by (unfold pR; ring).
      replace (pR x e * 0 + pI x e * v m - pI x (X w w)) with (re x * (im e * v m - im (X w w)) + im x * (re e * v m - re (X w w))) by (unfold pI; ring).
      destruct (mul2_abs _ _ _ _ _ _ B1 B2 Hr1 Hr2) as (K1 & K2 & _).
      assert (lam * cqr_eps pwl lam nu <= lam * (INR n * cqr_eps pwl lam nu)) by (apply Rmult_le_compat_l; lra). assert (0 <= lam * (INR n * cqr_eps pwl lam nu)) by (apply Rmult_le_pos; lra). split; (eapply Rle_trans; [eassumption|]); lra.
    - rewrite XU by tauto. destruct (part_le _ _ Z0 (HS w j ltac:(lia))) as [S1 S2]. set (y := X w j) in *.
      replace (pR x e * re y - pI x e * im y - pR x y) with ((re x * (re e - 1) - im x * im e) * re y - (re x * im e + im x * (re e - 1)) * im y) by (unfold pR, pI; ring).
      replace (pR x e * im y + pI x e * re y - pI x y) with ((re x * (re e - 1) - im x * im e) * im y + (re x * im e + im x * (re e - 1)) * re y) by (unfold pR, pI; ring).
      assert (E5 : Rabs (re e - 1) <= 22 / 10) by (destruct EB as [EB _]; apply Rabs_le_both in EB; apply Rabs_le; lra). assert (E6 : Rabs (im e) <= 22 / 10) by lra.
      destruct (mul2_abs _ _ _ _ _ _ B1 B2 E5 E6) as (K1 & K2 & _). destruct (mul2_abs _ _ _ _ _ _ K1 K2 S1 S2) as (K3 & K4 & _).
      assert (17 * (21 * INR n * lam * eta) * 14 <= 370 * (INR n * cqr_eps pwl lam nu)) by lra. assert (0 <= INR n * cqr_eps pwl lam nu) by lra.
      assert (2 * (2 * (2 * (22 / 10)) * (21 * INR n * lam * eta)) <= 30 * lam * (INR n * cqr_eps pwl lam nu)) by nra. split; (eapply Rle_trans; [eassumption|]); lra. }
  (* the orthogonality *)
  assert (OD : forall i j, (i < M)%nat -> (j < M)%nat ->
    Rabs (mulCr M (fun i j => fst (qh i j)) (fun i j => snd (qh i j)) (fun k j => fst (qh j k)) (fun k j => - snd (qh j k)) i j - llR M X i j) <= 8 * (INR n * cqr_eps pwl lam nu) /\
    Rabs (mulCi M (fun i j => fst (qh i j)) (fun i j => snd (qh i j)) (fun k j => fst (qh j k)) (fun k j => - snd (qh j k)) i j - llI M X i j) <= 8 * (INR n * cqr_eps pwl lam nu)).
  { intros i j Hi Hj. unfold mulCr, mulCi, llR, llI. rewrite MS, !sumR_last by (intros k Hk; rewrite !QO by lia; unfold hR, hI; cbn [fst snd]; rewrite MS; ring). rewrite <- MS. rewrite !QW. cbn [fst snd].
    destruct (BP w i Hw Hi) as (_ & (B1 & B2)). destruct (BP w j Hw Hj) as (_ & (B3 & B4)). set (x := X w (M + i)%nat) in *. set (y := X w (M + j)%nat) in *.
    replace (pR x e * pR y e - pI x e * - pI y e - hR x y) with ((csq e - 1) * (re x * re y + im x * im y)) by (unfold pR, pI, hR, csq; ring).
    replace (pR x e * - pI y e + pI x e * pR y e - hI x y) with ((csq e - 1) * (im x * re y - re x * im y)) by (unfold pR, pI, hI, csq; ring).
    destruct (mul2_abs _ _ _ _ _ _ B1 B2 B3 B4) as (_ & _ & K3 & K4). rewrite !Rabs_mult.
    assert (G : forall q, Rabs q <= 2 * (2 * 2) -> Rabs (csq e - 1) * Rabs q <= 8 * (INR n * cqr_eps pwl lam nu)).
    { intros q Hq. apply Rle_trans with (cqr_eps pwl lam nu * (2 * (2 * 2))); [apply Rmult_le_compat; try apply Rabs_pos; assumption|lra]. }
    split; apply G; assumption. }
  split.
  - intros i j Hi Hj. destruct (HP i j Hi Hj) as ((P1 & P2) & (P3 & P4)). destruct (CR i j Hi Hj) as ((C1 & C2) & (C3 & C4)). destruct (PD i j Hi Hj) as (D1 & D2). destruct (OD i j Hi Hj) as (D3 & D4).
    split; [split; [refine (near3 _ _ _ _ _ _ _ _ C1 D1 P1 _); lra|refine (near3 _ _ _ _ _ _ _ _ C2 D2 P2 _); lra]|].
    split; [split; [refine (near3 _ _ _ _ _ _ _ _ C3 D3 P3 _); lra|refine (near3' _ _ _ _ _ _ _ C4 D4 P4 _); lra]|]. destruct (NU i j Hi Hj) as [N1 N2]. unfold c_conv. cbn [fst snd]. split.
    + intros Hij. rewrite (XU i j) in N1, N2 |- * by (right; unfold w; lia). destruct (part_le _ _ Z0 (HS i j ltac:(lia))) as [S1 S2]. apply Rabs_le_both in N1, N2, S1, S2. split; apply Rabs_le; lra.
    + intros _. destruct (NU i i Hi Hi) as [_ N3]. assert (D : Rabs (im (X' i i)) <= 9 * lam * eta).
      { destruct (Nat.eq_dec i w) as [->|Hi']; [rewrite (proj2 Xm), Rabs_R0; lra|]. rewrite XU by tauto. apply HD. unfold w in *. lia. }
      apply Rabs_le_both in D, N3. apply Rabs_le. lra.
  - intros HU HQ. unfold c_conv. cbn [fst snd]. split.
    + intros i j Hij. rewrite (XU i j) by (right; unfold w; lia). destruct (part_le _ _ Z0 (HS i j ltac:(lia))) as [S1 S2]. f_equal; apply csmall; try assumption; lra.
    + intros i Hi. apply csmall; [exact HQ|]. assert (D : Rabs (im (X' i i)) <= 9 * lam * eta).
      { destruct (Nat.eq_dec i w) as [->|Hi']; [rewrite (proj2 Xm), Rabs_R0; lra|]. rewrite XU by tauto. apply HD. unfold w in *. lia. } lra.
Qed.
End Final.
