(** Error of the complex ac_qrd with ac_sqrt and ac_div: the sequence of rotations. *)
From Coq Require Import Reals Lia Lra Psatz.
From Verif Require Import AcTypes AcFacts Spec SpecFacts SpecR SpecRFacts SpecLin SpecCplx SpecQrC RtTypes MatrixModel MatrixProofs
  MatCplxModel SoftFacts CholModel CholProofs CholReal CholThm CholCplxModel CholInvCplxModel QrdProofs QrdCplxModel QrdCplx.
Local Open Scope R_scope.

Local Notation eta := (bpow2 (- (32))).
Local Notation v m := (fxval m 32).
Local Notation re x := (fxval (fst x) 32).
Local Notation im x := (fxval (snd x) 32).

(** The parts of x y and of x times the conjugate of y. *)
Definition pR (x y : gi) : R := re x * re y - im x * im y.
Definition pI (x y : gi) : R := re x * im y + im x * re y.
Definition hR (x y : gi) : R := re x * re y + im x * im y.
Definition hI (x y : gi) : R := im x * re y - re x * im y.

Lemma abs_opp_near x a h : Rabs (x - a) <= h -> Rabs (- x - - a) <= h.
Proof. intros H. replace (- x - - a) with (- (x - a)) by ring. rewrite Rabs_Ropp. exact H. Qed.

Section Pair.
Variables (h ep lam : R) (c s e1 e2 r1 r2 e1' e2' r1' r2' : gi).
Hypothesis Hh : 0 < h <= 1.
Hypothesis He : 0 <= ep <= 1.
Hypothesis Hl : 1 <= lam.
Hypothesis Hcs : Rabs (csq c + csq s - 1) <= ep.
Hypothesis TE : turned h true c s e1 e2 e1' e2'.
Let B := (ep / 2 + 2 * h) * (lam * (csq e1 + csq e2 + 3) + (csq r1 + csq r2 + 3 * (lam * lam)) / lam).
Let E0 : 0 <= csq e1 + csq e2. Proof. pose proof (csq_nonneg e1). pose proof (csq_nonneg e2). lra. Qed.
Let R0 : 0 <= csq r1 + csq r2. Proof. pose proof (csq_nonneg r1). pose proof (csq_nonneg r2). lra. Qed.

Lemma lr_step : turned h false c s r1 r2 r1' r2' ->
  Rabs (pR e1' r1' + pR e2' r2' - (pR e1 r1 + pR e2 r2)) <= B /\ Rabs (pI e1' r1' + pI e2' r2' - (pI e1 r1 + pI e2 r2)) <= B.
Proof.
  intros TR. destruct TE as ((X1 & X2) & (X3 & X4)). destruct TR as ((Y1 & Y2) & (Y3 & Y4)). cbn [sgn] in *.
  pose proof (rot_norm (re c) (- im c) (re s) (- im s) (re e1) (im e1) (re e2) (im e2)) as NE. pose proof (rot_norm (re c) (im c) (re s) (im s) (re r1) (im r1) (re r2) (im r2)) as NR.
  set (a1 := rot1r _ _ _ _ (re e1) _ _ _) in *. set (a2 := rot1i _ _ _ _ (re e1) _ _ _) in *. set (a3 := rot2r _ _ _ _ (re e1) _ _ _) in *. set (a4 := rot2i _ _ _ _ (re e1) _ _ _) in *.
  set (b1 := rot1r _ _ _ _ (re r1) _ _ _) in *. set (b2 := rot1i _ _ _ _ (re r1) _ _ _) in *. set (b3 := rot2r _ _ _ _ (re r1) _ _ _) in *. set (b4 := rot2i _ _ _ _ (re r1) _ _ _) in *.
  assert (NE' : a1 * a1 + a2 * a2 + (a3 * a3 + a4 * a4) = (csq c + csq s) * (csq e1 + csq e2)) by (rewrite NE; unfold csq; ring).
  assert (NR' : b1 * b1 + b2 * b2 + (b3 * b3 + b4 * b4) = (csq c + csq s) * (csq r1 + csq r2)) by (rewrite NR; unfold csq; ring).
  split.
  - replace (pR e1' r1' + pR e2' r2') with (re e1' * re r1' + (- im e1') * im r1' + (re e2' * re r2' + (- im e2') * im r2')) by (unfold pR; ring).
    apply (dot4_step h ep lam a1 (- a2) a3 (- a4) b1 b2 b3 b4 _ _ _ _ _ _ _ _ (csq c + csq s) (csq e1 + csq e2) (csq r1 + csq r2)); try assumption; try (apply abs_opp_near; assumption).
    + rewrite <- NE'. ring.
    + unfold a1, a2, a3, a4, b1, b2, b3, b4, rot1r, rot1i, rot2r, rot2i, pR, csq. ring.
    + pose proof (young4 lam (re e1) (- im e1) (re e2) (- im e2) (re r1) (im r1) (re r2) (im r2) Hl) as Y. unfold pR, csq.
      replace (re e1 * re r1 - im e1 * im r1 + (re e2 * re r2 - im e2 * im r2)) with (re e1 * re r1 + - im e1 * im r1 + (re e2 * re r2 + - im e2 * im r2)) by ring. eapply Rle_trans; [exact Y|]. right. f_equal. ring.
  - replace (pI e1' r1' + pI e2' r2') with (im e1' * re r1' + re e1' * im r1' + (im e2' * re r2' + re e2' * im r2')) by (unfold pI; ring).
    apply (dot4_step h ep lam a2 a1 a4 a3 b1 b2 b3 b4 _ _ _ _ _ _ _ _ (csq c + csq s) (csq e1 + csq e2) (csq r1 + csq r2)); try assumption.
    + rewrite <- NE'. ring.
    + unfold a1, a2, a3, a4, b1, b2, b3, b4, rot1r, rot1i, rot2r, rot2i, pI, csq. ring.
    + pose proof (young4 lam (im e1) (re e1) (im e2) (re e2) (re r1) (im r1) (re r2) (im r2) Hl) as Y. unfold pI, csq.
      replace (re e1 * im r1 + im e1 * re r1 + (re e2 * im r2 + im e2 * re r2)) with (im e1 * re r1 + re e1 * im r1 + (im e2 * re r2 + re e2 * im r2)) by ring. eapply Rle_trans; [exact Y|]. right. f_equal. ring.
Qed.

Lemma ll_step : turned h true c s r1 r2 r1' r2' ->
  Rabs (hR e1' r1' + hR e2' r2' - (hR e1 r1 + hR e2 r2)) <= B /\ Rabs (hI e1' r1' + hI e2' r2' - (hI e1 r1 + hI e2 r2)) <= B.
Proof.
  intros TR. destruct TE as ((X1 & X2) & (X3 & X4)). destruct TR as ((Y1 & Y2) & (Y3 & Y4)). cbn [sgn] in *.
  pose proof (rot_norm (re c) (- im c) (re s) (- im s) (re e1) (im e1) (re e2) (im e2)) as NE. pose proof (rot_norm (re c) (- im c) (re s) (- im s) (re r1) (im r1) (re r2) (im r2)) as NR.
  remember (rot1r (re c) (- im c) (re s) (- im s) (re e1) (im e1) (re e2) (im e2)) as a1 eqn:A1. remember (rot1i (re c) (- im c) (re s) (- im s) (re e1) (im e1) (re e2) (im e2)) as a2 eqn:A2.
  remember (rot2r (re c) (- im c) (re s) (- im s) (re e1) (im e1) (re e2) (im e2)) as a3 eqn:A3. remember (rot2i (re c) (- im c) (re s) (- im s) (re e1) (im e1) (re e2) (im e2)) as a4 eqn:A4.
  remember (rot1r (re c) (- im c) (re s) (- im s) (re r1) (im r1) (re r2) (im r2)) as b1 eqn:B1. remember (rot1i (re c) (- im c) (re s) (- im s) (re r1) (im r1) (re r2) (im r2)) as b2 eqn:B2.
  remember (rot2r (re c) (- im c) (re s) (- im s) (re r1) (im r1) (re r2) (im r2)) as b3 eqn:B3. remember (rot2i (re c) (- im c) (re s) (- im s) (re r1) (im r1) (re r2) (im r2)) as b4 eqn:B4.
  assert (NE' : a1 * a1 + a2 * a2 + (a3 * a3 + a4 * a4) = (csq c + csq s) * (csq e1 + csq e2)) by (rewrite NE; unfold csq; ring).
  assert (NR' : b1 * b1 + b2 * b2 + (b3 * b3 + b4 * b4) = (csq c + csq s) * (csq r1 + csq r2)) by (rewrite NR; unfold csq; ring).
  split.
  - replace (hR e1' r1' + hR e2' r2') with (re e1' * re r1' + im e1' * im r1' + (re e2' * re r2' + im e2' * im r2')) by (unfold hR; ring).
    apply (dot4_step h ep lam a1 a2 a3 a4 b1 b2 b3 b4 _ _ _ _ _ _ _ _ (csq c + csq s) (csq e1 + csq e2) (csq r1 + csq r2)); try assumption.
    + rewrite A1, A2, A3, A4, B1, B2, B3, B4. unfold rot1r, rot1i, rot2r, rot2i, hR, csq. ring.
    + pose proof (young4 lam (re e1) (im e1) (re e2) (im e2) (re r1) (im r1) (re r2) (im r2) Hl) as Y. unfold hR, csq.
      replace (re e1 * re r1 + im e1 * im r1 + (re e2 * re r2 + im e2 * im r2)) with (re e1 * re r1 + im e1 * im r1 + (re e2 * re r2 + im e2 * im r2)) by ring. eapply Rle_trans; [exact Y|]. right. f_equal; ring.
  - replace (hI e1' r1' + hI e2' r2') with (im e1' * re r1' + (- re e1') * im r1' + (im e2' * re r2' + (- re e2') * im r2')) by (unfold hI; ring).
    apply (dot4_step h ep lam a2 (- a1) a4 (- a3) b1 b2 b3 b4 _ _ _ _ _ _ _ _ (csq c + csq s) (csq e1 + csq e2) (csq r1 + csq r2)); try assumption; try (apply abs_opp_near; assumption).
    + rewrite <- NE'. ring.
    + rewrite A1, A2, A3, A4, B1, B2, B3, B4. unfold rot1r, rot1i, rot2r, rot2i, hI, csq. ring.
    + pose proof (young4 lam (im e1) (- re e1) (im e2) (- re e2) (re r1) (im r1) (re r2) (im r2) Hl) as Y. unfold hI, csq.
      replace (im e1 * re r1 - re e1 * im r1 + (im e2 * re r2 - re e2 * im r2)) with (im e1 * re r1 + - re e1 * im r1 + (im e2 * re r2 + - re e2 * im r2)) by ring. eapply Rle_trans; [exact Y|]. right. f_equal. ring.
Qed.
End Pair.

Lemma csq_step h ep l q c s x y x' y' : 0 < h <= 1 -> 0 <= ep <= 1 -> 1 <= l -> Rabs (csq c + csq s - 1) <= ep -> turned h q c s x y x' y' ->
  csq x' + csq y' - (csq x + csq y) <= (ep + 4 * h) * (csq x + csq y) + (ep + 4 * h) * (3 * (l * l)).
Proof.
  intros Hh He Hl Hk ((X1 & X2) & (X3 & X4)). eapply (sq4_step h ep l _ _ _ _ _ _ _ _ (csq c + csq s)); try eassumption; [pose proof (csq_nonneg x); pose proof (csq_nonneg y); lra|]. rewrite rot_norm, !sgn_sq. reflexivity.
Qed.

Section Run.
Variables (pwl : bool) (M : nat) (t : fmt) (mI : Z) (lam nu0 : R) (junk : Z).
Hypothesis Ht : exists I, t = Fmt (I + 32) I true RND SAT.
Hypothesis Hm : (2 * fI t - 1 <= mI <= 2 * fI t)%Z.
Hypothesis Hl : 1 <= lam.
Hypothesis Hl2 : 2 * lam <= bpow2 (fI t - 1) - eta.
Hypothesis Hl3 : lam * eta <= / 32.
Hypothesis Hn0 : 0 < nu0 <= 1.
Hypothesis Hn1 : eta <= nu0 * nu0 / 16.
Hypothesis Hn2 : bpow2 (-14) <= nu0.
Let eps := pwl_err pwl + 7 * (eta / (nu0 * nu0)) + 14 * (lam * eta).
Let ep := eps + 4 * eta.
Notation cmat := (nat -> nat -> gi).
Definition ccolsq (X : cmat) (j : nat) : R := sumR (fun p => csq (X p j)) M.
Definition lrR (X : cmat) (i j : nat) : R := sumR (fun p => pR (X p (M + i)%nat) (X p j)) M.
Definition lrI (X : cmat) (i j : nat) : R := sumR (fun p => pI (X p (M + i)%nat) (X p j)) M.
Definition llR (X : cmat) (i j : nat) : R := sumR (fun p => hR (X p (M + i)%nat) (X p (M + j)%nat)) M.
Definition llI (X : cmat) (i j : nat) : R := sumR (fun p => hI (X p (M + i)%nat) (X p (M + j)%nat)) M.
Notation lj := (lj M lam).
Definition cinv (X0 : cmat) (k : nat) (X : cmat) : Prop :=
  (forall j, (j < 2 * M)%nat -> ccolsq X j + 3 * (lj j * lj j) <= (1 + ep) ^ k * (4 * (lj j * lj j))) /\
  (forall i j, (i < M)%nat -> (j < M)%nat -> Rabs (lrR X i j - lrR X0 i j) <= 4 * lam * ((1 + ep) ^ k - 1) /\ Rabs (lrI X i j - lrI X0 i j) <= 4 * lam * ((1 + ep) ^ k - 1)) /\
  (forall i j, (i < M)%nat -> (j < M)%nat -> Rabs (llR X i j - llR X0 i j) <= 4 * ((1 + ep) ^ k - 1) /\ Rabs (llI X i j - llI X0 i j) <= 4 * ((1 + ep) ^ k - 1)).

Lemma prod_bound la e r g : 1 <= la -> 0 <= e -> 0 <= r -> e + 3 <= 4 * g -> r + 3 * (la * la) <= g * (4 * (la * la)) -> 0 <= ep ->
  (eps / 2 + 2 * eta) * (la * (e + 3) + (r + 3 * (la * la)) / la) <= ep * (4 * (la * g)).
Proof.
  intros Ha E0 R0 S1 S2 EP. assert (L1 : la * (e + 3) <= la * (4 * g)) by (apply Rmult_le_compat_l; lra).
  assert (L2 : (r + 3 * (la * la)) / la <= 4 * (g * la)). { apply (Rmult_le_reg_r la); [lra|]. unfold Rdiv. rewrite Rmult_assoc, Rinv_l by lra. lra. }
  replace (eps / 2 + 2 * eta) with (ep / 2) by (unfold ep; field). replace (ep * (4 * (la * g))) with (ep / 2 * (8 * (la * g))) by field. apply Rmult_le_compat_l; lra.
Qed.

Lemma cstep_ok X0 k X row col : cinv X0 k X -> (1 + ep) ^ (S k) <= 7 / 4 -> (1 <= row < M)%nat -> (col < M)%nat ->
  nu0 * nu0 <= csq (X (row - 1)%nat col) + csq (X row col) ->
  exists X', cqr_step pwl M t mI junk (Some X) (row, col) = Some X' /\ cinv X0 (S k) X' /\
    (forall i j, (j < 2 * M)%nat -> i <> (row - 1)%nat -> i <> row -> X' i j = X i j) /\
    csq (X' row col) <= 162 * (lam * lam) * (eta * eta) /\ Rabs (im (X' (row - 1)%nat col)) <= 9 * lam * eta /\
    (forall d j, 0 < d -> (j < 2 * M)%nat -> csq (X' (row - 1)%nat j) + csq (X' row j) <=
       (1 + d) * ((1 + eps) * (csq (X (row - 1)%nat j) + csq (X row j))) + (1 + / d) * (4 * (eta * eta))).
Proof.
  intros (I1 & I2 & I3) HG Hr Hc Hp. pose proof (eps4_small pwl lam nu0 Hl Hl3 Hn0 Hn1) as ES. change (pwl_err pwl + 7 * (eta / (nu0 * nu0)) + 14 * (lam * eta)) with eps in ES. pose proof eta_1 as E1. assert (EP : 0 <= ep) by (unfold ep; lra).
  assert (GK : 1 <= (1 + ep) ^ k) by (apply pow_R1_Rle; lra). rewrite <- tech_pow_Rmult in HG. unfold cinv. rewrite <- tech_pow_Rmult. set (g := (1 + ep) ^ k) in *. set (p := row) in *.
  assert (NN : forall i j, 0 <= csq (X i j)) by (intros; apply csq_nonneg).
  assert (W : forall j, (j < 2 * M)%nat -> csq (X (p - 1)%nat j) + csq (X p j) <= ccolsq X j).
  { intros j Hj. apply (sumR_two_le (fun i => csq (X i j)) p M Hr). intros i. apply NN. }
  assert (W2 : forall j, (j < 2 * M)%nat -> (1 + eps) * (csq (X (p - 1)%nat j) + csq (X p j)) <= 2 * lj j * (2 * lj j)).
  { intros j Hj. specialize (W j Hj). specialize (I1 j Hj). pose proof (lj_ok M lam Hl j) as LJ. set (w := csq (X (p - 1)%nat j) + csq (X p j)) in *. assert (w0 : 0 <= w) by (unfold w; pose proof (NN (p - 1)%nat j); pose proof (NN p j); lra).
    assert (l2 : 1 <= lj j * lj j) by nra. set (l := lj j * lj j) in *. replace (2 * lj j * (2 * lj j)) with (4 * l) by (unfold l; ring).
    assert ((1 + eps) * w <= (1 + ep) * w) by (apply Rmult_le_compat_r; unfold ep; lra). assert ((1 + ep) * w <= (1 + ep) * (ccolsq X j)) by (apply Rmult_le_compat_l; lra).
    assert ((1 + ep) * (ccolsq X j + 3 * l) <= (1 + ep) * (g * (4 * l))) by (apply Rmult_le_compat_l; lra). assert ((1 + ep) * g * (4 * l) <= 7 / 4 * (4 * l)) by (apply Rmult_le_compat_r; lra).
    assert (0 <= ep * (3 * l)) by (apply Rmult_le_pos; lra). lra. }
  assert (PU : csq (X (p - 1)%nat col) + csq (X p col) <= 2 * lam * (2 * lam)).
  { pose proof (W2 col ltac:(lia)) as K. replace (lj col) with lam in K by (unfold QrdProofs.lj; destruct (Nat.ltb_spec col M); [reflexivity|lia]). eapply Rle_trans; [|exact K]. pose proof (NN (p - 1)%nat col). pose proof (NN p col). nra. }
  destruct (diag4_ok pwl t mI lam nu0 Ht Hm Hl Hl2 Hl3 Hn0 Hn1 Hn2 junk (X (p - 1)%nat col) (X p col) (conj Hp PU)) as (c & s & ED & (Ca & Cb & Cc & Cd) & Hcs & Hz). fold eps in Hcs.
  exists (coff_pe M t X p c s). split; [unfold cqr_step; cbn [obind]; fold p; rewrite ED; reflexivity|]. set (X' := coff_pe M t X p c s).
  assert (XO : forall i j, (j < 2 * M)%nat -> i <> (p - 1)%nat -> i <> p -> X' i j = X i j).
  { intros i j Hj H1 H2. unfold X'. rewrite coff_pe_eq by lia. destruct (Nat.eqb_spec i (p - 1)); [contradiction|]. destruct (Nat.eqb_spec i p); [contradiction|reflexivity]. }
  assert (XR : forall j, (j < 2 * M)%nat -> turned eta (Nat.leb M j) c s (X (p - 1)%nat j) (X p j) (X' (p - 1)%nat j) (X' p j)).
  { intros j Hj. unfold X'. rewrite !coff_pe_eq by lia. rewrite !Nat.eqb_refl. replace (Nat.eqb p (p - 1)) with false by (symmetry; apply Nat.eqb_neq; lia).
    pose proof (crotate_ok pwl t mI lam nu0 Ht Hl Hl2 (Nat.leb M j) (X (p - 1)%nat j) (X p j) c s (lj j) Ca Cb Cc Cd Hcs (lj_ok M lam Hl j) (W2 j Hj)) as K. destruct (crotate t (Nat.leb M j) (X (p - 1)%nat j) (X p j) c s). exact K. }
  assert (XL : forall j, (j < M)%nat -> turned eta false c s (X (p - 1)%nat j) (X p j) (X' (p - 1)%nat j) (X' p j)).
  { intros j Hj. pose proof (XR j ltac:(lia)) as K. replace (Nat.leb M j) with false in K by (symmetry; apply Nat.leb_gt; lia). exact K. }
  assert (XE : forall j, (j < M)%nat -> turned eta true c s (X (p - 1)%nat (M + j)%nat) (X p (M + j)%nat) (X' (p - 1)%nat (M + j)%nat) (X' p (M + j)%nat)).
  { intros j Hj. pose proof (XR (M + j)%nat ltac:(lia)) as K. replace (Nat.leb M (M + j)) with true in K by (symmetry; apply Nat.leb_le; lia). exact K. }
  assert (WE : forall j, (j < M)%nat -> csq (X (p - 1)%nat (M + j)%nat) + csq (X p (M + j)%nat) + 3 <= 4 * g).
  { intros j Hj. pose proof (W (M + j)%nat ltac:(lia)) as Wi. pose proof (I1 (M + j)%nat ltac:(lia)) as Ii. replace (lj (M + j)) with 1 in Ii by (unfold QrdProofs.lj; destruct (Nat.ltb_spec (M + j) M); [lia|reflexivity]). lra. }
  assert (WL : forall j, (j < M)%nat -> csq (X (p - 1)%nat j) + csq (X p j) + 3 * (lam * lam) <= g * (4 * (lam * lam))).
  { intros j Hj. pose proof (W j ltac:(lia)) as Wi. pose proof (I1 j ltac:(lia)) as Ii. replace (lj j) with lam in Ii by (unfold QrdProofs.lj; destruct (Nat.ltb_spec j M); [reflexivity|lia]). lra. }
  assert (N2 : forall j, 0 <= csq (X (p - 1)%nat j) + csq (X p j)) by (intros j; pose proof (NN (p - 1)%nat j); pose proof (NN p j); lra).
  split; [split; [|split]|split; [exact XO|split; [|split]]].
  - intros j Hj. pose proof (lj_ok M lam Hl j) as LJ.
    assert (D := sumR_two (fun i => csq (X' i j)) (fun i => csq (X i j)) p M Hr ltac:(intros i Hi H1 H2; cbv beta; rewrite XO by assumption; reflexivity)). cbv beta in D. fold (ccolsq X' j) (ccolsq X j) in D.
    pose proof (csq_step eta eps (lj j) _ c s _ _ _ _ E1 ES (proj1 LJ) Hcs (XR j Hj)) as SQ. fold ep in SQ. specialize (W j Hj). specialize (I1 j Hj).
    assert (ep * (csq (X (p - 1)%nat j) + csq (X p j)) <= ep * ccolsq X j) by (apply Rmult_le_compat_l; assumption).
    assert ((1 + ep) * (ccolsq X j + 3 * (lj j * lj j)) <= (1 + ep) * (g * (4 * (lj j * lj j)))) by (apply Rmult_le_compat_l; lra). lra.
  - intros i j Hi Hj. specialize (I2 i j Hi Hj). destruct I2 as [I2 I2'].
    assert (D1 := sumR_two (fun q => pR (X' q (M + i)%nat) (X' q j)) (fun q => pR (X q (M + i)%nat) (X q j)) p M Hr ltac:(intros q Hq H1 H2; cbv beta; rewrite !XO by (assumption || lia); reflexivity)). cbv beta in D1. fold (lrR X' i j) (lrR X i j) in D1.
    assert (D2 := sumR_two (fun q => pI (X' q (M + i)%nat) (X' q j)) (fun q => pI (X q (M + i)%nat) (X q j)) p M Hr ltac:(intros q Hq H1 H2; cbv beta; rewrite !XO by (assumption || lia); reflexivity)). cbv beta in D2. fold (lrI X' i j) (lrI X i j) in D2.
    destruct (lr_step eta eps lam c s _ _ _ _ _ _ _ _ E1 ES Hl Hcs (XE i Hi) (XL j Hj)) as [P1 P2]. rewrite <- D1 in P1. rewrite <- D2 in P2.
    pose proof (prod_bound lam _ _ g Hl (N2 (M + i)%nat) (N2 j) (WE i Hi) (WL j Hj) EP) as PB.
    apply Rabs_le_both in I2, I2', P1, P2. split; apply Rabs_le; lra.
  - intros i j Hi Hj. specialize (I3 i j Hi Hj). destruct I3 as [I3 I3'].
    assert (D1 := sumR_two (fun q => hR (X' q (M + i)%nat) (X' q (M + j)%nat)) (fun q => hR (X q (M + i)%nat) (X q (M + j)%nat)) p M Hr ltac:(intros q Hq H1 H2; cbv beta; rewrite !XO by (assumption || lia); reflexivity)). cbv beta in D1. fold (llR X' i j) (llR X i j) in D1.
    assert (D2 := sumR_two (fun q => hI (X' q (M + i)%nat) (X' q (M + j)%nat)) (fun q => hI (X q (M + i)%nat) (X q (M + j)%nat)) p M Hr ltac:(intros q Hq H1 H2; cbv beta; rewrite !XO by (assumption || lia); reflexivity)). cbv beta in D2. fold (llI X' i j) (llI X i j) in D2.
    destruct (ll_step eta eps 1 c s _ _ _ _ _ _ _ _ E1 ES (Rle_refl 1) Hcs (XE i Hi) (XE j Hj)) as [P1 P2]. rewrite <- D1 in P1. rewrite <- D2 in P2.
    pose proof (prod_bound 1 _ _ g (Rle_refl 1) (N2 (M + i)%nat) (N2 (M + j)%nat) (WE i Hi) ltac:(pose proof (WE j Hj); lra) EP) as PB.
    apply Rabs_le_both in I3, I3', P1, P2. split; apply Rabs_le; lra.
  - cbv zeta in Hz. destruct (XL col Hc) as (_ & (R1 & R2)). cbn [sgn] in R1, R2. destruct Hz as (Z1 & Z2 & _). assert (eta <= lam * eta) by nra.
    apply Rabs_le_both in R1, R2, Z1, Z2. unfold csq. assert (K : forall x, - (9 * (lam * eta)) <= x <= 9 * (lam * eta) -> x * x <= 81 * ((lam * eta) * (lam * eta))) by (intros x Hx; nra).
    pose proof (K (re (X' p col)) ltac:(lra)). pose proof (K (im (X' p col)) ltac:(lra)). replace (162 * (lam * lam) * (eta * eta)) with (162 * ((lam * eta) * (lam * eta))) by ring. lra.
  - cbv zeta in Hz. destruct (XL col Hc) as ((_ & R2) & _). cbn [sgn] in R2. destruct Hz as (_ & _ & Z3). assert (eta <= lam * eta) by nra. apply Rabs_le_both in R2, Z3. apply Rabs_le. lra.
  - intros d j Hd Hj. destruct (XR j Hj) as ((R1 & R2) & (R3 & R4)). apply Rabs_le_both in R1, R2, R3, R4.
    pose proof (rot_norm (re c) (sgn (Nat.leb M j) (im c)) (re s) (sgn (Nat.leb M j) (im s)) (re (X (p - 1)%nat j)) (im (X (p - 1)%nat j)) (re (X p j)) (im (X p j))) as E. rewrite !sgn_sq in E.
    fold (csq c) (csq s) (csq (X (p - 1)%nat j)) (csq (X p j)) in E.
    pose proof (young_d d _ _ eta Hd R1) as Y1. pose proof (young_d d _ _ eta Hd R2) as Y2. pose proof (young_d d _ _ eta Hd R3) as Y3. pose proof (young_d d _ _ eta Hd R4) as Y4.
    set (a1 := rot1r _ _ _ _ _ _ _ _) in *. set (a2 := rot1i _ _ _ _ _ _ _ _) in *. set (a3 := rot2r _ _ _ _ _ _ _ _) in *. set (a4 := rot2i _ _ _ _ _ _ _ _) in *.
    apply Rabs_le_both in Hcs. specialize (N2 j). set (w := csq (X (p - 1)%nat j) + csq (X p j)) in *.
    assert ((csq c + csq s) * w <= (1 + eps) * w) by (apply Rmult_le_compat_r; lra).
    assert ((1 + d) * (a1 * a1 + a2 * a2 + (a3 * a3 + a4 * a4)) <= (1 + d) * ((1 + eps) * w)) by (apply Rmult_le_compat_l; lra). unfold csq at 1 2. lra.
Qed.

(** ** The part below the diagonal *)
Definition csub (l : list (nat * nat)) (X : cmat) (c : nat) : R := sumR (fun p => if done l p c then csq (X p c) else 0) M.

Lemma csub_step l X X' r c0 c d : 0 < d -> (1 <= r < M)%nat -> (c < M)%nat ->
  (c <> c0 -> done l r c = done l (r - 1)%nat c) -> done l r c0 = false -> done l (r - 1)%nat c0 = false ->
  (forall i j, (j < 2 * M)%nat -> i <> (r - 1)%nat -> i <> r -> X' i j = X i j) ->
  csq (X' r c0) <= 162 * (lam * lam) * (eta * eta) ->
  (forall d j, 0 < d -> (j < 2 * M)%nat -> csq (X' (r - 1)%nat j) + csq (X' r j) <=
       (1 + d) * ((1 + eps) * (csq (X (r - 1)%nat j) + csq (X r j))) + (1 + / d) * (4 * (eta * eta))) ->
  csub (l ++ [(r, c0)]) X' c <= (1 + d) * (1 + eps) * csub l X c + (162 * (lam * lam) + 4 * (1 + / d)) * (eta * eta).
Proof.
  intros Hd Hr Hc Hcc D1 D2 XO XS XN. pose proof (eps4_small pwl lam nu0 Hl Hl3 Hn0 Hn1) as ES. change (pwl_err pwl + 7 * (eta / (nu0 * nu0)) + 14 * (lam * eta)) with eps in ES. pose proof eta_1 as E1.
  assert (Hi : 0 < / d) by (apply Rinv_0_lt_compat; exact Hd). assert (E2 : 0 <= eta * eta) by nra. assert (L2 : 0 <= lam * lam) by nra.
  assert (S0 : forall l X, 0 <= csub l X c). { intros l' X1. apply sumR_nonneg. intros p Hp. destruct (done l' p c); [apply csq_nonneg|lra]. }
  assert (K1 : 0 <= lam * lam * (eta * eta)) by (apply Rmult_le_pos; assumption). assert (K2 : 0 <= / d * (eta * eta)) by (apply Rmult_le_pos; lra).
  assert (DE : 0 <= d * eps) by (apply Rmult_le_pos; lra). assert (G1 : 1 <= (1 + d) * (1 + eps)) by lra.
  assert (D := sumR_two (fun p => if done (l ++ [(r, c0)]) p c then csq (X' p c) else 0) (fun p => if done l p c then csq (X p c) else 0) r M Hr).
  cbv beta in D. lapply D; clear D.
  2: { intros p Hp H1 H2. rewrite done_app. replace (Nat.eqb r p) with false by (symmetry; apply Nat.eqb_neq; lia). cbn [andb]. rewrite orb_false_r, XO by (assumption || lia). reflexivity. }
  intros D. fold (csub (l ++ [(r, c0)]) X' c) (csub l X c) in D.
  pose proof (sumR_two_le (fun p => if done l p c then csq (X p c) else 0) r M Hr ltac:(intros p; cbv beta; destruct (done l p c); [apply csq_nonneg|lra])) as W. cbv beta in W.
  fold (csub l X c) in W. specialize (S0 l X).
  set (g := (1 + d) * (1 + eps)) in *. assert (SG : csub l X c <= g * csub l X c) by nra.
  destruct (Nat.eq_dec c c0) as [->|Hne].
  - rewrite !done_app, D1, D2, !Nat.eqb_refl in D. replace (Nat.eqb r (r - 1)) with false in D by (symmetry; apply Nat.eqb_neq; lia). cbn [orb andb] in D. lra.
  - rewrite !done_app in D. replace (Nat.eqb c0 c) with false in D by (symmetry; apply Nat.eqb_neq; lia). rewrite !andb_false_r, !orb_false_r, (Hcc Hne) in D. rewrite (Hcc Hne) in W.
    destruct (done l (r - 1)%nat c); [|lra]. specialize (XN d c Hd ltac:(lia)).
    set (w := csq (X (r - 1)%nat c) + csq (X r c)) in *. replace ((1 + d) * ((1 + eps) * w)) with (g * w) in XN by (unfold g; ring).
    assert ((g - 1) * w <= (g - 1) * csub l X c) by (apply Rmult_le_compat_l; lra). lra.
Qed.

(** ** The whole loop nest *)
Variable X0 : cmat.
Hypothesis HX0 : forall j, (j < 2 * M)%nat -> ccolsq X0 j <= lj j * lj j.

Lemma crun_ok d l : 0 < d -> (forall r c, In (r, c) l -> (1 <= r < M)%nat /\ (c < M)%nat) -> (1 + ep) ^ length l <= 7 / 4 ->
  (forall l1 r c l2, l = l1 ++ (r, c) :: l2 -> (forall c', c' <> c -> done l1 r c' = done l1 (r - 1)%nat c') /\ done l1 r c = false /\ done l1 (r - 1)%nat c = false) ->
  (forall l1 r c l2 k, l = l1 ++ (r, c) :: l2 -> done l1 (S k) k = true -> (k < r - 1)%nat) ->
  (forall l1 r c l2 X, l = l1 ++ (r, c) :: l2 -> fold_left (cqr_step pwl M t mI junk) l1 (Some X0) = Some X ->
     nu0 * nu0 <= csq (X (r - 1)%nat c) + csq (X r c)) ->
  exists X, fold_left (cqr_step pwl M t mI junk) l (Some X0) = Some X /\ cinv X0 (length l) X /\
    (forall c, (c < M)%nat -> csub l X c <= ((1 + d) * (1 + eps)) ^ length l * (INR (length l) * ((162 * (lam * lam) + 4 * (1 + / d)) * (eta * eta)))) /\
    (forall k, (k < M)%nat -> done l (S k) k = true -> Rabs (im (X k k)) <= 9 * lam * eta).
Proof.
  intros Hd. pose proof eta_1 as E1. pose proof (eps4_small pwl lam nu0 Hl Hl3 Hn0 Hn1) as ES. change (pwl_err pwl + 7 * (eta / (nu0 * nu0)) + 14 * (lam * eta)) with eps in ES. assert (EP : 0 <= ep) by (unfold ep; lra).
  assert (Hi : 0 < / d) by (apply Rinv_0_lt_compat; exact Hd). assert (DE : 0 <= d * eps) by (apply Rmult_le_pos; lra). assert (G1 : 1 <= (1 + d) * (1 + eps)) by lra.
  set (K := (162 * (lam * lam) + 4 * (1 + / d)) * (eta * eta)). assert (K0 : 0 <= K) by (unfold K; apply Rmult_le_pos; nra). set (g := (1 + d) * (1 + eps)) in *.
  induction l as [|[r c] l IH] using rev_ind; intros Hin HG Hord Hdg Hpiv.
  - exists X0. split; [reflexivity|]. split; [split; [intros j Hj; specialize (HX0 j Hj); cbn [length pow]; lra|]; split; intros i j _ _; cbn [length pow]; unfold Rminus; rewrite !Rplus_opp_r, Rabs_R0; lra|].
    split; [|intros k _ Hk; discriminate Hk].
    intros c Hc. cbn [length pow INR]. unfold csub. rewrite (sumR_ext _ (fun _ => 0) M) by (intros; reflexivity). rewrite sumR_0. lra.
  - rewrite app_length in *. cbn [length] in *. replace (length l + 1)%nat with (S (length l)) in * by lia.
    destruct IH as (X & EX & IX & SX & DX).
    + intros r' c' H. apply Hin, in_or_app. left. exact H.
    + eapply Rle_trans; [|exact HG]. rewrite <- tech_pow_Rmult. assert (1 <= (1 + ep) ^ length l) by (apply pow_R1_Rle; lra). nra.
    + intros l1 r' c' l2 E. apply (Hord l1 r' c' (l2 ++ [(r, c)])). rewrite E, <- app_assoc. reflexivity.
    + intros l1 r' c' l2 k E. apply (Hdg l1 r' c' (l2 ++ [(r, c)])). rewrite E, <- app_assoc. reflexivity.
    + intros l1 r' c' l2 X E EX. apply (Hpiv l1 r' c' (l2 ++ [(r, c)])); [rewrite E, <- app_assoc; reflexivity|exact EX].
    + destruct (Hin r c ltac:(apply in_or_app; right; left; reflexivity)) as [Hr Hc].
      destruct (cstep_ok X0 (length l) X r c IX HG Hr Hc (Hpiv l r c [] X eq_refl EX)) as (X' & E' & I' & XO & XS & XD & XN). exists X'. rewrite fold_left_app, EX. split; [exact E'|split; [exact I'|split]].
      * intros c' Hc'. destruct (Hord l r c [] eq_refl) as (O1 & O2 & O3).
        pose proof (csub_step l X X' r c c' d Hd Hr Hc' (O1 c') O2 O3 XO XS XN) as SS. fold K g in SS. specialize (SX c' Hc').
        rewrite <- tech_pow_Rmult, S_INR. assert (P : 1 <= g ^ length l) by (apply pow_R1_Rle; lra). set (G := g ^ length l) in *.
        assert (g * csub l X c' <= g * (G * (INR (length l) * K))) by (apply Rmult_le_compat_l; lra). assert (K <= g * G * K) by (assert (1 <= g * G) by nra; nra). lra.
      * intros k Hk Dk. rewrite done_app in Dk. apply orb_true_iff in Dk. destruct Dk as [Dk|Dk].
        -- pose proof (Hdg l r c [] k eq_refl Dk). rewrite XO by lia. apply DX; assumption.
        -- apply andb_true_iff in Dk. destruct Dk as [Dr Dc]. apply Nat.eqb_eq in Dr, Dc. subst r c. replace (S k - 1)%nat with k in XD by lia. exact XD.
Qed.
End Run.
