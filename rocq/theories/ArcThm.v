(** Accuracy of the CORDIC arccosine. *)
From Coq Require Import ZArith Reals Ratan Lia Lra Psatz List.
From Verif Require Import AcTypes AcFacts Spec SpecFacts SpecR SpecRFacts SoftFacts CholReal CholThm QrdThm CordicModel CordicNum CordicProofs Atan2Num ArcModel ArcNum ArcProofs ArcReal.
Import ListNotations.
Local Open Scope R_scope.

Lemma fold_seq {A} (P : nat -> A -> Prop) (f : A -> nat -> A) n st0 : (1 <= n)%nat -> P 1%nat (f st0 0%nat) -> (forall i st, (1 <= i < n)%nat -> P i st -> P (S i) (f st i)) -> P n (fold_left f (seq 0 n) st0).
Proof.
  intros H1 H0 HS. assert (K : forall k, (1 <= k <= n)%nat -> P k (fold_left f (seq 0 k) st0)).
  { induction k as [|k IH]; intros Hk; [lia|]. destruct (Nat.eq_dec k 0) as [->|]; [exact H0|]. rewrite seq_S, fold_left_app. cbn [fold_left Nat.add]. apply HS; [lia|]. apply IH. lia. }
  apply K. lia.
Qed.

Section Arc.
Variables (F AF t : Z).
Hypothesis HF : (2 <= F <= 64)%Z.
Definition pf : Z := (2 * F)%Z.
Definition ta : R := Rabs (fxval t AF).
Hypothesis Hta : ta <= 1.
Definition em : R := (13 / 10 * IZR pf + 1) * q pf.
Definition D : R := sqrt (em / (49 / 100)).
Definition a0 : Z := conv (arc_fx pf) (Z.abs t) AF.
Definition t0 : R := fxval a0 (F2 pf).
Lemma pf_ok : (4 <= pf <= 128)%Z. Proof. unfold pf. lia. Qed.
Lemma em_range : 0 <= em <= 62 / 640.
Proof.
  unfold em. pose proof pf_ok as P. pose proof (q_pos pf) as Q. assert (E : bpow2 (pf + 2) * q pf = 1) by (unfold q, F2; rewrite <- bpow2_add, Z.add_opp_diag_r; reflexivity). assert (0 <= IZR pf) by (apply IZR_le; lia). split; [apply Rmult_le_pos; lra|].
  assert (B : 10 * (13 * IZR pf + 10) <= 62 / 64 * 10 * bpow2 (pf + 2)).
  { assert (BZ : (10 * (13 * pf + 10) * 64 <= 620 * 2 ^ (pf + 2))%Z). { replace (pf + 2)%Z with ((pf - 4) + 6)%Z by lia. rewrite Z.pow_add_r by lia. change (2 ^ 6)%Z with 64%Z. pose proof (Z.pow_gt_lin_r 2 (pf - 4) ltac:(lia) ltac:(lia)). lia. }
    rewrite (bpow2_IZR (pf + 2)) by lia. apply IZR_le in BZ. rewrite !mult_IZR, plus_IZR, mult_IZR in BZ. lra. }
  set (b := bpow2 (pf + 2)) in *. assert (10 * (13 * IZR pf + 10) * q pf <= 62 / 64 * 10 * b * q pf) by (apply Rmult_le_compat_r; lra). replace (62 / 64 * 10 * b * q pf) with (62 / 64 * 10 * (b * q pf)) in * by ring. rewrite E in *. lra.
Qed.
Lemma D_sq : D * D = em / (49 / 100).
Proof. unfold D. apply sqrt_sqrt. pose proof em_range. lra. Qed.
Lemma D_range : 0 <= D <= 9 / 20.
Proof. assert (D0 : 0 <= D) by apply sqrt_pos. split; [exact D0|]. apply sq_le; [lra|]. rewrite D_sq. pose proof em_range. lra. Qed.
Lemma em_D : em <= 49 / 100 * (D * D). Proof. rewrite D_sq. lra. Qed.
Lemma eps_em i : (1 <= i < N pf)%nat -> eps pf i <= em.
Proof.
  intros H. unfold eps, em. pose proof (q_pos pf). apply Rmult_le_compat_r; [lra|]. assert (INR (i - 1) <= IZR pf); [|lra]. rewrite INR_IZR_INZ. apply IZR_le. unfold N in H. lia.
Qed.
Lemma start_ok : (0 <= a0 <= 2 ^ F2 pf)%Z /\ t0 <= ta < t0 + q pf /\ arc_start pf AF (Z.abs t) = (2 ^ F2 pf, 0, a0, 0)%Z.
Proof.
  pose proof pf_ok as P. assert (ONE : fxval (2 ^ F2 pf) (F2 pf) = 1) by (apply fxval_one; unfold F2; lia). assert (EF : fF (arc_fx pf) = F2 pf) by apply fx_fF.
  assert (EA : fxval (Z.abs t) AF = ta) by (unfold ta, fxval; rewrite abs_IZR, Rabs_mult, (Rabs_pos_eq (bpow2 (- AF))) by (pose proof (bpow2_pos (- AF)); lra); reflexivity).
  assert (TP : 0 <= ta) by apply Rabs_pos. assert (W1 : (1 <= fW (arc_fx pf))%Z) by (unfold arc_fx, dfmt; cbn [fW]; lia).
  pose proof (conv_R (arc_fx pf) (Z.abs t) AF W1) as C. rewrite EA in C. fold a0 in C. destruct (convR_trn (arc_fx pf) _ _ W1 eq_refl eq_refl C) as [_ TT].
  { rewrite EF. unfold imin, imax, arc_fx, dfmt. cbn [fS fW]. replace (2 ^ (pf + 5 - 1) - 1 + 1)%Z with (2 ^ (pf + 5 - 1))%Z by lia. rewrite opp_IZR, <- bpow2_IZR by lia. replace (pf + 5 - 1)%Z with (2 + F2 pf)%Z by (unfold F2; lia). rewrite bpow2_add. rewrite (bpow2_IZR 2) by lia. change (2 ^ 2)%Z with 4%Z. pose proof (bpow2_pos (F2 pf)).
    assert (0 <= ta * bpow2 (F2 pf) <= 1 * bpow2 (F2 pf)) by (split; [apply Rmult_le_pos; lra|apply Rmult_le_compat_r; lra]). lra. }
  rewrite EF in TT. fold t0 (q pf) in TT. split; [|split; [exact TT|]].
  - split; [|apply (fxval_le _ _ (F2 pf)); rewrite ONE; fold t0; lra]. assert (L : fxval (-1) (F2 pf) < fxval a0 (F2 pf)) by (unfold fxval at 1; fold t0; fold (q pf); lra). apply fxval_lt in L. lia.
  - unfold arc_start. fold a0. f_equal. f_equal. f_equal. apply conv_exact; [exact W1|discriminate| |].
    + rewrite EF, ONE. unfold fxval. change (bpow2 (- 0)) with (bpow2 0). rewrite bpow2_0. ring.
    + apply (fx_range pf pf_ok). rewrite ONE, Rabs_R1. pose proof (q_small pf pf_ok). lra.
Qed.
Lemma t0_range : 0 <= t0 <= 1.
Proof. destruct start_ok as ((A & B) & (C & _) & _). split; [|lra]. unfold t0. rewrite <- (fxval_0 (F2 pf)). apply fxval_le, A. Qed.
Lemma N_small i : (i < N pf)%nat -> INR i <= IZR pf + 1.
Proof. intros H. rewrite INR_IZR_INZ, <- (plus_IZR pf 1). apply IZR_le. unfold N in H. lia. Qed.

(** *** The arccosine *)
Definition acos_inv (i : nat) (st : Z * Z * Z * Z) : Prop :=
  exists th m, base pf t0 i st th m /\ Rabs (Rabs th - acos ta) <= D + 21 / 10 * em * INR (i - 1) + Rm (N pf) i /\ Rabs th <= 303 / 100.
Lemma acos_inv_1 : acos_inv 1 (arc_rot pf 2 true 0 (arc_start pf AF (Z.abs t))).
Proof.
  destruct start_ok as (A & B & ->). exists (PI / 2), (2 ^ 127)%Z. split; [apply arc_first; [exact pf_ok|lia|exact A]|]. pose proof PI_lo. pose proof PI_hi. rewrite (Rabs_pos_eq (PI / 2)) by lra. split; [|lra].
  pose proof (phi_range ta (conj (Rabs_pos _) Hta)) as PH. pose proof (Rm_1 (N pf) ltac:(unfold N, pf; lia)). pose proof D_range. change (INR (1 - 1)) with 0. apply Rabs_le. lra.
Qed.
Lemma acos_step i st : (1 <= i < N pf)%nat -> acos_inv i st -> acos_inv (S i) (arc_rot pf 2 (acos_sel st) i st).
Proof.
  intros Hi (th & m & HB & HI & HR). pose proof pf_ok as P. destruct start_ok as (_ & Htt & _). pose proof t0_range as T0. pose proof D_range as DR. pose proof em_range as ER. pose proof (eps_em i Hi) as EE.
  destruct st as [[[x y] tn] a]. destruct (vec_near pf t0 i x y tn a th m HB) as [VX VY]. set (cge := (tn <=? x)%Z). set (sge := (0 <=? y)%Z).
  assert (SEL : acos_sel (x, y, tn, a) = Bool.eqb cge sge). { unfold acos_sel, cge, sge. rewrite Z.ltb_antisym. rewrite (Z.ltb_antisym 0 y). destruct (tn <=? x)%Z, (0 <=? y)%Z; reflexivity. }
  set (sel := acos_sel (x, y, tn, a)) in *. set (sg := if sel then 1 else -1).
  assert (C1 : if cge then ta - em <= cos th else cos th <= ta + em).
  { unfold cge. destruct (Z.leb_spec tn x) as [L|L].
    - pose proof (hi_cmp pf ta t0 i x y tn a th m Htt HB x (cos th) VX L). lra.
    - pose proof (lo_cmp pf ta t0 i x y tn a th m Htt HB x (cos th) VX ltac:(lia)). lra. }
  assert (C2 : if sge then - em <= sin th else sin th <= em).
  { pose proof (eps_ge pf ta t0 i Htt) as EG. unfold sge. destruct (Z.leb_spec 0 y) as [L|L].
    - pose proof (pos_cmp pf i y (sin th) VY L). lra.
    - pose proof (neg_cmp pf i Hi y (sin th) VY L). lra. }
  destruct (chi_step ta D em th (conj (Rabs_pos _) Hta) DR (conj (proj1 ER) em_D) HR cge sge sg (ang i) (21 / 10 * em * INR (i - 1)) (Rm (N pf) (S i))) as [K1 K2].
  - lra.
  - exact C1.
  - exact C2.
  - unfold sg. rewrite SEL. reflexivity.
  - apply ang_pos.
  - apply Rm_ang. lia.
  - apply ang_1. lia.
  - apply Rmult_le_pos; [lra|apply pos_INR].
  - rewrite (Rm_S (N pf) i) in HI by lia. lra.
  - exists (th + sg * ang i), (if sel then m + T i else m - T i)%Z. split; [|split; [|exact K2]].
    + apply (arc_step pf 2 P ltac:(lia) t0 i (x, y, tn, a) th m sel Hi T0 HB). fold sg. eapply Rle_trans; [exact K2|]. pose proof (N_small i ltac:(lia)) as IN. pose proof (kq pf P) as K. pose proof (q_h pf) as QH. pose proof (h_pos pf) as H0.
      change (2 - 1)%Z with 1%Z. rewrite (bpow2_IZR 1) by lia. change (2 ^ 1)%Z with 2%Z. pose proof (q_small pf P). assert (INR i * h pf <= 20 / 64). { rewrite QH. assert (INR i * q pf <= (IZR pf + 1) * q pf) by (apply Rmult_le_compat_r; [pose proof (q_pos pf)|]; lra). lra. } lra.
    + replace (INR (S i - 1)) with (INR (i - 1) + 1) by (rewrite <- S_INR; f_equal; lia). lra.
Qed.
Lemma acos_loop_ok : acos_inv (N pf) (acos_loop pf AF (Z.abs t)).
Proof.
  unfold acos_loop. change (Z.to_nat (pf + 2)) with (N pf). apply (fold_seq acos_inv); [unfold N, pf; lia| |intros i st Hi H; apply acos_step; assumption].
  destruct start_ok as ((A & B) & _ & E). assert (SEL : acos_sel (arc_start pf AF (Z.abs t)) = true). { rewrite E. unfold acos_sel. assert (L : (a0 <=? 2 ^ F2 pf)%Z = true) by (apply Z.leb_le; lia). rewrite L. reflexivity. }
  rewrite SEL. apply acos_inv_1.
Qed.
End Arc.

(** The bounds of the error, checked once for each number of fraction bits. *)
Definition dn (F : Z) : Z := (Z.sqrt ((260 * F + 100) * 1000000 / 196) + 1)%Z.
Definition acos_check (F : Z) : bool :=
  (((260 * F + 100) * 1000000 <=? 196 * (dn F * dn F)) && (10 * dn F * 2 ^ F + 525 * (26 * F + 10) * (2 * F + 1) + 10000 + 31400 * (2 * F + 1) + 10 * 2 ^ F <=? 125600 * 2 ^ F))%Z.
Lemma acos_checks : forallb (fun k => acos_check (Z.of_nat k)) (seq 2 63) = true.
Proof. vm_compute. reflexivity. Qed.
Lemma scale F : (2 <= F)%Z -> let u := bpow2 (- F) in bpow2 F * u = 1 /\ h (pf F) = u * u /\ q (pf F) = u * u / 4.
Proof.
  intros H u. split; [unfold u; rewrite <- bpow2_add, Z.add_opp_diag_r; apply bpow2_0|]. assert (A : h (pf F) = u * u) by (unfold h, u, pf; rewrite <- bpow2_add; f_equal; lia). split; [exact A|]. pose proof (q_h (pf F)). lra.
Qed.
Lemma D_le F : (2 <= F <= 64)%Z -> D F <= IZR (dn F) / 1000 * bpow2 (- F).
Proof.
  intros H. pose proof acos_checks as C. rewrite forallb_forall in C. specialize (C (Z.to_nat F) ltac:(apply in_seq; lia)). rewrite Z2Nat.id in C by lia. unfold acos_check in C. apply andb_prop in C. destruct C as [C _]. apply Z.leb_le in C.
  destruct (scale F ltac:(lia)) as (S1 & S2 & S3). set (u := bpow2 (- F)) in *. assert (U : 0 < u) by apply bpow2_pos. assert (0 <= IZR (dn F)) by (apply IZR_le; unfold dn; pose proof (Z.sqrt_nonneg ((260 * F + 100) * 1000000 / 196)); lia).
  apply sq_le; [apply Rmult_le_pos; lra|]. rewrite D_sq by exact H. unfold em. rewrite S3. unfold pf. rewrite mult_IZR. apply IZR_le in C. rewrite !mult_IZR, plus_IZR, mult_IZR in C. set (d := IZR (dn F)) in *. set (f := IZR F) in *.
  replace (d / 1000 * u * (d / 1000 * u)) with (d * d / 1000000 * (u * u)) by field. replace ((13 / 10 * (2 * f) + 1) * (u * u / 4) / (49 / 100)) with ((260 * f + 100) / 196 * (u * u)) by field. apply Rmult_le_compat_r; [apply Rmult_le_pos; lra|lra].
Qed.
Lemma acos_budget F : (2 <= F <= 64)%Z -> let p := pf F in
  D F + 21 / 10 * em F * (IZR p + 1) + h p + (IZR p + 1) * bpow2 (- (100)) + 314 / 100 * ((IZR p + 1) * h p) <= 314 / 100 * (4 * bpow2 (- F)).
Proof.
  intros H p. pose proof (D_le F H) as DL. pose proof acos_checks as C. rewrite forallb_forall in C. specialize (C (Z.to_nat F) ltac:(apply in_seq; lia)). rewrite Z2Nat.id in C by lia. unfold acos_check in C. apply andb_prop in C. destruct C as [_ C]. apply Z.leb_le, IZR_le in C.
  destruct (scale F ltac:(lia)) as (S1 & S2 & S3). unfold em. fold p in S2, S3 |- *. rewrite S2, S3. set (u := bpow2 (- F)) in *. assert (U : 0 < u) by apply bpow2_pos. rewrite !plus_IZR, !mult_IZR in C. rewrite !plus_IZR, !mult_IZR in C. rewrite <- !(bpow2_IZR F) in C by lia. unfold p, pf. rewrite mult_IZR. set (d := IZR (dn F)) in *. set (f := IZR F) in *. set (Z' := bpow2 F) in *.
  assert (TN : (2 * f + 1) * bpow2 (- (100)) <= 1 / 1000 * u).
  { assert (f <= 64) by (apply IZR_le; lia). pose proof (bpow2_pos (- (100))). assert (E : bpow2 (- (100)) = bpow2 (- (36)) * bpow2 (- (64))) by (rewrite <- bpow2_add; reflexivity). assert (bpow2 (- (64)) <= u) by (apply bpow2_le; lia). pose proof (bpow2_pos (- (64))).
    assert (B : bpow2 (- (36)) <= / 1000000) by (replace (/ 1000000) with (/ IZR 1000000) by reflexivity; rewrite bpow2_opp; apply Rinv_le_contravar; [lra|rewrite (bpow2_IZR 36) by lia; apply IZR_le; discriminate]). pose proof (bpow2_pos (- (36))).
    assert (bpow2 (- (36)) * bpow2 (- (64)) <= / 1000000 * u) by (apply Rmult_le_compat; lra). assert (0 <= f) by (apply IZR_le; lia). assert ((2 * f + 1) * bpow2 (- (100)) <= 129 * (/ 1000000 * u)) by (apply Rmult_le_compat; lra). lra. }
  assert (CC : (10 * d * Z' + 525 * (26 * f + 10) * (2 * f + 1) + 10000 + 31400 * (2 * f + 1) + 10 * Z') * (u * u) <= 125600 * Z' * (u * u)) by (apply Rmult_le_compat_r; [apply Rmult_le_pos; lra|lra]).
  replace (125600 * Z' * (u * u)) with (125600 * (Z' * u) * u) in CC by ring. replace ((10 * d * Z' + 525 * (26 * f + 10) * (2 * f + 1) + 10000 + 31400 * (2 * f + 1) + 10 * Z') * (u * u)) with (10 * d * (Z' * u) * u + 525 * (26 * f + 10) * (2 * f + 1) * (u * u) + 10000 * (u * u) + 31400 * (2 * f + 1) * (u * u) + 10 * (Z' * u) * u) in CC by ring. rewrite S1 in CC.
  replace (21 / 10 * ((13 / 10 * (2 * f) + 1) * (u * u / 4)) * (2 * f + 1)) with (525 / 10000 * (26 * f + 10) * (2 * f + 1) * (u * u)) by field. lra.
Qed.

(** The angle that the iterations end with. *)
Lemma acos_end F AF t : (2 <= F <= 64)%Z -> Rabs (fxval t AF) <= 1 ->
  Rabs (Rabs (fxval (snd (acos_loop (2 * F) AF (Z.abs t))) (2 * F)) - acos (Rabs (fxval t AF)) / PI) <= 4 * bpow2 (- F).
Proof.
  intros HF Ht. destruct (acos_loop_ok F AF t HF Ht) as (th & m & HB & HI & HR). fold (pf F). destruct (acos_loop (pf F) AF (Z.abs t)) as [[[x y] tn] a]. cbn [snd]. destruct HB as (_ & _ & HA & HM). pose proof (acos_budget F HF) as BG. cbv zeta in BG. set (p := pf F) in *. unfold ta in HI. set (phi := acos (Rabs (fxval t AF))) in *.
  assert (PP : (4 <= p <= 128)%Z) by (unfold p, pf; lia). assert (EN : INR (N p - 1) = IZR p + 1) by (rewrite INR_IZR_INZ, <- (plus_IZR p 1); f_equal; unfold N; lia). rewrite EN in HA, HM, HI. rewrite Rm_last in HI. destruct (ang_pos (N p - 1)) as [_ AP].
  assert (EH : 2 * / 2 ^ (N p - 1) = h p). { unfold h. rewrite bpow2_opp. rewrite (bpow2_IZR p) by lia. replace (N p - 1)%nat with (S (Z.to_nat p)) by (unfold N; lia). cbn [pow]. rewrite <- (Z2Nat.id p) at 2 by lia. rewrite <- pow_IZR. field. apply pow_nonzero. lra. }
  rewrite EH in AP. pose proof PI_lo as PL. set (ar := fxval a p) in *. set (mr := fxval m 128) in *. set (n := IZR p + 1) in *.
  assert (NP : 0 <= n * h p) by (apply Rmult_le_pos; [unfold n; assert (0 <= IZR p) by (apply IZR_le; lia); lra|pose proof (h_pos p); lra]).
  assert (K : Rabs (PI * ar - th) <= PI * (n * h p) + n * bpow2 (- (100))).
  { replace (PI * ar - th) with (PI * (ar - mr) + (PI * mr - th)) by ring. eapply Rle_trans; [apply Rabs_triang|]. rewrite Rabs_mult, (Rabs_pos_eq PI) by lra. assert (PI * Rabs (ar - mr) <= PI * (n * h p)) by (apply Rmult_le_compat_l; lra). lra. }
  assert (K2 : Rabs (Rabs (PI * ar) - phi) <= PI * (4 * bpow2 (- F))).
  { assert (T1 : Rabs (Rabs (PI * ar) - Rabs th) <= Rabs (PI * ar - th)) by apply Rabs_triang_inv2. apply Rabs_le_both in T1, HI. assert (0 <= 4 * bpow2 (- F) - n * h p) as GE. { pose proof (D_range F HF) as [D0 _]. pose proof (em_range F HF) as [E0 _]. assert (0 <= 21 / 10 * em F * n) by (apply Rmult_le_pos; [lra|unfold n; assert (0 <= IZR p) by (apply IZR_le; lia); lra]). pose proof (h_pos p). assert (0 <= n * bpow2 (- (100))) by (apply Rmult_le_pos; [unfold n; assert (0 <= IZR p) by (apply IZR_le; lia); lra|pose proof (bpow2_pos (- (100))); lra]). lra. }
    assert (314 / 100 * (4 * bpow2 (- F) - n * h p) <= PI * (4 * bpow2 (- F) - n * h p)) by (apply Rmult_le_compat_r; lra). apply Rabs_le. lra. }
  rewrite Rabs_mult, (Rabs_pos_eq PI) in K2 by lra. apply (Rmult_le_reg_l PI); [lra|]. rewrite <- (Rabs_pos_eq PI) at 1 by lra. rewrite <- Rabs_mult. replace (PI * (Rabs ar - phi / PI)) with (PI * Rabs ar - phi) by (field; lra). exact K2.
Qed.
Lemma acos_ge2 AF fo t : (1 <= fW fo)%Z -> (2 <= fF fo <= 64)%Z -> Rabs (fxval t AF) <= 1 ->
  exists V, Rabs (V - acos (fxval t AF) / PI) <= 4 * bpow2 (- fF fo) /\ convertsR fo V (arccos_cordic AF fo t) /\ ((0 <= t)%Z -> 0 <= V).
Proof.
  intros HW HF Ht. pose proof (acos_end (fF fo) AF t HF Ht) as K. unfold arccos_cordic. cbv zeta. set (p := (2 * fF fo)%Z) in *. set (th0 := snd (acos_loop p AF (Z.abs t))) in *. pose proof PI_lo as PL.
  assert (PH := phi_range (Rabs (fxval t AF)) (conj (Rabs_pos _) Ht)). set (phi := acos (Rabs (fxval t AF))) in *.
  assert (PB : 0 <= phi / PI <= 1 / 2). { split; [apply Rmult_le_pos; [lra|apply Rlt_le, Rinv_0_lt_compat; lra]|]. apply (Rmult_le_reg_r PI); [lra|]. replace (phi / PI * PI) with phi by (field; lra). lra. }
  assert (FB : bpow2 (- fF fo) <= 1 / 4). { replace (1 / 4) with (bpow2 (- (2))) by (rewrite bpow2_opp, (bpow2_IZR 2) by lia; change (2 ^ 2)%Z with 4%Z; lra). apply bpow2_le. lia. }
  assert (EA : fxval (Z.abs th0) p = Rabs (fxval th0 p)) by (unfold fxval; rewrite abs_IZR, Rabs_mult, (Rabs_pos_eq (bpow2 (- p))) by (pose proof (bpow2_pos (- p)); lra); reflexivity). rewrite <- EA in K.
  assert (PP : (4 <= p <= 128)%Z) by (unfold p; lia).
  assert (TH : (if th0 <? 0 then conv (dfmt (p + 2) 2 true) (- th0) p else th0)%Z = Z.abs th0).
  { destruct (Z.ltb_spec th0 0) as [L|L]; [|lia]. rewrite (ft_free p 2 PP ltac:(lia)); [lia|]. replace (- th0)%Z with (Z.abs th0) by lia. rewrite EA, Rabs_Rabsolu, <- EA. change (2 - 1)%Z with 1%Z. rewrite (bpow2_IZR 1) by lia. change (2 ^ 1)%Z with 2%Z. apply Rabs_le_both in K. pose proof (q_small p PP). pose proof (q_h p). lra. }
  rewrite TH. destruct (Z.ltb_spec t 0) as [L|L].
  - exists (1 - fxval (Z.abs th0) p). assert (TN : fxval t AF < 0) by (rewrite <- (fxval_0 AF); apply fxval_lt, L). split.
    + assert (EO : acos (fxval t AF) = PI - phi). { unfold phi. rewrite (Rabs_left _ TN). rewrite acos_opp. lra. } rewrite EO. replace ((PI - phi) / PI) with (1 - phi / PI) by (field; lra). apply Rabs_le_both in K. apply Rabs_le. lra.
    + split; [|lia]. replace (1 - fxval (Z.abs th0) p) with (fxval (2 ^ p - Z.abs th0) p); [apply conv_R, HW|]. unfold Z.sub. rewrite fxval_add, fxval_opp, fxval_one by lia. ring.
  - exists (fxval (Z.abs th0) p). assert (TN : 0 <= fxval t AF) by (rewrite <- (fxval_0 AF); apply fxval_le, L). split; [|split; [apply conv_R, HW|intros _; rewrite EA; apply Rabs_pos]]. unfold phi in K. rewrite (Rabs_pos_eq (fxval t AF) TN) in K. exact K.
Qed.
(** With one fraction bit there are only seventeen values of the argument that the iterations can tell apart. *)
Lemma acos_two : forallb (fun k => let a := snd (fold_left (fun st i => arc_rot 2 2 (acos_sel st) i st) (seq 0 4) (16, 0, Z.of_nat k, 0)%Z) in ((-4 <=? a) && (a <=? 4))%Z) (seq 0 17) = true.
Proof. vm_compute. reflexivity. Qed.
Lemma abs_fx z F : fxval (Z.abs z) F = Rabs (fxval z F).
Proof. unfold fxval. rewrite abs_IZR, Rabs_mult, (Rabs_pos_eq (bpow2 (- F))) by (pose proof (bpow2_pos (- F)); lra). reflexivity. Qed.
Lemma start_2 AF t : Rabs (fxval t AF) <= 1 -> (0 <= conv (arc_fx 2) (Z.abs t) AF <= 16)%Z.
Proof.
  intros Ht. set (a := conv _ _ _). assert (W1 : (1 <= fW (arc_fx 2))%Z) by discriminate. pose proof (conv_R (arc_fx 2) (Z.abs t) AF W1) as C. rewrite abs_fx in C. fold a in C. destruct (convR_trn (arc_fx 2) _ _ W1 eq_refl eq_refl C) as [_ TT].
  { change (fF (arc_fx 2)) with 4%Z. rewrite (bpow2_IZR 4) by lia. change (IZR (imin (fS (arc_fx 2)) (fW (arc_fx 2)))) with (-64). change (IZR (imax (fS (arc_fx 2)) (fW (arc_fx 2)) + 1)) with 64. change (2 ^ 4)%Z with 16%Z. pose proof (Rabs_pos (fxval t AF)). lra. }
  change (fF (arc_fx 2)) with 4%Z in TT. assert (B16 : bpow2 (- (4)) = / 16) by (rewrite bpow2_opp, (bpow2_IZR 4) by lia; reflexivity). assert (EA : fxval a 4 = IZR a * / 16) by (unfold fxval; rewrite B16; reflexivity). rewrite EA, B16 in TT. pose proof (Rabs_pos (fxval t AF)).
  assert (A1 : IZR (-1) < IZR a) by lra. assert (A2 : IZR a <= IZR 16) by lra. apply lt_IZR in A1. apply le_IZR in A2. lia.
Qed.
Lemma acos_one AF fo t : (1 <= fW fo)%Z -> fF fo = 1%Z -> Rabs (fxval t AF) <= 1 ->
  exists V, Rabs (V - acos (fxval t AF) / PI) <= 4 * bpow2 (- fF fo) /\ convertsR fo V (arccos_cordic AF fo t) /\ ((0 <= t)%Z -> 0 <= V).
Proof.
  intros HW HF Ht. unfold arccos_cordic. cbv zeta. rewrite HF. change (2 * 1)%Z with 2%Z. set (th0 := snd (acos_loop 2 AF (Z.abs t))). pose proof PI_lo as PL.
  assert (TB : (-4 <= th0 <= 4)%Z).
  { pose proof (start_2 AF t Ht) as A. unfold th0, acos_loop. change (Z.to_nat (2 + 2)) with 4%nat. unfold arc_start. change (conv (arc_fx 2) 1 0) with 16%Z. set (a := conv _ (Z.abs t) AF) in *. pose proof acos_two as C. rewrite forallb_forall in C. specialize (C (Z.to_nat a) ltac:(apply in_seq; lia)). cbv beta zeta in C. rewrite Z2Nat.id in C by lia. apply andb_prop in C. destruct C as [C1 C2]. apply Z.leb_le in C1, C2. lia. }
  clearbody th0. assert (TH : (if th0 <? 0 then conv (dfmt (2 + 2) 2 true) (- th0) 2 else th0)%Z = Z.abs th0).
  { assert (CS : (th0 = -4 \/ th0 = -3 \/ th0 = -2 \/ th0 = -1 \/ 0 <= th0)%Z) by lia. destruct CS as [->|[->|[->|[->|L]]]]; [reflexivity..|]. destruct (Z.ltb_spec th0 0); lia. }
  rewrite TH. assert (VB : 0 <= fxval (Z.abs th0) 2 <= 1). { unfold fxval. rewrite bpow2_opp, (bpow2_IZR 2) by lia. change (2 ^ 2)%Z with 4%Z. assert (A0 : (0 <= Z.abs th0 <= 4)%Z) by lia. destruct A0 as [A0 A1]. apply IZR_le in A0, A1. lra. }
  assert (AB : 0 <= acos (fxval t AF) / PI <= 1). { pose proof (acos_bound (fxval t AF)) as B. split; [apply Rmult_le_pos; [lra|apply Rlt_le, Rinv_0_lt_compat; lra]|]. apply (Rmult_le_reg_r PI); [lra|]. replace (acos (fxval t AF) / PI * PI) with (acos (fxval t AF)) by (field; lra). lra. }
  assert (E4 : 4 * bpow2 (- (1)) = 2) by (rewrite bpow2_opp, (bpow2_IZR 1) by lia; change (2 ^ 1)%Z with 2%Z; lra). rewrite E4. destruct (Z.ltb_spec t 0) as [L|L].
  - exists (1 - fxval (Z.abs th0) 2). split; [apply Rabs_le; lra|]. split; [|lia]. replace (1 - fxval (Z.abs th0) 2) with (fxval (2 ^ 2 - Z.abs th0) 2); [apply conv_R, HW|]. unfold Z.sub. rewrite fxval_add, fxval_opp, fxval_one by lia. ring.
  - exists (fxval (Z.abs th0) 2). split; [apply Rabs_le; lra|]. split; [apply conv_R, HW|lra].
Qed.
Lemma arccos_accurate AF fo t : (1 <= fW fo)%Z -> (1 <= fF fo <= 64)%Z -> Rabs (fxval t AF) <= 1 ->
  exists V, Rabs (V - acos (fxval t AF) / PI) <= 4 * bpow2 (- fF fo) /\ convertsR fo V (arccos_cordic AF fo t) /\ ((0 <= t)%Z -> 0 <= V).
Proof. intros HW HF Ht. destruct (Z.eq_dec (fF fo) 1) as [E|]; [apply acos_one; assumption|apply acos_ge2; [assumption|lia|assumption]]. Qed.
