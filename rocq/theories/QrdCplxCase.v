(** The structure of the result of the complex ac_qrd, an example that meets the conditions, and the identity matrix. *)
From Coq Require Import Reals Lia Lra Psatz.
From Verif Require Import AcTypes AcFacts AbsProofs Spec SpecR SpecRFacts SpecLin SpecCplx SpecQrC RtTypes DivModel SqrtModel PwlModel MatrixModel MatrixProofs
  MatCplxModel SoftFacts CholModel CholProofs CholReal CholThm CholCplxModel CholInvCplxModel QrdProofs QrdThm QrdCplxModel QrdCplx QrdCplxRun QrdCplxThm.

(** ** Structure *)
Lemma cqr_w M I : -31 <= I -> 1 <= fW (cqr_fmt M I).
Proof. intros H. unfold cqr_fmt. cbn [fW]. pose proof (Z.log2_up_nonneg (2 * (M * (M - 1) / 2) + 1)). lia. Qed.

Lemma cqrd_diag pwl M fa fo mI A junk Q U : -31 <= fI fa -> 1 <= fW fo -> cqrd true pwl M fa fo mI A junk = Some (Q, U) ->
  exists Q0 U0, cqrd false pwl M fa fo mI A junk = Some (Q0, U0) /\ snd (U (M - 1)%nat (M - 1)%nat) = 0 /\
    (forall i j, (i < M)%nat -> (j < M)%nat -> (i <> M - 1 \/ j <> M - 1)%nat -> U i j = U0 i j) /\
    (forall i j, (i < M)%nat -> (j < M)%nat -> (j <> M - 1)%nat -> Q i j = Q0 i j).
Proof.
  intros HI HW E. unfold cqrd in *. pose proof (cqr_w (Z.of_nat M) (fI fa) HI) as Ht. set (t := cqr_fmt _ _) in *. destruct (fold_left _ _ _) as [X|]; [|discriminate E]. cbn [obind] in *. destruct (cqr_real _ _ _ _ _) as [[m e]|]; [|discriminate E]. cbn [obind] in E. injection E as <- <-.
  eexists. eexists. split; [reflexivity|]. cbv beta. split; [|split].
  - unfold cput. rewrite !Nat.eqb_refl. cbn [andb]. unfold c_conv. cbn [snd]. rewrite conv_0 by exact Ht. apply conv_0, HW.
  - intros i j _ _ H. unfold cput. destruct (Nat.eqb_spec i (M - 1)), (Nat.eqb_spec j (M - 1)); cbn [andb]; try reflexivity. exfalso. tauto.
  - intros i j Hi Hj H. destruct (Nat.eqb_spec j (M - 1)); [contradiction|]. unfold cput. replace (Nat.eqb (i + M) (M - 1)) with false by (symmetry; apply Nat.eqb_neq; lia). rewrite andb_false_r. reflexivity.
Qed.

(** ** Real matrices *)
Definition isreal (x : gi) : Prop := snd x = 0.
Lemma real_conv f x F : 1 <= fW f -> isreal x -> isreal (c_conv f x F).
Proof. unfold isreal, c_conv. cbn [snd]. intros Hf ->. apply conv_0, Hf. Qed.
Lemma real_mul x y : isreal x -> isreal y -> isreal (c_mul x y).
Proof. unfold isreal, c_mul. cbn [snd]. intros -> ->. lia. Qed.
Lemma real_add x y : isreal x -> isreal y -> isreal (c_add x y).
Proof. unfold isreal, c_add. cbn [snd]. lia. Qed.
Lemma real_opp x : isreal x -> isreal (c_opp x).
Proof. unfold isreal, c_opp. cbn [snd]. lia. Qed.
Lemma real_conj x : isreal x -> isreal (c_conj x).
Proof. unfold isreal, c_conj. cbn [snd]. lia. Qed.
Lemma real_cput X i j x : (forall i j, isreal (X i j)) -> isreal x -> forall a b, isreal (cput X i j x a b).
Proof. intros HX Hx a b. unfold cput. destruct (_ && _)%bool; [exact Hx|apply HX]. Qed.
Lemma sc_w : 1 <= fW sc_fmt. Proof. cbn. lia. Qed.
Lemma real_rotate t q x y c s : 1 <= fW t -> isreal x -> isreal y -> isreal c -> isreal s -> isreal (fst (crotate t q x y c s)) /\ isreal (snd (crotate t q x y c s)).
Proof.
  intros Ht Hx Hy Hc Hs. pose proof sc_w. unfold crotate. destruct q; cbn [fst snd]; split; apply real_conv; try exact Ht; apply real_add; apply real_mul; try assumption; apply real_conv; try assumption;
    repeat (first [apply real_opp|apply real_conj]); assumption.
Qed.
Lemma real_off M t A p c s : 1 <= fW t -> (forall i j, isreal (A i j)) -> isreal c -> isreal s -> forall i j, isreal (coff_pe M t A p c s i j).
Proof.
  intros Ht HA Hc Hs. unfold coff_pe. revert A HA. generalize (seq 0 (2 * M)) as l. induction l as [|k l IH]; intros A HA; cbn [fold_left]; [exact HA|]. apply IH.
  pose proof (real_rotate t (Nat.leb M k) (A (p - 1)%nat k) (A p k) c s Ht (HA _ _) (HA _ _) Hc Hs) as [R1 R2]. destruct (crotate _ _ _ _ _ _) as [u w]. cbn [fst snd] in R1, R2.
  apply real_cput; [apply real_cput|]; assumption.
Qed.
Lemma real_diag pwl t mI junk b a c s : isreal b -> isreal a -> cdiag_pe pwl t mI junk b a = Some (c, s) -> isreal c /\ isreal s.
Proof.
  intros Hb Ha E. unfold cdiag_pe in E. destruct (cqr_iroot _ _ _ _ _) as [ir|]; [|discriminate E]. cbn [obind] in E. injection E as <- <-. unfold isreal in *. rewrite Ha, Hb. split; apply real_conv; try exact sc_w; unfold isreal; cbn [snd]; lia.
Qed.
Lemma real_fold pwl M t mI junk l : 1 <= fW t -> forall X Y, (forall i j, isreal (X i j)) -> fold_left (cqr_step pwl M t mI junk) l (Some X) = Some Y -> forall i j, isreal (Y i j).
Proof.
  intros Ht. induction l as [|[r c] l IH]; intros X Y HX E; cbn [fold_left] in E; [injection E as <-; exact HX|].
  cbn [cqr_step obind] in E. destruct (cdiag_pe _ _ _ _ _ _) as [[cc ss]|] eqn:ED; cbn [obind] in E.
  - apply real_diag in ED; try apply HX. destruct ED as [Hc Hs]. eapply IH; [|exact E]. intros i j. apply real_off; assumption.
  - exfalso. clear IH. induction l as [|x l IH]; cbn [fold_left] in E; [discriminate E|]. apply IH. exact E.
Qed.
Lemma cqrd_reals rd pwl M fa fo mI A junk Q U : -31 <= fI fa -> 1 <= fW fo -> (forall i j, snd (A i j) = 0) ->
  cqrd rd pwl M fa fo mI A junk = Some (Q, U) -> forall i j, snd (Q i j) = 0 /\ snd (U i j) = 0.
Proof.
  intros HI HW HA E i j. unfold cqrd in E. pose proof (cqr_w (Z.of_nat M) (fI fa) HI) as Ht. set (t := cqr_fmt _ _) in *. destruct (fold_left _ _ _) as [X|] eqn:EF; [|discriminate E]. cbn [obind] in E.
  assert (HX : forall i j, isreal (X i j)).
  { refine (real_fold pwl M t mI junk _ Ht _ X _ EF). intros p q. unfold cqr_init. destruct (Nat.ltb q M); apply real_conv; try exact Ht; [apply HA|reflexivity]. }
  destruct rd.
  - destruct (cqr_real pwl t mI junk (X (M - 1)%nat (M - 1)%nat)) as [[m e]|] eqn:ER; [|discriminate E]. cbn [obind] in E. injection E as <- <-.
    assert (He : isreal e).
    { unfold cqr_real in ER. destruct (cqr_root _ _ _ _) as [m'|]; [|discriminate ER]. cbn [obind] in ER. destruct (cqr_iroot _ _ _ _ _) as [ir|]; [|discriminate ER]. cbn [obind] in ER. injection ER as _ <-.
      rewrite (HX (M - 1)%nat (M - 1)%nat). apply real_conv; [cbn; lia|]. unfold isreal. cbn [snd]. lia. }
    assert (HP : forall a b, isreal (cput X (M - 1)%nat (M - 1)%nat (conv t m 32, conv t 0 0) a b)) by (apply real_cput; [exact HX|]; unfold isreal; cbn [snd]; apply conv_0, Ht).
    split; [destruct (Nat.eqb j (M - 1))|]; apply real_conv; try exact HW; try apply real_mul; try assumption; apply HP.
  - injection E as <- <-. split; apply real_conv; try exact HW; apply HX.
Qed.

(** With the division the result is always defined. *)
Lemma cqrd_total rd M fa fo mI A junk : cqrd rd false M fa fo mI A junk <> None.
Proof.
  unfold cqrd. set (t := cqr_fmt _ _). assert (H : forall l X, exists Y, fold_left (cqr_step false M t mI junk) l (Some X) = Some Y).
  { induction l as [|[r c] l IH]; intros X; cbn [fold_left]; [eexists; reflexivity|]. apply IH. }
  destruct (H (qr_order M) (cqr_init M fa t A)) as [Y ->]. destruct rd; discriminate.
Qed.

Local Open Scope R_scope.
Local Notation eta := (bpow2 (- (32))).
Local Notation v m := (fxval m 32).

(** ** Deciding [cqr_pivots] and [cqr_corner] for a given matrix *)
Definition csqz (x : gi) : Z := (fst x * fst x + snd x * snd x)%Z.
Definition cpivots_check (pwl : bool) (M : nat) (fa : fmt) (mI : Z) (A : cmat) (junk z : Z) : bool :=
  let t := cqr_fmt (Z.of_nat M) (fI fa) in
  forallb (fun k => match nth_error (qr_order M) k, fold_left (cqr_step pwl M t mI junk) (firstn k (qr_order M)) (Some (cqr_init M fa t A)) with
                    | Some (r, c), Some X => (z * z <=? csqz (X (r - 1)%nat c) + csqz (X r c))%Z
                    | _, _ => true end) (seq 0 (length (qr_order M))).
Lemma csqz_R x : csq x = IZR (csqz x) * (eta * eta).
Proof. unfold csq, csqz, fxval. rewrite plus_IZR, !mult_IZR. ring. Qed.
Lemma cpivots_check_ok pwl M fa mI A junk z : cpivots_check pwl M fa mI A junk z = true -> cqr_pivots pwl M fa mI A junk (v z).
Proof.
  intros H l1 r c l2 X E EX. unfold cpivots_check in H. rewrite forallb_forall in H. specialize (H (length l1)). rewrite in_seq in H. rewrite E in H. rewrite app_length in H. cbn [length] in H.
  specialize (H ltac:(lia)). rewrite nth_error_app2, Nat.sub_diag in H by lia. cbn [nth_error] in H. rewrite firstn_app, Nat.sub_diag, firstn_all, firstn_O, app_nil_r, EX in H.
  rewrite !csqz_R. apply Z.leb_le, IZR_le in H. rewrite plus_IZR, !mult_IZR in H. unfold fxval. pose proof (bpow2_pos (- (32))) as P. assert (0 < eta * eta) by nra. apply (Rmult_le_compat_r (eta * eta)) in H; [lra|lra].
Qed.
Definition ccorner_check (pwl : bool) (M : nat) (fa : fmt) (mI : Z) (A : cmat) (junk z : Z) : bool :=
  let t := cqr_fmt (Z.of_nat M) (fI fa) in
  match fold_left (cqr_step pwl M t mI junk) (qr_order M) (Some (cqr_init M fa t A)) with
  | Some X => (z * z <=? csqz (X (M - 1)%nat (M - 1)%nat))%Z | None => true end.
Lemma ccorner_check_ok pwl M fa mI A junk z : ccorner_check pwl M fa mI A junk z = true -> cqr_corner pwl M fa mI A junk (v z).
Proof.
  intros H X EX. unfold ccorner_check in H. rewrite EX in H. rewrite csqz_R. apply Z.leb_le, IZR_le in H. rewrite !mult_IZR in H. unfold fxval. pose proof (bpow2_pos (- (32))) as P. assert (0 < eta * eta) by nra.
  apply (Rmult_le_compat_r (eta * eta)) in H; [lra|lra].
Qed.

(** A matrix for which the conditions hold. *)
Definition cplx3 : cmat := fun i j =>
  let x := (nth j (nth i [[(4, 1); (2, -1); (1, 3)]; [(2, 2); (5, 0); (3, -2)]; [(1, -1); (3, 1); (6, 2)]] []) (0, 0))%Z in (65536 * fst x, 65536 * snd x)%Z.
Lemma cplx3_types pwl : cqr_types pwl 3 (Fmt 32 16 true RND SAT) (Fmt 32 16 true RND SAT) 38 8 1.
Proof.
  constructor; try (cbn; lia); try discriminate; try lra.
  - change (fI (Fmt 32 16 true RND SAT) + _ - 1)%Z with 18%Z. rewrite bpow2_IZR by lia. change (-32)%Z with (- (32))%Z. rewrite eta_val. change (2 ^ 18)%Z with 262144%Z. lra.
  - change (fI (Fmt 32 16 true RND SAT) - 1)%Z with 15%Z. change (- fF (Fmt 32 16 true RND SAT))%Z with (- (16))%Z. rewrite bpow2_opp, !bpow2_IZR by lia. change (2 ^ 15)%Z with 32768%Z. change (2 ^ 16)%Z with 65536%Z. lra.
  - change (-14)%Z with (- (14))%Z. rewrite bpow2_opp, bpow2_IZR by lia. change (2 ^ 14)%Z with 16384%Z. lra.
  - unfold qr_rots, cqr_eps. assert (pwl_err pwl <= / 600) by (unfold pwl_err; destruct pwl; lra). change (INR (3 * (3 - 1) / 2)) with (INR 3). change (-32)%Z with (- (32))%Z. rewrite eta_val. cbn [INR]. lra.
Qed.
Lemma cplx3_cols j : (j < 3)%nat -> sumR (fun i => fxval (fst (cplx3 i j)) 16 * fxval (fst (cplx3 i j)) 16 + fxval (snd (cplx3 i j)) 16 * fxval (snd (cplx3 i j)) 16) 3 <= 8 * 8.
Proof.
  intros Hj. assert (E : forall z, fxval (65536 * z) 16 = IZR z). { intros z. unfold fxval. rewrite mult_IZR, bpow2_opp, bpow2_IZR by lia. change (2 ^ 16)%Z with 65536%Z. lra. }
  unfold cplx3. cbn [sumR fst snd]. rewrite !E. destruct j as [|[|[|j]]]; [| | |lia]; cbn [nth fst snd]; lra.
Qed.
Lemma cplx3_pivots pwl : cqr_pivots pwl 3 (Fmt 32 16 true RND SAT) 38 cplx3 0 1.
Proof. rewrite <- (fxval_one 32) by lia. apply cpivots_check_ok. destruct pwl; vm_compute; reflexivity. Qed.
Lemma cplx3_corner pwl : cqr_corner pwl 3 (Fmt 32 16 true RND SAT) 38 cplx3 0 1.
Proof. rewrite <- (fxval_one 32) by lia. apply ccorner_check_ok. destruct pwl; vm_compute; reflexivity. Qed.

(** The identity matrix: the elements of the first rotation are both zero, and so are its coefficients. *)
Definition cid3 : cmat := fun i j => (if Nat.eqb i j then 65536%Z else 0%Z, 0%Z).
Lemma cqrd_identity pwl : exists Q U, cqrd false pwl 3 (Fmt 32 16 true RND SAT) (Fmt 32 16 true RND SAT) 38 cid3 0 = Some (Q, U) /\
  forall j, (j < 3)%nat -> Q 1%nat j = (0, 0)%Z /\ U 1%nat j = (0, 0)%Z.
Proof.
  assert (C : match cqrd false pwl 3 (Fmt 32 16 true RND SAT) (Fmt 32 16 true RND SAT) 38 cid3 0 with
    | Some (Q, U) => map (fun j => (Q 1%nat j, U 1%nat j)) (seq 0 3) = [((0, 0), (0, 0)); ((0, 0), (0, 0)); ((0, 0), (0, 0))]%Z
    | None => False end) by (destruct pwl; vm_compute; reflexivity).
  destruct (cqrd false pwl 3 _ _ 38 cid3 0) as [[Q U]|]; [|contradiction]. exists Q, U. split; [reflexivity|]. cbn [seq map] in C. injection C as ? ? ? ? ? ?.
  intros j Hj. destruct j as [|[|[|j]]]; try lia; split; assumption.
Qed.
Lemma cqrd_false : forall pwl, ~ (forall M fa fo mI A junk, (2 <= M)%nat -> fF fa = 16%Z -> fF fo = 16%Z -> fS fa = true -> fS fo = true -> (16 <= fI fa)%Z -> (16 <= fI fo)%Z ->
  (2 * fI (cqr_fmt (Z.of_nat M) (fI fa)) - 1 <= mI <= 2 * fI (cqr_fmt (Z.of_nat M) (fI fa)))%Z ->
  (forall i j, (i < M)%nat -> (j < M)%nat -> Rabs (fxval (fst (A i j)) (fF fa)) <= 1 /\ snd (A i j) = 0%Z) ->
  exists Q U, cqrd false pwl M fa fo mI A junk = Some (Q, U) /\
    forall i j, (i < M)%nat -> (j < M)%nat -> Rabs (mulCr M (fun i j => fxval (fst (Q i j)) (fF fo)) (fun i j => fxval (snd (Q i j)) (fF fo))
      (fun i j => fxval (fst (U i j)) (fF fo)) (fun i j => fxval (snd (U i j)) (fF fo)) i j - fxval (fst (A i j)) (fF fa)) < 1).
Proof.
  intros pwl H. destruct (cqrd_identity pwl) as (Q & U & E & V). destruct (H 3%nat (Fmt 32 16 true RND SAT) (Fmt 32 16 true RND SAT) 38%Z cid3 0%Z) as (Q' & U' & E' & B); try (cbn; lia); try reflexivity.
  - intros i j _ _. unfold cid3. cbn [fst snd]. split; [|reflexivity]. change (fF (Fmt 32 16 true RND SAT)) with 16%Z. destruct (Nat.eqb i j); [change 65536%Z with (2 ^ 16)%Z; rewrite fxval_one, Rabs_R1 by lia|rewrite fxval_0, Rabs_R0]; lra.
  - rewrite E in E'. injection E' as <- <-. specialize (B 1%nat 1%nat ltac:(lia) ltac:(lia)). change (fF (Fmt 32 16 true RND SAT)) with 16%Z in B.
    unfold mulCr in B. rewrite (sumR_ext _ (fun _ => 0)) in B.
    + rewrite sumR_0 in B. change (fst (cid3 1%nat 1%nat)) with (2 ^ 16)%Z in B. rewrite fxval_one in B by lia. replace (0 - 1) with (-(1)) in B by ring. rewrite Rabs_Ropp, Rabs_R1 in B. lra.
    + intros k Hk. destruct (V k Hk) as [-> _]. cbn [fst snd]. rewrite !fxval_0. ring.
Qed.

(** ** 2 x 2 matrices *)
Lemma cqr_pivots_2 pwl fa fo mI A junk lam nu : cqr_types pwl 2 fa fo mI lam nu ->
  (forall j, (j < 2)%nat -> sumR (fun i => fxval (fst (A i j)) (fF fa) * fxval (fst (A i j)) (fF fa) + fxval (snd (A i j)) (fF fa) * fxval (snd (A i j)) (fF fa)) 2 <= lam * lam) ->
  nu * nu <= sumR (fun i => fxval (fst (A i 0%nat)) (fF fa) * fxval (fst (A i 0%nat)) (fF fa) + fxval (snd (A i 0%nat)) (fF fa) * fxval (snd (A i 0%nat)) (fF fa)) 2 ->
  cqr_pivots pwl 2 fa mI A junk nu.
Proof.
  intros T HC HN l1 r c l2 X E EX. change (qr_order 2) with [(1%nat, 0%nat)] in E. destruct l1 as [|x l1].
  - assert (E1 : r = 1%nat /\ c = 0%nat) by (cbn [app] in E; injection E; auto). destruct E1 as [-> ->]. cbn [fold_left] in EX. assert (EX' : X = cqr_init 2 fa (cqr_fmt (Z.of_nat 2) (fI fa)) A) by congruence. rewrite EX'. change (1 - 1)%nat with 0%nat. unfold csq.
    destruct (cx0_a pwl 2 fa fo mI A lam nu T HC 0 0 ltac:(lia) ltac:(lia)) as [-> ->]. destruct (cx0_a pwl 2 fa fo mI A lam nu T HC 1 0 ltac:(lia) ltac:(lia)) as [-> ->]. cbn [sumR] in HN. lra.
  - exfalso. cbn [app] in E. injection E as _ E. destruct l1; discriminate E.
Qed.

(** The singular matrix [[1 0] [0 0]]: the last column of Q is multiplied by zero. *)
Definition sing2 : cmat := fun i j => (if (Nat.eqb i 0 && Nat.eqb j 0)%bool then 65536%Z else 0%Z, 0%Z).
Lemma sing2_types pwl : cqr_types pwl 2 (Fmt 32 16 true RND SAT) (Fmt 32 16 true RND SAT) 36 1 1.
Proof.
  constructor; try (cbn; lia); try discriminate; try lra.
  - change (fI (Fmt 32 16 true RND SAT) + _ - 1)%Z with 17%Z. rewrite bpow2_IZR by lia. change (-32)%Z with (- (32))%Z. rewrite eta_val. change (2 ^ 17)%Z with 131072%Z. lra.
  - change (fI (Fmt 32 16 true RND SAT) - 1)%Z with 15%Z. change (- fF (Fmt 32 16 true RND SAT))%Z with (- (16))%Z. rewrite bpow2_opp, !bpow2_IZR by lia. change (2 ^ 15)%Z with 32768%Z. change (2 ^ 16)%Z with 65536%Z. lra.
  - change (-14)%Z with (- (14))%Z. rewrite bpow2_opp, bpow2_IZR by lia. change (2 ^ 14)%Z with 16384%Z. lra.
  - unfold qr_rots, cqr_eps. assert (pwl_err pwl <= / 600) by (unfold pwl_err; destruct pwl; lra). change (INR (2 * (2 - 1) / 2)) with (INR 1). change (-32)%Z with (- (32))%Z. rewrite eta_val. cbn [INR]. lra.
Qed.
Lemma sing2_cols j : (j < 2)%nat -> sumR (fun i => fxval (fst (sing2 i j)) 16 * fxval (fst (sing2 i j)) 16 + fxval (snd (sing2 i j)) 16 * fxval (snd (sing2 i j)) 16) 2 <= 1 * 1.
Proof.
  intros Hj. unfold sing2. cbn [sumR fst snd Nat.eqb andb]. change 65536%Z with (2 ^ 16)%Z. rewrite !fxval_0. destruct j as [|j]; cbn [Nat.eqb]; rewrite ?fxval_0, ?fxval_one by lia; lra.
Qed.
Lemma sing2_pivots pwl : cqr_pivots pwl 2 (Fmt 32 16 true RND SAT) 36 sing2 0 1.
Proof. rewrite <- (fxval_one 32) by lia. apply cpivots_check_ok. destruct pwl; vm_compute; reflexivity. Qed.
Lemma cqrd_diag_false : forall pwl, ~ (forall M fa fo mI A junk lam nu, cqr_types pwl M fa fo mI lam nu -> fF fo = 16%Z ->
  (forall j, (j < M)%nat -> sumR (fun i => fxval (fst (A i j)) (fF fa) * fxval (fst (A i j)) (fF fa) + fxval (snd (A i j)) (fF fa) * fxval (snd (A i j)) (fF fa)) M <= lam * lam) ->
  cqr_pivots pwl M fa mI A junk nu ->
  exists Q U, cqrd true pwl M fa fo mI A junk = Some (Q, U) /\
    forall i j, (i < M)%nat -> (j < M)%nat ->
      Rabs (mulCr M (fun i j => fxval (fst (Q i j)) (fF fo)) (fun i j => fxval (snd (Q i j)) (fF fo))
        (fun k j => fxval (fst (Q j k)) (fF fo)) (fun k j => - fxval (snd (Q j k)) (fF fo)) i j - (if Nat.eqb i j then 1 else 0)) < 1).
Proof.
  intros pwl H. destruct (H 2%nat (Fmt 32 16 true RND SAT) (Fmt 32 16 true RND SAT) 36%Z sing2 0%Z 1 1 (sing2_types pwl) eq_refl sing2_cols (sing2_pivots pwl)) as (Q & U & E & B).
  assert (C : match cqrd true pwl 2 (Fmt 32 16 true RND SAT) (Fmt 32 16 true RND SAT) 36 sing2 0 with
    | Some (Q, U) => map (Q 1%nat) (seq 0 2) = [(0, 0); (0, 0)]%Z | None => False end) by (clear; destruct pwl; vm_compute; reflexivity).
  rewrite E in C. cbn [seq map] in C. injection C as C0 C1. specialize (B 1%nat 1%nat ltac:(lia) ltac:(lia)). change (fF (Fmt 32 16 true RND SAT)) with 16%Z in B.
  unfold mulCr in B. cbn [sumR Nat.eqb] in B. rewrite C0, C1 in B. cbn [fst snd] in B. rewrite !fxval_0 in B.
  replace (0 + (0 * 0 - 0 * - 0) + (0 * 0 - 0 * - 0) - 1) with (-(1)) in B by ring. rewrite Rabs_Ropp, Rabs_R1 in B. lra.
Qed.
