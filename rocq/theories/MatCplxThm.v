(** ac_matrixmul on complex elements, and the 2 x 2 complex determinant. *)
From Coq Require Import Lia ZifyBool.
From Verif Require Import AcTypes AcFacts Spec SpecFacts ShiftFacts SpecMat SpecCplx RtTypes RtFacts MatrixModel DetModel MatCplxModel DetFacts MatrixProofs DetProofs DetRefute MatCplx.
From Verif Require AbsProofs.

(** *** ac_matrixmul *)
Lemma fold_pair (f1 f2 : Z -> nat -> Z) l : forall x y,
  fold_left (fun (s : gi) k => (f1 (fst s) k, f2 (snd s) k)) l (x, y) = (fold_left f1 l x, fold_left f2 l y).
Proof. induction l as [|k l IH]; intros x y; [reflexivity|]. cbn [fold_left fst snd]. apply IH. Qed.

Lemma sum_part N W S I F p : 1 <= W -> (1 <= N)%nat -> F = W - I ->
  (forall k, (k < N)%nat -> in_range S W (p k)) ->
  fold_left (fun s k => conv (rt_sum (dfmt W I S) (Z.of_nat N)) (s + conv (dfmt W I S) (p k) F) F) (seq 0 N)
    (conv (rt_sum (dfmt W I S) (Z.of_nat N)) 0 0) = zsum N p.
Proof.
  intros HW HN HF HP. pose proof (Z.log2_up_nonneg (Z.of_nat N)) as L0. destruct (log2_up_le (Z.of_nat N) ltac:(lia)) as [_ L1].
  erewrite fold_left_ext; [|intros s k Hk; apply in_seq in Hk; rewrite (conv_dfmt_same _ _ _ (p k)), wrap_id by (first [lia|apply HP; lia]); reflexivity].
  unfold rt_sum. cbn [dfmt fW fI fS]. change (Fmt ?W ?I ?S TRN WRAP) with (dfmt W I S).
  rewrite (acc_wrap _ _ _ _ p) by lia. apply wrap_id; [lia|].
  pose proof (zsum_bounds N p (imin S W) (imax S W) HP) as B. set (l := Z.log2_up (Z.of_nat N)) in *. pose proof (pow2_pos l L0).
  unfold in_range, imin, imax in *. destruct S.
  - replace (W + l - 1) with ((W - 1) + l) by lia. rewrite pow2_add by lia. pose proof (pow2_pos (W - 1) ltac:(lia)). nia.
  - rewrite pow2_add by lia. pose proof (pow2_pos W ltac:(lia)). nia.
Qed.

(** The type of the parts of a product holds the parts of every product of the operands' types. *)
Definition holds_products (ta tb tp : fmt) : Prop :=
  tp = dfmt (fW tp) (fI tp) (fS tp) /\ 1 <= fW tp /\ fF tp = fF ta + fF tb /\
  forall x y z w, fits ta x -> fits ta y -> fits tb z -> fits tb w -> fits tp (x * z - y * w) /\ fits tp (x * w + y * z).

Theorem cmatrixmul_ok M N P ta tb tp tc a b i j : holds_products ta tb tp -> 1 <= fW tc -> (1 <= N)%nat ->
  (forall i j, (i < M)%nat -> (j < N)%nat -> fits ta (fst (a i j)) /\ fits ta (snd (a i j))) ->
  (forall i j, (i < N)%nat -> (j < P)%nat -> fits tb (fst (b i j)) /\ fits tb (snd (b i j))) -> (i < M)%nat -> (j < P)%nat ->
  let r := cmatrixmul N tp tc (fF ta + fF tb) a b i j in
  converts2 tc (zsum N (fun k => fst (a i k) * fst (b k j) - snd (a i k) * snd (b k j))) (- (fF ta + fF tb)) (fst r) /\
  converts2 tc (zsum N (fun k => fst (a i k) * snd (b k j) + snd (a i k) * fst (b k j))) (- (fF ta + fF tb)) (snd r).
Proof.
  intros (ET & HW & EF & HP) HC HN Ha Hb Hi Hj r.
  assert (E : r = c_conv tc (zsum N (fun k => fst (a i k) * fst (b k j) - snd (a i k) * snd (b k j)),
                             zsum N (fun k => fst (a i k) * snd (b k j) + snd (a i k) * fst (b k j))) (fF ta + fF tb)).
  { unfold r, cmatrixmul. cbv zeta. rewrite ET. f_equal.
    set (F := fF ta + fF tb) in *. set (W := fW tp) in *. set (I := fI tp) in *. set (S := fS tp) in *.
    assert (HF : F = W - I) by (rewrite <- EF; reflexivity).
    etransitivity;
      [exact (fold_pair
         (fun s k => conv (rt_sum (dfmt W I S) (Z.of_nat N)) (s + conv (dfmt W I S) (fst (a i k) * fst (b k j) - snd (a i k) * snd (b k j)) F) F)
         (fun s k => conv (rt_sum (dfmt W I S) (Z.of_nat N)) (s + conv (dfmt W I S) (fst (a i k) * snd (b k j) + snd (a i k) * fst (b k j)) F) F)
         (seq 0 N) (conv (rt_sum (dfmt W I S) (Z.of_nat N)) 0 0) (conv (rt_sum (dfmt W I S) (Z.of_nat N)) 0 0))|].
    rewrite (sum_part N W S I F (fun k => fst (a i k) * fst (b k j) - snd (a i k) * snd (b k j))), (sum_part N W S I F (fun k => fst (a i k) * snd (b k j) + snd (a i k) * fst (b k j)));
      try assumption; try reflexivity; intros k Hk; destruct (Ha i k Hi Hk), (Hb k j Hk Hj);
      destruct (HP (fst (a i k)) (snd (a i k)) (fst (b k j)) (snd (b k j))) as [P1 P2]; assumption. }
  rewrite E. unfold c_conv. cbn [fst snd]. split; (apply (conv_eq_converts2 tc _ _ (fF ta + fF tb)); [assumption|lia|reflexivity]).
Qed.

(** One bit more than the product of the parts when an operand is signed, two when none is. *)
Lemma prod_abs S1 W1 S2 W2 x y : 1 <= W1 -> 1 <= W2 -> in_range S1 W1 x -> in_range S2 W2 y ->
  Z.abs (x * y) <= 2 ^ (W1 - b2z S1 + (W2 - b2z S2)) /\ (S1 && S2 = false -> Z.abs (x * y) < 2 ^ (W1 - b2z S1 + (W2 - b2z S2))).
Proof.
  intros H1 H2 Hx Hy. rewrite pow2_add by (destruct S1, S2; cbn [b2z]; lia).
  assert (X : Z.abs x <= 2 ^ (W1 - b2z S1) - (1 - b2z S1)) by (unfold in_range, imin, imax in Hx; destruct S1; cbn [b2z]; rewrite ?Z.sub_0_r; lia).
  assert (Y : Z.abs y <= 2 ^ (W2 - b2z S2) - (1 - b2z S2)) by (unfold in_range, imin, imax in Hy; destruct S2; cbn [b2z]; rewrite ?Z.sub_0_r; lia).
  pose proof (pow2_pos (W1 - b2z S1) ltac:(destruct S1; cbn [b2z]; lia)). pose proof (pow2_pos (W2 - b2z S2) ltac:(destruct S2; cbn [b2z]; lia)).
  rewrite Z.abs_mul. set (p := 2 ^ (W1 - b2z S1)) in *. set (q := 2 ^ (W2 - b2z S2)) in *.
  split; [|intros E]; destruct S1, S2; cbn [b2z andb] in *; try discriminate; nia.
Qed.
Theorem products_signed ta tb W : 1 <= fW ta -> 1 <= fW tb ->
  fW ta + fW tb + (if fS ta || fS tb then 1 else 2) <= W -> holds_products ta tb (dfmt W (W - (fF ta + fF tb)) true).
Proof.
  intros HA HB HW. assert (W0 : 3 <= W) by (destruct (fS ta || fS tb); lia).
  split; [reflexivity|]. split; [cbn [dfmt fW]; lia|]. split; [unfold fF at 1; cbn [dfmt fW fI]; lia|].
  intros x y z w Hx Hy Hz Hw. unfold fits in *. 
  pose proof (prod_abs _ _ _ _ x z HA HB Hx Hz). pose proof (prod_abs _ _ _ _ y w HA HB Hy Hw).
  pose proof (prod_abs _ _ _ _ x w HA HB Hx Hw). pose proof (prod_abs _ _ _ _ y z HA HB Hy Hz).
  assert (0 < 2 ^ (fW ta - b2z (fS ta) + (fW tb - b2z (fS tb)))) by (apply pow2_pos; destruct (fS ta), (fS tb); cbn [b2z]; lia).
  assert (E : (if fS ta && fS tb then 4 else 2) * 2 ^ (fW ta - b2z (fS ta) + (fW tb - b2z (fS tb))) <= 2 ^ (W - 1)).
  { replace (if fS ta && fS tb then 4 else 2) with (2 ^ (if fS ta && fS tb then 2 else 1)) by (destruct (fS ta && fS tb); reflexivity).
    rewrite <- pow2_add by (destruct (fS ta), (fS tb); cbn [b2z andb]; lia). apply pow2_le.
    destruct (fS ta), (fS tb); cbn [b2z andb orb] in *; lia. }
  cbn [dfmt fW fS]. unfold in_range, imin, imax. destruct (fS ta && fS tb); lia.
Qed.

(** *** 2 x 2 *)
Definition csigned (W : Z) (M : nat) (A : nat -> nat -> gi) : Prop :=
  forall i j, (i < M)%nat -> (j < M)%nat -> (- 2 ^ (W - 1) <= fst (A i j) < 2 ^ (W - 1)) /\ (- 2 ^ (W - 1) <= snd (A i j) < 2 ^ (W - 1)).

Lemma prod_h h x y : 1 <= h -> - h <= x < h -> - h <= y < h -> - (h * h) + h <= x * y <= h * h.
Proof. intros Hh Hx Hy. split; destruct (Z.le_gt_cases 0 x), (Z.le_gt_cases 0 y); nia. Qed.

Theorem cdeterminant_2 L tin tout A : 0 <= L -> fS tin = true -> 1 <= fW tin -> 0 <= fF tin -> fS tout = true -> 1 <= fW tout ->
  csigned (fW tin) 2 A ->
  let d := gdet 2 A in let r := cdeterminant (cdet_default 2 L tin tout) 2 A in
  (- 2 ^ (2 * fW tin - 1) <= fst d < 2 ^ (2 * fW tin - 1) -> converts2 tout (fst d) (- (2 * fF tin)) (fst r)) /\
  (- 2 ^ (2 * fW tin - 1) <= snd d < 2 ^ (2 * fW tin - 1) -> converts2 tout (snd d) (- (2 * fF tin)) (snd r)).
Proof.
  intros HL HS HW HF OS OW HA d r. set (W := fW tin) in *. set (F := fF tin) in *. set (h := 2 ^ (W - 1)) in *.
  assert (PH : 1 <= h) by (unfold h; pose proof (pow2_pos (W - 1) ltac:(lia)); lia).
  assert (P2 : 2 ^ (2 * W) = 4 * h * h).
  { unfold h. replace (2 * W) with (1 + (1 + ((W - 1) + (W - 1)))) by lia. rewrite !pow2_add by lia. change (2 ^ 1) with 2. ring. }
  set (T := cdet_default 2 L tin tout) in *.
  assert (FB : fF (t_base T) = 2 * F) by (unfold T, fF, F; cbn [cdet_default t_base fW fI]; fold W; unfold fF; fold W; lia).
  assert (FD : fF (t_d T) = 2 * F) by (unfold T, fF, F; cbn [cdet_default det_default t_d fW fI]; fold W; unfold fF; fold W; lia).
  assert (HB : holds (t_base T) (2 * F) (4 * h * h - 1)).
  { repeat split; [cbn [T cdet_default t_base fW]; fold W; lia|lia|]. rewrite FB, Z.sub_diag. cbn [T cdet_default t_base fW]. fold W.
    replace (2 * W + 1 - 1) with (2 * W) by lia. rewrite P2. change (2 ^ 0) with 1. lia. }
  assert (HP : forall i j i' j', (i < 2)%nat -> (j < 2)%nat -> (i' < 2)%nat -> (j' < 2)%nat ->
    (- (2 * h * h) + 2 * h <= fst (A i j) * snd (A i' j') + snd (A i j) * fst (A i' j') <= 2 * h * h) /\
    (- (2 * h * h) + h <= fst (A i j) * fst (A i' j') - snd (A i j) * snd (A i' j') <= 2 * h * h - h)).
  { intros i j i' j' H1 H2 H3 H4. destruct (HA i j H1 H2) as [X1 X2], (HA i' j' H3 H4) as [Y1 Y2].
    pose proof (prod_h h _ _ PH X1 Y1). pose proof (prod_h h _ _ PH X2 Y2). pose proof (prod_h h _ _ PH X1 Y2). pose proof (prod_h h _ _ PH X2 Y1). lia. }
  destruct (HP 0 0 1 1 ltac:(lia) ltac:(lia) ltac:(lia) ltac:(lia))%nat as [Q1 Q2].
  destruct (HP 0 1 1 0 ltac:(lia) ltac:(lia) ltac:(lia) ltac:(lia))%nat as [Q3 Q4].
  assert (PH2 : h <= h * h) by nia.
  assert (ID : forall v, Z.abs v <= 4 * h * h - 1 -> conv (t_base T) v (2 * F) = v).
  { intros v Hv. rewrite (holds_conv _ _ _ _ HB Hv), FB, Z.sub_diag. change (2 ^ 0) with 1. lia. }
  assert (C : cdet_compute T 2 A = gdet 2 A).
  { rewrite gdet2_eq. cbn [cdet_compute]. change (fF (t_in T)) with F. rewrite FB. unfold c_conv, c_mul, c_sub, gadd, gopp, gmul. cbn [fst snd].
    set (p1 := fst (A O O) * fst (A 1%nat 1%nat) - _) in *. set (p2 := fst (A O O) * snd (A 1%nat 1%nat) + _) in *.
    set (p3 := fst (A O 1%nat) * fst (A 1%nat O) - _) in *. set (p4 := fst (A O 1%nat) * snd (A 1%nat O) + _) in *.
    rewrite (ID p1), (ID p2), (ID p3), (ID p4) by lia. rewrite !ID by lia. f_equal; lia. }
  assert (R : r = c_conv tout (c_conv (t_d T) d (2 * F)) (2 * F)).
  { unfold r, cdeterminant. rewrite C, FD. unfold ret_type. cbn [Nat.leb]. rewrite FB. reflexivity. }
  assert (ID2 : forall v, - 2 ^ (2 * W - 1) <= v < 2 ^ (2 * W - 1) -> conv (t_d T) v (2 * F) = v).
  { intros v Hv. rewrite <- FD, conv_same_f. change (fO (t_d T)) with SAT. change (fS (t_d T)) with true. change (fW (t_d T)) with (2 * W).
    apply overflow_id; [lia|unfold in_range, imin, imax; lia|discriminate]. }
  rewrite R. unfold c_conv. cbn [fst snd].
  split; intros Hd; rewrite ID2 by exact Hd; (apply (conv_eq_converts2 tout _ _ (2 * F)); [exact OW|lia|reflexivity]).
Qed.

(** At every element width the internal type loses a 2 x 2 determinant the output type can hold: (-h - h i)^2 = 2 h^2 i. *)
Definition cdiag2 (x : gi) : nat -> nat -> gi := fun i j => if Nat.eqb i j then x else (0, 0).
Theorem cdeterminant_2_wrong W L Wo : 1 <= W -> 0 <= L -> 2 * W + 1 <= Wo ->
  let tin := Fmt W W true TRN WRAP in let tout := Fmt Wo Wo true TRN WRAP in
  let A := cdiag2 (- 2 ^ (W - 1), - 2 ^ (W - 1)) in
  csigned W 2 A /\ gdet 2 A = (0, 2 ^ (2 * W - 1)) /\ converts2 tout (2 ^ (2 * W - 1)) 0 (2 ^ (2 * W - 1)) /\
  cdeterminant (cdet_default 2 L tin tout) 2 A = (0, 2 ^ (2 * W - 1) - 1).
Proof.
  intros HW HL HO tin tout A. set (h := 2 ^ (W - 1)) in *.
  assert (PH : 1 <= h) by (unfold h; pose proof (pow2_pos (W - 1) ltac:(lia)); lia).
  assert (P2 : 2 ^ (2 * W - 1) = 2 * h * h).
  { unfold h. replace (2 * W - 1) with (1 + ((W - 1) + (W - 1))) by lia. rewrite !pow2_add by lia. change (2 ^ 1) with 2. ring. }
  assert (P3 : 2 ^ (2 * W + 1 - 1) = 4 * h * h).
  { replace (2 * W + 1 - 1) with (1 + (2 * W - 1)) by lia. rewrite pow2_add, P2 by lia. change (2 ^ 1) with 2. ring. }
  assert (PO : 4 * h * h <= 2 ^ (Wo - 1)) by (rewrite <- P3; apply pow2_le; lia).
  assert (D : gdet 2 A = (0, 2 ^ (2 * W - 1))).
  { rewrite gdet2_eq. unfold A, cdiag2, gadd, gmul, gopp. cbn [Nat.eqb fst snd]. rewrite P2. f_equal; lia. }
  assert (PH2 : h <= h * h) by nia.
  split; [|split; [exact D|split]].
  - intros i j Hi Hj. fold h. unfold A, cdiag2. destruct (Nat.eqb i j); cbn [fst snd]; lia.
  - apply (conv_eq_converts2 tout _ _ 0); [cbn [tout fW]; lia|lia|]. symmetry. apply conv_int_id; [lia|rewrite P2; lia].
  - unfold cdeterminant. cbn [cdet_compute]. unfold ret_type. cbn [Nat.leb]. cbn [cdet_default det_default t_in t_out t_d t_base].
    change (fF tin) with (W - W). cbn [tin fW fI fQ fO]. unfold fF. cbn [fW fI]. rewrite !Z.sub_diag. change (2 * 0) with 0.
    assert (CB : forall v, Z.abs v < 4 * h * h -> conv (Fmt (2 * W + 1) (2 * W + 1) true TRN WRAP) v 0 = v) by (intros v Hv; apply conv_int_id; lia).
    unfold A, cdiag2, c_mul, c_sub, c_conv. cbn [Nat.eqb fst snd].
    rewrite (CB (- h * - h - - h * - h)), (CB (- h * - h + - h * - h)), (CB (0 * 0 - 0 * 0)), (CB (0 * 0 + 0 * 0)) by lia.
    rewrite !CB by lia.
    assert (CD : forall v, conv (Fmt (2 * W) (2 * W) true RND SAT) v 0 = overflow SAT true (2 * W) v).
    { intros v. change (Fmt (2 * W) (2 * W) true RND SAT) with (Fmt (2 * W) (2 * W) true RND SAT).
      replace 0 with (fF (Fmt (2 * W) (2 * W) true RND SAT)) by (unfold fF; cbn [fW fI]; lia). rewrite conv_same_f. reflexivity. }
    rewrite !CD. f_equal.
    + replace (- h * - h - - h * - h - (0 * 0 - 0 * 0)) with 0 by lia. unfold overflow, imin, imax. rewrite P2.
      replace (0 <? - (2 * h * h)) with false by lia. replace (2 * h * h - 1 <? 0) with false by lia. apply conv_int_id; [lia|lia].
    + replace (- h * - h + - h * - h - (0 * 0 + 0 * 0)) with (2 * h * h) by lia. unfold overflow, imin, imax. rewrite P2.
      replace (2 * h * h <? - (2 * h * h)) with false by lia. replace (2 * h * h - 1 <? 2 * h * h) with true by lia. apply conv_int_id; [lia|lia].
Qed.
