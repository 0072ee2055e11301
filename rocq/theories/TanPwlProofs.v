(** Proofs about the piecewise-linear tangent: the internal copy of the input, evaluation and monotonicity. *)
From Coq Require Import Reals ZArith List Lia Lra Psatz ZifyBool.
From Verif Require Import AcTypes ShiftModel LeadingModel AcFacts Spec SpecFacts SpecR SpecRFacts PwlModel PwlFacts PwlProofs PwlSqrt PwlReal PwlHaModel PwlHaProofs AtanPwlProofs AtanPwlReal TanPwlModel.
Import ListNotations.
Local Open Scope Z_scope.
Ltac Zify.zify_post_hook ::= idtac.

(** The inputs whose conversion to the internal format cannot overflow: all but those with I <= 0, more than 19
    fraction bits, a rounding mode that can round up and an overflow mode that does not saturate. *)
Definition tan_dom (W I : Z) (Q : qmode) (O : omode) : Prop :=
  1 <= I \/ W - I <= 19 \/ Q = TRN \/ Q = TRN_ZERO \/ O = SAT \/ O = SAT_SYM.

Lemma overflow_as_sat o w z : 1 <= w -> 0 <= z -> (o = SAT \/ o = SAT_SYM) \/ z < 2 ^ w -> overflow o false w z = overflow SAT false w z.
Proof.
  intros Hw Hz H. destruct H as [[->| ->]|H]; [reflexivity|unfold overflow, imin; reflexivity|].
  rewrite !overflow_id; try reflexivity; try assumption; try (unfold in_range, imin, imax; lia); try discriminate.
Qed.
Lemma qround_le q n d c : 0 < d -> n <= c * d -> qround q n d <= c.
Proof. intros Hd H. rewrite <- (qround_exact q c d) by exact Hd. apply qround_mono; assumption. Qed.
Lemma qround_nonneg q n d : 0 < d -> 0 <= n -> 0 <= qround q n d.
Proof. intros Hd H. pose proof (qround_bounds q n d Hd). pose proof (Z.div_pos n d H Hd). lia. Qed.
Lemma qround_trn_lt q n d c : q = TRN \/ q = TRN_ZERO -> 0 < d -> 0 <= n -> n < c * d -> qround q n d < c.
Proof. intros Hq Hd Hn H. assert (n / d < c) by (apply Z.div_lt_upper_bound; lia). unfold qround. destruct Hq as [->| ->]; [lia|]. replace (n <? 0) with false by lia. cbn [andb]. lia. Qed.

Lemma conv_as_sat w i q o x F : 1 <= w -> 0 <= x ->
  (o = SAT \/ o = SAT_SYM) \/ (exists c, c < 2 ^ w /\ x * pw (- F) * pw (w - i) <= c * (pw F * pw (- (w - i)))) \/
  ((q = TRN \/ q = TRN_ZERO) /\ x * pw (- F) * pw (w - i) < 2 ^ w * (pw F * pw (- (w - i)))) ->
  conv (Fmt w i false q o) x F = conv (Fmt w i false q SAT) x F.
Proof.
  intros Hw Hx H. unfold conv, conv_rat, fF. cbn [fO fS fW fQ fI]. pose proof (pw_pos F). pose proof (pw_pos (- F)). pose proof (pw_pos (w - i)). pose proof (pw_pos (- (w - i))).
  assert (D : 0 < pw F * pw (- (w - i))) by nia. assert (N : 0 <= x * pw (- F) * pw (w - i)) by (apply Z.mul_nonneg_nonneg; [apply Z.mul_nonneg_nonneg|]; lia).
  apply overflow_as_sat; [exact Hw|apply qround_nonneg; assumption|]. destruct H as [H|[(c & C1 & C2)|[C1 C2]]]; [left; exact H|right|right].
  - pose proof (qround_le q _ _ c D C2). lia.
  - apply qround_trn_lt; assumption.
Qed.

Lemma bp_le a b : a <= b -> (bpow2 a <= bpow2 b)%R.
Proof. intros H. replace b with (a + (b - a)) by lia. rewrite bpow2_add, (bpow2_IZR (b - a)) by lia. pose proof (bpow2_pos a). assert (1 <= IZR (2 ^ (b - a)))%R by (apply (IZR_le 1); pose proof (pow2_pos (b - a) ltac:(lia)); lia). nra. Qed.
(** Converting a value of [0, 2^i] into a saturating format. *)
Lemma sat_near w i q x F : 1 <= w -> 0 <= x -> (fxval x F <= bpow2 i)%R ->
  let y := conv (Fmt w i false q SAT) x F in (Rabs (fxval y (w - i) - fxval x F) <= bpow2 (- (w - i)))%R.
Proof.
  intros Hw Hx HV y. assert (C : convertsR (Fmt w i false q SAT) (fxval x F) y) by (unfold fxval; apply converts2_R, conv_conv2; cbn [fW]; exact Hw).
  set (V := fxval x F) in *. assert (V0 : (0 <= V)%R) by (unfold V, fxval; apply Rmult_le_pos; [apply (IZR_le 0); lia|apply Rlt_le, bpow2_pos]).
  destruct C as (z & Rz & Lz). cbn [fQ fO fS fW is_limited] in *. unfold lowest, highest in Lz. replace (fF (Fmt w i false q SAT)) with (w - i) in Rz by reflexivity.
  apply is_roundR_near in Rz. pose proof (pow2_pos w ltac:(lia)) as PZ. pose proof (bpow2_pos (w - i)) as P. pose proof (bpow2_IZR w ltac:(lia)) as E.
  assert (Z0 : 0 <= z). { apply Z.lt_succ_r. apply (lt_IZR 0 (Z.succ z)). rewrite succ_IZR. assert (0 <= V * bpow2 (w - i))%R by nra. lra. }
  assert (En : y = Z.min (2 ^ w - 1) z) by (cbn [andb] in Lz; lia). clear Lz. clearbody y.
  assert (HV2 : (V * bpow2 (w - i) <= IZR (2 ^ w))%R). { rewrite <- E. replace w with (i + (w - i)) at 2 by lia. rewrite bpow2_add. apply Rmult_le_compat_r; lra. }
  assert (K : (Rabs (IZR y - V * bpow2 (w - i)) <= 1)%R).
  { apply Rabs_le. destruct (Z.le_gt_cases z (2 ^ w - 1)) as [Hz|Hz].
    - rewrite Z.min_r in En by lia. subst y. lra.
    - rewrite Z.min_l in En by lia. assert (IZR (2 ^ w) <= IZR z)%R by (apply IZR_le; lia). subst y. rewrite minus_IZR. lra. }
  unfold fxval. pose proof (bpow2_opp (w - i)) as EI. assert (PI : (0 < bpow2 (- (w - i)))%R) by apply bpow2_pos. assert (E1 : (bpow2 (w - i) * bpow2 (- (w - i)) = 1)%R) by (rewrite EI; apply Rinv_r; lra).
  replace (IZR y * bpow2 (- (w - i)) - V)%R with ((IZR y - V * bpow2 (w - i)) * bpow2 (- (w - i)))%R by (rewrite Rmult_minus_distr_r, Rmult_assoc, E1; ring). rewrite Rabs_mult, (Rabs_pos_eq (bpow2 (- (w - i)))) by lra.
  apply (Rmult_le_compat_r (bpow2 (- (w - i)))) in K; lra.
Qed.
Lemma fxval_up x F g : F <= g -> fxval (x * 2 ^ (g - F)) g = fxval x F.
Proof. intros H. unfold fxval. rewrite mult_IZR, Rmult_assoc, <- bpow2_IZR by lia. rewrite <- bpow2_add. do 2 f_equal. lia. Qed.
Lemma sat_exact w i q x F : 1 <= w -> 0 <= x -> F <= w - i -> x * 2 ^ (w - i - F) < 2 ^ w -> conv (Fmt w i false q SAT) x F = x * 2 ^ (w - i - F).
Proof.
  intros Hw Hx HF H. pose proof (pow2_pos (w - i - F) ltac:(lia)). rewrite <- (DetProofs.conv_rescale _ x F (w - i)) by lia. set (y := x * 2 ^ (w - i - F)) in *. assert (0 <= y) by (unfold y; nia).
  unfold conv, conv_rat, fF. cbn [fO fS fW fQ fI]. rewrite (qround_eqq q _ _ y 1); [rewrite qround_int; apply overflow_id; [exact Hw|unfold in_range, imin, imax; lia|discriminate]| |lia|].
  - pose proof (pw_pos (w - i)). pose proof (pw_pos (- (w - i))). nia.
  - lia.
Qed.

Section Int.
Variables (W I : Z) (Q : qmode) (O : omode).
Hypothesis HW : 1 <= W.
Hypothesis HWi : 1 <= tan_Wi W I.
Hypothesis Dom : tan_dom W I Q O.
Notation F := (W - I).
Notation nf := (tan_nf W I).
Notation Ii := (tan_Ii I).
Notation Wi := (tan_Wi W I).

Lemma tan_fmt : Wi = Ii + nf /\ 0 <= nf <= 20 /\ (19 < F -> nf = 19 + b2z (0 <=? I)) /\ (F <= 19 -> nf = F + b2z (0 <=? I)) /\ -1 <= F /\ (I <= 0 -> 0 < F).
Proof. unfold tan_Wi, tan_Ii, tan_nf in *. destruct (Z.leb_spec 0 I); cbn [b2z] in *; lia. Qed.

Definition tan_sat (x : Z) : Z :=
  if tan_exceeds W I x then conv (Fmt Wi Ii false Q SAT) (conv (Fmt (Wi + 1) Ii false Q SAT) x F / 2) (nf + 1)
  else conv (Fmt Wi Ii false Q SAT) x F.

Lemma pw_up g : 0 <= g -> F <= g -> pw (- F) * 2 ^ g = 2 ^ (g - F) * pw F.
Proof.
  intros Hg HF. destruct (Z.le_gt_cases 0 F) as [H|H].
  - rewrite (pw_nonpos_eq (- F)), (pw_nonneg_eq F) by lia. rewrite <- pow2_add by lia. replace (g - F + F) with g by lia. lia.
  - rewrite (pw_nonneg_eq (- F)), (pw_nonpos_eq F) by lia. rewrite <- pow2_add by lia. rewrite Z.mul_1_r. f_equal. lia.
Qed.

Lemma tan_fit g x : 0 <= x < 2 ^ W -> tan_ge W I 1594 x = false -> nf <= g -> F <= g -> x * 2 ^ (g - F) < 2 ^ (Ii + g).
Proof.
  intros Hx G Hg HF. destruct tan_fmt as (EW & Bn & _ & _ & BF & B0). destruct (Z.le_gt_cases I 1) as [H|H].
  - assert (tan_Ii I = I) as -> by (unfold tan_Ii; lia). replace (I + g) with (W + (g - F)) by lia. rewrite (pow2_add W) by lia. pose proof (pow2_pos (g - F) ltac:(lia)). nia.
  - assert (tan_Ii I = 1) as -> by (unfold tan_Ii; lia). rewrite pow2_add by lia. unfold tan_ge in G. apply Z.leb_gt in G. pose proof (pw_up g ltac:(lia) HF) as P. pose proof (pw_pos F). pose proof (pow2_pos g ltac:(lia)).
    assert (G2 : x * (2 ^ (g - F) * pw F) * 1024 < 1594 * pw F * 2 ^ g) by (rewrite <- P; nia). assert (x * 2 ^ (g - F) * 1024 < 1594 * 2 ^ g) by (apply (Z.mul_lt_mono_pos_r (pw F)); lia). lia.
Qed.

Lemma tan_int_sat x : 0 <= x < 2 ^ W -> tan_ge W I 1594 x = false -> tan_int W I Q O x = tan_sat x.
Proof.
  intros Hx G. destruct tan_fmt as (EW & Bn & N1 & N2 & BF & B0). unfold tan_int, tan_sat. cbv zeta. pose proof (pow2_pos Wi ltac:(lia)) as PW.
  assert (PWS : 2 ^ (Wi + 1) = 2 * 2 ^ Wi) by (rewrite pow2_add by lia; lia).
  assert (En : forall k, pw (nf + k - 0) = pw (nf + k)) by (intros; f_equal; lia).
  destruct (tan_exceeds W I x) eqn:X.
  - unfold tan_exceeds in X. apply andb_prop in X. destruct X as [I0 X]. apply Z.leb_le in I0. rewrite (proj2 (Z.leb_le 0 I) I0) in N1, N2. cbn [b2z] in N1, N2.
    assert (C1 : conv (Fmt (Wi + 1) Ii false Q O) x F = conv (Fmt (Wi + 1) Ii false Q SAT) x F).
    { apply conv_as_sat; [lia|lia|]. replace (Wi + 1 - Ii) with (nf + 1) by lia. rewrite (pw_nonneg_eq (nf + 1)), (pw_nonpos_eq (- (nf + 1))) by lia. rewrite Z.mul_1_r. destruct (Z.le_gt_cases F 19) as [HF|HF].
      - right. left. exists (x * 2 ^ (nf + 1 - F)). split; [replace (Wi + 1) with (Ii + (nf + 1)) by lia; apply tan_fit; [exact Hx|exact G|lia|lia]|]. rewrite <- !Z.mul_assoc. rewrite pw_up by lia. lia.
      - rewrite (N1 HF) in *. rewrite (pw_nonneg_eq F), (pw_nonpos_eq (- F)) by lia. destruct (Z.le_gt_cases 1 I) as [H1|H1].
        + right. left. assert (E : Ii = 1) by (unfold tan_Ii; lia). exists (1594 * 2 ^ 11). split; [replace (Wi + 1) with 22 by lia; reflexivity|]. unfold tan_ge in G. apply Z.leb_gt in G. rewrite (pw_nonneg_eq F), (pw_nonpos_eq (- F)) in G by lia. change (2 ^ (19 + 1 + 1)) with (2 ^ 11 * 1024). nia.
        + assert (E : Ii = 0) by (unfold tan_Ii; lia). assert (I = 0) by lia. destruct Dom as [D|[D|[D|[D|D]]]]; [lia|lia| | |left; exact D].
          all: right; right; split; [first [left; exact D|right; exact D]|]; replace (Wi + 1) with 21 by lia; change (2 ^ (19 + 1 + 1)) with (2 ^ 21); replace F with W by lia; nia. }
    rewrite C1. set (a := conv (Fmt (Wi + 1) Ii false Q SAT) x F) in *. assert (Ha : 0 <= a < 2 ^ (Wi + 1)) by (apply conv_sat_u; lia).
    assert (S : shr false (Wi + 1) a 1 = a / 2). { unfold shr, wrap. rewrite Z.shiftr_div_pow2 by lia. change (2 ^ 1) with 2. apply wrapu_id. split; [apply Z.div_pos; lia|]. apply Z.div_lt_upper_bound; lia. }
    rewrite S. replace (Wi + 1 - Ii) with (nf + 1) by lia. assert (H2 : 0 <= a / 2 < 2 ^ Wi) by (split; [apply Z.div_pos; lia|apply Z.div_lt_upper_bound; lia]).
    apply conv_as_sat; [lia|lia|]. right. left. exists (2 ^ (Wi - 1)). assert (PH : 2 ^ Wi = 2 * 2 ^ (Wi - 1)) by (replace Wi with (1 + (Wi - 1)) at 1 by lia; rewrite pow2_add by lia; reflexivity).
    split; [pose proof (pow2_pos (Wi - 1) ltac:(lia)); lia|]. replace (Wi - Ii) with nf by lia. rewrite (pw_nonneg_eq nf), (pw_nonpos_eq (- nf)), (pw_nonneg_eq (nf + 1)), (pw_nonpos_eq (- (nf + 1))) by lia.
    rewrite (pow2_add nf 1) by lia. change (2 ^ 1) with 2. pose proof (pow2_pos nf ltac:(lia)). nia.
  - apply conv_as_sat; [lia|lia|]. replace (Wi - Ii) with nf by lia. rewrite (pw_nonneg_eq nf), (pw_nonpos_eq (- nf)) by lia. rewrite Z.mul_1_r. destruct (Z.le_gt_cases F 19) as [HF|HF].
    + right. left. exists (x * 2 ^ (nf - F)). assert (F <= nf) by (rewrite N2 by lia; destruct (0 <=? I); cbn [b2z]; lia). split; [rewrite EW; apply tan_fit; [exact Hx|exact G|lia|lia]|]. rewrite <- !Z.mul_assoc. rewrite pw_up by lia. lia.
    + rewrite (pw_nonneg_eq F), (pw_nonpos_eq (- F)) by lia. destruct (Z.leb_spec 0 I) as [I0|I0].
      * rewrite (N1 HF) in *. cbn [b2z] in *. right. left. exists (804 * 2 ^ 10). unfold tan_exceeds in X. rewrite (proj2 (Z.leb_le 0 I) I0) in X. cbn [andb] in X. unfold tan_ge in X. apply Z.leb_gt in X. rewrite (pw_nonneg_eq F), (pw_nonpos_eq (- F)) in X by lia.
        split; [|change (2 ^ (19 + 1)) with (2 ^ 10 * 1024); nia]. apply Z.lt_le_trans with (2 ^ 20); [reflexivity|]. apply pow2_le. unfold tan_Ii in *. lia.
      * rewrite (N1 HF) in *. cbn [b2z] in *. assert (E : Ii = I) by (unfold tan_Ii; lia). destruct Dom as [D|[D|[D|[D|D]]]]; [lia|lia| | |left; exact D].
        all: right; right; split; [first [left; exact D|right; exact D]|]; rewrite <- pow2_add by lia; replace (Wi + F) with (W + 19) by lia; rewrite (pow2_add W 19) by lia; rewrite Z.mul_1_r; change (2 ^ (19 + 0)) with (2 ^ 19); apply Z.mul_lt_mono_pos_r; [reflexivity|lia].
Qed.

Lemma tan_ge_real c x : tan_ge W I c x = true <-> (IZR c / 1024 <= fxval x F)%R.
Proof.
  pose proof (bpow2_split (- F)) as S. rewrite Z.opp_involutive in S. unfold tan_ge, fxval. rewrite S. pose proof (pw_pos F) as P1. apply IZR_lt in P1 as Q1.
  rewrite Z.leb_le. replace (IZR x * (IZR (pw (- F)) / IZR (pw F)))%R with (IZR (x * pw (- F)) / IZR (pw F))%R by (rewrite mult_IZR; field; lra).
  assert (E : (IZR (c * pw F) <= IZR (x * pw (- F) * 1024) <-> IZR c / 1024 <= IZR (x * pw (- F)) / IZR (pw F))%R).
  { rewrite (mult_IZR (x * pw (- F)) 1024), (mult_IZR c (pw F)). set (A := IZR (x * pw (- F))). set (P := IZR (pw F)) in *. assert (EA : (A = A / P * P)%R) by (field; lra). set (B := (A / P)%R) in *. rewrite EA. clear -Q1. split; intros H; nra. }
  rewrite <- E. split; [apply IZR_le|apply le_IZR].
Qed.

Definition tan_half (x : Z) : R := (if tan_exceeds W I x then fxval x F / 2 else fxval x F)%R.
Lemma tan_near x : 0 <= x < 2 ^ W -> tan_ge W I 1594 x = false -> (Rabs (fxval (tan_sat x) nf - tan_half x) <= bpow2 (-19))%R.
Proof.
  intros Hx G. destruct tan_fmt as (EW & Bn & N1 & N2 & BF & B0). unfold tan_sat, tan_half. set (X := fxval x F).
  assert (X0 : (0 <= X)%R) by (unfold X, fxval; apply Rmult_le_pos; [apply (IZR_le 0); lia|apply Rlt_le, bpow2_pos]).
  assert (XL : (X < 1594 / 1024)%R). { apply Rnot_le_lt. intros D. apply tan_ge_real in D. congruence. }
  assert (XI : (X <= bpow2 Ii)%R).
  { unfold tan_Ii. destruct (Z.le_gt_cases I 1) as [H|H].
    - rewrite Z.min_l by lia. unfold X, fxval. apply Rle_trans with (IZR (2 ^ W) * bpow2 (- F))%R; [apply Rmult_le_compat_r; [apply Rlt_le, bpow2_pos|apply IZR_le; lia]|]. rewrite <- bpow2_IZR, <- bpow2_add by lia. right. f_equal. lia.
    - rewrite Z.min_r by lia. rewrite bpow2_IZR by lia. change (2 ^ 1) with 2. lra. }
  pose proof (bpow2_pos (-19)) as P19.
  destruct (tan_exceeds W I x) eqn:EX.
  - assert (I0 : 0 <= I) by (unfold tan_exceeds in EX; apply andb_prop in EX; destruct EX as [E _]; apply Z.leb_le in E; exact E).
    rewrite (proj2 (Z.leb_le 0 I) I0) in N1, N2. cbn [b2z] in N1, N2. destruct (Z.le_gt_cases F 19) as [HF|HF].
    + assert (Fit : x * 2 ^ (nf + 1 - F) < 2 ^ (Wi + 1)) by (replace (Wi + 1) with (Ii + (nf + 1)) by lia; apply tan_fit; [exact Hx|exact G|lia|lia]).
      rewrite (N2 HF) in *. replace (F + 1 + 1 - F) with 2 in Fit by lia. change (2 ^ 2) with 4 in Fit. rewrite (pow2_add Wi 1) in Fit by lia. change (2 ^ 1) with 2 in Fit.
      rewrite (sat_exact (Wi + 1) Ii Q x F); [|lia|lia|lia|]. 2: { replace (Wi + 1 - Ii - F) with 2 by lia. rewrite (pow2_add Wi 1) by lia. change (2 ^ 2) with 4. change (2 ^ 1) with 2. lia. }
      replace (Wi + 1 - Ii - F) with 2 by lia. change (2 ^ 2) with 4. replace (x * 4 / 2) with (x * 2 ^ (F + 1 + 1 - (F + 1))) by (replace (F + 1 + 1 - (F + 1)) with 1 by lia; change (2 ^ 1) with 2; replace (x * 4) with (x * 2 * 2) by ring; rewrite Z.div_mul by lia; reflexivity).
      rewrite DetProofs.conv_rescale by lia. rewrite (sat_exact Wi Ii Q x (F + 1)); [|lia|lia|lia|replace (Wi - Ii - (F + 1)) with 0 by lia; change (2 ^ 0) with 1; lia].
      replace (Wi - Ii - (F + 1)) with (F + 1 - (F + 1)) by lia. rewrite fxval_up by lia. unfold X, fxval. replace (- (F + 1)) with (- F + - (1)) by lia. rewrite bpow2_add. replace (bpow2 (- (1))) with (/ 2)%R by (rewrite bpow2_opp, bpow2_1; reflexivity).
      match goal with |- (Rabs ?e <= _)%R => replace e with 0%R by (field; lra) end. rewrite Rabs_R0. lra.
    + rewrite (N1 HF) in *. pose proof (sat_near (Wi + 1) Ii Q x F ltac:(lia) ltac:(lia) XI) as A1. cbv zeta in A1. set (a := conv (Fmt (Wi + 1) Ii false Q SAT) x F) in *.
      assert (Ha : 0 <= a < 2 ^ (Wi + 1)) by (apply conv_sat_u; lia). replace (Wi + 1 - Ii) with 21 in A1 by lia. fold X in A1.
      assert (A2 : (Rabs (fxval (a / 2) 21 - fxval a 21 / 2) <= bpow2 (-22))%R).
      { unfold fxval. replace (IZR (a / 2) * bpow2 (- (21)) - IZR a * bpow2 (- (21)) / 2)%R with ((2 * IZR (a / 2) - IZR a) * (bpow2 (- (21)) / 2))%R by field. replace (bpow2 (- (21)) / 2)%R with (bpow2 (-22)) by (change (-22) with (- (21) + - (1)); rewrite bpow2_add, (bpow2_opp 1), bpow2_1; reflexivity).
        rewrite Rabs_mult, (Rabs_pos_eq (bpow2 (-22))) by (apply Rlt_le, bpow2_pos). rewrite <- (Rmult_1_l (bpow2 (-22))) at 2. apply Rmult_le_compat_r; [apply Rlt_le, bpow2_pos|]. pose proof (Z.div_mod a 2 ltac:(lia)) as DM. pose proof (Z.mod_pos_bound a 2 ltac:(lia)) as MB.
        replace (2 * IZR (a / 2))%R with (IZR (2 * (a / 2))) by (rewrite mult_IZR; reflexivity). rewrite <- minus_IZR, <- abs_IZR. apply (IZR_le _ 1). lia. }
      assert (L2 : (fxval (a / 2) (19 + 1 + 1) <= bpow2 Ii)%R).
      { unfold fxval. assert (H2 : a / 2 <= 2 ^ Wi). { apply Z.div_le_upper_bound; [lia|]. rewrite pow2_add in Ha by lia. lia. }
        apply Rle_trans with (IZR (2 ^ Wi) * bpow2 (- (19 + 1 + 1)))%R; [apply Rmult_le_compat_r; [apply Rlt_le, bpow2_pos|apply IZR_le; exact H2]|]. rewrite <- bpow2_IZR by lia. rewrite <- bpow2_add. apply bp_le. lia. }
      pose proof (sat_near Wi Ii Q (a / 2) (19 + 1 + 1) ltac:(lia) ltac:(apply Z.div_pos; lia) L2) as A3. cbv zeta in A3. replace (Wi - Ii) with 20 in A3 by lia. change (19 + 1 + 1) with 21 in *. change (19 + 1) with 20.
      set (y := conv (Fmt Wi Ii false Q SAT) (a / 2) 21) in *. apply Rabs_le_both in A1, A2, A3.
      assert (E22 : bpow2 (- (21)) = (2 * bpow2 (-22))%R) by (change (- (21)) with (1 + -22); rewrite bpow2_add, bpow2_1; reflexivity). assert (E20 : bpow2 (- (20)) = (4 * bpow2 (-22))%R) by (change (- (20)) with (1 + (1 + -22)); rewrite !bpow2_add, bpow2_1; ring). assert (E19 : bpow2 (-19) = (8 * bpow2 (-22))%R) by (change (-19) with (1 + (1 + (1 + -22))); rewrite !bpow2_add, bpow2_1; ring).
      pose proof (bpow2_pos (-22)). apply Rabs_le. lra.
  - destruct (Z.le_gt_cases F 19) as [HF|HF].
    + assert (FN : F <= nf) by (rewrite (N2 HF); destruct (0 <=? I); cbn [b2z]; lia). assert (Fit : x * 2 ^ (nf - F) < 2 ^ Wi) by (rewrite EW; apply tan_fit; [exact Hx|exact G|lia|lia]).
      rewrite (sat_exact Wi Ii Q x F); [|lia|lia|lia|replace (Wi - Ii - F) with (nf - F) by lia; exact Fit]. replace (Wi - Ii - F) with (nf - F) by lia. rewrite fxval_up by lia. unfold X. rewrite Rminus_eq_0, Rabs_R0. lra.
    + pose proof (sat_near Wi Ii Q x F ltac:(lia) ltac:(lia) XI) as A. cbv zeta in A. replace (Wi - Ii) with nf in A by lia. fold X in A. eapply Rle_trans; [exact A|]. apply bp_le. rewrite (N1 HF). destruct (0 <=? I); cbn [b2z]; lia.
Qed.

Lemma tan_half_range x : 0 <= x < 2 ^ W -> tan_ge W I 1594 x = false ->
  (if tan_exceeds W I x then 402 / 1024 <= tan_half x < 797 / 1024 else 0 <= tan_half x < 804 / 1024)%R.
Proof.
  intros Hx G. unfold tan_half. set (X := fxval x F).
  assert (X0 : (0 <= X)%R) by (unfold X, fxval; apply Rmult_le_pos; [apply (IZR_le 0); lia|apply Rlt_le, bpow2_pos]).
  assert (XL : (X < 1594 / 1024)%R). { apply Rnot_le_lt. intros D. apply tan_ge_real in D. congruence. }
  destruct (tan_exceeds W I x) eqn:EX; unfold tan_exceeds in EX.
  - apply andb_prop in EX. destruct EX as [_ EX]. apply tan_ge_real in EX. fold X in EX. lra.
  - split; [exact X0|]. destruct (Z.leb_spec 0 I) as [I0|I0]; cbn [andb] in EX.
    + apply Rnot_le_lt. intros D. apply tan_ge_real in D. congruence.
    + assert (X <= bpow2 I)%R.
      { unfold X, fxval. apply Rle_trans with (IZR (2 ^ W) * bpow2 (- F))%R; [apply Rmult_le_compat_r; [apply Rlt_le, bpow2_pos|apply IZR_le; lia]|]. rewrite <- bpow2_IZR, <- bpow2_add by lia. right. f_equal. lia. }
      pose proof (bp_le I (- (1)) ltac:(lia)) as B. rewrite bpow2_opp, bpow2_1 in B. lra.
Qed.

Lemma bp19 : bpow2 (-19) = (/ 524288)%R.
Proof. change (-19) with (- (19)). rewrite bpow2_opp, bpow2_IZR by lia. reflexivity. Qed.

Lemma tan_pos x : 0 <= x < 2 ^ W -> tan_ge W I 1594 x = false ->
  let T := tan_scaled W I Q O x in
  T = tan_sat x * 10433 / 2 ^ nf /\ (IZR T - 0.02 <= 10433 * tan_half x <= IZR T + 1.02)%R /\
  if tan_exceeds W I x then 4095 <= T <= 8120 else 0 <= T <= 8191.
Proof.
  intros Hx G T. destruct tan_fmt as (EW & Bn & _). pose proof (tan_near x Hx G) as N. pose proof (tan_half_range x Hx G) as R. rewrite bp19 in N.
  assert (T1 : T = wrapu 13 (tan_sat x * 10433 / 2 ^ nf)).
  { unfold T, tan_scaled. rewrite tan_int_sat by assumption. rewrite conv_dfmt_div by lia. rewrite (pow2_add nf 10) by lia. change (2 ^ (13 - 3)) with (2 ^ 10). rewrite Z.div_mul_cancel_r by (pose proof (pow2_pos nf ltac:(lia)); lia). reflexivity. }
  set (xi := tan_sat x) in *. set (u := xi * 10433 / 2 ^ nf) in *. pose proof (pow2_pos nf ltac:(lia)) as P.
  pose proof (Z.div_mod (xi * 10433) (2 ^ nf) ltac:(lia)) as DM. pose proof (Z.mod_pos_bound (xi * 10433) (2 ^ nf) P) as MB. fold u in DM.
  assert (E : fxval xi nf = (IZR xi / IZR (2 ^ nf))%R) by (unfold fxval; rewrite bpow2_opp, bpow2_IZR by lia; reflexivity). rewrite E in N. apply IZR_lt in P as PR.
  assert (U : (IZR u <= 10433 * (IZR xi / IZR (2 ^ nf)) < IZR u + 1)%R).
  { assert (A : u * 2 ^ nf <= xi * 10433 < (u + 1) * 2 ^ nf) by lia. destruct A as [A B]. apply IZR_le in A. apply IZR_lt in B. rewrite !mult_IZR in A, B. rewrite plus_IZR in B.
    assert (EX : (IZR xi = IZR xi / IZR (2 ^ nf) * IZR (2 ^ nf))%R) by (field; lra). set (q := (IZR xi / IZR (2 ^ nf))%R) in *. rewrite EX in A, B. clear -A B PR. split; [apply (Rmult_le_reg_r (IZR (2 ^ nf))); lra|apply (Rmult_lt_reg_r (IZR (2 ^ nf))); lra]. }
  apply Rabs_le_both in N. set (q := (IZR xi / IZR (2 ^ nf))%R) in *. set (th := tan_half x) in *. clearbody q th.
  assert (UB : (if tan_exceeds W I x then 4095 <= u <= 8120 else 0 <= u <= 8191)).
  { destruct (tan_exceeds W I x); split; apply Z.lt_succ_r; apply lt_IZR; rewrite ?succ_IZR; try lra.
    assert (0 <= xi). { unfold xi, tan_sat. destruct (tan_exceeds W I x); apply conv_sat_u; lia. }
    assert (0 <= u) by (apply Z.div_pos; lia). apply IZR_le in H0. lra. }
  assert (ET : T = u). { rewrite T1. apply wrapu_id. change (2 ^ 13) with 8192. destruct (tan_exceeds W I x); lia. }
  rewrite ET. split; [reflexivity|]. split; [lra|exact UB].
Qed.

Lemma tan_T_mono x y : 0 <= x <= y -> y < 2 ^ W -> tan_ge W I 1594 x = false -> tan_ge W I 1594 y = false -> tan_exceeds W I x = tan_exceeds W I y ->
  tan_scaled W I Q O x <= tan_scaled W I Q O y.
Proof.
  intros Hxy Hy Gx Gy EX. destruct (tan_pos x ltac:(lia) Gx) as [-> _]. destruct (tan_pos y ltac:(lia) Gy) as [-> _]. destruct tan_fmt as (EW & Bn & _). apply Z.div_le_mono; [apply pow2_pos; lia|]. apply Z.mul_le_mono_nonneg_r; [lia|].
  unfold tan_sat. rewrite EX. destruct (tan_exceeds W I y).
  - apply AbsProofs.conv_mono; [left; reflexivity|cbn [fW]; lia|]. apply Z.div_le_mono; [lia|]. apply AbsProofs.conv_mono; [left; reflexivity|cbn [fW]; lia|lia].
  - apply AbsProofs.conv_mono; [left; reflexivity|cbn [fW]; lia|lia].
Qed.
End Int.

(** ** The table *)
Notation tanL := (pw_lin tan_m tan_c 10).
Lemma tanL_up a b : 0 <= a <= b -> b <= 8191 -> tanL a <= tanL b.
Proof. intros H1 H2. apply (pw_lin_up tan_m tan_c 10 8); [lia|vm_compute; reflexivity|lia|lia|change (Zpos 8 * 2 ^ 10) with 8192; lia]. Qed.
Lemma tanL_lo T : 4095 <= T <= 8120 -> 434063 <= tanL T <= 1033352.
Proof. intros H. pose proof (tanL_up 4095 T ltac:(lia) ltac:(lia)) as A. pose proof (tanL_up T 8120 ltac:(lia) ltac:(lia)) as B. change (tanL 4095) with 434063 in A. change (tanL 8120) with 1033352 in B. lia. Qed.
Lemma tanL_all T : 0 <= T <= 8191 -> 0 <= tanL T <= 1046345.
Proof. intros H. pose proof (tanL_up 0 T ltac:(lia) ltac:(lia)) as A. pose proof (tanL_up T 8191 ltac:(lia) ltac:(lia)) as B. change (tanL 0) with 0 in A. change (tanL 8191) with 1046345 in B. lia. Qed.

(** One minus the square, and its reciprocal *)
Definition tan_q (pQ : qmode) (T : Z) : Z := qround pQ (2 ^ 40 - tanL T * tanL T) (2 ^ 24).
Lemma tan_q_range pQ T : 4095 <= T <= 8120 -> 1888 <= tan_q pQ T <= 54307.
Proof.
  intros H. pose proof (tanL_lo T H) as B. unfold tan_q. pose proof (qround_bounds pQ (2 ^ 40 - tanL T * tanL T) (2 ^ 24) ltac:(lia)) as Q.
  assert (1888 <= (2 ^ 40 - tanL T * tanL T) / 2 ^ 24) by (apply Z.div_le_lower_bound; nia). assert ((2 ^ 40 - tanL T * tanL T) / 2 ^ 24 < 54307) by (apply Z.div_lt_upper_bound; nia). lia.
Qed.
Lemma tan_q_conv pQ T : 4095 <= T <= 8120 -> conv (Fmt 16 0 false pQ WRAP) (2 ^ 40 - tanL T * tanL T) 40 = tan_q pQ T.
Proof.
  intros H. pose proof (tan_q_range pQ T H) as R. unfold conv, conv_rat, fF. cbn [fO fS fW fQ fI]. change (pw (- (40))) with 1. change (pw (16 - 0)) with (2 ^ 16). change (pw 40) with (2 ^ 40). change (pw (- (16 - 0))) with 1.
  rewrite (qround_eqq pQ _ _ (2 ^ 40 - tanL T * tanL T) (2 ^ 24)); [|lia|lia|]. 2: { rewrite !Z.mul_1_r. replace (2 ^ 40) with (2 ^ 16 * 2 ^ 24) at 2 by reflexivity. ring. }
  fold (tan_q pQ T). apply overflow_id; [lia|unfold in_range, imin, imax; change (2 ^ 16) with 65536; lia|discriminate].
Qed.
Lemma tan_q_down pQ a b : 4095 <= a <= b -> b <= 8120 -> tan_q pQ b <= tan_q pQ a.
Proof. intros H1 H2. unfold tan_q. apply qround_mono; [lia|]. pose proof (tanL_up a b ltac:(lia) ltac:(lia)). pose proof (tanL_lo a ltac:(lia)). nia. Qed.

Lemma tan_recip pQ T : 4095 <= T <= 8120 -> exists r V,
  reciprocal_pwl pQ 16 0 false (Fmt 16 6 false pQ WRAP) (tan_q pQ T) = Some r /\
  reciprocal_pwl pQ 16 0 false (Fmt 16 6 false pQ SAT) (tan_q pQ T) = Some r /\ 0 <= r /\
  (Rabs (V - / fxval (tan_q pQ T) 16) <= 0.002 * / fxval (tan_q pQ T) 16)%R /\ (Rabs (fxval r 10 - V) <= / 1024)%R.
Proof.
  intros H. pose proof (tan_q_range pQ T H) as R. set (q := tan_q pQ T) in *. assert (Hq : in_range false 16 q) by (unfold in_range, imin, imax; change (2 ^ 16) with 65536; lia).
  destruct (recip_real pQ 16 0 false (Fmt 16 6 false pQ SAT) q ltac:(lia) ltac:(cbn [fW]; lia) Hq ltac:(lia)) as (r & V & E & C & B). change (16 - 0) with 16 in B. cbn [andb] in B.
  assert (Eq : fxval q 16 = (IZR q / 65536)%R) by (unfold fxval; rewrite bpow2_opp, bpow2_IZR by lia; reflexivity).
  destruct R as [R1 R2]. apply IZR_le in R1 as R1', R2 as R2'. assert (Xq : (0.0288 <= fxval q 16 <= 0.829)%R) by (rewrite Eq; lra). rewrite (Rabs_pos_eq (fxval q 16)) in B by lra.
  assert (Iq : (1.2 <= / fxval q 16 <= 34.73)%R). { split; [apply (Rmult_le_reg_r (fxval q 16)); [lra|]; rewrite Rinv_l by lra; lra|]. apply (Rmult_le_reg_r (fxval q 16)); [lra|]; rewrite Rinv_l by lra; lra. }
  destruct C as (z & Rz & Lz). cbn [fQ fO fS fW is_limited] in *. unfold lowest, highest in Lz. cbn [andb] in Lz. change (fF (Fmt 16 6 false pQ SAT)) with 10 in Rz. rewrite bpow2_IZR in Rz by lia. change (2 ^ 10) with 1024 in Rz. apply is_roundR_near in Rz. change (2 ^ 16) with 65536 in Lz.
  apply Rabs_le_both in B as B'. assert (Zb : 1000 < z < 40000) by (split; apply lt_IZR; lra).
  assert (r = z) by lia. subst z. clear Lz.
  pose proof (recip_eval pQ 16 0 false (Fmt 16 6 false pQ SAT) q ltac:(lia) ltac:(cbn [fW]; lia) Hq ltac:(lia)) as E1.
  pose proof (recip_eval pQ 16 0 false (Fmt 16 6 false pQ WRAP) q ltac:(lia) ltac:(cbn [fW]; lia) Hq ltac:(lia)) as E2.
  destruct (normalize 16 0 false WRAP (Z.abs q)) as [e n]. destruct E1 as (o1 & A1 & (z1 & B1 & L1)). destruct E2 as (o2 & A2 & (z2 & B2 & L2)). cbn [fQ fO fS fW fF fI is_limited] in *.
  assert (z1 = z2) by (eapply is_round_unique; [|exact B1|exact B2]; apply Z.mul_pos_pos; apply (pw_pos (- _))). subst z2.
  assert (Eo : o1 = r) by congruence. rewrite Eo in L1, A1. clear Eo. unfold lowest, highest in L1. cbn [andb] in L1. change (2 ^ 16) with 65536 in *.
  assert (Ez : z1 = r) by (clear -L1 Zb; lia). rewrite Ez in L2.
  assert (o2 = r). { clear -L2 Zb. destruct L2 as [L2 (k & Ek)]. unfold lowest, highest in L2. change (2 ^ 16) with 65536 in *. nia. }
  subst o2. exists r, V. split; [exact A2|]. split; [exact A1|]. split; [lia|]. split; [exact B|].
  unfold fxval at 1. rewrite bpow2_opp, bpow2_IZR by lia. change (2 ^ 10) with 1024. apply Rabs_le. lra.
Qed.

(** ** Evaluation *)
Definition tan_value (pQ : qmode) (W I : Z) (Q : qmode) (O : omode) (x v : Z) : Prop :=
  let T := tan_scaled W I Q O x in
  if tan_exceeds W I x then exists r, reciprocal_pwl pQ 16 0 false (Fmt 16 6 false pQ WRAP) (tan_q pQ T) = Some r /\ v = 2 * tanL T * r
  else v = tanL T * 2 ^ 10.

Lemma tan_scaled_range W I Q O x : 0 <= tan_scaled W I Q O x < 8192.
Proof. pose proof (conv_range (dfmt 13 3 false) (tan_int W I Q O x * 10433) (tan_nf W I + 10) ltac:(cbn [fW dfmt]; lia)) as R. unfold in_range, imin, imax, dfmt in R. cbn [fS fW] in R. change (2 ^ 13) with 8192 in R. unfold tan_scaled. unfold dfmt. lia. Qed.
Lemma tan_p pQ T : 0 <= T < 8192 -> conv (Fmt 20 0 false pQ WRAP) (tanL T) 20 = tanL T.
Proof. intros H. pose proof (tanL_all T ltac:(lia)). apply conv_fits; [cbn [fW]; lia|reflexivity|reflexivity|]. unfold in_range, imin, imax. cbn [fS fW]. change (2 ^ 20) with 1048576. lia. Qed.

Lemma tan_saturates pQ W I Q O f x : tan_ge W I 1594 x = true -> tan_pwl pQ W I Q O f x = Some (imax (fS f) (fW f)).
Proof.
  intros G. unfold tan_pwl. pose proof (tan_scaled_range W I Q O x) as R. rewrite (pwl_table_ok tan_m tan_c 3 10); [|lia|lia|reflexivity|reflexivity|change (2 ^ (3 + 10)) with 8192; exact R]. rewrite tan_p by exact R. rewrite G.
  destruct (tan_exceeds W I x); [|reflexivity]. set (q := conv _ _ 40). assert (Hq : in_range false 16 q) by (apply (conv_range (Fmt 16 0 false pQ WRAP)); cbn [fW]; lia).
  destruct (Z.eq_dec q 0) as [->|H0]; [rewrite recip_zero by lia; reflexivity|].
  destruct (recip_accuracy pQ 16 0 false (Fmt 16 6 false pQ WRAP) q ltac:(lia) ltac:(cbn [fW]; lia) Hq H0) as (r & Y & k & E & _). rewrite E. reflexivity.
Qed.

Lemma tan_eval pQ W I Q O f x : 1 <= W -> 1 <= tan_Wi W I -> tan_dom W I Q O -> 0 <= x < 2 ^ W -> tan_ge W I 1594 x = false ->
  exists v, tan_value pQ W I Q O x v /\ tan_pwl pQ W I Q O f x = Some (conv f v 30).
Proof.
  intros HW HWi Dom Hx G. destruct (tan_pos W I Q O HW HWi Dom x Hx G) as (_ & _ & B). unfold tan_value, tan_pwl. pose proof (tan_scaled_range W I Q O x) as R. set (T := tan_scaled W I Q O x) in *.
  rewrite (pwl_table_ok tan_m tan_c 3 10); [|lia|lia|reflexivity|reflexivity|change (2 ^ (3 + 10)) with 8192; exact R]. rewrite tan_p by exact R. rewrite G. destruct (tan_exceeds W I x).
  - rewrite tan_q_conv by exact B. destruct (tan_recip pQ T B) as (r & V & E & _). exists (2 * tanL T * r). rewrite E. split; [exists r; split; reflexivity|reflexivity].
  - exists (tanL T * 2 ^ 10). split; [reflexivity|]. f_equal. change (2 ^ 10) with (2 ^ (30 - 20)). rewrite DetProofs.conv_rescale by lia. reflexivity.
Qed.

Lemma tan_ge_mono W I c x y : x <= y -> tan_ge W I c x = true -> tan_ge W I c y = true.
Proof. unfold tan_ge. intros H E. apply Z.leb_le in E. apply Z.leb_le. pose proof (pw_pos (- (W - I))). nia. Qed.
Lemma tan_exceeds_mono W I x y : x <= y -> tan_exceeds W I x = true -> tan_exceeds W I y = true.
Proof. unfold tan_exceeds. intros H E. apply andb_prop in E. destruct E as [-> E]. cbn [andb]. eapply tan_ge_mono; eassumption. Qed.

Lemma tan_first pQ r : reciprocal_pwl pQ 16 0 false (Fmt 16 6 false pQ WRAP) (tan_q pQ 4095) = Some r -> 1235 <= r.
Proof. destruct pQ; vm_compute; intros H; injection H as <-; discriminate. Qed.

Lemma tan_value_mono pQ W I Q O x y u v : 1 <= W -> 1 <= tan_Wi W I -> tan_dom W I Q O -> 0 <= x <= y -> y < 2 ^ W -> tan_ge W I 1594 y = false ->
  tan_value pQ W I Q O x u -> tan_value pQ W I Q O y v -> 0 <= u <= v.
Proof.
  intros HW HWi Dom Hxy Hy G Vu Vv. assert (Gx : tan_ge W I 1594 x = false). { destruct (tan_ge W I 1594 x) eqn:E; [|reflexivity]. apply (tan_ge_mono W I 1594 x y ltac:(lia)) in E. congruence. }
  destruct (tan_pos W I Q O HW HWi Dom x ltac:(lia) Gx) as (_ & _ & Bx). destruct (tan_pos W I Q O HW HWi Dom y ltac:(lia) G) as (_ & _ & By).
  pose proof (tan_T_mono W I Q O HW HWi Dom x y Hxy Hy Gx G) as M. unfold tan_value in Vu, Vv. set (S := tan_scaled W I Q O x) in *. set (T := tan_scaled W I Q O y) in *.
  assert (Dec : forall a b r s, 4095 <= a <= b -> b <= 8120 -> reciprocal_pwl pQ 16 0 false (Fmt 16 6 false pQ WRAP) (tan_q pQ a) = Some r -> reciprocal_pwl pQ 16 0 false (Fmt 16 6 false pQ WRAP) (tan_q pQ b) = Some s -> 0 <= r <= s).
  { intros a b r s H1 H2 Ea Eb. destruct (tan_recip pQ a ltac:(lia)) as (r1 & _ & A1 & A2 & A3 & _). destruct (tan_recip pQ b ltac:(lia)) as (r2 & _ & C1 & C2 & _). assert (r1 = r) by congruence. assert (r2 = s) by congruence. subst r1 r2. split; [exact A3|].
    pose proof (tan_q_range pQ b ltac:(lia)). pose proof (tan_q_range pQ a ltac:(lia)). eapply (recip_decreasing pQ 16 0 false (Fmt 16 6 false pQ SAT) (tan_q pQ b) (tan_q pQ a)); [lia|cbn [fW]; lia|left; reflexivity| | |exact C2|exact A2].
    - unfold in_range, imin, imax. change (2 ^ 16) with 65536. lia.
    - pose proof (tan_q_down pQ a b ltac:(lia) ltac:(lia)). lia. }
  destruct (tan_exceeds W I x) eqn:E1.
  - rewrite (tan_exceeds_mono W I x y ltac:(lia) E1) in *. specialize (M eq_refl). destruct Vu as (r & R1 & ->). destruct Vv as (s & R2 & ->). destruct (Dec S T r s ltac:(lia) ltac:(lia) R1 R2) as [D1 D2].
    pose proof (tanL_up S T ltac:(lia) ltac:(lia)) as U. pose proof (tanL_lo S ltac:(lia)) as U0. split; [nia|]. apply Z.mul_le_mono_nonneg; lia.
  - pose proof (tanL_all S ltac:(lia)) as U0. subst u. destruct (tan_exceeds W I y) eqn:E2.
    + destruct Vv as (s & R2 & ->). destruct (tan_recip pQ 4095 ltac:(lia)) as (r & _ & R1 & _). pose proof (tan_first pQ r R1) as F1. destruct (Dec 4095 T r s ltac:(lia) ltac:(lia) R1 R2) as [D1 D2]. pose proof (tanL_lo T ltac:(lia)) as U1. change (2 ^ 10) with 1024. nia.
    + specialize (M eq_refl). subst v. pose proof (tanL_up S T ltac:(lia) ltac:(lia)). change (2 ^ 10) with 1024. lia.
Qed.

Lemma tan_increasing pQ W I Q O f x y a b : 1 <= W -> 1 <= tan_Wi W I -> tan_dom W I Q O -> 1 <= fW f -> (fO f = SAT \/ fO f = SAT_SYM) -> 0 <= x <= y -> y < 2 ^ W ->
  tan_pwl pQ W I Q O f x = Some a -> tan_pwl pQ W I Q O f y = Some b -> a <= b.
Proof.
  intros HW HWi Dom HfW HO Hxy Hy Ea Eb. destruct (tan_ge W I 1594 y) eqn:G.
  - rewrite (tan_saturates pQ W I Q O f y G) in Eb. injection Eb as <-. destruct (tan_ge W I 1594 x) eqn:G2; [rewrite (tan_saturates pQ W I Q O f x G2) in Ea; injection Ea as <-; lia|].
    destruct (tan_eval pQ W I Q O f x HW HWi Dom ltac:(lia) G2) as (v & _ & E). rewrite Ea in E. injection E as ->. pose proof (conv_range f v 30 HfW) as R. unfold in_range in R. lia.
  - assert (Gx : tan_ge W I 1594 x = false). { destruct (tan_ge W I 1594 x) eqn:E; [|reflexivity]. apply (tan_ge_mono W I 1594 x y ltac:(lia)) in E. congruence. }
    destruct (tan_eval pQ W I Q O f x HW HWi Dom ltac:(lia) Gx) as (u & Vu & E1). destruct (tan_eval pQ W I Q O f y HW HWi Dom ltac:(lia) G) as (v & Vv & E2). rewrite Ea in E1. rewrite Eb in E2. injection E1 as ->. injection E2 as ->.
    apply AbsProofs.conv_mono; [exact HO|exact HfW|]. apply (tan_value_mono pQ W I Q O x y u v); assumption.
Qed.

Lemma tan_zero pQ W I Q O f : 1 <= W -> 1 <= tan_Wi W I -> 1 <= fW f -> tan_pwl pQ W I Q O f 0 = Some 0.
Proof.
  intros HW HWi HfW. assert (G : forall c, 0 < c -> tan_ge W I c 0 = false) by (intros c Hc; unfold tan_ge; apply Z.leb_gt; pose proof (pw_pos (W - I)); nia).
  assert (X : tan_exceeds W I 0 = false) by (unfold tan_exceeds; rewrite G by lia; apply Bool.andb_false_r). unfold tan_pwl, tan_scaled, tan_int. rewrite X, G by lia. cbv zeta. rewrite !AbsProofs.conv_0 by (cbn [fW dfmt]; lia).
  change (pwl_table tan_m tan_c 3 10 0) with (Some 0). cbv beta iota zeta. rewrite !AbsProofs.conv_0 by (cbn [fW]; lia). reflexivity.
Qed.
