(** Proofs about AddTreeModel.v. *)
From Coq Require Import Lia.
From Verif Require Import AcTypes AcFacts Spec SpecFacts SpecFloat RtFacts MatrixProofs DetProofs DetSmall ShiftModel ShiftFacts ShiftProofs AddTreeModel.
From Coq Require Import ZifyBool.

Lemma fsum_app e0 a b : fsum e0 (a ++ b) = fsum e0 a + fsum e0 b.
Proof. induction a as [|x a IH]; [reflexivity|]. cbn [app fsum fold_right]. fold (fsum e0 (a ++ b)). fold (fsum e0 a). rewrite IH. lia. Qed.

Lemma floor_loss m d : 0 <= d -> let q := Z.shiftr m d in q * 2 ^ d <= m <= q * 2 ^ d + (2 ^ d - 1).
Proof. intros Hd q. unfold q. rewrite Z.shiftr_div_pow2 by lia. pose proof (pow2_pos d Hd). pose proof (Z.div_mod m (2 ^ d) ltac:(lia)). pose proof (Z.mod_pos_bound m (2 ^ d) ltac:(lia)). nia. Qed.
Lemma floor_range m d lo hi : 0 <= d -> lo <= 0 -> 0 <= hi -> lo <= m <= hi -> lo <= Z.shiftr m d <= hi.
Proof. intros Hd Hl Hh Hm. pose proof (floor_loss m d Hd) as H. cbv zeta in H. pose proof (pow2_pos d Hd). nia. Qed.

Lemma conv_keep W I F x : 1 <= W -> F = W - I -> - 2 ^ (W - 1) <= x < 2 ^ (W - 1) -> conv (dfmt W I true) x F = x.
Proof. intros HW -> Hx. rewrite conv_same. apply wrap_id; [exact HW|]. unfold in_range, imin, imax. lia. Qed.

Lemma exp_diff EE a b : 1 <= EE <= 31 -> - 2 ^ (EE - 1) <= a < 2 ^ (EE - 1) -> - 2 ^ (EE - 1) <= b < 2 ^ (EE - 1) ->
  wraps 32 (a - b) = a - b /\ wraps 32 (- (a - b)) = - (a - b).
Proof.
  intros HE Ha Hb. assert (2 ^ (EE - 1) <= 2 ^ 30) by (apply pow2_le; lia). change (2 ^ 30) with 1073741824 in *.
  split; apply wraps_id; try lia; change (2 ^ (32 - 1)) with 2147483648; lia.
Qed.

(** What the sum of two aligned operands is. *)
Lemma sum2_ok EE WR IR F c m1 e1 m2 e2 lo1 lo2 hi1 hi2 : 1 <= EE <= 31 -> 1 <= WR -> F = WR - IR ->
  - 2 ^ (EE - 1) <= e1 < 2 ^ (EE - 1) -> - 2 ^ (EE - 1) <= e2 < 2 ^ (EE - 1) ->
  lo1 <= 0 <= hi1 -> lo2 <= 0 <= hi2 -> lo1 <= m1 <= hi1 -> lo2 <= m2 <= hi2 -> - 2 ^ (WR - 1) <= lo1 + lo2 -> hi1 + hi2 < 2 ^ (WR - 1) ->
  c <= e1 -> c <= e2 ->
  let '(M, E) := sum2 WR IR F (m1, e1) (m2, e2) in
  (E = e1 /\ (m1 <> 0 \/ m2 = 0) \/ E = e2 /\ m2 <> 0) /\ lo1 + lo2 <= M <= hi1 + hi2 /\
  exists loss, 0 <= loss /\ M * 2 ^ (E - c) + loss = m1 * 2 ^ (e1 - c) + m2 * 2 ^ (e2 - c) /\
    (loss <> 0 -> loss <= 2 ^ (Z.max e1 e2 - c) - 1 /\ m1 <> 0 /\ m2 <> 0).
Proof.
  intros HE HW HF H1 H2 R1 R2 Hm1 Hm2 Lo Hi C1 C2. unfold sum2. destruct (exp_diff EE e1 e2 HE H1 H2) as [-> ->].
  rewrite !(conv_keep WR IR F) by lia.
  assert (Sh : forall m lo hi d, lo <= 0 <= hi -> - 2 ^ (WR - 1) <= lo -> hi < 2 ^ (WR - 1) -> lo <= m <= hi -> 0 <= d -> shr true WR m d = Z.shiftr m d /\ lo <= Z.shiftr m d <= hi).
  { intros m lo hi d Hr Hlo Hhi Hm Hd. pose proof (floor_range m d lo hi Hd ltac:(lia) ltac:(lia) Hm). split; [|assumption].
    unfold shr. apply wrap_id; [exact HW|]. unfold in_range, imin, imax. lia. }
  destruct (Z.eqb_spec m1 0) as [Z1|Z1]; [|destruct (Z.eqb_spec m2 0) as [Z2|Z2]]; cbn [orb].
  - subst m1. set (sh := if _ <? _ then 0 else m2). set (no := if _ <? _ then m2 else 0).
    assert (S0 : shr true WR sh 0 = sh).
    { unfold shr. rewrite Z.shiftr_0_r. apply wrap_id; [exact HW|]. unfold in_range, imin, imax, sh. destruct (_ <? _); lia. }
    rewrite S0. assert (E : no + sh = m2) by (unfold no, sh; destruct (_ <? _); lia). rewrite E.
    rewrite conv_keep by lia. destruct (Z.eqb_spec m2 0) as [->|N2]; cbn [negb andb orb].
    + split; [left; split; [reflexivity|right; reflexivity]|]. split; [lia|]. exists 0. split; [lia|]. split; lia.
    + split; [right; split; [reflexivity|exact N2]|]. split; [lia|]. exists 0. split; [lia|]. split; lia.
  - subst m2. set (sh := if _ <? _ then m1 else 0). set (no := if _ <? _ then 0 else m1).
    assert (S0 : shr true WR sh 0 = sh).
    { unfold shr. rewrite Z.shiftr_0_r. apply wrap_id; [exact HW|]. unfold in_range, imin, imax, sh. destruct (_ <? _); lia. }
    rewrite S0. assert (E : no + sh = m1) by (unfold no, sh; destruct (_ <? _); lia). rewrite E.
    rewrite conv_keep by lia. cbn [negb andb].
    split; [left; split; [reflexivity|left; exact Z1]|]. split; [lia|]. exists 0. split; [lia|]. split; lia.
  - cbn [negb andb]. destruct (Z.ltb_spec (e1 - e2) 0) as [L|L].
    + destruct (Sh m1 lo1 hi1 (- (e1 - e2)) R1 ltac:(lia) ltac:(lia) Hm1 ltac:(lia)) as [-> Q]. rewrite conv_keep by lia.
      split; [right; split; [reflexivity|exact Z2]|]. split; [lia|].
      pose proof (floor_loss m1 (- (e1 - e2)) ltac:(lia)) as FL. cbv zeta in FL. set (q := Z.shiftr m1 _) in *.
      assert (P : 2 ^ (e2 - c) = 2 ^ (- (e1 - e2)) * 2 ^ (e1 - c)) by (rewrite <- pow2_add by lia; f_equal; lia).
      set (p := 2 ^ (- (e1 - e2))) in *. pose proof (pow2_pos (e1 - c) ltac:(lia)) as P1. set (u := 2 ^ (e1 - c)) in *.
      exists ((m1 - q * p) * u). replace (Z.max e1 e2) with e2 by lia. rewrite P. split; [nia|]. split; [ring|]. intros _. split; [nia|]. split; assumption.
    + destruct (Sh m2 lo2 hi2 (e1 - e2) R2 ltac:(lia) ltac:(lia) Hm2 ltac:(lia)) as [-> Q]. rewrite conv_keep by lia.
      split; [left; split; [reflexivity|left; exact Z1]|]. split; [lia|].
      pose proof (floor_loss m2 (e1 - e2) ltac:(lia)) as FL. cbv zeta in FL. set (q := Z.shiftr m2 _) in *.
      assert (P : 2 ^ (e1 - c) = 2 ^ (e1 - e2) * 2 ^ (e2 - c)) by (rewrite <- pow2_add by lia; f_equal; lia).
      set (p := 2 ^ (e1 - e2)) in *. pose proof (pow2_pos (e2 - c) ltac:(lia)) as P1. set (u := 2 ^ (e2 - c)) in *.
      exists ((m2 - q * p) * u). replace (Z.max e1 e2) with e1 by lia. rewrite P. split; [nia|]. split; [ring|]. intros _. split; [nia|]. split; assumption.
Qed.

Lemma leaf_ok WE IE X x : 1 <= WE -> 0 <= X -> - 2 ^ (WE - 1) <= x < 2 ^ (WE - 1) ->
  conv (dfmt (WE + X) IE true) x (WE - IE) = x * 2 ^ X /\ - 2 ^ (WE - 1 + X) <= x * 2 ^ X <= 2 ^ (WE - 1 + X) - 1.
Proof.
  intros HW HX Hx. rewrite conv_dfmt_up by lia. replace (WE + X - IE - (WE - IE)) with X by lia.
  assert (B : - 2 ^ (WE - 1 + X) <= x * 2 ^ X <= 2 ^ (WE - 1 + X) - 1).
  { rewrite pow2_add by lia. pose proof (pow2_pos X HX). nia. }
  split; [|exact B]. apply wrap_id; [lia|]. unfold in_range, imin, imax. replace (WE + X - 1) with (WE - 1 + X) by lia. lia.
Qed.

Lemma forall_firstn {A} (P : A -> Prop) n l : Forall P l -> Forall P (firstn n l).
Proof. intros H. rewrite <- (firstn_skipn n l) in H. apply Forall_app in H. apply H. Qed.
Lemma forall_skipn {A} (P : A -> Prop) n l : Forall P l -> Forall P (skipn n l).
Proof. intros H. rewrite <- (firstn_skipn n l) in H. apply Forall_app in H. apply H. Qed.

Section Tree.
  Variables (WE IE EE X c emax : Z).
  Hypothesis HW : 1 <= WE.
  Hypothesis HE : 1 <= EE <= 31.
  Hypothesis HX : 0 <= X.
  Hypothesis HC : c <= emax.
  Let h := 2 ^ (WE - 1 + X).
  Let ok (x : flt) := valid_flt WE EE x /\ c <= snd x /\ (fst x <> 0 -> snd x <= emax).

  Lemma add_r_ok fuel : forall xs, xs <> [] -> (length xs <= fuel)%nat -> Forall ok xs ->
    let '(M, E) := add_r fuel WE IE X xs in
    let n := Z.of_nat (length xs) in
    In E (map snd xs) /\ (M <> 0 -> E <= emax) /\ - (n * h) <= M <= n * h - 1 /\
    M * 2 ^ (E - c) <= 2 ^ X * fsum c xs <= M * 2 ^ (E - c) + (n - 1) * (2 ^ (emax - c) - 1).
  Proof.
    induction fuel as [|fuel IH]; intros xs Hne Hf Hok.
    - destruct xs; [congruence|cbn in Hf; lia].
    - destruct xs as [|x xs]; [congruence|]. destruct xs as [|y ys].
      + cbn [add_r length]. change (Z.log2_up (Z.of_nat 1)) with 0. rewrite !Z.add_0_r.
        apply Forall_inv in Hok. destruct Hok as ((Hm & He) & Hc & Hx).
        destruct (leaf_ok WE IE X (fst x) HW HX Hm) as [-> B]. unfold fsum. cbn [fold_right map].
        change (Z.of_nat 1) with 1. fold h in B. split; [left; reflexivity|]. split; [|split; [lia|]].
        * intros N. apply Hx. intros E. rewrite E in N. lia.
        * rewrite Z.add_0_r. pose proof (pow2_pos (snd x - c) ltac:(lia)). lia.
      + set (xs := x :: y :: ys) in *. change (add_r (S fuel) WE IE X xs) with
          (sum2 (WE + Z.log2_up (Z.of_nat (length xs)) + X) (IE + Z.log2_up (Z.of_nat (length xs))) (WE - IE + X)
             (add_r fuel WE IE X (firstn (length xs / 2) xs)) (add_r fuel WE IE X (skipn (length xs / 2) xs))).
        assert (Ln : (2 <= length xs)%nat) by (cbn; lia). clearbody xs. clear x y ys.
        set (k := (length xs / 2)%nat). assert (Hk : (1 <= k < length xs)%nat).
        { split; [apply Nat.div_le_lower_bound; lia|apply Nat.div_lt; lia]. }
        clearbody k. assert (Lf : length (firstn k xs) = k) by (rewrite firstn_length; lia).
        assert (Ls : length (skipn k xs) = (length xs - k)%nat) by apply skipn_length.
        pose proof (IH (firstn k xs) ltac:(intros E; rewrite E in Lf; cbn in Lf; lia) ltac:(lia) (forall_firstn _ _ _ Hok)) as I1.
        pose proof (IH (skipn k xs) ltac:(intros E; rewrite E in Ls; cbn in Ls; lia) ltac:(lia) (forall_skipn _ _ _ Hok)) as I2.
        destruct (add_r fuel WE IE X (firstn k xs)) as [m1 e1]. destruct (add_r fuel WE IE X (skipn k xs)) as [m2 e2].
        cbv zeta in I1, I2. destruct I1 as (In1 & X1 & B1 & V1). destruct I2 as (In2 & X2 & B2 & V2).
        assert (Sub : forall e, In e (map snd (firstn k xs)) \/ In e (map snd (skipn k xs)) -> In e (map snd xs)).
        { intros e H. rewrite <- (firstn_skipn k xs), map_app. apply in_or_app. exact H. }
        assert (Ex : forall e, In e (map snd xs) -> - 2 ^ (EE - 1) <= e < 2 ^ (EE - 1) /\ c <= e).
        { intros e H. apply in_map_iff in H as (x & <- & Hx). rewrite Forall_forall in Hok. destruct (Hok x Hx) as ((_ & He) & Hc & _). split; assumption. }
        destruct (Ex e1 (Sub e1 (or_introl In1))) as [R1 C1]. destruct (Ex e2 (Sub e2 (or_intror In2))) as [R2 C2].
        rewrite Lf in B1, V1. rewrite Ls in B2, V2. rewrite Nat2Z.inj_sub in B2, V2 by lia.
        set (n := Z.of_nat (length xs)) in *. set (k' := Z.of_nat k) in *. assert (Hn : 1 <= k' /\ k' <= n - 1) by lia.
        destruct (log2_up_le n ltac:(lia)) as [L0 L]. set (G := Z.log2_up n) in *.
        assert (Hh : 1 <= h) by (unfold h; pose proof (pow2_pos (WE - 1 + X) ltac:(lia)); lia).
        assert (PW : n * h <= 2 ^ (WE + G + X - 1)).
        { unfold h. replace (WE + G + X - 1) with (G + (WE - 1 + X)) by lia. rewrite (pow2_add G) by lia. apply Z.mul_le_mono_nonneg_r; [unfold h in Hh; lia|exact L]. }
        assert (KH : 1 <= k' * h /\ 1 <= (n - k') * h) by (clear - Hn Hh; nia).
        pose proof (sum2_ok EE (WE + G + X) (IE + G) (WE - IE + X) c m1 e1 m2 e2 (- (k' * h)) (- ((n - k') * h)) (k' * h - 1) ((n - k') * h - 1)
          HE ltac:(lia) ltac:(lia) R1 R2 ltac:(lia) ltac:(lia) B1 B2 ltac:(lia) ltac:(lia) C1 C2) as S.
        destruct (sum2 _ _ _ _ _) as [M E]. destruct S as (SE & SB & loss & L1 & L2 & L3).
        assert (FS : fsum c xs = fsum c (firstn k xs) + fsum c (skipn k xs)) by (rewrite <- fsum_app, firstn_skipn; reflexivity).
        set (f1 := fsum c (firstn k xs)) in *. set (f2 := fsum c (skipn k xs)) in *. pose proof (pow2_pos (emax - c) ltac:(lia)) as PU. set (U := 2 ^ (emax - c)) in *.
        cbv zeta. split; [|split; [|split; [lia|]]].
        * destruct SE as [[-> _]|[-> _]]; [apply Sub; left; exact In1|apply Sub; right; exact In2].
        * intros NM. destruct SE as [[-> [N1|Z2]]|[-> N2]]; [apply X1; exact N1| |apply X2; exact N2].
          apply X1. intros Z1. subst m1 m2. apply NM. pose proof (pow2_pos (e1 - c) ltac:(lia)). clear - L2 L1 L3 H. destruct (Z.eq_dec loss 0); [|exfalso; destruct (L3 n) as (_ & A & _); congruence]. nia.
        * rewrite FS. destruct (Z.eq_dec loss 0) as [->|NL].
          -- clear - L2 V1 V2 PU. lia.
          -- destruct (L3 NL) as (LB & N1 & N2). specialize (X1 N1). specialize (X2 N2).
             assert (LU : loss <= U - 1). { eapply Z.le_trans; [exact LB|]. unfold U. assert (2 ^ (Z.max e1 e2 - c) <= 2 ^ (emax - c)) by (apply pow2_le; lia). lia. }
             clear - L2 V1 V2 PU LU L1. lia.
  Qed.
End Tree.

(** ** Conversion of the accumulated pair to ac_fixed *)
Lemma overflow_sign_ext o W z : 1 <= W -> overflow o false W (overflow o true (W + 1) z) = overflow o false W z.
Proof.
  intros HW. unfold overflow. cbv zeta. cbv beta iota delta [imin imax]. replace (W + 1 - 1) with W by lia. pose proof (pow2_pos W ltac:(lia)).
  destruct o.
  - apply (wrap_congr false W); [lia|]. apply (mod_pow2_sub (W + 1)); [lia|]. apply (wrap_mod true). lia.
  - repeat (match goal with |- context[?a <? ?b] => first [constr_eq a z|constr_eq b z]; destruct (Z.ltb_spec a b) end; cbn [orb]);
      repeat (match goal with |- context[?a <? ?b] => destruct (Z.ltb_spec a b) end; cbn [orb]); lia.
  - repeat (match goal with |- context[?a <? ?b] => first [constr_eq a z|constr_eq b z]; destruct (Z.ltb_spec a b) end; cbn [orb]);
      repeat (match goal with |- context[?a <? ?b] => destruct (Z.ltb_spec a b) end; cbn [orb]); lia.
  - repeat (match goal with |- context[?a <? ?b] => first [constr_eq a z|constr_eq b z]; destruct (Z.ltb_spec a b) end; cbn [orb]);
      repeat (match goal with |- context[?a <? ?b] => destruct (Z.ltb_spec a b) end; cbn [orb]); lia.
Qed.

Lemma conv_sign_ext f x e : fS f = false -> 1 <= fW f ->
  let t := Fmt (fW f + 1) (fI f + 1) true (fQ f) (fO f) in conv f (conv t x e) (fF t) = conv f x e.
Proof.
  intros HS HW t. assert (E : fF t = fF f) by (unfold t, fF; cbn [fW fI]; lia). rewrite E, conv_same_f, !conv_unfold, E, HS. unfold t. cbn [fO fS fW fQ].
  apply overflow_sign_ext. exact HW.
Qed.

Lemma acc_fxpt_conv_ok_shift W I E f m e : 1 <= W -> 1 <= E -> 1 <= fW f ->
  - 2 ^ (W - 1) <= m < 2 ^ (W - 1) -> - 2 ^ (E - 1) <= e < 2 ^ (E - 1) ->
  converts2 f m (e - (W - I)) (acc_fxpt_conv false W I E f (m, e)).
Proof.
  intros HW HE Hf Hm He. apply (conv_eq_converts2 f _ _ (W - I - e)); [exact Hf|lia|].
  unfold acc_fxpt_conv.
  set (k := 2 ^ (E - 1)). assert (K1 : 2 ^ E = 2 * k) by (unfold k; apply pow2_half; lia). assert (k1 : 1 <= k) by (unfold k; pose proof (pow2_pos (E - 1) ltac:(lia)); lia).
  rewrite K1. fold k in He. clearbody k. set (t := dfmt (W + 2 * k - 1) (I + k - 1) true).
  assert (Ft : fF t = W - I + k) by (unfold t, fF; cbn [dfmt fW fI]; lia).
  pose proof (pow2_pos k ltac:(lia)) as P.
  assert (R : forall d, 0 <= d <= 2 * k - 1 -> in_range true (W + 2 * k - 1) (m * 2 ^ d)).
  { intros d Hd. unfold in_range, imin, imax. replace (W + 2 * k - 1 - 1) with (W - 1 + (2 * k - 1)) by lia. rewrite (pow2_add (W - 1)) by lia.
    assert (2 ^ d <= 2 ^ (2 * k - 1)) by (apply pow2_le; lia). pose proof (pow2_pos d ltac:(lia)). nia. }
  assert (C1 : conv t m (W - I) = m * 2 ^ k).
  { unfold t. rewrite conv_dfmt_up by lia. replace (W + 2 * k - 1 - (I + k - 1) - (W - I)) with k by lia. apply wrap_id; [lia|apply R; lia]. }
  rewrite C1, Ft. change (fW t) with (W + 2 * k - 1).
  assert (C2 : shl true (W + 2 * k - 1) (m * 2 ^ k) e = m * 2 ^ (k + e)).
  { unfold shl. assert (Z.shiftl (m * 2 ^ k) e = m * 2 ^ (k + e)) as ->; [|apply wrap_id; [lia|apply R; lia]].
    destruct (Z.le_gt_cases 0 e).
    - rewrite Z.shiftl_mul_pow2 by lia. rewrite pow2_add by lia. ring.
    - rewrite <- (Z.opp_involutive e), Z.shiftl_opp_r, Z.shiftr_div_pow2 by lia.
      replace k with ((k + e) + (- e)) at 1 by lia. rewrite pow2_add by lia. rewrite Z.mul_assoc, Z.div_mul by (pose proof (pow2_pos (- e) ltac:(lia)); lia). f_equal. f_equal. lia. }
  rewrite C2. replace (k + e) with (W - I + k - (W - I - e)) by lia. apply conv_rescale. lia.
Qed.

Lemma acc_fxpt_conv_ok use_sl W I E f m e : 1 <= W -> 1 <= E <= 31 -> 1 <= fW f ->
  - 2 ^ (W - 1) <= m < 2 ^ (W - 1) -> - 2 ^ (E - 1) <= e < 2 ^ (E - 1) ->
  converts2 f m (e - (W - I)) (acc_fxpt_conv use_sl W I E f (m, e)).
Proof.
  intros HW HE Hf Hm He. destruct use_sl; [|exact (acc_fxpt_conv_ok_shift W I E f m e HW ltac:(lia) Hf Hm He)].
  apply (conv_eq_converts2 f _ _ (W - I - e)); [exact Hf|lia|]. unfold acc_fxpt_conv.
  assert (w32 : wraps 32 e = e).
    { apply wraps_id; [lia|]. assert (2 ^ (E - 1) <= 2 ^ (32 - 1)) by (apply pow2_le; lia). lia. }
    rewrite w32. destruct (fS f) eqn:S.
    + rewrite shift_left_si_ok by assumption. apply conv_own; [exact Hf|]. do 2 eexists; reflexivity.
    + rewrite shift_left_si_ok by (try assumption; try reflexivity; cbn [fW]; lia). apply conv_sign_ext; assumption.
Qed.

(** ** block_add_tree *)
Lemma zero_handle_ok ZH EE m e : 2 <= EE -> - 2 ^ (EE - 1) <= e < 2 ^ (EE - 1) ->
  zero_handle_exp ZH EE (m, e) = if ZH && (m =? 0) then - 2 ^ (EE - 1) else e.
Proof.
  intros HE He. unfold zero_handle_exp. destruct ZH; cbn [andb]; [|reflexivity].
  pose proof (pow2_pos (EE - 1) ltac:(lia)) as P. assert (P2 : 2 ^ EE = 2 * 2 ^ (EE - 1)) by (apply pow2_half; lia).
  assert (SB : forall b x, 0 <= x < 2 ^ (EE - 1) -> set_bit true EE (EE - 1) b x = if b then x - 2 ^ (EE - 1) else x).
  { intros b x Hx. unfold set_bit. assert (T : Z.testbit x (EE - 1) = false) by (apply (Z.bits_above_log2); [lia|]; destruct (Z.eq_dec x 0) as [->|]; [cbn; lia|]; apply Z.log2_lt_pow2; lia).
    destruct b.
    - rewrite Z.setbit_spec'. rewrite <- Z.add_nocarry_lxor || idtac.
      assert (E : Z.lor x (2 ^ (EE - 1)) = x + 2 ^ (EE - 1)).
      { symmetry. rewrite Z.add_nocarry_lxor. 2:{ apply Z.bits_inj'. intros n Hn. rewrite Z.land_spec, Z.bits_0, Z.pow2_bits_eqb by lia. destruct (Z.eqb_spec (EE - 1) n) as [<-|]; [rewrite T|]; apply andb_false_iff; auto. }
        apply Z.bits_inj'. intros n Hn. rewrite Z.lxor_spec, Z.lor_spec, Z.pow2_bits_eqb by lia. destruct (Z.eqb_spec (EE - 1) n) as [<-|]; [rewrite T|]; destruct (Z.testbit x _); reflexivity. }
      rewrite E. apply wrap_unique; [lia|unfold in_range, imin, imax; lia|]. rewrite P2. symmetry. rewrite <- (Z_mod_plus_full _ 1). f_equal. lia.
    - rewrite Z.clearbit_spec'. assert (E : Z.ldiff x (2 ^ (EE - 1)) = x).
      { apply Z.bits_inj'. intros n Hn. rewrite Z.ldiff_spec, Z.pow2_bits_eqb by lia. destruct (Z.eqb_spec (EE - 1) n) as [<-|]; [rewrite T; reflexivity|]. cbn [negb]. apply andb_true_r. }
      rewrite E. apply wrap_id; [lia|]. unfold in_range, imin, imax. lia. }
  assert (WS : forall x, 0 <= x < 2 ^ (EE - 1) -> wraps EE x = x) by (intros; apply wraps_id; lia).
  destruct (Z.eqb_spec m 0) as [->|Nm]; cbn [negb b2z orb].
  - change (- 0) with 0. unfold wrapu at 1. rewrite Z.mod_0_l by lia. rewrite Z.land_0_r. rewrite WS by lia. rewrite SB by lia. lia.
  - assert (M : wrapu (EE - 1) (- (1)) = Z.ones (EE - 1)).
    { rewrite Z.ones_equiv. unfold wrapu. symmetry. apply (Z.mod_unique _ _ (-1)); lia. }
    rewrite M. rewrite Z.land_ones by lia. unfold slc. rewrite Z.shiftr_0_r. unfold wrapu. rewrite Z.mod_mod by lia.
    pose proof (Z.mod_pos_bound e (2 ^ (EE - 1)) P) as B. rewrite WS, SB by exact B.
    destruct (Z.le_gt_cases 0 e).
    + replace (Z.testbit e (EE - 1)) with false. 2:{ symmetry. apply Z.bits_above_log2; [lia|]. destruct (Z.eq_dec e 0) as [->|]; [cbn; lia|]. apply Z.log2_lt_pow2; lia. }
      apply Z.mod_small. lia.
    + replace (Z.testbit e (EE - 1)) with true.
      2:{ symmetry. rewrite <- (Z.lnot_involutive e), Z.lnot_spec by lia. apply negb_true_iff. apply Z.bits_above_log2; [unfold Z.lnot; lia|].
          destruct (Z.eq_dec (Z.lnot e) 0) as [->|]; [cbn; lia|]. apply Z.log2_lt_pow2; unfold Z.lnot in *; lia. }
      assert (e mod 2 ^ (EE - 1) = e + 2 ^ (EE - 1)); [|lia]. symmetry. apply (Z.mod_unique _ _ (-1)); lia.
Qed.

Lemma max_r_ok fuel : forall es, es <> [] -> (length es <= fuel)%nat -> In (max_r fuel es) es /\ Forall (fun e => e <= max_r fuel es) es.
Proof.
  induction fuel as [|fuel IH]; intros es Hne Hf; [destruct es; [congruence|cbn in Hf; lia]|].
  destruct es as [|x es]; [congruence|]. destruct es as [|y ys]; [cbn [max_r]; split; [left; reflexivity|constructor; [lia|constructor]]|].
  set (es := x :: y :: ys) in *.
  change (max_r (S fuel) es) with (if max_r fuel (firstn (length es / 2) es) <? max_r fuel (skipn (length es / 2) es) then max_r fuel (skipn (length es / 2) es) else max_r fuel (firstn (length es / 2) es)).
  assert (Ln : (2 <= length es)%nat) by (cbn; lia). clearbody es.
  set (k := (length es / 2)%nat). assert (Hk : (1 <= k < length es)%nat).
  { split; [apply Nat.div_le_lower_bound; lia|apply Nat.div_lt; lia]. }
  clearbody k. assert (Lf : length (firstn k es) = k) by (rewrite firstn_length; lia).
  assert (Ls : length (skipn k es) = (length es - k)%nat) by apply skipn_length.
  destruct (IH (firstn k es) ltac:(intros E; rewrite E in Lf; cbn in Lf; lia) ltac:(lia)) as [I1 A1].
  destruct (IH (skipn k es) ltac:(intros E; rewrite E in Ls; cbn in Ls; lia) ltac:(lia)) as [I2 A2].
  set (a := max_r fuel (firstn k es)) in *. set (b := max_r fuel (skipn k es)) in *. clearbody a b.
  rewrite <- (firstn_skipn k es). rewrite Forall_app, in_app_iff. rewrite !Forall_forall in *.
  destruct (Z.ltb_spec a b).
  - split; [right; exact I2|]. split; [|exact A2]. intros e He. specialize (A1 e He). lia.
  - split; [left; exact I1|]. split; [exact A1|]. intros e He. specialize (A2 e He). lia.
Qed.

Lemma acc_list W I F ms : forall a, 1 <= W -> F = W - I ->
  fold_left (fun s m => conv (dfmt W I true) (s + m) F) ms (wrap true W a) = wrap true W (a + fold_right Z.add 0 ms).
Proof.
  induction ms as [|m ms IH]; intros a HW HF; cbn [fold_left fold_right]; [rewrite Z.add_0_r; reflexivity|].
  rewrite (conv_dfmt_same W I true _ F HF), wrap_add by lia. rewrite IH by assumption. f_equal. lia.
Qed.

Lemma sum_err {A} (f g : A -> Z) B l : 0 <= B -> Forall (fun x => 0 <= g x - f x <= B) l -> Exists (fun x => f x = g x) l ->
  fold_right (fun x s => f x + s) 0 l <= fold_right (fun x s => g x + s) 0 l <= fold_right (fun x s => f x + s) 0 l + (Z.of_nat (length l) - 1) * B.
Proof.
  intros HB.
  assert (K : forall l, Forall (fun x => 0 <= g x - f x <= B) l -> fold_right (fun x s => f x + s) 0 l <= fold_right (fun x s => g x + s) 0 l <= fold_right (fun x s => f x + s) 0 l + Z.of_nat (length l) * B).
  { clear l. induction 1 as [|x l Hx Hl IH]; [cbn; lia|]. cbn [fold_right length]. rewrite Nat2Z.inj_succ. lia. }
  intros HF HE. induction HE as [x l Hx|x l HE IH]; cbn [fold_right length]; rewrite Nat2Z.inj_succ.
  - apply Forall_inv_tail, K in HF. lia.
  - specialize (IH (Forall_inv_tail HF)). apply Forall_inv in HF. lia.
Qed.

Lemma fold_scale {A} (f : A -> Z) k l : fold_right Z.add 0 (map f l) * k = fold_right (fun x s => f x * k + s) 0 l.
Proof. induction l as [|x l IH]; [reflexivity|]. cbn [map fold_right]. rewrite <- IH. ring. Qed.
Lemma fsum_scale c X xs : 2 ^ X * fsum c xs = fold_right (fun x s => fst x * 2 ^ X * 2 ^ (snd x - c) + s) 0 xs.
Proof. unfold fsum. induction xs as [|x xs IH]; [cbn; ring|]. cbn [fold_right]. rewrite <- IH. ring. Qed.

Section Block.
  Variables (WE IE EE X c emax : Z) (ZH : bool).
  Hypothesis HW : 1 <= WE.
  Hypothesis HE : 2 <= EE <= 31.
  Hypothesis HX : 0 <= X.
  Hypothesis HC : c <= emax.
  Let h := 2 ^ (WE - 1 + X).
  Let ok (x : flt) := valid_flt WE EE x /\ c <= snd x /\ (fst x <> 0 \/ ZH = false -> snd x <= emax).

  Lemma block_core_ok xs : xs <> [] -> Forall ok xs ->
    let '(M, E) := block_add_core WE IE EE X ZH xs in
    let n := Z.of_nat (length xs) in
    - 2 ^ (EE - 1) <= E < 2 ^ (EE - 1) /\ (forall x, In x xs -> fst x <> 0 -> snd x <= E) /\
    - 2 ^ (WE + Z.log2_up n + X - 1) <= M < 2 ^ (WE + Z.log2_up n + X - 1) /\
    M * 2 ^ (E - c) <= 2 ^ X * fsum c xs <= M * 2 ^ (E - c) + (n - 1) * (2 ^ (emax - c) - 1).
  Proof.
    intros Hne Hok. unfold block_add_core, exp_equalizer. cbv zeta.
    set (zh := zero_handle_exp ZH EE). set (E := max_r (length xs) (map zh xs)).
    assert (Ez : forall x, In x xs -> zh x = if ZH && (fst x =? 0) then - 2 ^ (EE - 1) else snd x).
    { intros x Hx. rewrite Forall_forall in Hok. destruct (Hok x Hx) as ((_ & He) & _). destruct x as [m e]. apply zero_handle_ok; [lia|exact He]. }
    destruct (max_r_ok (length xs) (map zh xs)) as [Mi Mx]; [destruct xs; [congruence|discriminate]|rewrite map_length; lia|].
    fold E in Mi, Mx. apply in_map_iff in Mi as (xm & Exm & Ixm). rewrite Forall_forall in Mx.
    assert (Mx' : forall x, In x xs -> zh x <= E) by (intros x Hx; apply Mx, in_map, Hx).
    pose proof (pow2_pos (EE - 1) ltac:(lia)) as PE.
    assert (ER : - 2 ^ (EE - 1) <= E < 2 ^ (EE - 1)).
    { rewrite <- Exm, (Ez _ Ixm). rewrite Forall_forall in Hok. destruct (Hok xm Ixm) as ((_ & He) & _). destruct (ZH && _); lia. }
    assert (EB : forall x, In x xs -> fst x <> 0 \/ ZH = false -> snd x <= E).
    { intros x Hx Nz. specialize (Mx' x Hx). rewrite (Ez x Hx) in Mx'. replace (ZH && (fst x =? 0)) with false in Mx' by (destruct ZH, Nz; lia). exact Mx'. }
    assert (Xz : forall x, In x xs -> zh x = E -> (fst x <> 0 \/ ZH = false) /\ snd x = E \/ fst x = 0).
    { intros x Hx Ex. rewrite (Ez x Hx) in Ex. destruct ZH; cbn [andb] in Ex; [|left; split; [right; reflexivity|exact Ex]].
      destruct (Z.eqb_spec (fst x) 0); [right; assumption|left; split; [left; assumption|exact Ex]]. }
    assert (EU : (exists x, In x xs /\ (fst x <> 0 \/ ZH = false)) -> c <= E <= emax).
    { intros (x & Hx & Nz). pose proof (EB x Hx Nz). rewrite Forall_forall in Hok. destruct (Hok x Hx) as (_ & Hc & _). split; [lia|].
      destruct (Xz xm Ixm Exm) as [[Nm <-]|Zm]; [apply (Hok xm Ixm); exact Nm|].
      destruct (ZH) eqn:EZ. 2:{ destruct (Hok xm Ixm) as (_ & _ & Q). rewrite <- Exm, (Ez _ Ixm). cbn [andb]. apply Q. right. reflexivity. }
      rewrite (Ez _ Ixm), Zm in Exm. cbn [andb Z.eqb] in Exm. destruct (Hok x Hx) as ((_ & He) & _ & Q). specialize (Q Nz). lia. }
    set (G := Z.log2_up (Z.of_nat (length xs))) in *. assert (exists w, w = WE + G + X) as [w Hw] by (eexists; reflexivity). rewrite <- Hw.
    set (el := fun x : flt => Z.shiftr (fst x * 2 ^ X) (wrapu EE (E - snd x))).
    assert (Hh : 1 <= h) by (unfold h; pose proof (pow2_pos (WE - 1 + X) ltac:(lia)); lia).
    assert (Elx : forall x, In x xs -> conv (dfmt (WE + X) IE true) (shr true (WE + X) (conv (dfmt (WE + X) IE true) (fst x) (WE - IE)) (wrapu EE (E - snd x))) (WE + X - IE) = el x
        /\ - h <= el x <= h - 1).
    { intros x Hx. rewrite Forall_forall in Hok. destruct (Hok x Hx) as ((Hm & _) & _).
      destruct (leaf_ok WE IE X (fst x) HW HX Hm) as [-> B]. fold h in B.
      assert (D : 0 <= wrapu EE (E - snd x)) by (unfold wrapu; apply Z.mod_pos_bound, pow2_pos; lia).
      pose proof (floor_range (fst x * 2 ^ X) (wrapu EE (E - snd x)) (- h) (h - 1) D ltac:(lia) ltac:(lia) B) as B2. fold (el x) in B2.
      assert (IR : in_range true (WE + X) (el x)) by (unfold in_range, imin, imax; replace (WE + X - 1) with (WE - 1 + X) by lia; fold h; lia).
      split; [|exact B2]. unfold shr. fold (el x). rewrite (wrap_id true) by (try exact IR; lia). rewrite conv_same. apply wrap_id; [lia|exact IR]. }
    rewrite (map_ext_in _ el xs (fun x Hx => proj1 (Elx x Hx))).
    replace (conv (dfmt w (IE + G) true) 0 0) with (wrap true w 0).
    2:{ symmetry. assert (1 <= w) by (pose proof (Z.log2_up_nonneg (Z.of_nat (length xs))); lia). rewrite conv_zero by assumption. rewrite wrap_id; [reflexivity|assumption|]. apply in_range_0. assumption. }
    assert (L1 : 1 <= Z.of_nat (length xs)) by (destruct xs; [congruence|cbn [length]; lia]).
    destruct (log2_up_le _ L1) as [L0 L]. fold G in L0, L.
    rewrite acc_list by lia. rewrite Z.add_0_l.
    assert (SM : forall l, (forall x, In x l -> In x xs) -> - (Z.of_nat (length l) * h) <= fold_right Z.add 0 (map el l) <= Z.of_nat (length l) * (h - 1)).
    { induction l as [|x l IH]; intros Sub; [cbn; lia|]. cbn [map fold_right length]. rewrite Nat2Z.inj_succ.
      destruct (Elx x (Sub x (or_introl eq_refl))) as [_ B]. specialize (IH (fun y Hy => Sub y (or_intror Hy))). lia. }
    specialize (SM xs (fun x Hx => Hx)). set (n := Z.of_nat (length xs)) in *.
    assert (PW : n * h <= 2 ^ (w - 1)).
    { unfold h. rewrite Hw. replace (WE + G + X - 1) with (G + (WE - 1 + X)) by lia. rewrite (pow2_add G) by lia. apply Z.mul_le_mono_nonneg_r; [unfold h in Hh; lia|exact L]. }
    set (M := fold_right Z.add 0 (map el xs)) in *.
    assert (MR : - 2 ^ (w - 1) <= M < 2 ^ (w - 1)) by (clear - SM PW L1 Hh; lia).
    rewrite (wrap_id true) by (try (unfold in_range, imin, imax; lia); lia).
    cbv zeta. split; [exact ER|]. split; [intros x Hx Nz; apply EB; auto|]. split; [exact MR|].
    assert (FM : M * 2 ^ (E - c) = fold_right (fun x s => el x * 2 ^ (E - c) + s) 0 xs).
    { unfold M. apply fold_scale. }
    assert (FF : 2 ^ X * fsum c xs = fold_right (fun x s => fst x * 2 ^ X * 2 ^ (snd x - c) + s) 0 xs).
    { apply fsum_scale. }
    rewrite FM, FF. pose proof (pow2_pos (emax - c) ltac:(lia)) as PU.
    assert (El : forall x, In x xs -> fst x <> 0 -> exists d, 0 <= d /\ d = E - snd x /\ wrapu EE (E - snd x) = d).
    { intros x Hx Nz. exists (E - snd x). pose proof (EB x Hx (or_introl Nz)). split; [lia|]. split; [reflexivity|]. apply wrapu_id.
      rewrite Forall_forall in Hok. destruct (Hok x Hx) as ((_ & He) & _). rewrite (pow2_half EE) by lia. lia. }
    apply sum_err; [lia| |].
    - rewrite Forall_forall. intros x Hx. unfold el. destruct (Z.eq_dec (fst x) 0) as [->|Nz].
      + rewrite Z.mul_0_l. rewrite Z.shiftr_0_l. lia.
      + destruct (El x Hx Nz) as (d & Hd & Ed & ->). pose proof (floor_loss (fst x * 2 ^ X) d Hd) as FL. cbv zeta in FL. set (q := Z.shiftr _ d) in *.
        pose proof (EU (ex_intro _ x (conj Hx (or_introl Nz)))) as HU. rewrite Forall_forall in Hok. destruct (Hok x Hx) as (_ & Hc & _).
        assert (P : 2 ^ (E - c) = 2 ^ d * 2 ^ (snd x - c)) by (rewrite <- pow2_add by lia; f_equal; lia).
        assert (2 ^ (E - c) <= 2 ^ (emax - c)) by (apply pow2_le; lia).
        pose proof (pow2_pos (snd x - c) ltac:(lia)) as P1. rewrite P in *. set (p := 2 ^ d) in *. set (u := 2 ^ (snd x - c)) in *. set (v := fst x * 2 ^ X) in *. clearbody p u v q. clear - FL P1 H. nia.
    - apply Exists_exists. destruct (Xz xm Ixm Exm) as [[Nm Em]|Zm].
      + exists xm. split; [exact Ixm|]. unfold el. rewrite Em, Z.sub_diag. change (wrapu EE 0) with (0 mod 2 ^ EE). rewrite Z.mod_0_l by (pose proof (pow2_pos EE ltac:(lia)); lia).
        rewrite Z.shiftr_0_r. reflexivity.
      + exists xm. split; [exact Ixm|]. unfold el. rewrite Zm, Z.mul_0_l, Z.shiftr_0_l. lia.
  Qed.
End Block.

(** ** The public functions *)
Lemma add_core_ok WE IE EE X xs : 1 <= WE -> 1 <= EE <= 31 -> 0 <= X -> xs <> [] -> Forall (valid_flt WE EE) xs ->
  let '(M, E) := add_r (length xs) WE IE X xs in
  let n := Z.of_nat (length xs) in
  In E (map snd xs) /\ - 2 ^ (WE + Z.log2_up n + X - 1) <= M < 2 ^ (WE + Z.log2_up n + X - 1) /\
  forall c emax, Forall (fun x => c <= snd x) xs -> Forall (fun x => fst x <> 0 -> snd x <= emax) xs -> c <= emax ->
    M * 2 ^ (E - c) <= 2 ^ X * fsum c xs <= M * 2 ^ (E - c) + (n - 1) * (2 ^ (emax - c) - 1).
Proof.
  intros HW HE HX Hne Hv.
  assert (K : forall c emax, Forall (fun x => c <= snd x) xs -> Forall (fun x => fst x <> 0 -> snd x <= emax) xs -> c <= emax -> _) by
    (intros c emax Hc He Hce; refine (add_r_ok WE IE EE X c emax HW HE HX Hce (length xs) xs Hne (le_n _) _);
     rewrite Forall_forall in *; intros x Hx; split; [apply Hv; exact Hx|split; [apply Hc; exact Hx|apply He; exact Hx]]).
  destruct (add_r (length xs) WE IE X xs) as [M E]. cbv zeta in *.
  assert (B : Forall (fun x => - 2 ^ (EE - 1) <= snd x) xs /\ Forall (fun x : Z * Z => fst x <> 0 -> snd x <= 2 ^ (EE - 1)) xs).
  { rewrite !Forall_forall in *. split; intros x Hx; specialize (Hv x Hx); destruct Hv as [_ Hv]; lia. }
  pose proof (pow2_pos (EE - 1) ltac:(lia)).
  destruct (K (- 2 ^ (EE - 1)) (2 ^ (EE - 1)) (proj1 B) (proj2 B) ltac:(lia)) as (I1 & _ & R & _). split; [exact I1|]. split.
  - assert (L1 : 1 <= Z.of_nat (length xs)) by (destruct xs; [congruence|cbn [length]; lia]). destruct (log2_up_le _ L1) as [L0 L].
    set (n := Z.of_nat (length xs)) in *. set (G := Z.log2_up n) in *. pose proof (pow2_pos (WE - 1 + X) ltac:(lia)).
    replace (WE + G + X - 1) with (G + (WE - 1 + X)) by lia. rewrite (pow2_add G) by lia. set (h := 2 ^ (WE - 1 + X)) in *.
    assert (n * h <= 2 ^ G * h) by (apply Z.mul_le_mono_nonneg_r; lia). lia.
  - intros c emax Hc He Hce. apply (K c emax Hc He Hce).
Qed.

Theorem add_tree_fx_ok WE IE EE X use_sl f xs : 1 <= WE -> 1 <= EE <= 31 -> 0 <= X -> 1 <= fW f -> xs <> [] -> Forall (valid_flt WE EE) xs ->
  exists M E, converts2 f M (E - (WE - IE + X)) (add_tree_fx WE IE EE X use_sl f xs) /\ In E (map snd xs) /\
    forall c emax, Forall (fun x => c <= snd x) xs -> Forall (fun x => fst x <> 0 -> snd x <= emax) xs -> c <= emax ->
      M * 2 ^ (E - c) <= 2 ^ X * fsum c xs <= M * 2 ^ (E - c) + (Z.of_nat (length xs) - 1) * (2 ^ (emax - c) - 1).
Proof.
  intros HW HE HX Hf Hne Hv. pose proof (add_core_ok WE IE EE X xs HW HE HX Hne Hv) as A. unfold add_tree_fx.
  destruct (add_r (length xs) WE IE X xs) as [M E]. cbv zeta in A. destruct A as (I1 & R & V). exists M, E. split; [|split; [exact I1|exact V]].
  set (G := Z.log2_up (Z.of_nat (length xs))) in *. assert (0 <= G) by apply Z.log2_up_nonneg.
  replace (E - (WE - IE + X)) with (E - (WE + G + X - (IE + G))) by lia. apply acc_fxpt_conv_ok; try assumption; [lia|].
  apply in_map_iff in I1 as (x & <- & Hx). rewrite Forall_forall in Hv. apply (Hv x Hx).
Qed.

Theorem add_tree_fx_same_exp WE IE EE X use_sl f xs e : 1 <= WE -> 1 <= EE <= 31 -> 0 <= X -> 1 <= fW f -> xs <> [] -> Forall (valid_flt WE EE) xs ->
  Forall (fun x => fst x <> 0 -> snd x = e) xs -> Forall (fun x => e <= snd x) xs ->
  converts2 f (fold_right Z.add 0 (map fst xs)) (e - (WE - IE)) (add_tree_fx WE IE EE X use_sl f xs).
Proof.
  intros HW HE HX Hf Hne Hv Hs Hz. destruct (add_tree_fx_ok WE IE EE X use_sl f xs HW HE HX Hf Hne Hv) as (M & E & C & I1 & V).
  specialize (V e e Hz). rewrite Z.sub_diag in V. specialize (V ltac:(rewrite Forall_forall in *; intros x Hx N; specialize (Hs x Hx N); lia) ltac:(lia)).
  change (2 ^ 0 - 1) with 0 in V. rewrite Z.mul_0_r, Z.add_0_r in V.
  assert (FE : fsum e xs = fold_right Z.add 0 (map fst xs)).
  { clear - Hs. unfold fsum. induction Hs as [|x l Hx Hl IH]; [reflexivity|]. cbn [fold_right map]. rewrite IH. destruct (Z.eq_dec (fst x) 0) as [->|N]; [lia|].
    rewrite (Hx N), Z.sub_diag, Z.pow_0_r. lia. }
  rewrite FE in V. set (s := fold_right Z.add 0 (map fst xs)) in *.
  assert (e <= E) by (apply in_map_iff in I1 as (x & <- & Hx); rewrite Forall_forall in Hz; apply Hz; exact Hx).
  assert (C2 : converts2 f M (E - (WE - IE + X)) (conv f s (WE - IE - e))).
  { apply (conv_eq_converts2 f _ _ (WE - IE + X - E)); [exact Hf|lia|].
    rewrite <- (conv_rescale f M (WE - IE + X - E) (WE - IE + X - e)) by lia. replace (WE - IE + X - e - (WE - IE + X - E)) with (E - e) by lia.
    replace (M * 2 ^ (E - e)) with (s * 2 ^ (WE - IE + X - e - (WE - IE - e))) by (replace (WE - IE + X - e - (WE - IE - e)) with X by lia; lia). symmetry. apply conv_rescale. lia. }
  rewrite (converts2_unique _ _ _ _ _ Hf C C2). apply (conv_eq_converts2 f _ _ (WE - IE - e)); [exact Hf|lia|reflexivity].
Qed.

Theorem block_add_tree_fx_ok WE IE EE X ZH use_sl f xs : 1 <= WE -> 2 <= EE <= 31 -> 0 <= X -> 1 <= fW f -> xs <> [] -> Forall (valid_flt WE EE) xs ->
  exists M E, converts2 f M (E - (WE - IE + X)) (block_add_tree_fx WE IE EE X ZH use_sl f xs) /\
    (forall x, In x xs -> fst x <> 0 -> snd x <= E) /\
    forall c emax, Forall (fun x => c <= snd x) xs -> Forall (fun x => fst x <> 0 \/ ZH = false -> snd x <= emax) xs -> c <= emax ->
      M * 2 ^ (E - c) <= 2 ^ X * fsum c xs <= M * 2 ^ (E - c) + (Z.of_nat (length xs) - 1) * (2 ^ (emax - c) - 1).
Proof.
  intros HW HE HX Hf Hne Hv.
  assert (P : forall c emax, Forall (fun x => c <= snd x) xs -> Forall (fun x => fst x <> 0 \/ ZH = false -> snd x <= emax) xs ->
    Forall (fun x => valid_flt WE EE x /\ c <= snd x /\ (fst x <> 0 \/ ZH = false -> snd x <= emax)) xs).
  { intros c emax Hc He. rewrite Forall_forall in *. intros x Hx. split; [apply Hv; exact Hx|split; [apply Hc; exact Hx|apply He; exact Hx]]. }
  pose proof (fun c emax Hc He Hce => block_core_ok WE IE EE X c emax ZH HW HE HX Hce xs Hne (P c emax Hc He)) as K. clear P.
  unfold block_add_tree_fx. destruct (block_add_core WE IE EE X ZH xs) as [M E]. cbv zeta in *.
  assert (B : Forall (fun x => - 2 ^ (EE - 1) <= snd x) xs /\ Forall (fun x : Z * Z => fst x <> 0 \/ ZH = false -> snd x <= 2 ^ (EE - 1)) xs).
  { rewrite !Forall_forall in *. split; intros x Hx; specialize (Hv x Hx); destruct Hv as [_ Hv]; lia. }
  pose proof (pow2_pos (EE - 1) ltac:(lia)).
  destruct (K (- 2 ^ (EE - 1)) (2 ^ (EE - 1)) (proj1 B) (proj2 B) ltac:(lia)) as (ER & EB & R & _). exists M, E. split; [|split; [exact EB|]].
  - set (G := Z.log2_up (Z.of_nat (length xs))) in *. assert (0 <= G) by apply Z.log2_up_nonneg.
    replace (E - (WE - IE + X)) with (E - (WE + G + X - (IE + G))) by lia. apply acc_fxpt_conv_ok; try assumption; lia.
  - intros c emax Hc He Hce. apply (K c emax Hc He Hce).
Qed.
