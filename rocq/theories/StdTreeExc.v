(** Special values and many operands of ac_std_float_add_tree.h. *)
From Coq Require Import Lia ZifyBool.
From Verif Require Import AcTypes AcFacts Spec SpecFacts SpecStd ShiftFacts LeadingProofs StdTreeModel StdTreeProofs StdTreePack StdTreeThm.

Ltac Zify.zify_post_hook ::= idtac.

Lemma wrapu_ones k : 0 <= k -> wrapu k (-1) = 2 ^ k - 1.
Proof.
  intros Hk. assert (P := pow2_pos k Hk). unfold wrapu.  symmetry. apply Z.mod_unique with (-1); lia.
Qed.
Lemma wrapu_range k x : 0 <= k -> 0 <= wrapu k x < 2 ^ k.
Proof. intros Hk. unfold wrapu.  apply Z.mod_pos_bound, pow2_pos, Hk. Qed.

Lemma pack_exc q W E X lg nosub is_inf is_nan neg pos emax t : 1 <= E -> 1 <= W - E - 1 -> is_nan || is_inf = true ->
  exists s, (neg || pos = true -> s = neg && negb pos) /\
    sf_pack q W E X lg nosub is_inf is_nan neg pos emax t =
    b2z s * 2 ^ (W - 1) + (2 ^ E - 1) * 2 ^ (W - E - 1) + (if is_nan then 2 ^ (W - E - 1) - 1 else 0).
Proof.
  intros HE Hmb H. unfold sf_pack. cbv zeta.
  repeat match goal with |- context [match (if ?b then _ else _) with (_, _) => _ end] => destruct b; cbv iota beta zeta end;
  (match goal with |- context [b2z ?s * 2 ^ (W - 1) + _] => exists s end; split;
   [intros ->; reflexivity|];
   match goal with |- context [is_nan || (?a || is_inf)] =>
     assert (is_nan || (a || is_inf) = true) as -> by (destruct is_nan, is_inf, a; cbn in *; congruence) end;
   cbn [orb]; rewrite !wrapu_ones by lia; reflexivity).
Qed.

Lemma pack_fin E a z c y m : 1 <= E -> 4 <= 2 ^ E -> 0 <= y < 2 ^ E -> (a = false -> y = 2 ^ E - 1 -> c = true) ->
  wrapu E (if a || z then if a then -1 else 0 else wraps E y) = 2 ^ E - 1 -> (if a || c || z then 0 else m) = 0.
Proof.
  intros HE H4 Hy Hc. destruct a; [reflexivity|]. destruct z; [destruct c; reflexivity|]. cbn [orb].
  rewrite (proj2 (proj2 (wraps_field E y HE Hy))). intros H. rewrite (Hc eq_refl H). reflexivity.
Qed.
Lemma pack_nonan q W E X lg nosub is_inf neg pos emax t : 2 <= E -> 1 <= W - E - 1 ->
  exists s e m, 0 <= e < 2 ^ E /\ 0 <= m < 2 ^ (W - E - 1) /\ (e = 2 ^ E - 1 -> m = 0) /\
    sf_pack q W E X lg nosub is_inf false neg pos emax t = b2z s * 2 ^ (W - 1) + e * 2 ^ (W - E - 1) + m.
Proof.
  intros HE Hmb. assert (E4 := StdTreePack.E4 0 E 0 0 HE). assert (HM := pow2_pos (W - E - 1) ltac:(lia)).
  unfold sf_pack. cbv zeta. rewrite (top_val 0 E 0 0) by assumption.
  set (ntz := match q with TRN_ZERO => false | _ => true end). clearbody ntz.
  assert (Hslc : forall y, 0 <= slc (W - E - 1) 0 y < 2 ^ (W - E - 1)) by (intros; unfold slc; apply wrapu_range; lia).
  assert (Htop : wrapu E (2 ^ E - 1 - 1) = 2 ^ E - 2) by (rewrite wrapu_id by lia; lia).
  repeat match goal with |- context [match (if ?b then _ else _) with (_, _) => _ end] => destruct b eqn:?; cbv iota beta zeta end;
  match goal with |- exists s e m, _ /\ _ /\ _ /\ b2z ?s0 * _ + ?e0 * _ + ?m0 = _ => exists s0, e0, m0 end;
  (split; [apply wrapu_range; lia|]; split; [|split; [|reflexivity]]);
  try (repeat match goal with |- context [if ?b then _ else _] => destruct b end; first [apply Hslc | apply wrapu_range; lia | lia]);
  rewrite ?Htop in *;
  repeat match goal with |- context [wrapu E (?a + (?b + 1))] => let v := fresh "v" in
      pose proof (wrapu_range E (a + (b + 1)) ltac:(lia)); set (v := wrapu E (a + (b + 1))) in *; clearbody v end.
  all: apply (pack_fin E); [lia|lia|lia|].
  all: cbn [orb]; intros HA Hv; first [lia | rewrite Hv, Z.eqb_refl in *; destruct ntz; [reflexivity|]; rewrite Bool.orb_true_r in *; discriminate].
Qed.

(** *** Special values *)
Lemma exists_flag W E nosub xs (f : sf_op -> bool) (P : Z -> Prop) : 1 <= E -> 1 <= W - E - 1 -> Forall (sf_word W) xs ->
  (forall d, sf_word W d -> (f (sf_extract W E nosub d) = true <-> P d)) ->
  existsb f (map (sf_extract W E nosub) xs) = true <-> Exists P xs.
Proof.
  intros HE Hmb HF Hf. rewrite existsb_exists, Exists_exists. rewrite Forall_forall in HF. split.
  - intros (o & Ho & Fo). apply in_map_iff in Ho. destruct Ho as (d & <- & Hd). exists d. split; [exact Hd|]. apply Hf; auto.
  - intros (d & Hd & Pd). exists (sf_extract W E nosub d). split; [apply in_map; exact Hd|]. apply Hf; auto.
Qed.
Lemma flag_nan W E nosub d : 1 <= E -> 1 <= W - E - 1 -> sf_word W d -> (o_nan (sf_extract W E nosub d) = true <-> sf_nan W E d).
Proof. intros HE Hmb Hd. rewrite (extract_ok W E nosub d HE Hmb Hd). cbn [o_nan]. unfold sf_nan. intuition lia. Qed.
Lemma flag_inf W E nosub d : 1 <= E -> 1 <= W - E - 1 -> sf_word W d ->
  (o_inf (sf_extract W E nosub d) = true <-> sf_inf W E true d \/ sf_inf W E false d).
Proof. intros HE Hmb Hd. rewrite (extract_ok W E nosub d HE Hmb Hd). cbn [o_inf]. unfold sf_inf. destruct (sf_neg W d); intuition lia. Qed.
Lemma flag_sinf W E nosub (s : bool) d : 1 <= E -> 1 <= W - E - 1 -> sf_word W d ->
  (o_inf (sf_extract W E nosub d) && (if s then o_sign (sf_extract W E nosub d) else negb (o_sign (sf_extract W E nosub d))) = true
   <-> sf_inf W E s d).
Proof.
  intros HE Hmb Hd. rewrite (extract_ok W E nosub d HE Hmb Hd). cbn [o_inf o_sign]. unfold sf_inf.
  destruct s, (sf_neg W d); cbn [negb]; intuition (lia || congruence).
Qed.
Lemma nan_iff W E s e m : 1 <= E -> 1 <= W - E - 1 -> 0 <= e < 2 ^ E -> 0 <= m < 2 ^ (W - E - 1) ->
  sf_nan W E (b2z s * 2 ^ (W - 1) + e * 2 ^ (W - E - 1) + m) <-> e = 2 ^ E - 1 /\ m <> 0.
Proof.
  intros HE Hmb He Hm. destruct (word_make W E s e m HE Hmb He Hm) as (A & B & C & D). unfold sf_nan. rewrite C, D. intuition.
Qed.

Section EXC.
Variables (q : qmode) (W E X : Z) (nosub : bool) (xs : list Z).
Hypotheses (HE : 2 <= E) (Hmb : 1 <= W - E - 1) (HF : Forall (sf_word W) xs).
Let ops := map (sf_extract W E nosub) xs.
Lemma ex_nan : existsb o_nan ops = true <-> Exists (sf_nan W E) xs.
Proof. apply exists_flag; try lia; try assumption. intros. apply flag_nan; try lia; assumption. Qed.
Lemma ex_neg : existsb (fun o => o_inf o && o_sign o) ops = true <-> Exists (sf_inf W E true) xs.
Proof. apply exists_flag; try lia; try assumption. intros. apply (flag_sinf W E nosub true); try lia; assumption. Qed.
Lemma ex_pos : existsb (fun o => o_inf o && negb (o_sign o)) ops = true <-> Exists (sf_inf W E false) xs.
Proof. apply exists_flag; try lia; try assumption. intros. apply (flag_sinf W E nosub false); try lia; assumption. Qed.
Lemma ex_inf : existsb o_inf ops = true <-> Exists (sf_inf W E true) xs \/ Exists (sf_inf W E false) xs.
Proof.
  unfold ops. rewrite (exists_flag W E nosub xs o_inf (fun d => sf_inf W E true d \/ sf_inf W E false d)); try lia; try assumption.
  - split; [apply Exists_or_inv|intros [H|H]; apply Exists_or; auto].
  - intros. apply flag_inf; try lia; assumption.
Qed.
Let isnan := Exists (sf_nan W E) xs \/ (Exists (sf_inf W E true) xs /\ Exists (sf_inf W E false) xs).
Lemma tree_nan : sf_nan W E (fadd_tree q W E X nosub xs) <-> isnan.
Proof.
  unfold fadd_tree. fold ops. cbv zeta.
  assert (N := ex_nan). assert (P := ex_pos). assert (Q := ex_neg).
  set (bn := existsb o_nan ops) in *. set (bp := existsb (fun o => o_inf o && negb (o_sign o)) ops) in *.
  set (bm := existsb (fun o => o_inf o && o_sign o) ops) in *.
  assert (B : bn || (bm && bp) = true <-> isnan).
  { unfold isnan. rewrite <- N, <- P, <- Q. rewrite Bool.orb_true_iff, Bool.andb_true_iff. reflexivity. }
  clearbody bn bp bm. destruct (bn || bm && bp) eqn:Z.
  - split; [intros _; apply B; reflexivity|intros _].
    match goal with |- sf_nan _ _ (sf_pack _ _ _ _ ?lg _ ?i _ _ _ ?e ?t) =>
      destruct (pack_exc q W E X lg nosub i true bm bp e t ltac:(lia) Hmb eq_refl) as (s & _ & ->) end.
    assert (E4 := StdTreePack.E4 0 E 0 0 HE).
    assert (2 ^ (W - E - 1) = 2 * 2 ^ (W - E - 1 - 1)) by (apply pow2_half; lia). assert (P1 := pow2_pos (W - E - 1 - 1) ltac:(lia)).
    apply nan_iff; lia.
  - split; [|intros H; apply B in H; discriminate].
    match goal with |- sf_nan _ _ (sf_pack _ _ _ _ ?lg _ ?i _ _ _ ?e ?t) -> _ =>
      destruct (pack_nonan q W E X lg nosub i bm bp e t HE Hmb) as (s & f & m & H1 & H2 & H3 & ->) end.
    rewrite nan_iff by lia. intros [A1 A2]. elim A2. apply H3; exact A1.
Qed.
Lemma tree_inf s : ~ isnan -> Exists (sf_inf W E s) xs -> sf_inf W E s (fadd_tree q W E X nosub xs).
Proof.
  intros Hn Hs. unfold fadd_tree. fold ops. cbv zeta.
  assert (N := ex_nan). assert (P := ex_pos). assert (Q := ex_neg). assert (I := ex_inf).
  set (bn := existsb o_nan ops) in *. set (bp := existsb (fun o => o_inf o && negb (o_sign o)) ops) in *.
  set (bm := existsb (fun o => o_inf o && o_sign o) ops) in *. set (bi := existsb o_inf ops) in *.
  assert (B : bn || (bm && bp) = false).
  { apply Bool.not_true_is_false. intros C. apply Hn. unfold isnan. rewrite <- N, <- P, <- Q.
    rewrite Bool.orb_true_iff, Bool.andb_true_iff in C. exact C. }
  assert (Bi : bi = true) by (apply I; destruct s; auto).
  assert (Bs : bm || bp = true /\ bm && negb bp = s).
  { destruct s; [apply Q in Hs|apply P in Hs]; clearbody bn bm bp; subst; cbn in *; destruct bn; cbn in *; try discriminate.
    - destruct bp; [discriminate|auto].
    - destruct bm; [discriminate|auto]. }
  clearbody bn bp bm bi. rewrite B, Bi.
  match goal with |- sf_inf _ _ _ (sf_pack _ _ _ _ ?lg _ _ _ _ _ ?e ?t) =>
    destruct (pack_exc q W E X lg nosub true false bm bp e t ltac:(lia) Hmb eq_refl) as (s' & S1 & ->) end.
  rewrite (S1 (proj1 Bs)), (proj2 Bs).
  assert (E4 := StdTreePack.E4 0 E 0 0 HE). assert (P1 := pow2_pos (W - E - 1) ltac:(lia)).
  destruct (word_make W E s (2 ^ E - 1) 0 ltac:(lia) Hmb ltac:(lia) ltac:(lia)) as (A1 & A2 & A3 & A4). unfold sf_inf. auto.
Qed.
End EXC.

Lemma even_keep T k : T = 2 * k -> 2 * (Z.abs T / 2) = Z.abs T.
Proof. intros ->. rewrite Z.abs_mul. change (Z.abs 2) with 2. rewrite (Z.mul_comm 2 (Z.abs k)), Z.div_mul by lia. ring. Qed.
(** *** Many operands *)
Section MANY.
Variables (q : qmode) (W E X : Z) (nosub : bool) (xs : list Z).
Hypotheses (HE : 2 <= E) (Hmb : 1 <= W - E - 1) (HX : 1 <= X) (Hsat : sat_ok W E X) (Hne : xs <> []) (HF : Forall (sf_finite W E) xs).
Let N := Z.of_nat (length xs).
Let lg := nbits (N - 1).
Let emax := sf_maxexp W E xs.
Let S := sf_sum nosub W E xs.
Let r := fadd_tree q W E X nosub xs.
Let T := fold_right Z.add 0 (map (fun d => sf_align W E X lg nosub emax (sf_extract W E nosub d)) xs).
Lemma many_N : 1 <= N.
Proof. unfold N. destruct xs; [contradiction|cbn [length]; lia]. Qed.
Lemma many_lg : 0 <= lg /\ (2 <= N -> 1 <= lg).
Proof.
  assert (H := many_N). split; [apply nbits_nonneg|]. intros H2. unfold lg.
  destruct (Z_lt_le_dec (nbits (N - 1)) 1) as [C|C]; [exfalso|exact C].
  pose proof (count_pow N H) as P. pose proof (nbits_nonneg (N - 1)). assert (nbits (N - 1) = 0) as Z by lia. rewrite Z in P. cbn in P. lia.
Qed.
Lemma many_words : Forall (fun d => sf_word W d /\ sf_exp W E d <= emax) xs /\ Exists (fun d => sf_exp W E d = emax) xs.
Proof.
  destruct (maxexp_in W E xs Hne) as [A B].
  - eapply Forall_impl; [|exact HF]. intros d [Hd _]. destruct (word_split W E d ltac:(lia) Hmb Hd) as (_ & R & _). lia.
  - split; [|exact B]. apply Forall_and; [|exact A]. eapply Forall_impl; [|exact HF]. intros d [Hd _]. exact Hd.
Qed.
Lemma many_sum : r = sf_pack q W E X lg nosub false false false false emax T /\ Z.abs T < 2 ^ (W - E - 1 + 1 + lg + X) /\ 0 <= emax < 2 ^ E - 1.
Proof.
  destruct (tree_sum q W E X nosub xs ltac:(lia) Hmb HX Hsat Hne HF) as (A & B & C). split; [exact A|]. split; [|exact C].
  fold N lg emax in B. change (Z.abs T <= N * ((2 ^ (W - E) - 1) * 2 ^ X)) in B.
  assert (H := many_N). destruct many_lg as [L _]. pose proof (count_pow N H) as P. fold lg in P.
  assert (PX := pow2_pos X ltac:(lia)). assert (PM := pow2_pos (W - E) ltac:(lia)).
  replace (W - E - 1 + 1 + lg + X) with (lg + ((W - E) + X)) by ring. rewrite !pow2_add by lia.
  apply Z.le_lt_trans with (1 := B). apply Z.le_lt_trans with (2 ^ lg * ((2 ^ (W - E) - 1) * 2 ^ X)).
  - apply Z.mul_le_mono_nonneg_r; [apply Z.mul_nonneg_nonneg; lia|exact P].
  - apply Z.mul_lt_mono_pos_l; [lia|]. apply Z.mul_lt_mono_pos_r; lia.
Qed.

Lemma many_near : exists t, Z.abs (t - 2 ^ (X + 1) * S) <= N * 2 ^ emax /\ (t = 0 -> r = 0) /\
  (2 ^ (X + 1) * 2 ^ (W - E - 1) <= Z.abs t < 2 ^ (X + 1) * 2 ^ (W - E - 1 + 2 ^ E - 2) -> float_rounds q W E t (2 ^ (X + 1)) r) /\
  (nosub = true -> 2 <= N -> t <> 0 -> Z.abs t < 2 ^ (X + 1) * 2 ^ (W - E - 1) -> r = b2z (t <? 0) * 2 ^ (W - 1)) /\
  (Forall (fun d => (2 ^ emax | 2 ^ (X + 1) * sf_val_flush nosub W E d)) xs ->
   Z.abs S < 2 ^ (W - E - 1 + emax + lg - 1) \/ (2 ^ emax | 2 ^ X * S) -> t = 2 ^ (X + 1) * S).
Proof.
  destruct many_sum as (A & B & C). destruct many_words as [D1 D2]. destruct many_lg as [L0 L1]. assert (N1 := many_N).
  assert (HD := pow2_pos emax ltac:(lia)). assert (PX := pow2_pos (X + 1) ltac:(lia)).
  destruct (T_near W E X lg nosub emax ltac:(lia) Hmb HX L0 Hsat ltac:(lia) xs D1) as [_ Nr]. specialize (Nr D2).
  pose proof (T_exact W E X lg nosub emax ltac:(lia) Hmb HX L0 Hsat ltac:(lia) xs D1) as Te.
  fold T S N in Nr, Te. rewrite A.
  destruct (Z.eq_dec T 0) as [T0|T0].
  - exists 0. split; [|split; [|split; [|split]]].
    + rewrite T0 in Nr. clear - Nr N1 HD. set (D := 2 ^ emax) in *. set (P := 2 ^ (X + 1) * S) in *. clearbody D P N. nia.
    + intros _. apply pack_zero; assumption || lia.
    + intros [H _]. cbn [Z.abs] in H. pose proof (Z.mul_pos_pos (2 ^ (X + 1)) (2 ^ (W - E - 1)) PX (pow2_pos (W - E - 1) ltac:(lia))). lia.
    + intros _ _ H. elim H; reflexivity.
    + intros H _. specialize (Te H). change (T * 2 ^ emax = 2 ^ (X + 1) * S) in Te. rewrite T0 in Te. lia.
  - destruct (n_range q W E X lg emax T HE Hmb HX L0 T0 B) as (R1 & R2).
    destruct (T1_range q W E X lg emax T HE Hmb HX L0 T0 B) as (U1 & U2).
    pose proof (n'_sgn q W E X lg emax T HE Hmb HX L0 C T0 B) as (V1 & V2).
    pose proof (pack_rounds q W E X lg nosub emax T HE Hmb HX L0 C T0 B) as PR.
    pose proof (pack_flush q W E X lg nosub emax T HE Hmb HX L0 C T0 B) as PF.
    set (n := nbits (Z.abs T)) in *.
    set (rr := qround q _ _) in PR.
    assert (Hb : b2z (rr =? 2 ^ (W - E - 1 + 1)) <= 1) by (destruct (rr =? 2 ^ (W - E - 1 + 1)); cbn; lia).
    set (T1 := if n =? W - E - 1 + 1 + lg + X then 2 * (Z.abs T / 2) else Z.abs T) in *.
    assert (T1def : T1 = if n =? W - E - 1 + 1 + lg + X then 2 * (Z.abs T / 2) else Z.abs T) by reflexivity.
    assert (P1 : 2 ^ (X + 1) * 2 ^ (W - E - 1) = 2 ^ (X + 1 + (W - E - 1))) by (rewrite <- pow2_add by lia; reflexivity).
    assert (E4 := StdTreePack.E4 0 E 0 0 HE).
    assert (P2 : 2 ^ (X + 1) * 2 ^ (W - E - 1 + 2 ^ E - 2) = 2 ^ (X + 1 + (W - E - 1 + 2 ^ E - 2))) by (rewrite <- pow2_add by lia; reflexivity).
    clearbody T1.
    assert (Q1 : 2 ^ (n - 1 + emax) <= T1 * 2 ^ emax).
    { rewrite pow2_add by lia. apply Z.mul_le_mono_nonneg_r; lia. }
    assert (Q2 : T1 * 2 ^ emax < 2 ^ (n + emax)).
    { rewrite pow2_add by lia. apply Z.mul_lt_mono_pos_r; lia. }
    exists ((if T <? 0 then - T1 else T1) * 2 ^ emax). split; [|split; [|split; [|split]]].
    + assert (HT : Z.abs ((if T <? 0 then - T1 else T1) - T) <= 1) by (destruct (Z.ltb_spec T 0); lia).
      set (t := if T <? 0 then - T1 else T1) in *. clear - Nr N1 HD HT. set (D := 2 ^ emax) in *. set (P := 2 ^ (X + 1) * S) in *.
      clearbody D P N t.
      assert (Z.abs (t * D - T * D) <= D).
      { rewrite <- Z.mul_sub_distr_r, Z.abs_mul, (Z.abs_eq D) by lia. replace D with (1 * D) at 2 by ring. apply Z.mul_le_mono_nonneg_r; lia. }
      replace ((N - 1) * (D - 1)) with (N * D - D - N + 1) in Nr by ring. lia.
    + intros Z0. exfalso. apply Z.mul_eq_0 in Z0. pose proof (pow2_pos (n - 1) ltac:(lia)). destruct (T <? 0); lia.
    + rewrite V2, P1, P2. intros [G1 G2].
      assert (G3 : X + 1 + (W - E - 1) < n + emax) by (apply (Z.pow_lt_mono_r_iff 2); lia).
      assert (G4 : n - 1 + emax < X + 1 + (W - E - 1 + 2 ^ E - 2)) by (apply (Z.pow_lt_mono_r_iff 2); lia).
      apply PR; lia.
    + rewrite V2, P1, V1. intros Hs H2 _ G.
      assert (G4 : n - 1 + emax < X + 1 + (W - E - 1)) by (apply (Z.pow_lt_mono_r_iff 2); lia).
      apply PF; [apply L1; exact H2|exact Hs|lia].
    + intros H G. specialize (Te H). change (T * 2 ^ emax = 2 ^ (X + 1) * S) in Te. rewrite <- Te. f_equal.
      assert (HT1 : T1 = Z.abs T).
      { rewrite T1def. destruct (Z.eqb_spec n (W - E - 1 + 1 + lg + X)) as [Hn|Hn]; [|reflexivity].
        destruct G as [G|[k G]].
        - exfalso. assert (K : Z.abs T * 2 ^ emax < 2 ^ (n - 1) * 2 ^ emax).
          { replace (Z.abs T * 2 ^ emax) with (2 ^ (X + 1) * Z.abs S).
            - apply Z.lt_le_trans with (2 ^ (X + 1) * 2 ^ (W - E - 1 + emax + lg - 1)); [apply Z.mul_lt_mono_pos_l; assumption|].
              destruct (Z_lt_le_dec (W - E - 1 + emax + lg - 1) 0) as [Neg|Neg].
              + rewrite (Z.pow_neg_r 2 _ Neg). rewrite Z.mul_0_r. apply Z.mul_nonneg_nonneg; [apply pow2_nonneg|lia].
              + rewrite <- !pow2_add by lia. apply pow2_le. clear - Hn Neg HX. clearbody n lg emax. lia.
            - rewrite <- (Z.abs_eq (2 ^ (X + 1))), <- Z.abs_mul, <- Te, Z.abs_mul, (Z.abs_eq (2 ^ emax)) by lia. reflexivity. }
          apply Z.mul_lt_mono_pos_r in K; lia.
        - assert (T = 2 * k).
          { apply (Z.mul_cancel_r _ _ (2 ^ emax)); [lia|]. rewrite Te, pow2_succ by lia. rewrite <- Z.mul_assoc, G. ring. }
          apply even_keep with k; assumption. }
      rewrite HT1. clear. clearbody T. destruct (Z.ltb_spec T 0); lia.
Qed.
End MANY.

(** *** The rounded value is unique *)
Lemma mag_ranges W E d : 1 <= E -> 1 <= W - E - 1 -> sf_word W d ->
  let mb := W - E - 1 in
  (sf_exp W E d = 0 /\ sf_mag W E d = sf_man W E d /\ sf_mag W E d < 2 ^ mb) \/
  (1 <= sf_exp W E d /\ sf_mag W E d = (2 ^ mb + sf_man W E d) * 2 ^ (sf_exp W E d - 1) /\
   2 ^ (mb + sf_exp W E d - 1) <= sf_mag W E d < 2 ^ (mb + sf_exp W E d)).
Proof.
  intros HE Hmb Hd mb. destruct (word_split W E d HE Hmb Hd) as (_ & R & Rm). unfold sf_mag. fold mb in Rm |- *.
  destruct (Z.eqb_spec (sf_exp W E d) 0) as [Z|Z]; [left; lia|right]. split; [lia|]. split; [reflexivity|].
  set (e := sf_exp W E d) in *. assert (P := pow2_pos (e - 1) ltac:(lia)).
  replace (mb + e - 1) with (mb + (e - 1)) by ring. replace (mb + e) with (mb + 1 + (e - 1)) by ring.
  rewrite (pow2_add mb (e - 1)), (pow2_add (mb + 1) (e - 1)), (pow2_succ mb) by lia.
  split; [apply Z.mul_le_mono_nonneg_r; lia|apply Z.mul_lt_mono_pos_r; lia].
Qed.
Lemma mag_inj W E a b : 1 <= E -> 1 <= W - E - 1 -> sf_word W a -> sf_word W b -> sf_neg W a = sf_neg W b -> sf_mag W E a = sf_mag W E b -> a = b.
Proof.
  intros HE Hmb Ha Hb Hs Hm.
  destruct (word_split W E a HE Hmb Ha) as (Ea & _ & Ra). destruct (word_split W E b HE Hmb Hb) as (Eb & _ & Rb).
  assert (sf_exp W E a = sf_exp W E b /\ sf_man W E a = sf_man W E b) as [X1 X2].
  { destruct (mag_ranges W E a HE Hmb Ha) as [(A1 & A2 & A3)|(A1 & A2 & A3)];
    destruct (mag_ranges W E b HE Hmb Hb) as [(B1 & B2 & B3)|(B1 & B2 & B3)].
    - lia.
    - exfalso. assert (2 ^ (W - E - 1) <= 2 ^ (W - E - 1 + sf_exp W E b - 1)) by (apply pow2_le; lia). lia.
    - exfalso. assert (2 ^ (W - E - 1) <= 2 ^ (W - E - 1 + sf_exp W E a - 1)) by (apply pow2_le; lia). lia.
    - assert (He : sf_exp W E a = sf_exp W E b).
      { assert (2 ^ (W - E - 1 + sf_exp W E a - 1) < 2 ^ (W - E - 1 + sf_exp W E b)) by lia.
        assert (2 ^ (W - E - 1 + sf_exp W E b - 1) < 2 ^ (W - E - 1 + sf_exp W E a)) by lia.
        apply (Z.pow_lt_mono_r_iff 2) in H; [|lia|lia]. apply (Z.pow_lt_mono_r_iff 2) in H0; [|lia|lia]. lia. }
      split; [exact He|]. rewrite A2, B2, He in Hm. apply Z.mul_cancel_r in Hm; [lia|]. pose proof (pow2_pos (sf_exp W E b - 1) ltac:(lia)). lia. }
  rewrite Ea, Eb, Hs, X1, X2. reflexivity.
Qed.
Lemma float_rounds_unique q W E n d r r' : 1 <= E -> 1 <= W - E - 1 -> 0 < d -> float_rounds q W E n d r -> float_rounds q W E n d r' -> r = r'.
Proof.
  intros HE Hmb Hd (A1 & A2 & e & z & A3 & A4 & A5 & A6 & A7) (B1 & B2 & e' & z' & B3 & B4 & B5 & B6 & B7).
  assert (Hlt : forall i j, 2 ^ i * d < 2 ^ j * d -> 0 <= i -> i < j).
  { intros i j H Hi. apply Z.mul_lt_mono_pos_r in H; [|exact Hd]. destruct (Z_lt_le_dec i j) as [L|L]; [exact L|].
    destruct (Z_lt_le_dec j 0) as [N|N]; [rewrite (Z.pow_neg_r 2 j N) in H; pose proof (pow2_pos i Hi); lia|]. pose proof (pow2_le j i ltac:(lia)). lia. }
  assert (He : e = e').
  { destruct A5 as [A5|A5], B5 as [B5|B5].
    - lia.
    - assert (e' < e + 1) by (assert (W - E - 1 + e' < W - E - 1 + 1 + e) by (apply Hlt; lia); lia). lia.
    - assert (e < e' + 1) by (assert (W - E - 1 + e < W - E - 1 + 1 + e') by (apply Hlt; lia); lia). lia.
    - assert (W - E - 1 + e' < W - E - 1 + 1 + e) by (apply Hlt; lia). assert (W - E - 1 + e < W - E - 1 + 1 + e') by (apply Hlt; lia). lia. }
  subst e'. assert (z = z') as <-.
  { apply (is_round_unique q (Z.abs n) (d * 2 ^ e)); [apply Z.mul_pos_pos; [exact Hd|apply pow2_pos; exact A3]|assumption|assumption]. }
  assert (Fin : forall x, sf_mag W E r = x -> sf_mag W E r' = x -> r = r').
  { intros x H1 H2. apply (mag_inj W E); try assumption; congruence. }
  assert (Inf : forall s, sf_inf W E s r -> sf_inf W E s r' -> r = r').
  { intros s (_ & H1 & H2 & H3) (_ & K1 & K2 & K3).
    destruct (word_split W E r HE Hmb A1) as (-> & _). destruct (word_split W E r' HE Hmb B1) as (-> & _). congruence. }
  destruct (z * 2 ^ e <? 2 ^ (W - E - 1 + 2 ^ E - 2)); [apply (Fin _ (proj2 A7) (proj2 B7))|].
  destruct q; try (apply (Inf _ A7 B7)). apply (Fin _ (proj2 A7) (proj2 B7)).
Qed.
Lemma two_zero q W E X a b : 2 <= E -> 1 <= W - E - 1 -> 1 <= X -> sat_ok W E X -> sf_finite W E a -> sf_finite W E b ->
  sf_sum false W E [a; b] = 0 -> fadd_tree q W E X false [a; b] = 0.
Proof.
  intros HE Hmb HX Hsat Fa Fb HS.
  destruct (tree_sum q W E X false [a; b] ltac:(lia) Hmb ltac:(lia) Hsat ltac:(discriminate)
              ltac:(constructor; [exact Fa|constructor; [exact Fb|constructor]])) as (P1 & P2 & P3).
  destruct (two_jam W E X false a b ltac:(lia) Hmb ltac:(lia) Hsat Fa Fb) as (J1 & _).
  change (nbits (Z.of_nat (length [a; b]) - 1)) with 1 in *. rewrite P1. apply pack_zero; try assumption; try lia.
  apply (jam_zero _ _ _ (pow2_pos (sf_maxexp W E [a; b]) (proj1 P3)) J1). rewrite HS. ring.
Qed.

Lemma many_accuracy q W E X nosub xs : 2 <= E -> 1 <= W - E - 1 -> 1 <= X -> sat_ok W E X -> xs <> [] -> Forall (sf_finite W E) xs ->
  let r := fadd_tree q W E X nosub xs in
  exists t, Z.abs (t - 2 ^ (X + 1) * sf_sum nosub W E xs) <= Z.of_nat (length xs) * 2 ^ sf_maxexp W E xs /\ (t = 0 -> r = 0) /\
    (2 ^ (X + 1) * 2 ^ (W - E - 1) <= Z.abs t < 2 ^ (X + 1) * 2 ^ (W - E - 1 + 2 ^ E - 2) -> float_rounds q W E t (2 ^ (X + 1)) r) /\
    (nosub = true -> (2 <= length xs)%nat -> t <> 0 -> Z.abs t < 2 ^ (X + 1) * 2 ^ (W - E - 1) -> r = b2z (t <? 0) * 2 ^ (W - 1)).
Proof.
  intros HE Hmb HX Hsat Hne HF r. destruct (many_near q W E X nosub xs HE Hmb HX Hsat Hne HF) as (t & A & B & C & D & _).
  exists t. split; [exact A|]. split; [exact B|]. split; [exact C|]. intros H1 H2. apply D; [exact H1|lia].
Qed.
Lemma many_exact q W E X nosub xs : 2 <= E -> 1 <= W - E - 1 -> 1 <= X -> sat_ok W E X -> xs <> [] -> Forall (sf_finite W E) xs ->
  let S := sf_sum nosub W E xs in
  let emax := sf_maxexp W E xs in
  Forall (fun d => (2 ^ emax | 2 ^ (X + 1) * sf_val_flush nosub W E d)) xs ->
  Z.abs S < 2 ^ (W - E - 1 + emax + nbits (Z.of_nat (length xs) - 1) - 1) \/ (2 ^ emax | 2 ^ X * S) ->
  2 ^ (W - E - 1) <= Z.abs S < 2 ^ (W - E - 1 + 2 ^ E - 2) -> float_rounds q W E S 1 (fadd_tree q W E X nosub xs).
Proof.
  intros HE Hmb HX Hsat Hne HF S emax Hd Hc Hr. destruct (many_near q W E X nosub xs HE Hmb HX Hsat Hne HF) as (t & _ & _ & C & _ & D).
  specialize (D Hd Hc). fold S in D. subst t. assert (P := pow2_pos (X + 1) ltac:(lia)).
  apply float_rounds_scale with (2 ^ (X + 1)); [lia|exact P|]. rewrite Z.mul_1_l, Z.mul_comm. apply C.
  rewrite Z.abs_mul, (Z.abs_eq (2 ^ (X + 1))) by lia. split; [apply Z.mul_le_mono_nonneg_l; lia|apply Z.mul_lt_mono_pos_l; lia].
Qed.
