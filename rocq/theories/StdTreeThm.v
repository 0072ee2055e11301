(** Main facts about ac_std_float_add_tree.h. *)
From Coq Require Import Lia ZifyBool.
From Verif Require Import AcTypes AcFacts Spec SpecFacts SpecStd ShiftFacts LeadingProofs StdTreeModel StdTreeProofs StdTreePack.

Ltac Zify.zify_post_hook ::= idtac.

(** *** Rounding of neighbouring values *)
Lemma is_round_scale q n d k z : 0 < d -> 0 < k -> is_round q (n * k) (d * k) z <-> is_round q n d z.
Proof.
  intros Hd Hk. assert (0 < d * k) by (apply Z.mul_pos_pos; assumption). split; intros H1.
  - rewrite (is_round_unique q (n * k) (d * k) z (qround q (n * k) (d * k))); [|assumption|assumption|apply qround_is_round; assumption].
    rewrite qround_scale by assumption. apply qround_is_round; assumption.
  - rewrite (is_round_unique q n d z (qround q n d)); [|assumption|assumption|apply qround_is_round; assumption].
    rewrite <- (qround_scale q n d k) by assumption. apply qround_is_round; assumption.
Qed.
Lemma cell_lt h c B x : 0 < B -> h * B < x < (h + 1) * B -> (x < c * B <-> h < c) /\ (c * B <= x <-> c <= h).
Proof. intros HB [H1 H2]. split; split; nia. Qed.
Lemma cell_lt2 h c B x : 0 < B -> h * B <= x < (h + 1) * B -> (x < c * B <-> h < c) /\ (c * B <= x <-> c <= h).
Proof. intros HB [H1 H2]. split; split; nia. Qed.
Lemma round_cell q x y B c h z : 0 < B -> 0 < c -> 0 <= h -> h * B < x < (h + 1) * B -> h * B < y < (h + 1) * B ->
  is_round q x (2 * c * B) z -> is_round q y (2 * c * B) z.
Proof.
  intros HB Hc Hh Hx Hy.
  assert (X0 : 0 < x) by nia. assert (Y0 : 0 < y) by nia.
  assert (Near : 2 * Z.abs (x - z * (2 * c * B)) <= 2 * c * B -> 2 * Z.abs (y - z * (2 * c * B)) < 2 * c * B).
  { intros N. replace (z * (2 * c * B)) with (2 * c * z * B) in * by ring. set (k := 2 * c * z) in *.
    assert (U1 : x <= (k + c) * B) by lia. assert (U2 : (k - c) * B <= x) by lia.
    assert (L1 : h < k + c) by nia. assert (L2 : k - c <= h) by nia.
    assert (y < (k + c) * B) by nia. assert ((k - c) * B < y) by nia. lia. }
  assert (Flo : z * (2 * c * B) <= x < (z + 1) * (2 * c * B) -> z * (2 * c * B) <= y < (z + 1) * (2 * c * B)).
  { replace (z * (2 * c * B)) with (2 * c * z * B) by ring. replace ((z + 1) * (2 * c * B)) with (2 * c * (z + 1) * B) by ring.
    intros [N1 N2]. split.
    - apply (proj2 (cell_lt h _ B y HB Hy)). apply (proj2 (cell_lt h _ B x HB Hx)) in N1. exact N1.
    - apply (proj1 (cell_lt h _ B y HB Hy)). apply (proj1 (cell_lt h _ B x HB Hx)) in N2. exact N2. }
  destruct q; cbn [is_round]; intros H; try (destruct H as [H _]; specialize (Near H); split; [lia|intros; lia]).
  - apply Flo; exact H.
  - destruct H as [H _]. split; [intros _; apply Flo, H; lia|lia].
Qed.
Lemma round_cell_tz x y B c h z : 0 < B -> 0 < c -> 0 <= h -> h * B <= x < (h + 1) * B -> h * B <= y < (h + 1) * B ->
  is_round TRN_ZERO x (c * B) z -> is_round TRN_ZERO y (c * B) z.
Proof.
  intros HB Hc Hh Hx Hy [H _]. assert (X0 : 0 <= x) by nia. assert (Y0 : 0 <= y) by nia. specialize (H X0).
  split; [intros _|lia].
  replace (z * (c * B)) with (c * z * B) in * by ring. replace ((z + 1) * (c * B)) with (c * (z + 1) * B) in * by ring.
  destruct H as [N1 N2]. split.
  - apply (proj2 (cell_lt2 h _ B y HB Hy)). apply (proj2 (cell_lt2 h _ B x HB Hx)) in N1. exact N1.
  - apply (proj1 (cell_lt2 h _ B y HB Hy)). apply (proj1 (cell_lt2 h _ B x HB Hx)) in N2. exact N2.
Qed.

Lemma float_rounds_scale q W E n d k r : 0 < d -> 0 < k -> float_rounds q W E (n * k) (d * k) r -> float_rounds q W E n d r.
Proof.
  intros Hd Hk (H1 & H2 & e & z & H3 & H4 & H5 & H6 & H7).
  assert (Hs : (n * k <? 0) = (n <? 0)) by (destruct (Z.ltb_spec n 0); [apply Z.ltb_lt|apply Z.ltb_ge]; nia).
  rewrite Hs in *. rewrite Z.abs_mul, (Z.abs_eq k) in * by lia.
  split; [exact H1|]. split; [exact H2|]. exists e, z. split; [exact H3|].
  rewrite Z.mul_assoc in H4. rewrite Z.mul_assoc in H5.
  split; [apply (Z.mul_lt_mono_pos_r k) in H4; assumption|].
  split; [destruct H5 as [H5|H5]; [left; exact H5|right; apply (Z.mul_le_mono_pos_r _ _ k) in H5; assumption]|].
  split; [|exact H7]. replace (d * k * 2 ^ e) with (d * 2 ^ e * k) in H6 by ring.
  apply is_round_scale in H6; [exact H6| |exact Hk]. apply Z.mul_pos_pos; [exact Hd|apply pow2_pos; exact H3].
Qed.
Lemma pow_cell a b : 0 <= a <= b -> exists c, 0 < c /\ 2 ^ b = c * 2 ^ a.
Proof. intros. exists (2 ^ (b - a)). split; [apply pow2_pos; lia|]. rewrite (pow2_split b a) by lia. ring. Qed.

(** Two values in one cell of width 2^(j+1), with the unit in the last place at least 4 (2 when truncating) times 2^j. *)
Lemma float_rounds_cell q W E n n2 p j h r : 0 <= j -> 0 <= p -> 0 <= W - E - 1 -> 0 <= h -> (n <? 0) = (n2 <? 0) ->
  (if is_tz q then h * 2 ^ (j + 1) <= Z.abs n < (h + 1) * 2 ^ (j + 1) /\ h * 2 ^ (j + 1) <= Z.abs n2 < (h + 1) * 2 ^ (j + 1)
   else h * 2 ^ (j + 1) < Z.abs n < (h + 1) * 2 ^ (j + 1) /\ h * 2 ^ (j + 1) < Z.abs n2 < (h + 1) * 2 ^ (j + 1)) ->
  (forall e, 0 <= e -> Z.abs n < 2 ^ (W - E - 1 + 1 + e) * 2 ^ p -> j + (if is_tz q then 1 else 2) <= p + e) ->
  float_rounds q W E n (2 ^ p) r -> float_rounds q W E n2 (2 ^ p) r.
Proof.
  intros Hj Hp Hmb Hh Hs Hc HQ (H1 & H2 & e & z & H3 & H4 & H5 & H6 & H7).
  specialize (HQ e H3 H4). rewrite Hs in *. split; [exact H1|]. split; [exact H2|]. exists e, z. split; [exact H3|].
  assert (PB := pow2_pos (j + 1) ltac:(lia)). set (mb := W - E - 1) in *.
  assert (Q1 : j + 1 <= p + e) by (destruct (is_tz q); lia).
  destruct (pow_cell (j + 1) (p + e) ltac:(lia)) as (c & C1 & C2).
  assert (Hpe : 2 ^ p * 2 ^ e = 2 ^ (p + e)) by (rewrite <- pow2_add by lia; reflexivity).
  assert (U : 2 ^ (mb + 1 + e) * 2 ^ p = (2 ^ (mb + 1) * c) * 2 ^ (j + 1)).
  { rewrite <- Z.mul_assoc, <- C2, (pow2_add (mb + 1) e), (pow2_add p e) by lia. ring. }
  assert (L : 2 ^ (mb + e) * 2 ^ p = (2 ^ mb * c) * 2 ^ (j + 1)).
  { rewrite <- Z.mul_assoc, <- C2, (pow2_add mb e), (pow2_add p e) by lia. ring. }
  rewrite U in *. rewrite L in *. rewrite Hpe in *.
  assert (Hcells : forall x k, (if is_tz q then h * 2 ^ (j + 1) <= x < (h + 1) * 2 ^ (j + 1) else h * 2 ^ (j + 1) < x < (h + 1) * 2 ^ (j + 1)) ->
    (x < k * 2 ^ (j + 1) <-> h < k) /\ (k * 2 ^ (j + 1) <= x <-> k <= h)).
  { intros x k HH. destruct (is_tz q); [apply cell_lt2|apply cell_lt]; assumption. }
  assert (HA : if is_tz q then h * 2 ^ (j + 1) <= Z.abs n < (h + 1) * 2 ^ (j + 1) else h * 2 ^ (j + 1) < Z.abs n < (h + 1) * 2 ^ (j + 1)) by (destruct (is_tz q); apply Hc).
  assert (HB : if is_tz q then h * 2 ^ (j + 1) <= Z.abs n2 < (h + 1) * 2 ^ (j + 1) else h * 2 ^ (j + 1) < Z.abs n2 < (h + 1) * 2 ^ (j + 1)) by (destruct (is_tz q); apply Hc).
  pose proof (Hcells _ (2 ^ (mb + 1) * c) HA) as [A1 _]. pose proof (Hcells _ (2 ^ (mb + 1) * c) HB) as [B1 _].
  pose proof (Hcells _ (2 ^ mb * c) HA) as [_ A2]. pose proof (Hcells _ (2 ^ mb * c) HB) as [_ B2].
  split; [apply B1, A1, H4|].
  split; [destruct H5 as [H5|H5]; [left; exact H5|right; apply B2, A2, H5]|].
  split; [|exact H7].
  destruct (is_tz q) eqn:T.
  - destruct q; try discriminate. rewrite C2 in *. exact (round_cell_tz _ _ _ _ _ _ PB C1 Hh (proj1 Hc) (proj2 Hc) H6).
  - destruct (pow_cell (j + 2) (p + e) ltac:(lia)) as (c2 & D1 & D2). replace (j + 2) with (j + 1 + 1) in D2 by lia.
    rewrite (pow2_succ (j + 1)) in D2 by lia. replace (c2 * (2 * 2 ^ (j + 1))) with (2 * c2 * 2 ^ (j + 1)) in D2 by ring.
    rewrite D2 in *. exact (round_cell _ _ _ _ _ _ _ PB D1 Hh (proj1 Hc) (proj2 Hc) H6).
Qed.

(** *** Two operands *)
Lemma jam_add b1 n1 b2 n2 D : b1 * D = n1 -> Z.Even b1 -> jam b2 n2 D -> jam (b1 + b2) (n1 + n2) D.
Proof.
  intros <- [k Hk] [H|[[j Hj] H]]; [left; lia|right]. split; [exists (k + j); lia|]. lia.
Qed.
Lemma jam_abs_le b n D u : 0 < D -> jam b n D -> Z.abs n <= u * D -> Z.abs b <= u + 1.
Proof. intros HD [H|[_ H]] Hn; nia. Qed.

Section TWO.
Variables (W E X lg : Z) (nosub : bool) (emax : Z).
Hypotheses (HE : 1 <= E) (Hmb : 1 <= W - E - 1) (HX : 1 <= X) (Hlg : 0 <= lg) (Hsat : sat_ok W E X) (Hem : 0 <= emax < 2 ^ E).
Let al d := sf_align W E X lg nosub emax (sf_extract W E nosub d).
Lemma two_core m o : sf_word W m -> sf_word W o -> sf_exp W E m = emax -> sf_exp W E o <= emax ->
  let S := sf_val_flush nosub W E m + sf_val_flush nosub W E o in
  jam (al m + al o) (2 ^ (X + 1) * S) (2 ^ emax) /\
  ((al m + al o) * 2 ^ emax <> 2 ^ (X + 1) * S -> X + 1 <= emax /\ 2 ^ (W - E - 1 + X - 1) <= Z.abs (al m + al o)).
Proof.
  intros Wm Wo Em Eo S. assert (Em' : sf_exp W E m <= emax) by lia.
  destruct (al_ok W E X lg nosub emax HE Hmb HX Hlg Hsat Hem m (conj Wm Em')) as (_ & _ & Am).
  destruct (Am Em) as (A1 & A2 & A3). fold (al m) in A1, A2, A3.
  destruct (al_ok W E X lg nosub emax HE Hmb HX Hlg Hsat Hem o (conj Wo Eo)) as (_ & B1 & _). fold (al o) in B1.
  assert (HD := pow2_pos emax ltac:(lia)).
  unfold S. rewrite Z.mul_add_distr_l. split; [apply jam_add; assumption|].
  intros Hne. destruct (mant_ok W E nosub o HE Hmb Wo) as (M1 & M2 & M3 & _).
  destruct (word_split W E o HE Hmb Wo) as (_ & Re & _).
  set (mu := sf_mant W E nosub (sf_extract W E nosub o)) in *. set (v := sf_val_flush nosub W E o) in *. set (e := sf_exp W E o) in *.
  assert (Pv : Z.abs (2 ^ (X + 1) * v) = mu * 2 ^ (X + e)).
  { rewrite Z.abs_mul, Z.abs_eq by (apply pow2_nonneg). rewrite pow2_succ by lia.
    replace (2 * 2 ^ X * Z.abs v) with (2 ^ X * (2 * Z.abs v)) by ring. rewrite M2, pow2_add by lia. ring. }
  assert (Hd : X + e < emax).
  { destruct (Z_lt_le_dec (X + e) emax) as [H|H]; [exact H|exfalso]. apply Hne.
    assert (Dv : (2 ^ emax | 2 ^ (X + 1) * v)).
    { apply Z.divide_abs_r. rewrite Pv. exists (mu * 2 ^ (X + e - emax)). rewrite (pow2_split (X + e) emax) by lia. ring. }
    pose proof (jam_exact _ _ _ HD Dv B1) as Be. rewrite Z.mul_add_distr_r, A1, Be. reflexivity. }
  split; [lia|].
  assert (Bb : Z.abs (al o) <= 2 ^ (W - E - 1)).
  { destruct B1 as [B1|[_ B1]].
    - exfalso. apply Hne. rewrite Z.mul_add_distr_r, A1, B1. reflexivity.
    - assert (U : mu * 2 ^ (X + e) < 2 ^ (W - E - 1) * 2 ^ emax).
      { apply Z.lt_le_trans with (2 ^ (W - E) * 2 ^ (X + e)); [apply Z.mul_lt_mono_pos_r; [apply pow2_pos; lia|lia]|].
        rewrite <- !pow2_add by lia. apply pow2_le. lia. }
      rewrite <- Pv in U. set (K := 2 ^ (W - E - 1)) in *. set (P := 2 ^ (X + 1) * v) in *. clear - B1 U HD. clearbody K P.
      assert ((Z.abs (al o) - 1) * 2 ^ emax < K * 2 ^ emax) by (destruct (Z.abs_spec (al o)) as [[? ->]|[? ->]]; lia).
      apply Z.mul_lt_mono_pos_r in H; lia. }
  specialize (A3 ltac:(lia)).
  assert (2 ^ (W - E - 1 + X) = 2 * 2 ^ (W - E - 1 + X - 1)) by (apply pow2_half; lia).
  assert (2 ^ (W - E - 1) <= 2 ^ (W - E - 1 + X - 1)) by (apply pow2_le; lia).
  lia.
Qed.
End TWO.

Lemma two_jam W E X nosub a b : 1 <= E -> 1 <= W - E - 1 -> 1 <= X -> sat_ok W E X -> sf_finite W E a -> sf_finite W E b ->
  let emax := sf_maxexp W E [a; b] in
  let S := sf_sum nosub W E [a; b] in
  let T := fold_right Z.add 0 (map (fun d => sf_align W E X 1 nosub emax (sf_extract W E nosub d)) [a; b]) in
  jam T (2 ^ (X + 1) * S) (2 ^ emax) /\
  (T * 2 ^ emax <> 2 ^ (X + 1) * S -> X + 1 <= emax /\ 2 ^ (W - E - 1 + X - 1) <= Z.abs T).
Proof.
  intros HE Hmb HX Hsat [Wa Fa] [Wb Fb] emax S T.
  destruct (word_split W E a HE Hmb Wa) as (_ & Ra & _). destruct (word_split W E b HE Hmb Wb) as (_ & Rb & _).
  assert (He : emax = Z.max (sf_exp W E a) (sf_exp W E b)) by (unfold emax, sf_maxexp; cbn [fold_right]; lia).
  unfold S, T, sf_sum. cbn [map fold_right]. rewrite !Z.add_0_r. clearbody emax.
  destruct (Z_le_gt_dec (sf_exp W E b) (sf_exp W E a)) as [L|L].
  - apply (two_core W E X 1 nosub emax HE Hmb HX ltac:(lia) Hsat ltac:(lia) a b Wa Wb); lia.
  - rewrite (Z.add_comm (sf_align _ _ _ _ _ _ (sf_extract W E nosub a))), (Z.add_comm (sf_val_flush nosub W E a)).
    apply (two_core W E X 1 nosub emax HE Hmb HX ltac:(lia) Hsat ltac:(lia) b a Wb Wa); lia.
Qed.

Lemma jam_zero T P D : 0 < D -> jam T P D -> (T = 0 <-> P = 0) /\ (T < 0 <-> P < 0).
Proof.
  intros HD [H|[[k Hk] H]].
  - subst P. destruct (Z_lt_le_dec T 0) as [L|L]; [pose proof (Z.mul_neg_pos T D L HD); lia|].
    destruct (Z.eq_dec T 0) as [->|N]; [lia|]. pose proof (Z.mul_pos_pos T D ltac:(lia) HD). lia.
  - destruct (Z_lt_le_dec k 0) as [L|L].
    + assert ((T + 1) * D <= 0) by (apply Z.mul_nonpos_nonneg; lia). lia.
    + assert (0 <= (T - 1) * D) by (apply Z.mul_nonneg_nonneg; lia). lia.
Qed.

(** The two operands' sum, in terms of the accumulated value. *)
Lemma two_rounds q W E X a b : 2 <= E -> 1 <= W - E - 1 -> sat_ok W E X -> sf_finite W E a -> sf_finite W E b ->
  (if is_tz q then 2 <= X else 3 <= X /\ Z.abs (sf_sum false W E [a; b]) < 2 ^ (W - E - 1 + sf_maxexp W E [a; b])) ->
  sf_sum false W E [a; b] <> 0 ->
  float_rounds q W E (sf_sum false W E [a; b]) 1 (fadd_tree q W E X false [a; b]).
Proof.
  intros HE Hmb Hsat Fa Fb Hq HS.
  assert (HX : 2 <= X) by (destruct (is_tz q); lia).
  destruct (tree_sum q W E X false [a; b] ltac:(lia) Hmb ltac:(lia) Hsat ltac:(discriminate)
              ltac:(constructor; [exact Fa|constructor; [exact Fb|constructor]])) as (P1 & P2 & P3).
  destruct (two_jam W E X false a b ltac:(lia) Hmb ltac:(lia) Hsat Fa Fb) as (J1 & J2).
  change (nbits (Z.of_nat (length [a; b]) - 1)) with 1 in *. change (Z.of_nat (length [a; b])) with 2 in *.
  set (emax := sf_maxexp W E [a; b]) in *. set (S := sf_sum false W E [a; b]) in *.
  set (T := fold_right Z.add 0 (map (fun d => sf_align W E X 1 false emax (sf_extract W E false d)) [a; b])) in *.
  rewrite P1. clear P1. clearbody T S emax. clear Fa Fb a b.
  assert (HD := pow2_pos emax ltac:(lia)). assert (HP := pow2_pos (X + 1) ltac:(lia)).
  destruct (jam_zero _ _ _ HD J1) as [Z1 Z2].
  assert (HT : T <> 0) by (intros C; apply Z1 in C; apply Z.mul_eq_0 in C; lia).
  assert (Sg : (T <? 0) = (S <? 0)).
  { destruct (Z.ltb_spec S 0) as [L|L]; [apply Z.ltb_lt; apply Z2; apply Z.mul_pos_neg; assumption|].
    apply Z.ltb_ge. destruct (Z_lt_le_dec T 0) as [C|C]; [|exact C]. apply Z2 in C.
    pose proof (Z.mul_nonneg_nonneg (2 ^ (X + 1)) S ltac:(lia) L). lia. }
  assert (Hw : 2 * ((2 ^ (W - E) - 1) * 2 ^ X) < 2 ^ (W - E - 1 + 1 + 1 + X)).
  { replace (W - E - 1 + 1 + 1 + X) with ((W - E) + X + 1) by ring. rewrite pow2_succ, pow2_add by lia.
    pose proof (pow2_pos X ltac:(lia)). lia. }
  assert (HTw : Z.abs T < 2 ^ (W - E - 1 + 1 + 1 + X)) by lia.
  destruct (n_range q W E X 1 emax T HE Hmb ltac:(lia) ltac:(lia) HT HTw) as (N1 & N2).
  destruct (T1_range q W E X 1 emax T HE Hmb ltac:(lia) ltac:(lia) HT HTw) as (T1a & T1b).
  pose proof (pack_rounds q W E X 1 false emax T HE Hmb ltac:(lia) ltac:(lia) P3 HT HTw) as PR.
  pose proof (n'_sgn q W E X 1 emax T HE Hmb ltac:(lia) ltac:(lia) P3 HT HTw) as (NS1 & NS2).
  destruct (rr_range q W E X 1 emax T HE Hmb ltac:(lia) ltac:(lia) HT HTw) as (RR1 & RR2).
  set (n := nbits (Z.abs T)) in *.
  destruct (Z_lt_le_dec (emax + n - (W - E - 1 + 1) - X - 1) 0) as [Sub|Nor].
  - (* subnormal: exact *)
    assert (Ex : T * 2 ^ emax = 2 ^ (X + 1) * S).
    { destruct (Z.eq_dec (T * 2 ^ emax) (2 ^ (X + 1) * S)) as [C|C]; [exact C|exfalso]. destruct (J2 C) as (C1 & C2).
      assert (W - E - 1 + X - 1 < n) by (apply (Z.pow_lt_mono_r_iff 2); lia). lia. }
    apply (pack_sub q W E X 1 false emax T HE Hmb ltac:(lia) ltac:(lia) P3 HT HTw S); try reflexivity; try exact Sub.
    rewrite Ex. ring.
  - specialize (PR Nor).
    assert (HF : emax + n - (W - E - 1 + 1) - X - 1 + 1 + b2z
       (qround q ((if n =? W - E - 1 + 1 + 1 + X then 2 * (Z.abs T / 2) else Z.abs T) * 2 ^ (W - E - 1 + 1 + 1 + X - n))
            (2 ^ (X + 1)) =? 2 ^ (W - E - 1 + 1)) <= 2 ^ E - 1).
    { destruct (Z.eq_dec n (W - E - 1 + 1 + 1 + X)) as [Hn|Hn].
      - replace (W - E - 1 + 1 + 1 + X - n) with 0 by lia. change (2 ^ 0) with 1. rewrite Z.mul_1_r.
        set (T1 := if n =? W - E - 1 + 1 + 1 + X then 2 * (Z.abs T / 2) else Z.abs T) in *.
        assert (Hr : qround q T1 (2 ^ (X + 1)) <= 2 ^ (W - E) - 1).
        { apply qround_le; [exact HP|]. rewrite pow2_succ by lia. lia. }
        replace (qround q T1 (2 ^ (X + 1)) =? 2 ^ (W - E - 1 + 1)) with false
          by (symmetry; apply Z.eqb_neq; replace (W - E - 1 + 1) with (W - E) by ring; lia).
        cbn [b2z]. lia.
      - assert (b2z (qround q ((if n =? W - E - 1 + 1 + 1 + X then 2 * (Z.abs T / 2) else Z.abs T) * 2 ^ (W - E - 1 + 1 + 1 + X - n))
            (2 ^ (X + 1)) =? 2 ^ (W - E - 1 + 1)) <= 1) by (destruct (_ =? 2 ^ (W - E - 1 + 1)); cbn; lia). lia. }
    specialize (PR HF). clear HF RR1 RR2.
    apply float_rounds_scale with (2 ^ (X + 1)); [lia|exact HP|]. rewrite Z.mul_1_l.
    set (T1 := if n =? W - E - 1 + 1 + 1 + X then 2 * (Z.abs T / 2) else Z.abs T) in *.
    assert (AS : Z.abs (S * 2 ^ (X + 1)) = 2 ^ (X + 1) * Z.abs S) by (rewrite Z.abs_mul, (Z.abs_eq (2 ^ (X + 1))) by lia; ring).
    assert (SgP : (S * 2 ^ (X + 1) <? 0) = (S <? 0)).
    { destruct (Z.ltb_spec S 0); [apply Z.ltb_lt; apply Z.mul_neg_pos; assumption|apply Z.ltb_ge; apply Z.mul_nonneg_nonneg; lia]. }
    assert (JA : jam (Z.abs T) (2 ^ (X + 1) * Z.abs S) (2 ^ emax)).
    { destruct (Z.ltb_spec S 0) as [L|L].
      - apply Z.ltb_lt in Sg. rewrite (Z.abs_neq T), (Z.abs_neq S), Z.mul_opp_r by lia. apply jam_opp; exact J1.
      - apply Z.ltb_ge in Sg. rewrite (Z.abs_eq T), (Z.abs_eq S) by lia. exact J1. }
    assert (ExA : T * 2 ^ emax <> 2 ^ (X + 1) * S -> Z.abs T * 2 ^ emax <> 2 ^ (X + 1) * Z.abs S).
    { intros C D. apply C. destruct (Z.ltb_spec S 0) as [L|L].
      - apply Z.ltb_lt in Sg. rewrite (Z.abs_neq T), (Z.abs_neq S) in D by lia. lia.
      - apply Z.ltb_ge in Sg. rewrite (Z.abs_eq T), (Z.abs_eq S) in D by lia. exact D. }
    assert (P2j : 2 ^ (emax + 1) = 2 * 2 ^ emax) by (apply pow2_succ; lia).
    (* the exponent of the unit in the last place *)
    assert (Hk : forall e, 0 <= e -> T1 * 2 ^ emax < 2 ^ (W - E - 1 + 1 + e) * 2 ^ (X + 1) -> emax + n <= W - E + e + X + 1).
    { intros e He HH. assert (G : 2 ^ (n - 1 + emax) < 2 ^ (W - E - 1 + 1 + e + (X + 1))).
      { rewrite (pow2_add (n - 1) emax), (pow2_add (W - E - 1 + 1 + e) (X + 1)) by lia. eapply Z.le_lt_trans; [|exact HH].
        apply Z.mul_le_mono_nonneg_r; lia. }
      apply (Z.pow_lt_mono_r_iff 2) in G; lia. }
    destruct (Z.eq_dec (T * 2 ^ emax) (2 ^ (X + 1) * S)) as [Ex|Nex].
    + (* exact *)
      destruct (Z.eq_dec n (W - E - 1 + 1 + 1 + X)) as [Hn|Hn].
      * destruct (is_tz q) eqn:TZ.
        -- apply (float_rounds_cell q W E _ _ (X + 1) emax (Z.abs T / 2)) with (8 := PR); rewrite ?TZ; try lia.
           ++ apply Z.div_pos; lia.
           ++ rewrite NS2, AS, P2j. assert (Z.abs T * 2 ^ emax = 2 ^ (X + 1) * Z.abs S) as <-.
              { rewrite <- (Z.abs_eq (2 ^ emax)) at 1 by lia. rewrite <- Z.abs_mul, Ex, Z.abs_mul, (Z.abs_eq (2 ^ (X + 1))) by lia. reflexivity. }
              assert (T1 = 2 * (Z.abs T / 2)) as -> by (unfold T1; rewrite Hn, Z.eqb_refl; reflexivity).
              pose proof (Z.div_mod (Z.abs T) 2 ltac:(lia)). pose proof (Z.mod_pos_bound (Z.abs T) 2 ltac:(lia)).
              set (h := Z.abs T / 2) in *. clearbody h. clear - H H0 HD. set (D := 2 ^ emax) in *. clearbody D. split; split; nia.
           ++ intros e He HH. rewrite NS2 in HH. specialize (Hk e He HH). lia.
        -- exfalso. destruct Hq as [_ Hq].
           assert (Z.abs T * 2 ^ emax = 2 ^ (X + 1) * Z.abs S) as EA.
           { rewrite <- (Z.abs_eq (2 ^ emax)) at 1 by lia. rewrite <- Z.abs_mul, Ex, Z.abs_mul, (Z.abs_eq (2 ^ (X + 1))) by lia. reflexivity. }
           assert (Z.abs T * 2 ^ emax < 2 ^ (n - 1) * 2 ^ emax).
           { rewrite EA. replace (2 ^ (n - 1) * 2 ^ emax) with (2 ^ (X + 1) * 2 ^ (W - E - 1 + emax))
               by (rewrite <- !pow2_add by lia; f_equal; lia).
             apply Z.mul_lt_mono_pos_l; assumption. }
           apply Z.mul_lt_mono_pos_r in H; lia.
      * replace (S * 2 ^ (X + 1)) with ((if T <? 0 then - T1 else T1) * 2 ^ emax); [exact PR|].
        assert (T1 = Z.abs T) as -> by (unfold T1; destruct (Z.eqb_spec n (W - E - 1 + 1 + 1 + X)); [contradiction|reflexivity]).
        rewrite Z.mul_comm with (n := S), <- Ex. f_equal. destruct (Z.ltb_spec T 0); lia.
    + (* inexact *)
      destruct (J2 Nex) as (X1 & Lb). specialize (ExA Nex).
      destruct JA as [JA|[Od JA]]; [contradiction|].
      assert (Ln : W - E - 1 + X - 1 < n) by (apply (Z.pow_lt_mono_r_iff 2); lia).
      destruct Od as [h Hh].
      assert (H2 : Z.abs T / 2 = h) by (rewrite Hh; symmetry; apply Z.div_unique with 1; lia).
      assert (T1c : T1 = 2 * h \/ T1 = 2 * h + 1) by (unfold T1; destruct (n =? _); rewrite ?H2; lia).
      assert (T1d : is_tz q = false -> T1 = 2 * h + 1).
      { intros TZ. unfold T1. destruct (Z.eqb_spec n (W - E - 1 + 1 + 1 + X)) as [Hn|Hn]; [exfalso|lia].
        rewrite TZ in Hq. destruct Hq as [_ Hq].
        assert (G : (Z.abs T - 1) * 2 ^ emax < 2 ^ (n - 1) * 2 ^ emax).
        { apply Z.lt_trans with (1 := proj1 JA). replace (2 ^ (n - 1) * 2 ^ emax) with (2 ^ (X + 1) * 2 ^ (W - E - 1 + emax))
            by (rewrite <- !pow2_add by lia; f_equal; lia). apply Z.mul_lt_mono_pos_l; assumption. }
        apply Z.mul_lt_mono_pos_r in G; [|exact HD].
        assert (2 ^ (n - 1) = 2 * 2 ^ (n - 2)) by (replace (n - 2) with (n - 1 - 1) by ring; apply pow2_half; lia). lia. }
      apply (float_rounds_cell q W E _ _ (X + 1) emax h) with (8 := PR); try lia.
      * rewrite NS2, AS, P2j. rewrite Hh in JA. set (Y := 2 ^ (X + 1) * Z.abs S) in *. set (D := 2 ^ emax) in *.
        clear - JA T1c T1d HD. clearbody Y D T1. destruct (is_tz q).
        -- clear T1d. destruct T1c as [->| ->]; split; lia.
        -- rewrite (T1d eq_refl). split; lia.
      * intros e He HH. rewrite NS2 in HH. specialize (Hk e He HH). destruct (is_tz q); lia.
Qed.
