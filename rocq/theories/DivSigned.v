(** Proofs for the signed ac_fixed overload of ac_div. *)
From Coq Require Import Lia ZifyBool.
From Verif Require Import AcTypes AcFacts Spec SpecFacts ShiftModel ShiftFacts ShiftProofs DivModel DivFacts DivProofs.
Ltac Zify.zify_post_hook ::= idtac.

(** Modes that round a value and its opposite symmetrically. *)
Definition sym_mode (q : qmode) : bool :=
  match q with RND_ZERO | RND_INF | RND_CONV | RND_CONV_ODD | TRN_ZERO => true | _ => false end.

Lemma div_opp n d : 0 < d -> (- n) / d = - (n / d) - b2z (nz (n mod d)) /\
  (- n) mod d = b2z (nz (n mod d)) * d - n mod d.
Proof.
  intros Hd. pose proof (Z.div_mod n d ltac:(lia)) as E. pose proof (Z.mod_pos_bound n d Hd) as B.
  unfold nz. destruct (Z.eqb_spec (n mod d) 0) as [H|H]; cbn [negb b2z].
  - rewrite H in *. split; [apply (div_eq _ _ _ 0); lia|apply (mod_eq _ _ (- (n / d))); lia].
  - split; [apply (div_eq _ _ _ (d - n mod d)); lia|].
    rewrite (mod_eq (- n) d (- (n / d) - 1) (d - n mod d)); lia.
Qed.

Lemma qround_opp_sym q n d : 0 < d -> sym_mode q = true -> qround q (- n) d = - qround q n d.
Proof.
  intros Hd Hq. apply (is_round_unique q (- n) d); [assumption|apply qround_is_round; assumption|].
  pose proof (qround_is_round q n d Hd) as R. set (z := qround q n d) in *. clearbody z.
  assert (E : - n - - z * d = - (n - z * d)) by ring.
  assert (E2 : - z * d = - (z * d)) by ring.
  unfold is_round in *. destruct q; try discriminate Hq; rewrite ?E, ?E2, ?Z.abs_opp.
  - destruct R as [R1 R2]. replace ((z - 1) * d) with (z * d - d) in R2 by ring.
    replace ((z + 1) * d) with (z * d + d) in R1 by ring.
    replace ((- z + 1) * d) with (- (z * d) + d) by ring.
    replace ((- z - 1) * d) with (- (z * d) - d) by ring.
    split; intros.
    + destruct (Z.eq_dec n 0) as [->|]; [specialize (R1 ltac:(lia)); assert (z = 0) by nia; subst z; lia|lia].
    + lia.
  - exact R.
  - exact R.
  - destruct R as [R1 R2]. split; [exact R1|]. intros T. destruct (R2 T) as [k ->]. exists (- k). ring.
  - destruct R as [R1 R2]. split; [exact R1|]. intros T. destruct (R2 T) as [k ->]. exists (- k - 1). ring.
Qed.

Lemma div_bound A B A' B' P R : 0 <= A' -> 0 < B -> 0 < B' -> 0 < P -> 0 < R ->
  A <= P * B -> A * (B' * R) = A' * B -> A' / B' < 2 * P * R.
Proof.
  intros HA HB HB' HP HR H E. apply Z.div_lt_upper_bound; [lia|].
  assert (Hbr : 0 < B' * R) by (apply Z.mul_pos_pos; lia).
  assert (H1 : A' * B <= P * B * (B' * R)) by (rewrite <- E; apply Z.mul_le_mono_nonneg_r; lia).
  replace (P * B * (B' * R)) with (P * (B' * R) * B) in H1 by ring.
  apply Z.mul_le_mono_pos_r in H1; [|lia].
  assert (0 < P * (B' * R)) by (apply Z.mul_pos_pos; lia).
  replace (B' * (2 * P * R)) with (2 * (P * (B' * R))) by ring. lia.
Qed.

Lemma nz_mod_eqq A B A' b : 0 < B -> 0 < b -> A * b = A' * B -> nz (A' mod b) = nz (A mod B).
Proof.
  intros HB Hb E. unfold nz. f_equal.
  destruct (Z.eqb_spec (A' mod b) 0) as [E1|E1], (Z.eqb_spec (A mod B) 0) as [E2|E2]; try reflexivity; exfalso.
  - apply E2. apply Z.mod_divide in E1; [|lia]. destruct E1 as [z Ez].
    apply Z.mod_divide; [lia|]. exists z. apply (Z.mul_cancel_r _ _ b); [lia|]. rewrite E, Ez. ring.
  - apply E1. apply Z.mod_divide in E2; [|lia]. destruct E2 as [z Ez].
    apply Z.mod_divide; [lia|]. exists z. apply (Z.mul_cancel_r _ _ B); [lia|]. rewrite <- E, Ez. ring.
Qed.

Lemma wrapu_shift M u : 0 < 2 ^ M -> exists c, wrapu M u = u + c * 2 ^ M.
Proof. intros H. exists (- (u / 2 ^ M)). unfold wrapu. rewrite Z.mod_eq by lia. ring. Qed.

(** A half-open result rounded down on ties needs no sticky bit when it is negative. *)
Lemma min_inf_no_sticky u h : 0 <= h <= 1 -> qround RND_MIN_INF (- 2 * u - h) 4 = qround RND_MIN_INF (- 2 * u) 4.
Proof.
  intros Hh. assert (h = 0 \/ h = 1) as [->| ->] by lia; [f_equal; lia|].
  unfold qround. pose proof (Z.div_mod u 2 ltac:(lia)) as E. pose proof (Z.mod_pos_bound u 2 ltac:(lia)) as B.
  assert (u mod 2 = 0 \/ u mod 2 = 1) as [H|H] by lia; rewrite H in E.
  - rewrite (div_eq (-2 * u - 1) 4 (- (u / 2) - 1) 3), (mod_eq (-2 * u - 1) 4 (- (u / 2) - 1) 3),
      (div_eq (-2 * u) 4 (- (u / 2)) 0), (mod_eq (-2 * u) 4 (- (u / 2)) 0) by lia. cbn. lia.
  - rewrite (div_eq (-2 * u - 1) 4 (- (u / 2) - 1) 1), (mod_eq (-2 * u - 1) 4 (- (u / 2) - 1) 1),
      (div_eq (-2 * u) 4 (- (u / 2) - 1) 2), (mod_eq (-2 * u) 4 (- (u / 2) - 1) 2) by lia. cbn. lia.
Qed.

Lemma conv_int_f f x F : F = fF f -> conv f x F = overflow (fO f) (fS f) (fW f) x.
Proof.
  intros ->. rewrite conv_unfold, Z.sub_diag. change (pw 0) with 1. rewrite Z.mul_1_r, qround_int; reflexivity.
Qed.

Lemma uN_abs NW n : 1 <= NW -> - 2 ^ (NW - 1) <= n < 2 ^ (NW - 1) ->
  (if n <? 0 then wrapu NW (- n) else wrapu NW n) = Z.abs n.
Proof. intros; apply abs_wrapu; assumption. Qed.
Lemma uN_range NW n : 1 <= NW -> - 2 ^ (NW - 1) <= n < 2 ^ (NW - 1) -> 0 <= Z.abs n < 2 ^ NW.
Proof. intros. pose proof (pow2_half NW ltac:(lia)). pose proof (pow2_pos (NW - 1) ltac:(lia)). lia. Qed.

Section SFx.
  Variables (NW NI DW DI : Z) (f : fmt) (n d : Z).
  Hypothesis HN : 1 <= NW.
  Hypothesis HD : 1 <= DW.
  Hypothesis HW : 1 <= fW f.
  Hypothesis HfS : fS f = true.
  Hypothesis Bn : - 2 ^ (NW - 1) <= n < 2 ^ (NW - 1).
  Hypothesis Bd : - 2 ^ (DW - 1) <= d < 2 ^ (DW - 1).
  Hypothesis D0 : d <> 0.
  Let e := (DW - DI) - (NW - NI).

  Let A := Z.abs n * pw e * pw (fF f).
  Let B := Z.abs d * pw (- e) * pw (- fF f).
  (** sign of the quotient *)
  Let neg := negb (eqb (n <? 0) (d <? 0)).

  Lemma A_nonneg : 0 <= A.
  Proof. unfold A. pose proof (pw_pos e); pose proof (pw_pos (fF f)). apply Z.mul_nonneg_nonneg; [nia|lia]. Qed.
  Lemma B_pos : 0 < B.
  Proof. unfold B. pose proof (pw_pos (- e)); pose proof (pw_pos (- fF f)). apply Z.mul_pos_pos; [nia|lia]. Qed.

  Lemma exact_sign : conv_rat f (Z.sgn d * n * pw e) (Z.abs d * pw (- e)) =
    overflow (fO f) (fS f) (fW f) (qround (fQ f) (if neg then - A else A) B).
  Proof.
    unfold conv_rat, neg, A, B. f_equal.
    destruct (Z.ltb_spec n 0), (Z.ltb_spec d 0); cbn [eqb negb].
    - rewrite Z.sgn_neg, (Z.abs_neq n), (Z.abs_neq d) by lia. f_equal; ring.
    - rewrite Z.sgn_pos, (Z.abs_neq n), (Z.abs_eq d) by lia. f_equal; ring.
    - rewrite Z.sgn_neg, (Z.abs_eq n), (Z.abs_neq d) by lia. f_equal; ring.
    - rewrite Z.sgn_pos, (Z.abs_eq n), (Z.abs_eq d) by lia. f_equal; ring.
  Qed.

  Variable ZI : Z.
  Hypothesis ZI_wrap : fO f = WRAP -> ZI = fI f.
  Hypothesis ZI_other : fO f <> WRAP -> ZI = NI + (DW - DI).
  Let ZW := ZI + (fW f - fI f).
  Hypothesis HZW : 1 <= ZW.

  (** non-wrapping outputs: the magnitude fits *)
  Lemma magnitude : fO f <> WRAP -> A <= 2 ^ (ZW - 1) * B.
  Proof.
    intros Ho. pose proof (ZI_other Ho) as EZ.
    unfold A, B, pw.
    assert (E : 2 ^ (NW - 1) * (2 ^ Z.max 0 e * 2 ^ Z.max 0 (fF f)) =
                2 ^ (ZW - 1) * (2 ^ Z.max 0 (- e) * 2 ^ Z.max 0 (- fF f))).
    { rewrite <- !pow2_add by lia. f_equal. unfold ZW. rewrite EZ. unfold e, fF. lia. }
    set (P1 := 2 ^ Z.max 0 e * 2 ^ Z.max 0 (fF f)) in *. set (P2 := 2 ^ Z.max 0 (- e) * 2 ^ Z.max 0 (- fF f)) in *.
    assert (0 < P1) by (unfold P1; apply Z.mul_pos_pos; apply pow2_pos; lia).
    assert (0 < P2) by (unfold P2; apply Z.mul_pos_pos; apply pow2_pos; lia).
    replace (Z.abs n * 2 ^ Z.max 0 e * 2 ^ Z.max 0 (fF f)) with (Z.abs n * P1) by (unfold P1; ring).
    replace (2 ^ (ZW - 1) * (Z.abs d * 2 ^ Z.max 0 (- e) * 2 ^ Z.max 0 (- fF f))) with (Z.abs d * (2 ^ (ZW - 1) * P2)) by (unfold P2; ring).
    rewrite <- E. assert (H1 : 1 <= Z.abs d) by lia. assert (H2 : Z.abs n <= 2 ^ (NW - 1)) by lia.
    clearbody P1 P2. clear - H1 H2 H H0.
    apply Z.le_trans with (2 ^ (NW - 1) * P1); [apply Z.mul_le_mono_nonneg_r; lia|].
    assert (0 <= 2 ^ (NW - 1) * P1) by (apply Z.mul_nonneg_nonneg; lia).
    set (X := 2 ^ (NW - 1) * P1) in *. clearbody X. nia.
  Qed.

  (** symmetric modes *)
  Lemma sym_branch r : r = qround (fQ f) A B -> sym_mode (fQ f) = true ->
    let uQ := wrapu ZW r in
    let fQQ := Fmt (ZW + 1) (ZI + 1) true (fQ f) WRAP in
    let Q := if eqb (n <? 0) (d <? 0) then conv fQQ uQ (ZW - ZI) else conv fQQ (- uQ) (ZW - ZI) in
    conv f Q (ZW - ZI) = overflow (fO f) (fS f) (fW f) (qround (fQ f) (if neg then - A else A) B).
  Proof.
    intros Er Hs uQ fQQ Q.
    pose proof B_pos as PB. pose proof A_nonneg as PA.
    assert (BuQ : 0 <= uQ < 2 ^ ZW) by (apply wrapu_range; lia).
    assert (EQ : Q = if neg then - uQ else uQ).
    { unfold Q, neg. rewrite !conv_int_f by (unfold fF, fQQ; cbn; lia).
      unfold fQQ; cbn [fO fS fW overflow wrap].
      destruct (eqb _ _); cbn [negb]; apply wraps_id; try lia; replace (ZW + 1 - 1) with ZW by lia; lia. }
    rewrite EQ. rewrite conv_int_f by (unfold fF, ZW; lia).
    assert (Es : qround (fQ f) (if neg then - A else A) B = if neg then - r else r).
    { destruct neg; [rewrite qround_opp_sym by assumption|]; rewrite <- Er; reflexivity. }
    rewrite Es.
    assert (fO f = WRAP \/ fO f <> WRAP) as [EO|EO] by (destruct (fO f); auto; right; discriminate).
    - (* WRAP *)
      assert (EZW : ZW = fW f) by (unfold ZW; rewrite (ZI_wrap EO); lia).
      unfold uQ; rewrite EZW, HfS, EO. cbn [overflow wrap].
      destruct neg; [apply wraps_opp_wrapu|apply wraps_wrapu]; lia.
    - assert (uQ = r) as ->; [|reflexivity].
      unfold uQ. apply wrapu_id. split; [rewrite Er; apply qround_ge; lia|].
      assert (r <= 2 ^ (ZW - 1)) by (rewrite Er; apply qround_le; [lia|apply magnitude; assumption]).
      pose proof (pow2_half ZW ltac:(lia)). pose proof (pow2_pos (ZW - 1) ltac:(lia)). lia.
  Qed.

  (** the other modes: TRN, RND, RND_MIN_INF *)
  Variables (RBIT : Z) (min_inf : bool).
  Hypothesis RBIT_def : RBIT = match fQ f with TRN => 0 | _ => 1 end.
  Hypothesis min_inf_def : min_inf = match fQ f with RND_MIN_INF => true | _ => false end.

  Lemma asym_branch A' B' : 0 <= A' -> 0 < B' -> A * (B' * 2 ^ RBIT) = A' * B -> sym_mode (fQ f) = false ->
    let u := A' / B' in let h := nz (A' mod B') in
    let uQ := wrapu (ZW + RBIT) u in
    let W2 := ZW + RBIT + 2 in
    let fQQ := dfmt W2 (ZI + 1) true in
    let Q :=
      if eqb (n <? 0) (d <? 0)
      then let Q := conv fQQ uQ (ZW + RBIT - ZI) in
           if min_inf then set_bit true W2 0 h Q else Q
      else let lsb := set_bit false (ZW + RBIT) 0 (h && negb min_inf) 0 in
           conv fQQ (- (uQ + lsb)) (ZW + RBIT - ZI) in
    conv f Q (ZW + RBIT + 2 - (ZI + 1)) =
    overflow (fO f) (fS f) (fW f) (qround (fQ f) (if neg then - A else A) B).
  Proof.
    intros PA' PB' EX Hs u h uQ W2 fQQ Q.
    pose proof B_pos as PB. pose proof A_nonneg as PA.
    assert (HR : RBIT = 0 \/ RBIT = 1) by (rewrite RBIT_def; destruct (fQ f); lia).
    assert (HRs : RBIT = r_bit_s (fQ f)) by (rewrite RBIT_def; destruct (fQ f); reflexivity).
    set (M := ZW + RBIT) in *.
    assert (HM : 1 <= M) by (unfold M; lia).
    assert (BuQ : 0 <= uQ < 2 ^ M) by (apply wrapu_range; lia).
    pose proof (b2z_01 h) as Bh.
    pose proof (pow2_pos RBIT ltac:(lia)) as PR.
    assert (PW2 : 2 ^ (W2 - 1) = 2 * 2 ^ M).
    { unfold W2. replace (M + 2 - 1) with (M + 1) by lia. apply pow2_succ; lia. }
    pose proof (pow2_pos M ltac:(lia)) as PM.
    set (m := b2z min_inf). assert (Bm : 0 <= m <= 1) by apply b2z_01.
    (* the value handed to the final conversion *)
    assert (EQ : Q = if neg then - 2 * (uQ + (1 - m) * b2z h) else 2 * uQ + m * b2z h).
    { unfold Q, neg, fQQ. rewrite !conv_dfmt_up by (unfold W2, M; lia).
      replace (W2 - (ZI + 1) - (M - ZI)) with 1 by (unfold W2; lia). change (2 ^ 1) with 2.
      change (wrap true) with wraps.
      destruct (eqb _ _); cbn [negb].
      - rewrite (wraps_id W2) by lia. unfold m. destruct min_inf; cbn [b2z]; [|lia].
        rewrite set_bit_clear by (try lia; apply testbit_even_0).
        change (wrap true) with wraps. rewrite Z.pow_0_r, Z.mul_1_r. rewrite wraps_id by lia. lia.
      - rewrite set_bit_clear by (try lia; apply Z.testbit_0_l). rewrite Z.add_0_l, Z.pow_0_r, Z.mul_1_r.
        change (wrap false) with wrapu.
        assert (2 <= 2 ^ M) by (change 2 with (2 ^ 1) at 1; apply pow2_le; lia).
        pose proof (b2z_01 (h && negb min_inf)).
        rewrite (wrapu_id M) by lia.
        replace (b2z (h && negb min_inf)) with ((1 - m) * b2z h).
        2:{ unfold m. destruct min_inf, h; reflexivity. }
        rewrite wraps_id; [lia|lia|]. unfold m; destruct min_inf; cbn [b2z]; lia. }
    (* the exact rounding *)
    assert (EXA : qround (fQ f) (if neg then - A else A) B =
                  qround (fQ f) (if neg then - 2 * (u + (1 - m) * b2z h) else 2 * u + m * b2z h) (2 ^ (RBIT + 1))).
    { rewrite (qround_eqq (fQ f) (if neg then - A else A) B (if neg then - A' else A') (B' * 2 ^ RBIT)); [|lia|nia|destruct neg; lia].
      rewrite qround_sticky_s by lia.
      assert (EM : r_half_s (fQ f) = m).
      { unfold m. rewrite min_inf_def. destruct (fQ f); try discriminate Hs; reflexivity. }
      rewrite EM, (pow2_add RBIT m), (pow2_add RBIT 1) by lia.
      destruct neg.
      - destruct (div_opp A' B' PB') as [E1 E2].
        assert (E3 : nz ((- A') mod B') = h).
        { rewrite E2. unfold h, nz in *. pose proof (Z.mod_pos_bound A' B' PB').
          destruct (Z.eqb_spec (A' mod B') 0); cbn [negb b2z]; lia. }
        rewrite E1, E3. fold u h.
        assert (m = 0 \/ m = 1) as [Hm|Hm] by lia; rewrite Hm.
        + change (2 ^ 0) with 1. rewrite !Z.mul_0_l, !Z.mul_1_r, Z.add_0_r.
          replace (- 2 * (u + (1 - 0) * b2z h)) with ((- u - b2z h) * 2) by ring.
          symmetry. apply qround_scale; [apply pow2_pos; lia|lia].
        + assert (Emi : fQ f = RND_MIN_INF /\ RBIT = 1).
          { unfold m in Hm. rewrite min_inf_def in Hm. rewrite RBIT_def. destruct (fQ f); try discriminate Hm; split; reflexivity. }
          destruct Emi as [Eq ER]. rewrite Eq, ER. change (2 ^ 1 * 2 ^ 1) with 4. change (2 ^ 1) with 2.
          replace ((- u - b2z h) * 2 + 1 * b2z h) with (- 2 * u - b2z h) by ring.
          replace (- 2 * (u + (1 - 1) * b2z h)) with (- 2 * u) by ring. apply min_inf_no_sticky; assumption.
      - fold u h. assert (m = 0 \/ m = 1) as [Hm|Hm] by lia; rewrite Hm.
        + change (2 ^ 0) with 1. rewrite !Z.mul_0_l, !Z.mul_1_r, !Z.add_0_r.
          rewrite (Z.mul_comm 2 u). symmetry. apply qround_scale; [apply pow2_pos; lia|lia].
        + f_equal. change (2 ^ 1) with 2. lia. }
    rewrite EXA, EQ.
    replace (M + 2 - (ZI + 1)) with (M - ZI + 1) by lia.
    assert (EF : M - ZI = fF f + RBIT) by (unfold M, ZW, fF; lia). rewrite EF.
    rewrite conv_tmp by lia. replace (fF f + RBIT - fF f + 1) with (RBIT + 1) by lia.
    assert (fO f = WRAP \/ fO f <> WRAP) as [EO|EO] by (destruct (fO f); auto; right; discriminate).
    2:{ assert (uQ = u) as ->; [|reflexivity]. unfold uQ. apply wrapu_id. split; [apply Z.div_pos; lia|].
        unfold M. rewrite (pow2_add ZW RBIT), (pow2_half ZW) by lia.
        apply (div_bound A B A' B'); try lia; try assumption; try (apply pow2_pos; lia); apply magnitude; assumption. }
    (* WRAP *)
    assert (EZW : ZW = fW f) by (unfold ZW; rewrite (ZI_wrap EO); lia). rewrite EO.
    apply (overflow_wrap_eq _ _ _ (M + 1)); try lia; try (unfold M; lia).
    - rewrite pow2_succ by lia. destruct (wrapu_shift M u PM) as [c Ec]. fold uQ in Ec.
      rewrite Ec. destruct neg.
      + replace (-2 * (u + c * 2 ^ M + (1 - m) * b2z h)) with (-2 * (u + (1 - m) * b2z h) + (- c) * (2 * 2 ^ M)) by ring.
        apply Z.mod_add; lia.
      + replace (2 * (u + c * 2 ^ M) + m * b2z h) with (2 * u + m * b2z h + c * (2 * 2 ^ M)) by ring.
        apply Z.mod_add; lia.
    - destruct (fQ f); try discriminate Hs; discriminate.
  Qed.
End SFx.

(** Assembly. *)
Lemma div_sfx_ok NW NI DW DI f n d junk :
  1 <= NW -> 1 <= DW -> 1 <= fW f -> fS f = true ->
  - 2 ^ (NW - 1) <= n < 2 ^ (NW - 1) -> - 2 ^ (DW - 1) <= d < 2 ^ (DW - 1) -> d <> 0 ->
  (fO f <> WRAP -> 1 <= NI + (DW - DI) + fF f) ->
  (fO f = WRAP -> - (fF f + div_rbit (fQ f)) <= NI + (DW - DI) - 1) ->
  let e := (DW - DI) - (NW - NI) in
  fst (div_sfx NW NI DW DI f n d junk) = conv_rat f (Z.sgn d * n * pw e) (Z.abs d * pw (- e)) /\
  snd (div_sfx NW NI DW DI f n d junk) =
    nz ((Z.abs n * pw e * pw (fF f)) mod (Z.abs d * pw (- e) * pw (- fF f))).
Proof.
  intros HN HD HW HfS Bn Bd D0 HZ1 HE e.
  set (ZI := match fO f with WRAP => fI f | _ => NI + (DW - DI) end).
  set (ZW := ZI + (fW f - fI f)).
  assert (ZI1 : fO f = WRAP -> ZI = fI f) by (unfold ZI; intros ->; reflexivity).
  assert (ZI2 : fO f <> WRAP -> ZI = NI + (DW - DI)) by (unfold ZI; intros; destruct (fO f); [contradiction|reflexivity..]).
  assert (HZW : 1 <= ZW).
  { unfold ZW, ZI. unfold fF in *. destruct (fO f); try (specialize (HZ1 ltac:(discriminate))); lia. }
  assert (HE' : - (fF f + div_rbit (fQ f)) <= NI + (DW - DI) - 1).
  { destruct (fO f); [apply HE; reflexivity|specialize (HZ1 ltac:(discriminate)); pose proof (r_bit_u_01 (fQ f)); rewrite <- div_rbit_eq in *; lia..]. }
  pose proof (uN_range NW n HN Bn) as RN. pose proof (uN_range DW d HD Bd) as RD.
  pose proof (exact_sign NW NI DW DI f n d D0) as ES. fold e in ES. rewrite ES. clear ES.
  set (A := Z.abs n * pw e * pw (fF f)). set (B := Z.abs d * pw (- e) * pw (- fF f)).
  unfold div_sfx. rewrite (uN_abs NW n HN Bn), (uN_abs DW d HD Bd). fold ZI. fold ZW.
  replace (d =? 0) with false by lia.
  destruct (sym_mode (fQ f)) eqn:Es.
  - (* symmetric modes *)
    set (g := Fmt ZW ZI false (fQ f) WRAP).
    assert (Fg : fF g = fF f) by (unfold fF, g, ZW; cbn; lia).
    assert (Ne : div_early NI DW DI g = false) by (unfold div_early; rewrite Fg; cbn [fQ g]; lia).
    pose proof (div_ufx_ok NW NI DW DI g (Z.abs n) (Z.abs d) HN HD HZW eq_refl RN RD junk Ne ltac:(lia)) as EU.
    pose proof (div_ufx_flag NW NI DW DI g (Z.abs n) (Z.abs d) HN HD RN RD junk Ne ltac:(lia)) as EFl.
    fold e in EU, EFl. unfold conv_rat in EU. rewrite Fg in EU, EFl. fold A B in EU, EFl.
    cbn [fQ fO fS fW g overflow wrap] in EU.
    pose proof (sym_branch NW NI DW DI f n d HN HD HW HfS Bn Bd D0 ZI ZI1 ZI2 HZW _ eq_refl Es) as SB.
    cbv zeta in SB. fold e in SB. fold A B in SB. fold ZI in SB. fold ZW in SB.
    destruct (fQ f) eqn:EQ; try discriminate Es; fold g in SB |- *; 
      (destruct (div_ufx NW NI DW DI g (Z.abs n) (Z.abs d) junk) as [uQ hr]; cbn [fst snd] in *;
       rewrite EU; split; [exact SB|exact EFl]).
  - (* TRN, RND, RND_MIN_INF *)
    set (RBIT := match fQ f with TRN => 0 | _ => 1 end).
    assert (HR : RBIT = 0 \/ RBIT = 1) by (unfold RBIT; destruct (fQ f); lia).
    assert (HRd : RBIT = div_rbit (fQ f)) by (unfold RBIT; destruct (fQ f); try discriminate Es; reflexivity).
    set (g := dfmt (ZW + RBIT) ZI false).
    assert (Fg : fF g = fF f + RBIT) by (unfold fF, g, ZW; cbn; lia).
    assert (Wg : 1 <= fW g) by (unfold g; cbn; lia).
    assert (Ne : div_early NI DW DI g = false) by (unfold div_early; rewrite Fg; cbn [fQ g dfmt div_rbit]; lia).
    pose proof (div_ufx_ok NW NI DW DI g (Z.abs n) (Z.abs d) HN HD Wg eq_refl RN RD junk Ne ltac:(lia)) as EU.
    pose proof (div_ufx_flag NW NI DW DI g (Z.abs n) (Z.abs d) HN HD RN RD junk Ne ltac:(lia)) as EFl.
    fold e in EU, EFl. unfold conv_rat in EU. rewrite Fg in EU, EFl.
    cbn [fQ fO fS fW g dfmt overflow wrap qround] in EU.
    set (A' := Z.abs n * pw e * pw (fF f + RBIT)) in *. set (B' := Z.abs d * pw (- e) * pw (- (fF f + RBIT))) in *.
    assert (PA' : 0 <= A') by (unfold A'; pose proof (pw_pos e); pose proof (pw_pos (fF f + RBIT)); apply Z.mul_nonneg_nonneg; [nia|lia]).
    assert (PB' : 0 < B') by (unfold B'; pose proof (pw_pos (- e)); pose proof (pw_pos (- (fF f + RBIT))); apply Z.mul_pos_pos; [nia|lia]).
    assert (EX : A * (B' * 2 ^ RBIT) = A' * B).
    { unfold A, B, A', B', pw.
      transitivity (Z.abs n * Z.abs d * 2 ^ Z.max 0 e * 2 ^ Z.max 0 (- e) * (2 ^ Z.max 0 (fF f) * 2 ^ Z.max 0 (- (fF f + RBIT)) * 2 ^ RBIT)); [ring|].
      transitivity (Z.abs n * Z.abs d * 2 ^ Z.max 0 e * 2 ^ Z.max 0 (- e) * (2 ^ Z.max 0 (fF f + RBIT) * 2 ^ Z.max 0 (- fF f))); [|ring].
      rewrite <- !pow2_add by lia. do 2 f_equal. lia. }
    pose proof (asym_branch NW NI DW DI f n d HN HD HW Bn Bd D0 ZI ZI1 ZI2 HZW RBIT _ eq_refl eq_refl A' B' PA' PB' EX Es) as SB.
    cbv zeta in SB. fold e in SB. fold A B in SB. fold ZI in SB. fold ZW in SB. fold RBIT in SB. fold g in SB.
    set (h := nz (A' mod B')) in *.
    assert (Eflag : forall uQ, uQ = wrapu (ZW + RBIT) (A' / B') -> h || negb (RBIT =? 0) && Z.testbit uQ 0 = nz (A mod B)).
    { intros uQ ->. assert (PB : 0 < B) by (unfold B; pose proof (pw_pos (- e)); pose proof (pw_pos (- fF f)); apply Z.mul_pos_pos; [apply Z.mul_pos_pos|]; lia).
      assert (Et : Z.testbit (wrapu (ZW + RBIT) (A' / B')) 0 = Z.testbit (A' / B') 0).
      { rewrite !Z.bit0_odd. unfold wrapu.
        replace (2 ^ (ZW + RBIT)) with (2 * 2 ^ (ZW + RBIT - 1)) by (symmetry; apply pow2_half; lia).
        rewrite Z.rem_mul_r by (pose proof (pow2_pos (ZW + RBIT - 1)); lia).
        rewrite Z.odd_add, Z.odd_mul. cbn [Z.odd andb]. rewrite xorb_false_r.
        rewrite Zmod_odd. destruct (Z.odd (A' / B')); reflexivity. }
      rewrite Et.
      assert (E1 : h || negb (RBIT =? 0) && Z.testbit (A' / B') 0 = nz (A' mod (B' * 2 ^ RBIT))).
      { unfold h. destruct HR as [->| ->].
        - rewrite Z.pow_0_r, Z.mul_1_r. cbn. apply orb_false_r.
        - change (2 ^ 1) with 2. cbn [Z.eqb negb andb]. rewrite Z.rem_mul_r by lia.
          rewrite Z.bit0_odd. pose proof (Zmod_odd (A' / B')) as EO.
          pose proof (Z.mod_pos_bound A' B' PB').
          unfold nz. destruct (Z.odd (A' / B')); rewrite EO; destruct (Z.eqb_spec (A' mod B') 0) as [->|];
            cbn [negb orb]; symmetry; lia. }
      rewrite E1. set (b' := B' * 2 ^ RBIT) in *.
      assert (Pb' : 0 < b') by (apply Z.mul_pos_pos; [|apply pow2_pos]; lia).
      apply nz_mod_eqq; assumption. }
    destruct (fQ f) eqn:EQ; try discriminate Es; fold RBIT; fold g;
      (destruct (div_ufx NW NI DW DI g (Z.abs n) (Z.abs d) junk) as [uQ hr]; cbn [fst snd] in *;
       subst uQ hr; split; [exact SB|apply Eflag; reflexivity]).
Qed.
