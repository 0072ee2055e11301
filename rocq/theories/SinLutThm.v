(** ac_sincos_lut: accuracy, periodicity, symmetries, and where they fail. *)
From Coq Require Import List Reals Lia Lra Psatz.
From Verif Require Import AcTypes AcFacts Spec SpecFacts SpecR SpecRFacts SoftFacts AbsProofs MatrixProofs CordicNum CordicProofs CordicThm SinLutModel SinLutNum.
Import ListNotations.

(** ** The index *)
Lemma lut_index_spec F p : 3 <= F -> let l := p mod 2 ^ (F - 3) in let k := lut_index F p in
  0 <= k <= 511 /\ (k = 0 <-> l = 0) /\ (F <= 12 -> l * 512 = k * 2 ^ (F - 3)) /\ Z.abs (l * 512 - k * 2 ^ (F - 3)) <= 2 ^ (F - 3).
Proof.
  intros HF l k. unfold k, lut_index. destruct (Z.eqb_spec F 3) as [->|N3].
  - cbn [Z.leb Z.ltb Z.compare Pos.compare Pos.compare_cont andb]. unfold l. change (2 ^ (3 - 3)) with 1. rewrite Z.mod_1_r. split; [lia|split; [tauto|split; [lia|lia]]].
  - rewrite Z.max_l by lia. fold l. assert (HL : 0 <= l < 2 ^ (F - 3)) by (apply Z.mod_pos_bound, Z.pow_pos_nonneg; lia).
    destruct (Z.leb_spec 4 F); [|lia]. destruct (Z.leb_spec F 12) as [H12|H12]; cbn [andb].
    + assert (E : 2 ^ (F - 3) * 2 ^ (12 - F) = 512) by (rewrite <- Z.pow_add_r by lia; replace (F - 3 + (12 - F)) with 9 by lia; reflexivity). assert (0 < 2 ^ (12 - F)) by (apply Z.pow_pos_nonneg; lia).
      set (P := 2 ^ (F - 3)) in *. set (Q := 2 ^ (12 - F)) in *. clearbody P Q l. split; [nia|split; [nia|split; nia]].
    + destruct (Z.ltb_spec 12 F) as [_|]; [|lia]. assert (E : 2 ^ (F - 3) = 512 * 2 ^ (F - 12)) by (change 512 with (2 ^ 9); rewrite <- Z.pow_add_r by lia; f_equal; lia).
      assert (E2 : 2 ^ (F - 12) = 2 * 2 ^ (F - 13)) by (change 2 with (2 ^ 1) at 2; rewrite <- Z.pow_add_r by lia; f_equal; lia). assert (0 < 2 ^ (F - 13)) by (apply Z.pow_pos_nonneg; lia).
      rewrite E in *. set (d := 2 ^ (F - 12)) in *. set (h := 2 ^ (F - 13)) in *. clearbody d h l.
      assert (Hq : 0 <= l / d < 512) by (split; [apply Z.div_pos; lia|apply Z.div_lt_upper_bound; lia]). rewrite (Z.mod_small (l / d) 512) by lia.
      pose proof (Z.div_mod l d ltac:(lia)) as DM. pose proof (Z.mod_pos_bound l d ltac:(lia)) as MB. set (q := l / d) in *. set (r := l mod d) in *. clearbody q r. subst l.
      destruct (Z.leb_spec (d * q + r) h) as [Lh|Lh]; destruct (Z.eqb_spec (d * q + r) 0) as [L0|L0]; cbn [andb negb]; try (split; [lia|split; [lia|split; [lia|nia]]]).
      * assert (q = 0 /\ r = 0) as [-> ->] by nia. destruct (Z.ltb_spec h 0); [lia|]. destruct (Z.ltb_spec (1023 * d) (2 * (d * 0 + 0))); [lia|]. split; [lia|split; [lia|split; [lia|lia]]].
      * destruct (Z.ltb_spec (1023 * d) (2 * (d * q + r))) as [Hx|Hx].
        -- assert (q = 511) by nia. subst q. split; [lia|split; [lia|split; [lia|nia]]].
        -- destruct (Z.ltb_spec h r) as [Hr|Hr].
           ++ assert (q < 511) by nia. rewrite Z.mod_small by lia. split; [lia|split; [lia|split; [lia|nia]]].
           ++ assert (q <> 0) by nia. split; [lia|split; [lia|split; [lia|nia]]].
Qed.
Lemma lut_index_low F p p' : 3 <= F -> p mod 2 ^ (F - 3) = p' mod 2 ^ (F - 3) -> lut_index F p = lut_index F p'.
Proof.
  intros HF H. unfold lut_index. destruct (Z.eqb_spec F 3) as [->|N3]; [reflexivity|]. rewrite Z.max_l by lia. rewrite H. reflexivity.
Qed.
Lemma lut_index_13 F p q r : 13 <= F -> p mod 2 ^ (F - 3) = 2 ^ (F - 12) * q + r -> 0 <= r < 2 ^ (F - 12) -> 0 <= q ->
  lut_index F p = if (2 ^ (F - 12) * q + r <=? 2 ^ (F - 13)) && negb (2 ^ (F - 12) * q + r =? 0) then 1 else if 1023 * 2 ^ (F - 12) <? 2 * (2 ^ (F - 12) * q + r) then 511 else if 2 ^ (F - 13) <? r then (q + 1) mod 512 else q.
Proof.
  intros HF H Hr Hq. unfold lut_index. rewrite Z.max_l by lia. rewrite H. destruct (Z.leb_spec F 12); [lia|]. rewrite Bool.andb_false_r. destruct (Z.ltb_spec 12 F); [|lia].
  assert (D : (2 ^ (F - 12) * q + r) / 2 ^ (F - 12) = q) by (symmetry; apply Z.div_unique with r; lia). assert (M : (2 ^ (F - 12) * q + r) mod 2 ^ (F - 12) = r) by (symmetry; apply Z.mod_unique with q; lia). rewrite D, M.
  assert (q < 512). { assert (HL : 0 <= p mod 2 ^ (F - 3) < 2 ^ (F - 3)) by (apply Z.mod_pos_bound, Z.pow_pos_nonneg; lia). assert (E : 2 ^ (F - 3) = 512 * 2 ^ (F - 12)) by (change 512 with (2 ^ 9); rewrite <- Z.pow_add_r by lia; f_equal; lia). rewrite H, E in HL. nia. }
  rewrite (Z.mod_small q 512) by lia. reflexivity.
Qed.
(** Opposite angles. *)
Lemma lut_index_opp F p p' : 3 <= F -> (p + p') mod 2 ^ (F - 3) = 0 -> p mod 2 ^ (F - 3) <> 0 -> (13 <= F -> p mod 2 ^ (F - 12) <> 2 ^ (F - 13)) -> lut_index F p' = 512 - lut_index F p.
Proof.
  intros HF HS HN HT. assert (HP : 0 < 2 ^ (F - 3)) by (apply Z.pow_pos_nonneg; lia). pose proof (Z.mod_pos_bound p _ HP) as B. pose proof (Z.mod_pos_bound p' _ HP) as B'.
  assert (E' : p' mod 2 ^ (F - 3) = 2 ^ (F - 3) - p mod 2 ^ (F - 3)).
  { rewrite Z.add_mod in HS by lia. apply Z.mod_divide in HS; [|lia]. destruct HS as (c & Hc). set (x := p mod 2 ^ (F - 3)) in *. set (y := p' mod 2 ^ (F - 3)) in *. set (P := 2 ^ (F - 3)) in *. clearbody x y P. clear HT. assert (0 < c) by nia. assert (c < 2) by nia. assert (c = 1) by lia. subst c. lia. }
  destruct (Z_le_gt_dec F 12) as [H12|H13].
  - destruct (Z.eqb_spec F 3) as [->|N3]; [exfalso; apply HN; apply Z.mod_1_r|]. unfold lut_index. rewrite Z.max_l by lia. rewrite E'. destruct (Z.leb_spec 4 F); [|lia]. destruct (Z.leb_spec F 12); [|lia]. cbn [andb].
    assert (E : 2 ^ (F - 3) * 2 ^ (12 - F) = 512) by (rewrite <- Z.pow_add_r by lia; replace (F - 3 + (12 - F)) with 9 by lia; reflexivity). lia.
  - specialize (HT ltac:(lia)). assert (E : 2 ^ (F - 3) = 512 * 2 ^ (F - 12)) by (change 512 with (2 ^ 9); rewrite <- Z.pow_add_r by lia; f_equal; lia).
    assert (E2 : 2 ^ (F - 12) = 2 * 2 ^ (F - 13)) by (change 2 with (2 ^ 1) at 2; rewrite <- Z.pow_add_r by lia; f_equal; lia). assert (Hh : 0 < 2 ^ (F - 13)) by (apply Z.pow_pos_nonneg; lia).
    rewrite (Znumtheory.Zmod_div_mod (2 ^ (F - 12)) (2 ^ (F - 3)) p) in HT by (try lia; exists 512; exact E).
    pose proof (Z.div_mod (p mod 2 ^ (F - 3)) (2 ^ (F - 12)) ltac:(lia)) as DM. pose proof (Z.mod_pos_bound (p mod 2 ^ (F - 3)) (2 ^ (F - 12)) ltac:(lia)) as MB.
    set (q := p mod 2 ^ (F - 3) / 2 ^ (F - 12)) in *. set (r := (p mod 2 ^ (F - 3)) mod 2 ^ (F - 12)) in *. clearbody q r. assert (Q : 0 <= q < 512) by nia.
    destruct (Z.eqb_spec r 0) as [R0|R0].
    + subst r. assert (q <> 0) by nia. rewrite (lut_index_13 F p q 0), (lut_index_13 F p' (512 - q) 0) by lia. rewrite DM in *. clear B B' HN HS E' DM. set (d := 2 ^ (F - 12)) in *. set (h := 2 ^ (F - 13)) in *. clearbody d h.
      destruct (Z.leb_spec (d * (512 - q) + 0) h); [nia|]. destruct (Z.leb_spec (d * q + 0) h); [nia|]. cbn [andb]. destruct (Z.ltb_spec h 0); [lia|]. destruct (Z.ltb_spec (1023 * d) (2 * (d * (512 - q) + 0))); [nia|]. destruct (Z.ltb_spec (1023 * d) (2 * (d * q + 0))); [nia|]. lia.
    + rewrite (lut_index_13 F p q r), (lut_index_13 F p' (511 - q) (2 ^ (F - 12) - r)) by lia. rewrite DM in *. clear B B' HS E' DM. set (d := 2 ^ (F - 12)) in *. set (h := 2 ^ (F - 13)) in *. clearbody d h.
      destruct (Z.eqb_spec (d * (511 - q) + (d - r)) 0); [nia|]. destruct (Z.eqb_spec (d * q + r) 0); [nia|]. rewrite !Bool.andb_true_r.
      destruct (Z.leb_spec (d * q + r) h) as [A|A].
      * assert (q = 0) by nia. subst q. destruct (Z.leb_spec (d * (511 - 0) + (d - r)) h); [nia|]. destruct (Z.ltb_spec (1023 * d) (2 * (d * (511 - 0) + (d - r)))); [lia|]. lia.
      * destruct (Z.ltb_spec (1023 * d) (2 * (d * q + r))) as [C|C].
        -- assert (q = 511) by nia. subst q. destruct (Z.leb_spec (d * (511 - 511) + (d - r)) h); [lia|]. lia.
        -- destruct (Z.leb_spec (d * (511 - q) + (d - r)) h) as [A2|A2]; [exfalso; assert (q = 511) by nia; subst q; lia|]. destruct (Z.ltb_spec (1023 * d) (2 * (d * (511 - q) + (d - r)))) as [C2|C2]; [exfalso; assert (q = 0) by nia; subst q; lia|].
           destruct (Z.ltb_spec h r), (Z.ltb_spec h (d - r)); try lia.
           ++ assert (q < 511) by nia. rewrite Z.mod_small by lia. lia.
           ++ assert (0 < q) by nia. rewrite Z.mod_small by lia. lia.
Qed.

Local Open Scope R_scope.
(** ** The octants *)
Lemma th512 : 512 * theta = PI / 4.
Proof. unfold theta. field. Qed.
Lemma oct_trig o k x : (0 <= o <= 7)%Z -> k = (if Z.odd o then 512 - x else x) ->
  sin ((IZR o * 512 + x) * theta) = (if fst (oct_sin o) then -1 else 1) * (if snd (oct_sin o) then cos (k * theta) else sin (k * theta)) /\
  cos ((IZR o * 512 + x) * theta) = (if fst (oct_cos o) then -1 else 1) * (if snd (oct_cos o) then cos (k * theta) else sin (k * theta)).
Proof.
  intros Ho Hk. pose proof th512 as T. set (y := k * theta).
  assert (Q : forall m z, (m = 0 \/ m = 1 \/ m = 2 \/ m = 3 \/ m = 4)%Z -> sin (IZR m * (PI / 2) + z) = (match m with 0%Z | 4%Z => sin z | 1%Z => cos z | 2%Z => - sin z | _ => - cos z end) /\ cos (IZR m * (PI / 2) + z) = (match m with 0%Z | 4%Z => cos z | 1%Z => - sin z | 2%Z => - cos z | _ => sin z end)).
  { intros m z H. assert (S1 : sin (PI / 2) = 1) by apply sin_PI2. assert (C1 : cos (PI / 2) = 0) by apply cos_PI2.
    destruct H as [->|[->|[->|[->| ->]]]].
    - replace (0 * (PI / 2) + z) with z by ring. split; reflexivity.
    - rewrite Rmult_1_l, sin_plus, cos_plus, S1, C1. split; ring.
    - replace (2 * (PI / 2) + z) with (PI + z) by field. rewrite sin_plus, cos_plus, sin_PI, cos_PI. split; ring.
    - replace (3 * (PI / 2) + z) with (PI + (PI / 2 + z)) by field. rewrite !sin_plus, !cos_plus, !sin_plus, sin_PI, cos_PI, S1, C1. split; ring.
    - replace (4 * (PI / 2) + z) with (2 * PI + z) by field. rewrite sin_plus, cos_plus, sin_2PI, cos_2PI. split; ring. }
  pose proof (sin_neg y) as SN. pose proof (cos_neg y) as CN.
  assert (o = 0 \/ o = 1 \/ o = 2 \/ o = 3 \/ o = 4 \/ o = 5 \/ o = 6 \/ o = 7)%Z as O by lia. destruct O as [->|[->|[->|[->|[->|[->|[->| ->]]]]]]]; cbn [Z.odd] in Hk;
  [ destruct (Q 0%Z y) as [A B]; [tauto|]; replace ((0 * 512 + x) * theta) with (0 * (PI / 2) + y) by (unfold y; rewrite Hk; ring)
  | destruct (Q 1%Z (- y)) as [A B]; [tauto|]; replace ((1 * 512 + x) * theta) with (1 * (PI / 2) + - y) by (unfold y; rewrite Hk; lra)
  | destruct (Q 1%Z y) as [A B]; [tauto|]; replace ((2 * 512 + x) * theta) with (1 * (PI / 2) + y) by (unfold y; rewrite Hk; lra)
  | destruct (Q 2%Z (- y)) as [A B]; [tauto|]; replace ((3 * 512 + x) * theta) with (2 * (PI / 2) + - y) by (unfold y; rewrite Hk; lra)
  | destruct (Q 2%Z y) as [A B]; [tauto|]; replace ((4 * 512 + x) * theta) with (2 * (PI / 2) + y) by (unfold y; rewrite Hk; lra)
  | destruct (Q 3%Z (- y)) as [A B]; [tauto|]; replace ((5 * 512 + x) * theta) with (3 * (PI / 2) + - y) by (unfold y; rewrite Hk; lra)
  | destruct (Q 3%Z y) as [A B]; [tauto|]; replace ((6 * 512 + x) * theta) with (3 * (PI / 2) + y) by (unfold y; rewrite Hk; lra)
  | destruct (Q 4%Z (- y)) as [A B]; [tauto|]; replace ((7 * 512 + x) * theta) with (4 * (PI / 2) + - y) by (unfold y; rewrite Hk; lra)];
  rewrite A, B, ?SN, ?CN; cbn; split; ring.
Qed.

(** ** The outputs *)
Lemma W_ge fo : (1 <= fI fo)%Z -> (0 <= fF fo)%Z -> (1 <= fW fo)%Z /\ (2 ^ fF fo < 2 ^ fW fo)%Z /\ (0 < 2 ^ fF fo)%Z.
Proof. intros HI HF. unfold fF in *. split; [lia|]. split; [apply Z.pow_lt_mono_r; lia|apply Z.pow_pos_nonneg; lia]. Qed.
(** J is the loss when the mantissa of 1 is limited to the output type. *)
Definition loses (fo : fmt) (J : Z) : Prop := forall z, (Z.abs z <= 2 ^ fF fo)%Z -> (Z.abs (overflow (fO fo) (fS fo) (fW fo) z - z) <= J)%Z.
Lemma loses_0 fo : fS fo = true -> (2 <= fI fo)%Z -> (0 <= fF fo)%Z -> loses fo 0.
Proof.
  intros HS HI HF z Hz. destruct (W_ge fo ltac:(lia) HF) as (W1 & W3 & W4). assert (W2 : (2 ^ fF fo < 2 ^ (fW fo - 1))%Z) by (unfold fF in *; apply Z.pow_lt_mono_r; lia).
  rewrite HS, AcFacts.overflow_id; [lia|lia|unfold in_range, imin, imax; lia|unfold imin; lia].
Qed.
Lemma loses_1 fo : fS fo = true -> fI fo = 1%Z -> (0 <= fF fo)%Z -> fO fo = SAT \/ fO fo = SAT_SYM -> loses fo 1.
Proof.
  intros HS HI HF HO z Hz. assert (W : (2 ^ fF fo = 2 ^ (fW fo - 1))%Z) by (unfold fF; rewrite HI; reflexivity). rewrite HS. unfold overflow, imin, imax. rewrite W in Hz. destruct HO as [-> | ->].
  - destruct (Z.ltb_spec z (- 2 ^ (fW fo - 1))), (Z.ltb_spec (2 ^ (fW fo - 1) - 1) z); lia.
  - cbv zeta. destruct (Z.ltb_spec z (- (2 ^ (fW fo - 1) - 1))), (Z.ltb_spec (2 ^ (fW fo - 1) - 1) z); lia.
Qed.
Section Out.
Variables (fo : fmt) (J : Z).
Hypotheses (HI : (1 <= fI fo)%Z) (HF : (0 <= fF fo)%Z) (HJ : loses fo J).
Let u := bpow2 (- fF fo).
Let v := IZR (1 + J) * u.
Lemma limit_unit z m : (Z.abs z <= 2 ^ fF fo)%Z -> is_limited (fO fo) (fS fo) (fW fo) z m -> (Z.abs (m - z) <= J)%Z.
Proof.
  destruct (W_ge fo HI HF) as (W1 & W3 & W4). intros Hz Hl. apply is_limited_unique in Hl; [|lia]. rewrite Hl. apply HJ. exact Hz.
Qed.
Lemma out_lost x : (Z.abs x <= 2 ^ fF fo)%Z -> (Z.abs (conv fo x (fF fo) - x) <= J)%Z.
Proof. intros Hz. rewrite conv_same_f. apply HJ. exact Hz. Qed.
Lemma lost_R x m : (Z.abs (m - x) <= J)%Z -> Rabs (fxval m (fF fo) - fxval x (fF fo)) <= IZR J * u.
Proof. intros H. apply IZR_le in H. rewrite abs_IZR, minus_IZR in H. unfold fxval, u. rewrite <- Rmult_minus_distr_r, Rabs_mult, (Rabs_pos_eq (bpow2 _)) by (left; apply bpow2_pos). apply Rmult_le_compat_r; [left; apply bpow2_pos|exact H]. Qed.
Lemma v_val : v = u + IZR J * u.
Proof. unfold v. rewrite plus_IZR. ring. Qed.
Lemma round_unit q V z : -1 <= V <= 1 -> is_roundR q (V * bpow2 (fF fo)) z -> (Z.abs z <= 2 ^ fF fo)%Z /\ Rabs (fxval z (fF fo) - V) <= u.
Proof.
  intros HV Hr. assert (P : bpow2 (fF fo) = IZR (2 ^ fF fo)) by (apply bpow2_IZR; exact HF). pose proof (bpow2_pos (fF fo)) as Q.
  assert (z <= 2 ^ fF fo)%Z by (apply (round_le _ _ _ _ Hr); rewrite <- P; nra). assert (- 2 ^ fF fo <= z)%Z by (apply (round_ge _ _ _ _ Hr); rewrite opp_IZR, <- P; nra). split; [lia|].
  pose proof (round_near _ _ _ Hr) as N. unfold fxval, u. assert (E : bpow2 (fF fo) * bpow2 (- fF fo) = 1) by (rewrite <- bpow2_add, Z.add_opp_diag_r; reflexivity).
  replace (IZR z * bpow2 (- fF fo) - V) with ((IZR z - V * bpow2 (fF fo)) * bpow2 (- fF fo)) by (rewrite Rmult_minus_distr_r, Rmult_assoc, E; ring).
  rewrite Rabs_mult, (Rabs_pos_eq (bpow2 (- fF fo))) by (left; apply bpow2_pos). pose proof (bpow2_pos (- fF fo)). nra.
Qed.
Lemma conv_unit x G : -1 <= fxval x G <= 1 -> Rabs (fxval (conv fo x G) (fF fo) - fxval x G) <= v.
Proof.
  destruct (W_ge fo HI HF) as (W1 & W3 & W4). intros HV. destruct (conv_R fo x G ltac:(lia)) as (z & Hr & Hl). destruct (round_unit _ _ _ HV Hr) as [A B]. pose proof (lost_R _ _ (limit_unit _ _ A Hl)) as L. rewrite v_val. apply Rabs_le_both in B, L. apply Rabs_le. lra.
Qed.
Lemma ent_unit x : 0 <= fxval x 62 <= 1 -> (Z.abs (conv (lut_fmt fo) x 62) <= 2 ^ fF fo)%Z /\ Rabs (fxval (conv (lut_fmt fo) x 62) (fF fo) - fxval x 62) <= u.
Proof.
  destruct (W_ge fo HI HF) as (W1 & W3 & W4). intros HV. destruct (conv_R (lut_fmt fo) x 62 ltac:(cbn; lia)) as (z & Hr & Hl). destruct (round_unit RND (fxval x 62) z ltac:(lra) Hr) as [A B].
  assert (0 <= z)%Z by (apply (round_ge _ _ _ _ Hr); pose proof (bpow2_pos (fF (lut_fmt fo))); nra). apply is_limited_unique in Hl; [|cbn; lia]. rewrite AcFacts.overflow_id in Hl; [|cbn; lia|unfold lut_fmt, in_range, imin, imax; cbn [fS fW]; lia|discriminate].
  rewrite Hl. split; assumption.
Qed.
Lemma tab_unit : forallb (fun e => (0 <=? fst e) && (fst e <=? 2 ^ 62) && (0 <=? snd e) && (snd e <=? 2 ^ 62))%Z lut_tab = true.
Proof. vm_compute. reflexivity. Qed.
Lemma fx62 x : (0 <= x <= 2 ^ 62)%Z -> 0 <= fxval x 62 <= 1.
Proof.
  intros [H1 H2]. apply IZR_le in H1, H2. unfold fxval. pose proof (bpow2_pos (- (62))) as P. assert (E : IZR (2 ^ 62) * bpow2 (- (62)) = 1) by (rewrite <- bpow2_IZR by lia; rewrite <- bpow2_add; reflexivity). split; [nra|]. rewrite <- E. apply Rmult_le_compat_r; lra.
Qed.
Lemma tab_in k : (0 <= k <= 511)%Z -> 0 <= fxval (fst (nth (Z.to_nat k) lut_tab (0, 0)%Z)) 62 <= 1 /\ 0 <= fxval (snd (nth (Z.to_nat k) lut_tab (0, 0)%Z)) 62 <= 1.
Proof.
  intros Hk. pose proof tab_unit as T. rewrite forallb_forall in T. assert (HL : length lut_tab = 512%nat) by reflexivity. specialize (T (nth (Z.to_nat k) lut_tab (0, 0)%Z)). cbv beta in T.
  specialize (T ltac:(apply nth_In; rewrite HL; lia)). rewrite !Bool.andb_true_iff, !Z.leb_le in T. split; apply fx62; lia.
Qed.
Lemma lut_out_near k s : (0 <= k <= 511)%Z ->
  Rabs (fxval (lut_out fo k s) (fF fo) - (if fst s then -1 else 1) * (if snd s then cos (IZR k * theta) else sin (IZR k * theta))) <= v + bpow2 (-46).
Proof.
  intros Hk. destruct (tab_in k Hk) as [T1 T2]. destruct (ent_unit _ T1) as [A1 B1]. destruct (ent_unit _ T2) as [A2 B2]. fold (lut_cos fo k) in A1, B1. fold (lut_sin fo k) in A2, B2. destruct (lut_near (Z.to_nat k) ltac:(lia)) as [N1 N2].
  rewrite INR_IZR_INZ, Z2Nat.id in N1, N2 by lia. rewrite v_val. unfold lut_out. apply Rabs_le_both in N1, N2, B1, B2. destruct s as [[] []]; cbn [fst snd];
  match goal with |- context [conv fo ?x (fF fo)] => pose proof (lost_R _ _ (out_lost x ltac:(lia))) as L end; rewrite ?fxval_opp in L; apply Rabs_le_both in L; apply Rabs_le; lra.
Qed.
Lemma lut_out_opp k b c : J = 0%Z -> (0 <= k <= 511)%Z -> lut_out fo k (negb b, c) = (- lut_out fo k (b, c))%Z.
Proof.
  intros E Hk. destruct (tab_in k Hk) as [T1 T2]. destruct (ent_unit _ T1) as [A1 _]. destruct (ent_unit _ T2) as [A2 _]. fold (lut_cos fo k) in A1. fold (lut_sin fo k) in A2.
  unfold lut_out. destruct b, c; cbn [fst snd negb];
  match goal with |- conv fo ?x (fF fo) = (- conv fo ?y (fF fo))%Z => pose proof (out_lost x ltac:(lia)); pose proof (out_lost y ltac:(lia)) end; lia.
Qed.
Lemma half_out : (Rabs (fxval (conv fo lut_half 62) (fF fo) - cos (512 * theta)) <= v + bpow2 (-46) /\ Rabs (fxval (conv fo lut_half 62) (fF fo) - sin (512 * theta)) <= v + bpow2 (-46)) /\
  Rabs (fxval (conv fo (- lut_half) 62) (fF fo) + cos (512 * theta)) <= v + bpow2 (-46) /\ Rabs (fxval (conv fo (- lut_half) 62) (fF fo) + sin (512 * theta)) <= v + bpow2 (-46).
Proof.
  destruct lut_half_near as [N1 N2]. pose proof (fx62 lut_half ltac:(unfold lut_half; lia)) as H. pose proof (conv_unit lut_half 62 ltac:(lra)) as A. pose proof (conv_unit (- lut_half) 62 ltac:(rewrite fxval_opp; lra)) as B.
  rewrite fxval_opp in B. apply Rabs_le_both in N1, N2, A, B. repeat split; apply Rabs_le; lra.
Qed.
End Out.

(** ** The function *)
Lemma pos_input F a : (1 <= F)%Z -> conv (dfmt F 0 false) a F = (a mod 2 ^ F)%Z.
Proof. intros H. replace F with (fF (dfmt F 0 false)) at 2 by (unfold fF, dfmt; cbn [fW fI]; lia). rewrite conv_same_f. reflexivity. Qed.
Definition view_sin (fo : fmt) (k o l : Z) : Z :=
  if ((l =? 0) && ((o =? 1) || (o =? 3)))%Z then conv fo lut_half 62 else if ((l =? 0) && ((o =? 5) || (o =? 7)))%Z then conv fo (- lut_half) 62 else lut_out fo (if Z.odd o then (512 - k) mod 512 else k)%Z (oct_sin o).
Definition view_cos (fo : fmt) (k o l : Z) : Z :=
  if ((l =? 0) && ((o =? 1) || (o =? 7)))%Z then conv fo lut_half 62 else if ((l =? 0) && ((o =? 3) || (o =? 5)))%Z then conv fo (- lut_half) 62 else lut_out fo (if Z.odd o then (512 - k) mod 512 else k)%Z (oct_cos o).
Lemma lut_view fi fo a o l : (3 <= fF fi <= 42)%Z -> (0 <= o <= 7)%Z -> (0 <= l < 2 ^ (fF fi - 3))%Z -> (a mod 2 ^ fF fi = o * 2 ^ (fF fi - 3) + l)%Z ->
  sincos_lut fi fo a = Some (view_sin fo (lut_index (fF fi) l) o l, view_cos fo (lut_index (fF fi) l) o l).
Proof.
  intros HF Ho Hl Hp. unfold sincos_lut. rewrite pos_input by lia. destruct (Z.leb_spec 43 (fF fi)); [lia|]. destruct (Z.leb_spec 3 (fF fi)); [|lia]. rewrite Hp. assert (D : ((o * 2 ^ (fF fi - 3) + l) / 2 ^ (fF fi - 3) = o)%Z) by (symmetry; apply Z.div_unique with l; lia). rewrite D.
  rewrite (lut_index_low (fF fi) (o * 2 ^ (fF fi - 3) + l) l) by (try lia; rewrite Z.add_comm; apply Z.mod_add; lia).
  assert (E : forall n, (0 <= n <= 7)%Z -> (o * 2 ^ (fF fi - 3) + l =? n * 2 ^ (fF fi - 3))%Z = ((l =? 0) && (o =? n))%Z).
  { intros n Hn. destruct (Z.eqb_spec l 0), (Z.eqb_spec o n); cbn [andb]; [apply Z.eqb_eq|apply Z.eqb_neq|apply Z.eqb_neq|apply Z.eqb_neq]; subst; try nia. }
  cbv zeta. rewrite !E by lia. unfold view_sin, view_cos. destruct (l =? 0)%Z; reflexivity.
Qed.
Lemma split_oct F a : (3 <= F)%Z -> exists o l, (0 <= o <= 7)%Z /\ (0 <= l < 2 ^ (F - 3))%Z /\ (a mod 2 ^ F = o * 2 ^ (F - 3) + l)%Z.
Proof.
  intros HF. assert (E : (2 ^ F = 8 * 2 ^ (F - 3))%Z) by (change 8%Z with (2 ^ 3)%Z; rewrite <- Z.pow_add_r by lia; f_equal; lia). assert (P : (0 < 2 ^ (F - 3))%Z) by (apply Z.pow_pos_nonneg; lia). pose proof (Z.mod_pos_bound a (2 ^ F) ltac:(lia)) as B.
  pose proof (Z.div_mod (a mod 2 ^ F) (2 ^ (F - 3)) ltac:(lia)) as D. pose proof (Z.mod_pos_bound (a mod 2 ^ F) (2 ^ (F - 3)) ltac:(lia)) as M. exists (a mod 2 ^ F / 2 ^ (F - 3))%Z, ((a mod 2 ^ F) mod 2 ^ (F - 3))%Z.
  split; [|split; [exact M|rewrite Z.mul_comm; exact D]]. split; [apply Z.div_pos; lia|]. assert (a mod 2 ^ F / 2 ^ (F - 3) < 8)%Z; [|lia]. apply Z.div_lt_upper_bound; lia.
Qed.
(** The angle, in turns of theta. *)
Lemma angle_oct F a o l : (3 <= F)%Z -> (a mod 2 ^ F = o * 2 ^ (F - 3) + l)%Z -> let x := IZR l * 512 * bpow2 (- (F - 3)) in
  sin (2 * PI * fxval a F) = sin ((IZR o * 512 + x) * theta) /\ cos (2 * PI * fxval a F) = cos ((IZR o * 512 + x) * theta).
Proof.
  intros HF E x. pose proof (Z.div_mod a (2 ^ F) ltac:(pose proof (Z.pow_pos_nonneg 2 F); lia)) as D. rewrite E in D. set (n := (a / 2 ^ F)%Z) in *. clearbody n.
  destruct (sin_per (2 * fxval (o * 2 ^ (F - 3) + l) F) n) as [A B].
  assert (P1 : IZR (2 ^ F) * bpow2 (- F) = 1) by (rewrite <- bpow2_IZR by lia; rewrite <- bpow2_add, Z.add_opp_diag_r; reflexivity).
  assert (P2 : IZR (2 ^ (F - 3)) * bpow2 (- (F - 3)) = 1) by (rewrite <- bpow2_IZR by lia; rewrite <- bpow2_add, Z.add_opp_diag_r; reflexivity).
  assert (P3 : bpow2 (- (F - 3)) = 8 * bpow2 (- F)) by (replace (- (F - 3))%Z with (3 + - F)%Z by lia; rewrite bpow2_add, bpow2_IZR by lia; reflexivity).
  assert (E1 : 2 * PI * fxval a F = PI * (2 * fxval (o * 2 ^ (F - 3) + l) F + 2 * IZR n)). { unfold fxval. rewrite D, !plus_IZR, !mult_IZR. transitivity (2 * PI * (IZR n * (IZR (2 ^ F) * bpow2 (- F)) + (IZR o * IZR (2 ^ (F - 3)) + IZR l) * bpow2 (- F))); [ring|]. rewrite P1. ring. }
  assert (E2 : PI * (2 * fxval (o * 2 ^ (F - 3) + l) F) = (IZR o * 512 + x) * theta). { unfold fxval, x, theta. rewrite plus_IZR, mult_IZR. rewrite P3 in *. transitivity (PI / 4 * (IZR o * (IZR (2 ^ (F - 3)) * (8 * bpow2 (- F))) + IZR l * (8 * bpow2 (- F)))); [field|]. rewrite P2. field. }
  rewrite E1, A, B, E2. split; reflexivity.
Qed.

Section Acc.
Variables (fo : fmt) (J : Z).
Hypotheses (HI : (1 <= fI fo)%Z) (HF : (0 <= fF fo)%Z) (HJ : loses fo J).
Let v := IZR (1 + J) * bpow2 (- fF fo).

Lemma view_near k o l : (0 <= k <= 511)%Z -> (k = 0 <-> l = 0)%Z -> (0 <= o <= 7)%Z ->
  Rabs (fxval (view_sin fo k o l) (fF fo) - sin ((IZR o * 512 + IZR k) * theta)) <= v + bpow2 (-46) /\ Rabs (fxval (view_cos fo k o l) (fF fo) - cos ((IZR o * 512 + IZR k) * theta)) <= v + bpow2 (-46).
Proof.
  intros Hk Hkl Ho. destruct (half_out fo J HI HF HJ) as ((Q1 & Q2) & Q3 & Q4). fold v in Q1, Q2, Q3, Q4.
  destruct (Bool.bool_dec (Z.odd o && (l =? 0)%Z) true) as [X|X].
  - apply Bool.andb_true_iff in X as [O L]. apply Z.eqb_eq in L. assert (k = 0)%Z by tauto. subst l k. pose proof (oct_trig o 512 0 Ho) as T. rewrite O in T. destruct T as [T1 T2]; [lra|]. rewrite T1, T2. unfold view_sin, view_cos.
    assert (o = 1 \/ o = 3 \/ o = 5 \/ o = 7)%Z as C by (destruct (Z.odd_spec o) as [C _]; destruct (C O); lia). destruct C as [->|[->|[->| ->]]]; cbn [Z.eqb Pos.eqb andb orb oct_sin oct_cos fst snd]; split; rewrite ?Rmult_1_l; try assumption;
    match goal with |- Rabs (?a - -1 * ?b) <= _ => replace (a - -1 * b) with (a + b) by ring end; assumption.
  - assert (V : view_sin fo k o l = lut_out fo (if Z.odd o then 512 - k else k)%Z (oct_sin o) /\ view_cos fo k o l = lut_out fo (if Z.odd o then 512 - k else k)%Z (oct_cos o)).
    { unfold view_sin, view_cos. destruct (Z.odd o) eqn:O; cbn [andb] in X.
      - destruct (Z.eqb_spec l 0); [congruence|]. cbn [andb]. rewrite Z.mod_small by lia. split; reflexivity.
      - assert (o <> 1 /\ o <> 3 /\ o <> 5 /\ o <> 7)%Z as (C1 & C2 & C3 & C4) by (repeat split; intros ->; discriminate O). apply Z.eqb_neq in C1, C2, C3, C4. rewrite C1, C2, C3, C4. rewrite !Bool.andb_false_r. split; reflexivity. }
    destruct V as [-> ->]. pose proof (oct_trig o (if Z.odd o then 512 - IZR k else IZR k) (IZR k) Ho eq_refl) as [T1 T2]. rewrite T1, T2.
    assert (B : (0 <= (if Z.odd o then 512 - k else k) <= 511)%Z) by (destruct (Z.odd o); [cbn [andb] in X; destruct (Z.eqb_spec l 0); [congruence|lia]|lia]).
    pose proof (lut_out_near fo J HI HF HJ _ (oct_sin o) B) as A1. pose proof (lut_out_near fo J HI HF HJ _ (oct_cos o) B) as A2.
    assert (E : IZR (if Z.odd o then 512 - k else k)%Z = if Z.odd o then 512 - IZR k else IZR k) by (destruct (Z.odd o); [apply minus_IZR|reflexivity]). rewrite E in A1, A2. split; assumption.
Qed.

Lemma lut_acc fi a : (1 <= fF fi <= 42)%Z -> exists s c, sincos_lut fi fo a = Some (s, c) /\
  Rabs (fxval s (fF fo) - sin (2 * PI * fxval a (fF fi))) <= IZR (1 + J) * bpow2 (- fF fo) + bpow2 (-46) + (if (fF fi <=? 12)%Z then 0 else PI / 2048) /\
  Rabs (fxval c (fF fo) - cos (2 * PI * fxval a (fF fi))) <= IZR (1 + J) * bpow2 (- fF fo) + bpow2 (-46) + (if (fF fi <=? 12)%Z then 0 else PI / 2048).
Proof.
  intros HFi. fold v. destruct (Z_le_gt_dec 3 (fF fi)) as [H3|H3].
  - destruct (split_oct (fF fi) a H3) as (o & l & Ho & Hl & E). exists (view_sin fo (lut_index (fF fi) l) o l), (view_cos fo (lut_index (fF fi) l) o l). split; [apply lut_view; try assumption; lia|].
    destruct (angle_oct _ _ _ _ H3 E) as [-> ->]. pose proof (lut_index_spec (fF fi) l H3) as S. cbv zeta in S. rewrite Z.mod_small in S by lia. destruct S as (K1 & K2 & K3 & K4). set (k := lut_index (fF fi) l) in *. clearbody k.
    destruct (view_near k o l K1 K2 Ho) as [A B]. set (x := IZR l * 512 * bpow2 (- (fF fi - 3))) in *.
    assert (P2 : IZR (2 ^ (fF fi - 3)) * bpow2 (- (fF fi - 3)) = 1) by (rewrite <- bpow2_IZR by lia; rewrite <- bpow2_add, Z.add_opp_diag_r; reflexivity). pose proof (bpow2_pos (- (fF fi - 3))) as P.
    destruct (Z.leb_spec (fF fi) 12) as [H12|H12].
    + assert (X : x = IZR k). { specialize (K3 H12). apply (f_equal IZR) in K3. rewrite !mult_IZR in K3. unfold x. rewrite K3, Rmult_assoc, P2. ring. } rewrite X, Rplus_0_r. split; assumption.
    + assert (X : Rabs (IZR k - x) <= 1). { apply IZR_le in K4. rewrite abs_IZR, minus_IZR, !mult_IZR in K4. replace (IZR k - x) with (- ((IZR l * 512 - IZR k * IZR (2 ^ (fF fi - 3))) * bpow2 (- (fF fi - 3)))) by (unfold x; rewrite Rmult_minus_distr_r, Rmult_assoc with (r1 := IZR k), P2; ring). rewrite Rabs_Ropp, Rabs_mult, (Rabs_pos_eq (bpow2 _)) by lra. rewrite <- P2. apply Rmult_le_compat_r; lra. }
      pose proof (sin_lip ((IZR o * 512 + IZR k) * theta) ((IZR o * 512 + x) * theta)) as L1. pose proof (cos_lip ((IZR o * 512 + IZR k) * theta) ((IZR o * 512 + x) * theta)) as L2.
      assert (D : Rabs ((IZR o * 512 + IZR k) * theta - (IZR o * 512 + x) * theta) <= PI / 2048). { replace ((IZR o * 512 + IZR k) * theta - (IZR o * 512 + x) * theta) with ((IZR k - x) * theta) by ring. assert (0 < theta) by (unfold theta; pose proof PI_RGT_0; lra). rewrite Rabs_mult, (Rabs_pos_eq theta) by lra. unfold theta in *. nra. }
      assert (D1 : Rabs (sin ((IZR o * 512 + IZR k) * theta) - sin ((IZR o * 512 + x) * theta)) <= PI / 2048) by lra. assert (D2 : Rabs (cos ((IZR o * 512 + IZR k) * theta) - cos ((IZR o * 512 + x) * theta)) <= PI / 2048) by lra. clear D L1 L2.
      apply Rabs_le_both in A, B, D1, D2. split; apply Rabs_le; lra.
  - unfold sincos_lut. rewrite pos_input by lia. destruct (Z.leb_spec 43 (fF fi)); [lia|]. destruct (Z.leb_spec 3 (fF fi)); [lia|]. destruct (Z.leb_spec (fF fi) 12); [|lia]. eexists _, _. split; [reflexivity|]. rewrite Rplus_0_r. cbv zeta.
    assert (P46 : 0 < bpow2 (-46)) by apply bpow2_pos.
    assert (U0 : Rabs (fxval (conv fo 0 0) (fF fo) - 0) <= v) by (pose proof (conv_unit fo J HI HF HJ 0 0 ltac:(rewrite fxval_0; lra)) as A; rewrite fxval_0 in A; exact A).
    assert (U1 : Rabs (fxval (conv fo 1 0) (fF fo) - 1) <= v). { assert (E : fxval 1 0 = 1) by (unfold fxval; change (bpow2 (- 0)) with 1; ring). pose proof (conv_unit fo J HI HF HJ 1 0 ltac:(rewrite E; lra)) as A. rewrite E in A. exact A. }
    assert (U2 : Rabs (fxval (conv fo (-1) 0) (fF fo) - -1) <= v). { assert (E : fxval (-1) 0 = -1) by (unfold fxval; change (bpow2 (- 0)) with 1; ring). pose proof (conv_unit fo J HI HF HJ (-1) 0 ltac:(rewrite E; lra)) as A. rewrite E in A. exact A. }
    pose proof (Z.div_mod a (2 ^ fF fi) ltac:(pose proof (Z.pow_pos_nonneg 2 (fF fi)); lia)) as D. pose proof (Z.mod_pos_bound a (2 ^ fF fi) ltac:(apply Z.pow_pos_nonneg; lia)) as M. set (n := (a / 2 ^ fF fi)%Z) in *. set (p := (a mod 2 ^ fF fi)%Z) in *. clearbody n p.
    assert (EA : exists m, (4 * p = m * 2 ^ fF fi)%Z /\ (0 <= m <= 3)%Z) by (assert (X12 : (fF fi = 1 \/ fF fi = 2)%Z) by lia; destruct X12 as [X12|X12]; rewrite X12 in *; [exists (2 * p)%Z|exists p]; change (2 ^ 1)%Z with 2%Z in *; change (2 ^ 2)%Z with 4%Z in *; lia). destruct EA as (m & Em & Hm).
    destruct (sin_per (IZR m / 2) n) as [A B].
    assert (E1 : 2 * PI * fxval a (fF fi) = PI * (IZR m / 2 + 2 * IZR n)). { assert (P1 : IZR (2 ^ fF fi) * bpow2 (- fF fi) = 1) by (rewrite <- bpow2_IZR by lia; rewrite <- bpow2_add, Z.add_opp_diag_r; reflexivity). apply (f_equal IZR) in Em. rewrite !mult_IZR in Em. unfold fxval. rewrite D, plus_IZR, mult_IZR.
      transitivity (2 * PI * (IZR n * (IZR (2 ^ fF fi) * bpow2 (- fF fi)) + (4 * IZR p) * bpow2 (- fF fi) / 4)); [field|]. rewrite Em. transitivity (2 * PI * (IZR n * (IZR (2 ^ fF fi) * bpow2 (- fF fi)) + IZR m * (IZR (2 ^ fF fi) * bpow2 (- fF fi)) / 4)); [field|]. rewrite P1. field. }
    rewrite E1, A, B, Em. assert (QP : (0 < 2 ^ fF fi)%Z) by (apply Z.pow_pos_nonneg; lia).
    assert (EQ : forall i, (m * 2 ^ fF fi =? i * 2 ^ fF fi)%Z = (m =? i)%Z) by (intros i; destruct (Z.eqb_spec m i); [subst; apply Z.eqb_refl|apply Z.eqb_neq; nia]). rewrite !EQ.
    assert (S1 : sin (PI * (3 / 2)) = -1) by (replace (PI * (3 / 2)) with (3 * (PI / 2)) by field; apply sin_3PI2). assert (C1 : cos (PI * (3 / 2)) = 0) by (replace (PI * (3 / 2)) with (3 * (PI / 2)) by field; apply cos_3PI2).
    assert (m = 0 \/ m = 1 \/ m = 2 \/ m = 3)%Z as [->|[->|[->| ->]]] by lia; cbn [Z.eqb Pos.eqb].
    + replace (PI * (0 / 2)) with 0 by field. rewrite sin_0, cos_0. split; lra.
    + replace (PI * (1 / 2)) with (PI / 2) by field. rewrite sin_PI2, cos_PI2. split; lra.
    + replace (PI * (2 / 2)) with PI by field. rewrite sin_PI, cos_PI. split; lra.
    + rewrite S1, C1. split; lra.
Qed.
End Acc.

Lemma lut_acc_2 fi fo a : fS fo = true -> (2 <= fI fo)%Z -> (0 <= fF fo)%Z -> (1 <= fF fi <= 42)%Z -> exists s c, sincos_lut fi fo a = Some (s, c) /\
  Rabs (fxval s (fF fo) - sin (2 * PI * fxval a (fF fi))) <= bpow2 (- fF fo) + bpow2 (-46) + (if (fF fi <=? 12)%Z then 0 else PI / 2048) /\
  Rabs (fxval c (fF fo) - cos (2 * PI * fxval a (fF fi))) <= bpow2 (- fF fo) + bpow2 (-46) + (if (fF fi <=? 12)%Z then 0 else PI / 2048).
Proof. intros HS HI HF HA. pose proof (lut_acc fo 0 ltac:(lia) HF (loses_0 fo HS HI HF) fi a HA) as H. change (1 + 0)%Z with 1%Z in H. rewrite Rmult_1_l in H. exact H. Qed.
Lemma lut_acc_1 fi fo a : fS fo = true -> fI fo = 1%Z -> (0 <= fF fo)%Z -> fO fo = SAT \/ fO fo = SAT_SYM -> (1 <= fF fi <= 42)%Z -> exists s c, sincos_lut fi fo a = Some (s, c) /\
  Rabs (fxval s (fF fo) - sin (2 * PI * fxval a (fF fi))) <= 2 * bpow2 (- fF fo) + bpow2 (-46) + (if (fF fi <=? 12)%Z then 0 else PI / 2048) /\
  Rabs (fxval c (fF fo) - cos (2 * PI * fxval a (fF fi))) <= 2 * bpow2 (- fF fo) + bpow2 (-46) + (if (fF fi <=? 12)%Z then 0 else PI / 2048).
Proof. intros HS HI HF HO HA. exact (lut_acc fo 1 ltac:(lia) HF (loses_1 fo HS HI HF HO) fi a HA). Qed.

(** ** Periods and symmetries *)
Lemma lut_period fi fi' fo a a' : (1 <= fF fi)%Z -> fF fi = fF fi' -> ((a - a') mod 2 ^ fF fi = 0)%Z -> sincos_lut fi fo a = sincos_lut fi' fo a'.
Proof.
  intros HF E H. unfold sincos_lut. rewrite <- E. rewrite !pos_input by lia. assert (M : (a mod 2 ^ fF fi = a' mod 2 ^ fF fi)%Z).
  { assert (0 < 2 ^ fF fi)%Z by (apply Z.pow_pos_nonneg; lia). apply Z.mod_divide in H; [|lia]. destruct H as (c & H). replace a with (a' + c * 2 ^ fF fi)%Z by lia. apply Z.mod_add. lia. }
  rewrite M. reflexivity.
Qed.
(** Adding n eighths of a turn. *)
Lemma mod_eighth F a o l n : (3 <= F)%Z -> (0 <= l < 2 ^ (F - 3))%Z -> (a mod 2 ^ F = o * 2 ^ (F - 3) + l)%Z -> ((a + n * 2 ^ (F - 3)) mod 2 ^ F = ((o + n) mod 8) * 2 ^ (F - 3) + l)%Z.
Proof.
  intros HF Hl E. assert (E8 : (2 ^ F = 8 * 2 ^ (F - 3))%Z) by (change 8%Z with (2 ^ 3)%Z; rewrite <- Z.pow_add_r by lia; f_equal; lia). assert (P : (0 < 2 ^ (F - 3))%Z) by (apply Z.pow_pos_nonneg; lia).
  rewrite Z.add_mod_idemp_l with (a := a) || rewrite <- (Z.add_mod_idemp_l a) by lia. rewrite E. pose proof (Z.div_mod (o + n) 8 ltac:(lia)) as D. pose proof (Z.mod_pos_bound (o + n) 8 ltac:(lia)) as M. symmetry. apply Z.mod_unique with ((o + n) / 8)%Z; [left; nia|nia].
Qed.
Lemma oct8 o (Q : Z -> Prop) : (0 <= o <= 7)%Z -> Q 0%Z -> Q 1%Z -> Q 2%Z -> Q 3%Z -> Q 4%Z -> Q 5%Z -> Q 6%Z -> Q 7%Z -> Q o.
Proof. intros H. assert (o = 0 \/ o = 1 \/ o = 2 \/ o = 3 \/ o = 4 \/ o = 5 \/ o = 6 \/ o = 7)%Z as [->|[->|[->|[->|[->|[->|[->| ->]]]]]]] by lia; auto. Qed.
Lemma lut_quarter fi fo a : (2 <= fF fi <= 42)%Z -> exists s c c', sincos_lut fi fo a = Some (s, c) /\ sincos_lut fi fo (a + 2 ^ (fF fi - 2)) = Some (c, c').
Proof.
  intros HF. destruct (Z_le_gt_dec 3 (fF fi)) as [H3|H3].
  - destruct (split_oct (fF fi) a H3) as (o & l & Ho & Hl & E). pose proof (mod_eighth _ _ _ _ 2 H3 Hl E) as E2. replace (2 * 2 ^ (fF fi - 3))%Z with (2 ^ (fF fi - 2))%Z in E2 by (change 2%Z with (2 ^ 1)%Z at 3; rewrite <- Z.pow_add_r by lia; f_equal; lia).
    pose proof (Z.mod_pos_bound (o + 2) 8 ltac:(lia)) as M. rewrite (lut_view fi fo a o l), (lut_view fi fo _ ((o + 2) mod 8) l) by (assumption || lia). eexists _, _, _. split; [reflexivity|]. f_equal. f_equal.
    revert Ho. set (k := lut_index (fF fi) l). clearbody k. intros Ho. unfold view_sin, view_cos. clear E E2 M. revert o Ho. intros o Ho. pattern o. apply oct8; [exact Ho|..]; destruct (l =? 0)%Z; reflexivity.
  - assert (fF fi = 2)%Z as E by lia. unfold sincos_lut. rewrite E. rewrite !pos_input by lia. change (2 ^ 2)%Z with 4%Z. change (2 ^ (2 - 2))%Z with 1%Z. cbn [Z.leb Z.compare Pos.compare Pos.compare_cont].
    rewrite <- (Z.add_mod_idemp_l a) by lia. pose proof (Z.mod_pos_bound a 4 ltac:(lia)) as M. set (p := (a mod 4)%Z) in *. clearbody p. eexists _, _, _. split; [reflexivity|].
    assert (p = 0 \/ p = 1 \/ p = 2 \/ p = 3)%Z as [->|[->|[->| ->]]] by lia; reflexivity.
Qed.
Lemma lut_half_turn fi fo a : fS fo = true -> (2 <= fI fo)%Z -> (0 <= fF fo)%Z -> (3 <= fF fi <= 42)%Z -> (a mod 2 ^ (fF fi - 2) <> 2 ^ (fF fi - 3))%Z ->
  exists s c, sincos_lut fi fo a = Some (s, c) /\ sincos_lut fi fo (a + 2 ^ (fF fi - 1)) = Some (- s, - c)%Z.
Proof.
  intros HS HI HFo HF HN. destruct (split_oct (fF fi) a ltac:(lia)) as (o & l & Ho & Hl & E). pose proof (mod_eighth (fF fi) a o l 4 ltac:(lia) Hl E) as E2. replace (4 * 2 ^ (fF fi - 3))%Z with (2 ^ (fF fi - 1))%Z in E2 by (change 4%Z with (2 ^ 2)%Z; rewrite <- Z.pow_add_r by lia; f_equal; lia).
  assert (X : ~ (Z.odd o = true /\ l = 0%Z)). { intros [O ->]. apply HN. assert (P2 : (2 ^ (fF fi - 2) = 2 * 2 ^ (fF fi - 3))%Z) by (change 2%Z with (2 ^ 1)%Z at 3; rewrite <- Z.pow_add_r by lia; f_equal; lia). assert (P : (0 < 2 ^ (fF fi - 3))%Z) by (apply Z.pow_pos_nonneg; lia).
    rewrite (Znumtheory.Zmod_div_mod (2 ^ (fF fi - 2)) (2 ^ fF fi) a) by (try apply Z.pow_pos_nonneg; try lia; exists 4%Z; change 4%Z with (2 ^ 2)%Z; rewrite <- Z.pow_add_r by lia; f_equal; lia). rewrite E. symmetry. apply Z.odd_spec in O as (m & ->). apply Z.mod_unique with m; [left; lia|rewrite P2; ring]. }
  pose proof (Z.mod_pos_bound (o + 4) 8 ltac:(lia)) as M. rewrite (lut_view fi fo a o l), (lut_view fi fo _ ((o + 4) mod 8) l) by (assumption || lia). eexists _, _. split; [reflexivity|].
  pose proof (lut_index_spec (fF fi) l ltac:(lia)) as S. cbv zeta in S. rewrite Z.mod_small in S by lia. destruct S as (K1 & K2 & _). set (k := lut_index (fF fi) l) in *. clearbody k.
  assert (OP : forall kk b c, (0 <= kk <= 511)%Z -> lut_out fo kk (negb b, c) = (- lut_out fo kk (b, c))%Z) by (intros kk b c Hkk; apply (lut_out_opp fo 0 ltac:(lia) HFo (loses_0 fo HS HI HFo)); [reflexivity|exact Hkk]).
  unfold view_sin, view_cos. clear E E2 M HN.
  assert (KB : l <> 0%Z -> ((512 - k) mod 512 = 512 - k)%Z /\ (0 <= 512 - k <= 511)%Z) by (intros L; rewrite Z.mod_small by lia; lia).
  assert (G : forall b1 b2 b3 b4 : bool * bool, fst b2 = negb (fst b1) -> snd b2 = snd b1 -> fst b4 = negb (fst b3) -> snd b4 = snd b3 -> forall kk, (0 <= kk <= 511)%Z -> Some (lut_out fo kk b2, lut_out fo kk b4) = Some (- lut_out fo kk b1, - lut_out fo kk b3)%Z).
  { intros [] [] [] []; cbn [fst snd]; intros -> -> -> -> kk Hkk. rewrite !OP by exact Hkk. reflexivity. }
  destruct (Z.eqb_spec l 0) as [L|L].
  - assert (O : Z.odd o = false) by (destruct (Z.odd o); [exfalso; apply X; split; [reflexivity|exact L]|reflexivity]). revert O. clear X. pattern o. apply oct8; [exact Ho|..]; intros O; try discriminate O; cbn -[lut_out conv]; apply G; try reflexivity; exact K1.
  - destruct (KB L) as [-> KB2]. clear X KB. pattern o. apply oct8; [exact Ho|..]; cbn -[lut_out conv Z.sub]; apply G; try reflexivity; assumption.
Qed.
Lemma opp_mod_0 a P o n : (0 < P)%Z -> (a = 8 * P * n + (o * P + 0))%Z -> ((- a) mod (8 * P) = ((8 - o) mod 8) * P + 0)%Z.
Proof.
  intros HP E. pose proof (Z.div_mod (8 - o) 8 ltac:(lia)) as D. pose proof (Z.mod_pos_bound (8 - o) 8 ltac:(lia)) as M. set (q := ((8 - o) / 8)%Z) in *. set (r := ((8 - o) mod 8)%Z) in *. clearbody q r.
  symmetry. apply Z.mod_unique with (q - 1 - n)%Z; [left; nia|]. assert (o = 8 - 8 * q - r)%Z by lia. subst o a. ring.
Qed.
Lemma opp_mod_1 a P o l n : (0 < l < P)%Z -> (0 <= o <= 7)%Z -> (a = 8 * P * n + (o * P + l))%Z -> ((- a) mod (8 * P) = (7 - o) * P + (P - l))%Z.
Proof. intros HP Ho E. symmetry. apply Z.mod_unique with (- 1 - n)%Z; [left; nia|]. subst a. ring. Qed.
Lemma lut_opp fi fo a : fS fo = true -> (2 <= fI fo)%Z -> (0 <= fF fo)%Z -> (3 <= fF fi <= 42)%Z -> (a mod 2 ^ (fF fi - 2) <> 2 ^ (fF fi - 3))%Z -> (13 <= fF fi -> a mod 2 ^ (fF fi - 12) <> 2 ^ (fF fi - 13))%Z ->
  exists s c, sincos_lut fi fo a = Some (s, c) /\ sincos_lut fi fo (- a) = Some (- s, c)%Z.
Proof.
  intros HS HI HFo HF HN HT. destruct (split_oct (fF fi) a ltac:(lia)) as (o & l & Ho & Hl & E).
  assert (E8 : (2 ^ fF fi = 8 * 2 ^ (fF fi - 3))%Z) by (change 8%Z with (2 ^ 3)%Z; rewrite <- Z.pow_add_r by lia; f_equal; lia). assert (P : (0 < 2 ^ (fF fi - 3))%Z) by (apply Z.pow_pos_nonneg; lia).
  assert (X : ~ (Z.odd o = true /\ l = 0%Z)). { intros [O ->]. apply HN. assert (P2 : (2 ^ (fF fi - 2) = 2 * 2 ^ (fF fi - 3))%Z) by (change 2%Z with (2 ^ 1)%Z at 3; rewrite <- Z.pow_add_r by lia; f_equal; lia).
    rewrite (Znumtheory.Zmod_div_mod (2 ^ (fF fi - 2)) (2 ^ fF fi) a) by (try apply Z.pow_pos_nonneg; try lia; exists 4%Z; change 4%Z with (2 ^ 2)%Z; rewrite <- Z.pow_add_r by lia; f_equal; lia). rewrite E. symmetry. apply Z.odd_spec in O as (m & ->). apply Z.mod_unique with m; [left; lia|rewrite P2; ring]. }
  assert (OP : forall kk b c, (0 <= kk <= 511)%Z -> lut_out fo kk (negb b, c) = (- lut_out fo kk (b, c))%Z) by (intros kk b c Hkk; apply (lut_out_opp fo 0 ltac:(lia) HFo (loses_0 fo HS HI HFo)); [reflexivity|exact Hkk]).
  assert (OP2 : forall kk c, (0 <= kk <= 511)%Z -> lut_out fo kk (true, c) = (- lut_out fo kk (false, c))%Z) by (intros kk c Hkk; exact (OP kk false c Hkk)).
  assert (Z0 : lut_out fo 0 (false, false) = 0%Z). { unfold lut_out. cbn [fst snd]. change (lut_sin fo 0) with (conv (lut_fmt fo) 0 62). rewrite !AbsProofs.conv_0; [reflexivity|unfold fF in *; lia|unfold fF in *; cbn [lut_fmt fW]; lia]. }
  pose proof (Z.div_mod a (2 ^ fF fi) ltac:(lia)) as DM. rewrite E in DM.
  destruct (Z.eqb_spec l 0) as [L|L].
  - subst l. assert (O : Z.odd o = false) by (destruct (Z.odd o); [exfalso; apply X; split; reflexivity|reflexivity]).
    assert (E2 : ((- a) mod 2 ^ fF fi = ((8 - o) mod 8) * 2 ^ (fF fi - 3) + 0)%Z). { rewrite E8. apply opp_mod_0 with (a / 2 ^ fF fi)%Z; [exact P|]. rewrite <- E8. exact DM. }
    rewrite (lut_view fi fo a o 0), (lut_view fi fo _ ((8 - o) mod 8) 0) by (try assumption; try lia; pose proof (Z.mod_pos_bound (8 - o) 8 ltac:(lia)); lia). eexists _, _. split; [reflexivity|].
    pose proof (lut_index_spec (fF fi) 0 ltac:(lia)) as S. cbv zeta in S. rewrite Z.mod_0_l in S by lia. destruct S as (_ & K2 & _). assert (K : lut_index (fF fi) 0 = 0%Z) by tauto. rewrite K. unfold view_sin, view_cos. clear E E2 DM X K K2. revert O. pattern o. apply oct8; [exact Ho|..]; intros O; try discriminate O; cbn -[lut_out conv]; rewrite ?OP2, ?Z0 by lia; f_equal; f_equal; lia.
  - assert (E2 : ((- a) mod 2 ^ fF fi = (7 - o) * 2 ^ (fF fi - 3) + (2 ^ (fF fi - 3) - l))%Z). { rewrite E8. apply opp_mod_1 with (a / 2 ^ fF fi)%Z; [lia|exact Ho|]. rewrite <- E8. exact DM. }
    rewrite (lut_view fi fo a o l), (lut_view fi fo _ (7 - o) (2 ^ (fF fi - 3) - l)) by (assumption || lia). eexists _, _. split; [reflexivity|].
    assert (KO : lut_index (fF fi) (2 ^ (fF fi - 3) - l) = (512 - lut_index (fF fi) l)%Z). { apply lut_index_opp; [lia|replace (l + (2 ^ (fF fi - 3) - l))%Z with (1 * 2 ^ (fF fi - 3))%Z by ring; apply Z.mod_mul; lia|rewrite Z.mod_small by lia; exact L|]. intros H13. specialize (HT H13). intros C. apply HT. rewrite <- C.
      assert (PD : (0 < 2 ^ (fF fi - 12))%Z) by (apply Z.pow_pos_nonneg; lia). assert (E9 : (2 ^ (fF fi - 3) = 512 * 2 ^ (fF fi - 12))%Z) by (change 512%Z with (2 ^ 9)%Z; rewrite <- Z.pow_add_r by lia; f_equal; lia). rewrite DM, E8, E9. replace (8 * (512 * 2 ^ (fF fi - 12)) * (a / (8 * (512 * 2 ^ (fF fi - 12)))) + (o * (512 * 2 ^ (fF fi - 12)) + l))%Z with (l + (8 * 512 * (a / (8 * (512 * 2 ^ (fF fi - 12)))) + o * 512) * 2 ^ (fF fi - 12))%Z by ring. apply Z.mod_add. lia. }
    rewrite KO. pose proof (lut_index_spec (fF fi) l ltac:(lia)) as S. cbv zeta in S. rewrite Z.mod_small in S by lia. destruct S as (K1 & K2 & _). set (k := lut_index (fF fi) l) in *. clearbody k. assert (K3 : (1 <= k)%Z) by lia.
    unfold view_sin, view_cos. destruct (Z.eqb_spec (2 ^ (fF fi - 3) - l) 0); [lia|]. destruct (Z.eqb_spec l 0); [lia|]. cbn [andb]. replace (512 - (512 - k))%Z with k by ring. rewrite !Z.mod_small by lia.
    clear E E2 DM X KO. assert (K4 : (0 <= 512 - k <= 511)%Z) by lia. set (k2 := (512 - k)%Z) in *. clearbody k2. pattern o. apply oct8; [exact Ho|..]; cbn -[lut_out conv]; rewrite ?OP2 by lia; f_equal; f_equal; lia.
Qed.

(** ** Where it fails *)
Lemma lut_wide_undefined fi fo a : (43 <= fF fi)%Z -> sincos_lut fi fo a = None.
Proof. intros H. unfold sincos_lut. destruct (Z.leb_spec 43 (fF fi)); [reflexivity|lia]. Qed.
Lemma lut_half_turn_false : ~ (forall fi fo a, fS fo = true -> (2 <= fI fo)%Z -> (0 <= fF fo)%Z -> (3 <= fF fi <= 12)%Z -> exists s c, sincos_lut fi fo a = Some (s, c) /\ sincos_lut fi fo (a + 2 ^ (fF fi - 1)) = Some (- s, - c)%Z).
Proof.
  intros H. destruct (H (dfmt 12 0 true) (dfmt 16 2 true) 512%Z eq_refl ltac:(cbv; discriminate) ltac:(cbv; discriminate) ltac:(cbv; split; discriminate)) as (s & c & A & B).
  assert (E1 : sincos_lut (dfmt 12 0 true) (dfmt 16 2 true) 512 = Some (11585, 11585)%Z) by (vm_compute; reflexivity). assert (E2 : sincos_lut (dfmt 12 0 true) (dfmt 16 2 true) (512 + 2 ^ (fF (dfmt 12 0 true) - 1)) = Some (-11586, -11586)%Z) by (vm_compute; reflexivity).
  rewrite E1 in A. rewrite E2 in B. injection A as <- <-. discriminate B.
Qed.
Lemma lut_opp_false : ~ (forall fi fo a, fS fo = true -> (2 <= fI fo)%Z -> (0 <= fF fo)%Z -> (3 <= fF fi <= 42)%Z -> (a mod 2 ^ (fF fi - 2) <> 2 ^ (fF fi - 3))%Z -> exists s c, sincos_lut fi fo a = Some (s, c) /\ sincos_lut fi fo (- a) = Some (- s, c)%Z).
Proof.
  intros H. destruct (H (dfmt 14 1 true) (dfmt 16 2 true) 3%Z eq_refl ltac:(cbv; discriminate) ltac:(cbv; discriminate) ltac:(cbv; split; discriminate) ltac:(cbv; discriminate)) as (s & c & A & B).
  assert (E1 : sincos_lut (dfmt 14 1 true) (dfmt 16 2 true) 3 = Some (25, 16384)%Z) by (vm_compute; reflexivity). assert (E2 : sincos_lut (dfmt 14 1 true) (dfmt 16 2 true) (- (3)) = Some (-50, 16384)%Z) by (vm_compute; reflexivity).
  rewrite E1 in A. rewrite E2 in B. injection A as <- <-. discriminate B.
Qed.
(** An angle of 2^-20 turns gives the sine of 2^-12 turns. *)
Lemma lut_fine_false : ~ (forall fi fo a, fS fo = true -> (2 <= fI fo)%Z -> (20 <= fF fo)%Z -> (1 <= fF fi <= 42)%Z -> exists s c, sincos_lut fi fo a = Some (s, c) /\ Rabs (fxval s (fF fo) - sin (2 * PI * fxval a (fF fi))) <= / 1024).
Proof.
  intros H. destruct (H (dfmt 20 0 true) (dfmt 24 2 true) 1%Z eq_refl ltac:(cbv; discriminate) ltac:(cbv; discriminate) ltac:(cbv; split; discriminate)) as (s & c & A & B).
  assert (E1 : sincos_lut (dfmt 20 0 true) (dfmt 24 2 true) 1 = Some (6434, 4194299)%Z) by (vm_compute; reflexivity). rewrite E1 in A. injection A as <- <-. change (fF (dfmt 24 2 true)) with 22%Z in B. change (fF (dfmt 20 0 true)) with 20%Z in B.
  unfold fxval in B. assert (P22 : bpow2 (- (22)) = / 4194304) by (rewrite bpow2_opp, bpow2_IZR by lia; reflexivity). assert (P20 : bpow2 (- (20)) = / 1048576) by (rewrite bpow2_opp, bpow2_IZR by lia; reflexivity). rewrite P22, P20 in B.
  assert (Q : sin (2 * PI * (1 * / 1048576)) < 2 * PI * (1 * / 1048576)) by (apply sin_lt_x; pose proof PI_RGT_0; lra). pose proof PI_4. apply Rabs_le_both in B. lra.
Qed.
(** With one integer bit and AC_WRAP the cosine of 0 is -1. *)
Lemma lut_one_int_false : ~ (forall fi fo a, fS fo = true -> (1 <= fI fo)%Z -> (0 <= fF fo)%Z -> (1 <= fF fi <= 12)%Z -> exists s c, sincos_lut fi fo a = Some (s, c) /\ Rabs (fxval c (fF fo) - cos (2 * PI * fxval a (fF fi))) <= 1).
Proof.
  intros H. destruct (H (dfmt 12 0 true) (dfmt 16 1 true) 0%Z eq_refl ltac:(cbv; discriminate) ltac:(cbv; discriminate) ltac:(cbv; split; discriminate)) as (s & c & A & B).
  assert (E1 : sincos_lut (dfmt 12 0 true) (dfmt 16 1 true) 0 = Some (0, -32768)%Z) by (vm_compute; reflexivity). rewrite E1 in A. injection A as <- <-. change (fF (dfmt 16 1 true)) with 15%Z in B. rewrite fxval_0, Rmult_0_r, cos_0 in B.
  unfold fxval in B. assert (P : bpow2 (- (15)) = / 32768) by (rewrite bpow2_opp, bpow2_IZR by lia; reflexivity). rewrite P in B. apply Rabs_le_both in B. lra.
Qed.
