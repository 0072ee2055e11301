(** Proofs about the piecewise-linear functions, integer level. *)
From Coq Require Import Lia ZifyBool.
From Verif Require Import AcTypes AcFacts Spec SpecFacts ShiftFacts ShiftModel ShiftProofs LeadingModel LeadingProofs SpecFloat DetProofs FlfxProofs PwlModel PwlFacts.

Lemma abs_u_ok W I S x : 1 <= W -> in_range S W x -> abs_u W I S x = Z.abs x /\ 0 <= Z.abs x < 2 ^ W.
Proof.
  intros HW Hx. unfold in_range, imin, imax in Hx. pose proof (pow2_pos (W - 1) ltac:(lia)). pose proof (pow2_half W HW).
  assert (0 <= Z.abs x < 2 ^ W) by (destruct S; lia). split; [|assumption].
  unfold abs_u. destruct S; [|lia]. destruct (Z.leb_spec 0 x); rewrite conv_same; unfold wrap; rewrite wrapu_id; lia.
Qed.

(** ** Reciprocal *)
Notation recipY := (pw_lin recip_m recip_c 10).
Lemma recipY_mono a b : 0 <= a -> a <= b -> b < 8192 -> recipY b <= recipY a.
Proof. apply (pw_lin_down recip_m recip_c 10 8); [lia|vm_compute; reflexivity]. Qed.
(** Blocks of 64 positions. *)
Definition recip_blk (B : Z) : bool :=
  let U := recipY (B * 2 ^ 6) in let V := slope recip_m 10 6 B in let a := 2 ^ 13 + B * 2 ^ 6 in
  (V <=? 0) && (998 * 2 ^ 34 <=? 1000 * U * a) && (998 * 2 ^ 34 <=? (1000 * U + 1000 * V * 64) * (a + 64)) &&
  (1000 * U * (a + 1) <=? 1002 * 2 ^ 34) && (1000 * U * (a + 1) + (1000 * U + 1000 * V * (a + 1)) * 64 <=? 1002 * 2 ^ 34).
Lemma recip_blk_all : zall recip_blk 128 0 = true.
Proof. vm_compute. reflexivity. Qed.
Lemma recipY_ok T : 0 <= T < 8192 ->
  2 ^ 20 <= recipY T <= 2094080 /\ 998 * 2 ^ 34 <= 1000 * (recipY T * (2 ^ 13 + T)) /\ 1000 * (recipY T * (2 ^ 13 + T + 1)) <= 1002 * 2 ^ 34.
Proof.
  intros HT. split.
  { pose proof (recipY_mono 0 T ltac:(lia) ltac:(lia) ltac:(lia)) as H1. pose proof (recipY_mono T 8191 ltac:(lia) ltac:(lia) ltac:(lia)) as H2.
    change (recipY 0) with 2094080 in H1. change (recipY 8191) with 1048644 in H2. set (v := recipY T) in *. lia. }
  destruct (pw_block recip_m recip_c 10 6 T ltac:(lia) ltac:(lia)) as (B & s & ET & Hs & EB & EY). change (2 ^ 6) with 64 in *.
  pose proof (zall_ok _ _ _ recip_blk_all B) as K.
  assert (HB : 0 <= B < 128) by (rewrite EB; split; [apply Z.div_pos; lia|apply Z.div_lt_upper_bound; lia]).
  specialize (K ltac:(lia)). unfold recip_blk in K. change (2 ^ 6) with 64 in K. rewrite EY.
  set (U := recipY (B * 64)) in *. set (V := slope recip_m 10 6 B) in *. clearbody U V.
  repeat (apply andb_prop in K as [K ?]). set (a := 2 ^ 13 + B * 64) in *.
  assert (HV : 1000 * V <= 0) by lia. split.
  - pose proof (prod_lo (998 * 2 ^ 34) (1000 * U) (1000 * V) a 64 s Hs ltac:(lia) HV ltac:(lia) ltac:(lia)) as Q.
    replace (2 ^ 13 + T) with (a + s) by (unfold a; lia). replace (1000 * ((U + V * s) * (a + s))) with ((1000 * U + 1000 * V * s) * (a + s)) by ring. exact Q.
  - pose proof (prod_hi (1002 * 2 ^ 34) (1000 * U) (1000 * V) (a + 1) 64 s Hs ltac:(lia) HV ltac:(lia) ltac:(lia)) as Q.
    replace (2 ^ 13 + T + 1) with (a + 1 + s) by (unfold a; lia). replace (1000 * ((U + V * s) * (a + 1 + s))) with ((1000 * U + 1000 * V * s) * (a + 1 + s)) by ring. exact Q.
Qed.

(** The scaled position is exact whenever fewer than 10 fraction bits are kept. *)
Lemma recip_exact W I S x : 1 <= W -> in_range S W x -> x <> 0 ->
  let fb := Z.max 1 (Z.min 10 (W - 4 - b2z S)) in let n := snd (normalize W I false WRAP (Z.abs x)) in
  fb = 10 \/ exists k, (n - 2 ^ (W - 1)) * 2 ^ (4 + fb) = k * 2 ^ W.
Proof.
  intros HW Hx Hx0 fb n. destruct (abs_u_ok W I S x HW Hx) as [_ Ha].
  pose proof (normalize_u_ok W I WRAP (Z.abs x) HW ltac:(lia)) as N. subst n. destruct (normalize W I false WRAP (Z.abs x)) as [e n].
  cbn [snd]. destruct N as (A & B & C).
  destruct (Z.eq_dec fb 10) as [|Hf]; [left; assumption|right].
  destruct (Z.le_gt_cases (W - 4) fb) as [L|L].
  { exists ((n - 2 ^ (W - 1)) * 2 ^ (4 + fb - W)). rewrite <- Z.mul_assoc, <- pow2_add by lia. do 2 f_equal. lia. }
  destruct S; cbn [b2z] in *; [|lia].
  assert (Ef : 4 + fb = W - 1) by lia. rewrite Ef.
  assert (Hab : Z.abs x <= 2 ^ (W - 1)) by (unfold in_range, imin, imax in Hx; lia).
  destruct (Z.eq_dec e I) as [->|].
  { rewrite Z.sub_diag in B. change (2 ^ 0) with 1 in B. exists 0. replace n with (2 ^ (W - 1)) by lia. lia. }
  rewrite (pow2_half W) by lia. exists (Z.abs x * 2 ^ (I - e - 1) - 2 ^ (W - 2)). subst n.
  rewrite (pow2_half (I - e)) by lia. rewrite (pow2_half (W - 1)) at 1 by lia. replace (W - 1 - 1) with (W - 2) by lia. ring.
Qed.

Lemma recip_eval pQ W I S f x : 1 <= W -> 1 <= fW f -> in_range S W x -> x <> 0 ->
  let '(e, n) := normalize W I false WRAP (Z.abs x) in
  exists out, reciprocal_pwl pQ W I S f x = Some out /\
    converts2 f ((if S && fS f && (x <? 0) then -1 else 1) * recipY (pos W 4 10 n)) (- 20 - e) out.
Proof.
  intros HW HfW Hx Hx0. destruct (abs_u_ok W I S x HW Hx) as [Ea Ha].
  pose proof (normalize_u_ok W I WRAP (Z.abs x) HW ltac:(lia)) as N. pose proof (recip_exact W I S x HW Hx Hx0) as Ex. cbv zeta in Ex.
  unfold reciprocal_pwl. rewrite Ea. destruct (normalize W I false WRAP (Z.abs x)) as [e n]. cbn [snd] in Ex. destruct N as (A & B & C).
  set (fb := Z.max 1 (Z.min 10 (W - 4 - b2z S))) in *. assert (Hfb : 1 <= fb <= 10) by lia.
  destruct (scale_half_ok W 3 fb 4 10 n HW ltac:(lia) ltac:(lia) Hfb C Ex) as [Ht Et].
  set (t := scale_half W 3 fb 4 n) in *. rewrite (pwl_table_ok recip_m recip_c 3 fb t); [|lia|lia|reflexivity|reflexivity|exact Ht].
  pose proof (pw_lin_scale recip_m recip_c fb 10 t ltac:(lia) ltac:(lia)) as Es. rewrite Et in Es.
  destruct (pos_bounds W 4 10 n HW ltac:(lia) ltac:(lia) C) as [[PB _]|]; [|lia]. change (2 ^ (4 - 1 + 10)) with 8192 in PB.
  destruct (recipY_ok _ PB) as [YB _].
  set (y := pw_lin recip_m recip_c fb t) in *. set (Y := recipY (pos W 4 10 n)) in *.
  assert (Hy : 0 < y < 2 ^ (fb + 11)).
  { replace (fb + 11) with (21 - (10 - fb)) by lia. pose proof (pow2_pos (10 - fb) ltac:(lia)). split; [lia|].
    apply (Z.mul_lt_mono_pos_r (2 ^ (10 - fb))); [lia|]. rewrite <- pow2_add by lia. replace (21 - (10 - fb) + (10 - fb)) with 21 by lia. lia. }
  set (pt := Fmt (fb + 10 + 1 + b2z (fS f)) (1 + b2z (fS f)) (fS f) pQ WRAP).
  assert (HpF : fb + 10 = fF pt) by (unfold pt, fF; cbn [fW fI]; lia).
  assert (HpR : forall z, - y <= z <= y -> (0 <= z \/ fS f = true) -> in_range (fS pt) (fW pt) z).
  { intros z Hz Hs. unfold pt, in_range, imin, imax; cbn [fS fW]. destruct (fS f); cbn [b2z].
    - replace (fb + 10 + 1 + 1 - 1) with (fb + 11) by lia. lia.
    - destruct Hs; [|discriminate]. replace (fb + 10 + 1 + 0) with (fb + 11) by lia. lia. }
  rewrite (conv_fits pt y (fb + 10)) by (try (apply HpR; lia); try reflexivity; try exact HpF; unfold pt; cbn [fW]; destruct (fS f); cbn [b2z]; lia).
  replace (x =? 0) with false by lia. cbn [negb].
  set (sg := if S && fS f && (x <? 0) then -1 else 1).
  assert (Ey : (if S && fS f then if x <? 0 then conv pt (- y) (fb + 10) else y else y) = sg * y).
  { unfold sg. destruct S; cbn [andb]; [|lia]. destruct (fS f) eqn:HfS; [|cbn [andb]; lia]. cbn [andb]. destruct (x <? 0); [|lia].
    rewrite conv_fits; [lia|unfold pt; cbn [fW b2z]; lia|exact HpF|reflexivity|apply HpR; [lia|right; reflexivity]]. }
  rewrite Ey. eexists. split; [reflexivity|].
  assert (Hsg : sg = 1 \/ (sg = -1 /\ fS f = true)).
  { unfold sg. destruct S; [|left; reflexivity]. destruct (fS f); [|left; reflexivity]. cbn [andb]. destruct (x <? 0); [right; split; reflexivity|left; reflexivity]. }
  assert (Q : converts2 f (sg * y) (- (fW pt - fI pt) - e) ((if fS f then shift_right_si else shift_right_ui) (fW pt) (fI pt) f (sg * y) e)).
  { pose proof (HpR (sg * y) ltac:(destruct Hsg as [-> | [-> ?]]; lia) ltac:(destruct Hsg as [-> | [-> ?]]; [left; lia|right; assumption])) as R.
    unfold in_range, imin, imax in R. change (fS pt) with (fS f) in R. 
    assert (1 <= fW pt) by (unfold pt; cbn [fW]; destruct (fS f); cbn [b2z]; lia).
    destruct (fS f) eqn:HfS.
    - apply shift_right_si_spec; [assumption|assumption|assumption|lia].
    - apply shift_right_ui_spec; [assumption|assumption|assumption|lia]. }
  apply (converts2_rescale f _ _ (10 - fb)) in Q; [|assumption|lia].
  replace (sg * Y) with (sg * y * 2 ^ (10 - fb)) by lia.
  replace (- 20 - e) with (- (fW pt - fI pt) - e - (10 - fb)) by (unfold pt; cbn [fW fI]; lia). exact Q.
Qed.

(** Accuracy in integers: the product of the value before conversion and |x| is within 0.2 percent of 1. *)
Lemma recip_accuracy_size pQ W I S f x : 1 <= W -> 1 <= fW f -> in_range S W x -> x <> 0 ->
  exists out Y k, reciprocal_pwl pQ W I S f x = Some out /\ 0 <= k /\ 0 < Y /\
    converts2 f ((if S && fS f && (x <? 0) then -1 else 1) * Y) (W - I - k) out /\
    1000 * Z.abs (Y * Z.abs x - 2 ^ k) <= 2 * 2 ^ k /\ Y <= 2094080 /\ 20 <= k /\ Z.abs x < 2 ^ (k - 20).
Proof.
  intros HW HfW Hx Hx0. pose proof (recip_eval pQ W I S f x HW HfW Hx Hx0) as E. destruct (abs_u_ok W I S x HW Hx) as [_ Ha].
  pose proof (normalize_u_ok W I WRAP (Z.abs x) HW ltac:(lia)) as N.
  destruct (normalize W I false WRAP (Z.abs x)) as [e n]. destruct N as (A & B & C). destruct E as (out & Eo & Ec).
  destruct (pos_bounds W 4 10 n HW ltac:(lia) ltac:(lia) C) as [[PB PE]|]; [|lia]. change (2 ^ (4 - 1 + 10)) with 8192 in *.
  destruct (recipY_ok _ PB) as (YB & Y1 & Y2). set (T := pos W 4 10 n) in *. set (Y := recipY T) in *.
  assert (He : I - e < W).
  { apply (Z.pow_lt_mono_r_iff 2); [lia|lia|]. pose proof (pow2_pos (I - e) ltac:(lia)). nia. }
  exists out, Y, (20 + e + W - I). split; [exact Eo|]. split; [lia|]. split; [lia|].
  split; [replace (W - I - (20 + e + W - I)) with (- 20 - e) by lia; exact Ec|].
  set (P := 2 ^ (20 + e + W - I)). set (R := 2 ^ (I - e)) in *.
  assert (E1 : P * R = 2 ^ 20 * 2 ^ W) by (unfold P, R; rewrite <- !pow2_add by lia; f_equal; lia).
  assert (0 < R) by (apply pow2_pos; lia). assert (0 < 2 ^ W) by (apply pow2_pos; lia).
  assert (L1 : (8192 + T) * 2 ^ W <= 16384 * n) by lia. assert (L2 : 16384 * n <= (8192 + T + 1) * 2 ^ W) by lia.
  assert (M1 : Y * ((8192 + T) * 2 ^ W) <= Y * (16384 * n)) by (apply Z.mul_le_mono_nonneg_l; lia).
  assert (M2 : Y * (16384 * n) <= Y * ((8192 + T + 1) * 2 ^ W)) by (apply Z.mul_le_mono_nonneg_l; lia).
  change (2 ^ 13) with 8192 in *.
  assert (M3 : 998 * 2 ^ 34 * 2 ^ W <= 1000 * (Y * (8192 + T)) * 2 ^ W) by (apply Z.mul_le_mono_nonneg_r; lia).
  assert (M4 : 1000 * (Y * (8192 + T + 1)) * 2 ^ W <= 1002 * 2 ^ 34 * 2 ^ W) by (apply Z.mul_le_mono_nonneg_r; lia).
  assert (M5 : 998 * (P * R) <= 1000 * (Y * n)) by lia. assert (M6 : 1000 * (Y * n) <= 1002 * (P * R)) by lia.
  subst n. replace (1000 * (Y * (Z.abs x * R))) with (1000 * (Y * Z.abs x) * R) in M5, M6 by ring.
  replace (998 * (P * R)) with (998 * P * R) in M5 by ring. replace (1002 * (P * R)) with (1002 * P * R) in M6 by ring.
  apply Z.mul_le_mono_pos_r in M5; [|lia]. apply Z.mul_le_mono_pos_r in M6; [|lia].
  split; [lia|]. split; [lia|]. split; [lia|]. replace (20 + e + W - I - 20) with (W - (I - e)) by lia.
  apply Z.mul_lt_mono_pos_r with R; [lia|]. unfold R. rewrite <- pow2_add by lia. replace (W - (I - e) + (I - e)) with W by lia. lia.
Qed.
Lemma recip_accuracy pQ W I S f x : 1 <= W -> 1 <= fW f -> in_range S W x -> x <> 0 ->
  exists out Y k, reciprocal_pwl pQ W I S f x = Some out /\ 0 <= k /\ 0 < Y /\
    converts2 f ((if S && fS f && (x <? 0) then -1 else 1) * Y) (W - I - k) out /\
    1000 * Z.abs (Y * Z.abs x - 2 ^ k) <= 2 * 2 ^ k.
Proof.
  intros HW HfW Hx Hx0. destruct (recip_accuracy_size pQ W I S f x HW HfW Hx Hx0) as (out & Y & k & E & Hk & HY & C & B & _).
  exists out, Y, k. repeat split; assumption.
Qed.

Lemma recip_zero pQ W I S f : 1 <= W -> reciprocal_pwl pQ W I S f 0 = Some (imax (fS f) (fW f)).
Proof.
  intros HW. unfold reciprocal_pwl. assert (E : abs_u W I S 0 = 0).
  { apply (abs_u_ok W I S 0 HW). apply in_range_0. exact HW. }
  rewrite E. destruct (normalize W I false WRAP 0) as [e n]. set (fb := Z.max 1 (Z.min 10 (W - 4 - b2z S))).
  unfold pwl_table. set (i := wrapu 3 _). assert (0 <= i < 8) by (unfold i; pose proof (wrapu_range 3 (Z.shiftr (scale_half W 3 fb 4 n) fb) ltac:(lia)); lia).
  rewrite !lut_ok by (cbn [length recip_m recip_c]; lia). reflexivity.
Qed.

(** Odd: the value before conversion is negated exactly. *)
Lemma recip_odd pQ W I f x : 1 <= W -> 1 <= fW f -> fS f = true -> 0 < x < 2 ^ (W - 1) ->
  exists Y e out1 out2, reciprocal_pwl pQ W I true f x = Some out1 /\ reciprocal_pwl pQ W I true f (- x) = Some out2 /\
    converts2 f Y e out1 /\ converts2 f (- Y) e out2.
Proof.
  intros HW HfW HS Hx.
  pose proof (recip_eval pQ W I true f x HW HfW ltac:(unfold in_range, imin, imax; lia) ltac:(lia)) as E1.
  pose proof (recip_eval pQ W I true f (- x) HW HfW ltac:(unfold in_range, imin, imax; lia) ltac:(lia)) as E2.
  rewrite Z.abs_opp in E2. destruct (normalize W I false WRAP (Z.abs x)) as [e n].
  destruct E1 as (o1 & A1 & B1), E2 as (o2 & A2 & B2). rewrite HS in B1, B2.
  replace (x <? 0) with false in B1 by lia. replace (- x <? 0) with true in B2 by lia. cbn [andb] in B1, B2.
  do 4 eexists. split; [exact A1|]. split; [exact A2|]. split; [exact B1|].
  replace (- (1 * recipY (pos W 4 10 n))) with (-1 * recipY (pos W 4 10 n)) by ring. exact B2.
Qed.

(** Decreasing on positive inputs. *)
Lemma recip_decreasing pQ W I S f x y a b : 1 <= W -> 1 <= fW f -> (fO f = SAT \/ fO f = SAT_SYM) ->
  in_range S W y -> 0 < x <= y ->
  reciprocal_pwl pQ W I S f x = Some a -> reciprocal_pwl pQ W I S f y = Some b -> b <= a.
Proof.
  intros HW HfW HO Hy Hxy Ea Eb.
  assert (Hx : in_range S W x) by (unfold in_range, imin, imax in *; destruct S; pose proof (pow2_nonneg (W - 1)); lia).
  pose proof (recip_eval pQ W I S f x HW HfW Hx ltac:(lia)) as E1. pose proof (recip_eval pQ W I S f y HW HfW Hy ltac:(lia)) as E2.
  rewrite Z.abs_eq in E1, E2 by lia. destruct (abs_u_ok W I S y HW Hy) as [_ Yb]. rewrite Z.abs_eq in Yb by lia.
  pose proof (normalize_mono W I WRAP x y HW ltac:(lia) ltac:(lia) ltac:(lia)) as M.
  pose proof (normalize_u_ok W I WRAP x HW ltac:(lia)) as N1. pose proof (normalize_u_ok W I WRAP y HW ltac:(lia)) as N2.
  destruct (normalize W I false WRAP x) as [e1 n1], (normalize W I false WRAP y) as [e2 n2]. cbn [fst snd] in M.
  destruct N1 as (A1 & B1 & C1), N2 as (A2 & B2 & C2). destruct E1 as (o1 & F1 & G1), E2 as (o2 & F2 & G2).
  replace (x <? 0) with false in G1 by lia. replace (y <? 0) with false in G2 by lia. rewrite andb_false_r in G1, G2. rewrite Z.mul_1_l in G1, G2.
  rewrite Ea in F1. injection F1 as <-. rewrite Eb in F2. injection F2 as <-.
  destruct (pos_bounds W 4 10 n1 HW ltac:(lia) ltac:(lia) C1) as [[P1 _]|]; [|lia].
  destruct (pos_bounds W 4 10 n2 HW ltac:(lia) ltac:(lia) C2) as [[P2 _]|]; [|lia]. change (2 ^ (4 - 1 + 10)) with 8192 in *.
  eapply converts2_mono; [exact HfW|exact HO| |exact G2|exact G1].
  destruct M as [L|[-> L]].
  - destruct (recipY_ok _ P1) as [R1 _], (recipY_ok _ P2) as [R2 _]. apply dle_next; lia.
  - apply dle_same. apply recipY_mono; [lia|apply pos_mono; lia|lia].
Qed.
