(** Proofs about ac_sqrt_pwl and ac_inverse_sqrt_pwl, integer level. *)
From Coq Require Import Lia ZifyBool.
From Verif Require Import AcTypes AcFacts Spec SpecFacts ShiftFacts ShiftModel ShiftProofs LeadingModel LeadingProofs SpecFloat DetProofs FlfxProofs PwlModel PwlFacts.

Lemma rem2_even e : (Z.rem e 2 =? 0) = (e mod 2 =? 0).
Proof. pose proof (Z.rem_mod e 2 ltac:(lia)). Z.to_euclidean_division_equations; lia. Qed.

(** A conversion that only drops fraction bits and then fits. *)
Lemma conv_drop f y F d : 1 <= fW f -> F = fF f + d -> 0 <= d -> fO f = WRAP -> in_range (fS f) (fW f) (qround (fQ f) y (2 ^ d)) ->
  conv f y F = qround (fQ f) y (2 ^ d).
Proof.
  intros HW HF Hd HO HR. rewrite conv_unfold. rewrite (pw_nonpos_eq (fF f - F)), (pw_nonneg_eq (F - fF f)) by lia.
  replace (F - fF f) with d by lia. rewrite Z.mul_1_r. apply overflow_id; [assumption|assumption|]. rewrite HO. discriminate.
Qed.
Lemma qround_near q n d : 0 < d -> n - d <= qround q n d * d <= n + d.
Proof.
  intros Hd. pose proof (qround_bounds q n d Hd). pose proof (Z.div_mod n d ltac:(lia)). pose proof (Z.mod_pos_bound n d Hd). nia.
Qed.

(** The position is exact whenever fewer than N fraction bits are kept, unsigned inputs. *)
Lemma pos_exact W s N n : 1 <= W -> 1 <= s -> 1 <= N -> let fb := Z.max 1 (Z.min N (W - s)) in
  fb = N \/ exists k, (n - 2 ^ (W - 1)) * 2 ^ (s + fb) = k * 2 ^ W.
Proof.
  intros HW Hs HN fb. destruct (Z.eq_dec fb N); [left; assumption|right].
  exists ((n - 2 ^ (W - 1)) * 2 ^ (s + fb - W)). rewrite <- Z.mul_assoc, <- pow2_add by lia. do 2 f_equal. lia.
Qed.

(** ** Square root *)
Notation sqrtY := (pw_lin sqrt_m sqrt_c 12).
Lemma sqrtY_mono a b : 0 <= a -> a <= b -> b < 16384 -> sqrtY a <= sqrtY b.
Proof. apply (pw_lin_up sqrt_m sqrt_c 12 4); [lia|vm_compute; reflexivity]. Qed.
Lemma sqrtY_range T : 0 <= T < 16384 -> 11874304 <= sqrtY T <= 16781312.
Proof.
  intros HT. pose proof (sqrtY_mono 0 T ltac:(lia) ltac:(lia) ltac:(lia)) as H1. pose proof (sqrtY_mono T 16383 ltac:(lia) ltac:(lia) ltac:(lia)) as H2.
  change (sqrtY 0) with 11874304 in H1. change (sqrtY 16383) with 16781048 in H2. set (v := sqrtY T) in *. lia.
Qed.
(** Blocks of 1024 positions. *)
Definition sq_blk (C1 C2 U1 U2 V a : Z) : bool :=
  let L := 1024 in
  (C1 * (a + 1) <=? 10 ^ 8 * (U1 * U1)) && (C1 * (a + 1 + L) <=? 10 ^ 8 * (U1 * U1 + 2 * U1 * V * L)) &&
  (10 ^ 8 * (U2 * U2) <=? C2 * a) && (10 ^ 8 * ((U2 + V * L) * (U2 + V * L)) <=? C2 * (a + L)).
Lemma sq_blk_ok C1 C2 U1 U2 V a s : 0 <= s <= 1024 -> sq_blk C1 C2 U1 U2 V a = true ->
  C1 * (a + 1 + s) <= 10 ^ 8 * ((U1 + V * s) * (U1 + V * s)) /\ 10 ^ 8 * ((U2 + V * s) * (U2 + V * s)) <= C2 * (a + s).
Proof.
  intros Hs K. unfold sq_blk in K. repeat (apply andb_prop in K as [K ?]).
  split; [apply (sq_lo _ _ _ _ _ 1024)|apply (sq_hi _ _ _ _ _ 1024)]; lia.
Qed.
Definition sqrt_blk (B : Z) : bool :=
  let U := sqrtY (B * 2 ^ 10) in let V := slope sqrt_m 12 10 B in let a := 2 ^ 14 + B * 2 ^ 10 in
  sq_blk (9988 * 9988 * 2 ^ 33) (10012 * 10012 * 2 ^ 33) U U V a &&
  sq_blk (9988 * 9988 * 2 ^ 58) (10012 * 10012 * 2 ^ 58) (U * 5793 - 2 ^ 23) (U * 5793 + 2 ^ 23) (V * 5793) a.
Lemma sqrt_blk_all : zall sqrt_blk 16 0 = true.
Proof. vm_compute. reflexivity. Qed.
Lemma sqrt_near T : 0 <= T < 16384 -> let y := sqrtY T in let a := 16384 + T in
  (9988 * 9988 * ((a + 1) * 2 ^ 33) <= 10 ^ 8 * (y * y) <= 10012 * 10012 * (a * 2 ^ 33)) /\
  9988 * 9988 * ((a + 1) * 2 ^ 58) <= 10 ^ 8 * ((y * 5793 - 2 ^ 23) * (y * 5793 - 2 ^ 23)) /\
  10 ^ 8 * ((y * 5793 + 2 ^ 23) * (y * 5793 + 2 ^ 23)) <= 10012 * 10012 * (a * 2 ^ 58).
Proof.
  intros HT y a. destruct (pw_block sqrt_m sqrt_c 12 10 T ltac:(lia) ltac:(lia)) as (B & s & ET & Hs & EB & EY). change (2 ^ 10) with 1024 in *.
  assert (HB : 0 <= B < 16) by (rewrite EB; split; [apply Z.div_pos; lia|apply Z.div_lt_upper_bound; lia]).
  pose proof (zall_ok _ _ _ sqrt_blk_all B ltac:(lia)) as K. unfold sqrt_blk in K. fold y in EY. change (2 ^ 10) with 1024 in K.
  set (U := sqrtY (B * 1024)) in *. set (V := slope sqrt_m 12 10 B) in *. clearbody U V y.
  apply andb_prop in K as [K1 K2]. apply (sq_blk_ok _ _ _ _ _ _ s Hs) in K1, K2. change (2 ^ 14) with 16384 in *.
  replace (16384 + B * 1024 + s) with a in * by (unfold a; lia). replace (16384 + B * 1024 + 1 + s) with (a + 1) in * by (unfold a; lia).
  rewrite <- EY in K1. replace (U * 5793 - 2 ^ 23 + V * 5793 * s) with (y * 5793 - 2 ^ 23) in K2 by (rewrite EY; ring).
  replace (U * 5793 + 2 ^ 23 + V * 5793 * s) with (y * 5793 + 2 ^ 23) in K2 by (rewrite EY; ring).
  clear - K1 K2. set (Q1 := (y * 5793 - 2 ^ 23) * (y * 5793 - 2 ^ 23)) in *. set (Q2 := (y * 5793 + 2 ^ 23) * (y * 5793 + 2 ^ 23)) in *. clearbody Q1 Q2 a. lia.
Qed.

(** The mantissa handed to the final shift, scaled to 24 fraction bits. *)
Definition sqrt_mant (q : qmode) (fb e Y : Z) : Z :=
  if e mod 2 =? 0 then Y else qround q (Y * 5793) (2 ^ 12 * 2 ^ (12 - fb)) * 2 ^ (12 - fb).

Lemma sqrt_eval pQ W I XO f cn x : 1 <= W -> 1 <= fW f -> fS f = false -> 0 < x < 2 ^ W -> cn = true \/ 2 ^ (W - 1) <= x ->
  let '(e, n) := normalize W I false XO x in
  exists out, sqrt_pwl pQ W I XO f cn x = Some out /\
    converts2 f (sqrt_mant pQ (Z.max 1 (Z.min 12 (W - 3))) e (sqrtY (pos W 3 12 n))) (e / 2 - 24) out.
Proof.
  intros HW HfW HfS Hx Hcn. unfold sqrt_pwl. rewrite pwl_norm_eq by (assumption || lia).
  pose proof (normalize_u_ok W I XO x HW ltac:(lia)) as N. destruct (normalize W I false XO x) as [e n]. destruct N as (A & B & C).
  pose proof (pos_exact W 3 12 n HW ltac:(lia) ltac:(lia)) as Ex. cbv zeta in Ex.
  set (fb := Z.max 1 (Z.min 12 (W - 3))) in *. assert (Hfb : 1 <= fb <= 12) by lia.
  destruct (scale_half_ok W 2 fb 3 12 n HW ltac:(lia) ltac:(lia) Hfb C Ex) as [Ht Et].
  set (t := scale_half W 2 fb 3 n) in *. rewrite (pwl_table_ok sqrt_m sqrt_c 2 fb t); [|lia|lia|reflexivity|reflexivity|exact Ht].
  pose proof (pw_lin_scale sqrt_m sqrt_c fb 12 t ltac:(lia) ltac:(lia)) as Es. rewrite Et in Es.
  destruct (pos_bounds W 3 12 n HW ltac:(lia) ltac:(lia) C) as [[PB _]|]; [|lia]. change (2 ^ (3 - 1 + 12)) with 16384 in PB.
  pose proof (sqrtY_range _ PB) as YB.
  set (y := pw_lin sqrt_m sqrt_c fb t) in *. set (Y := sqrtY (pos W 3 12 n)) in *. clearbody t y Y.
  pose proof (pow2_pos (12 - fb) ltac:(lia)) as PR. set (R := 2 ^ (12 - fb)) in *.
  assert (HR : 2 ^ (fb + 13) * R = 2 ^ 25) by (unfold R; rewrite <- pow2_add by lia; f_equal; lia).
  assert (HR2 : R <= 2 ^ 11) by (apply pow2_le; lia).
  set (nt := Fmt (fb + 12 + 1) 1 false pQ WRAP).
  assert (Hy : in_range (fS nt) (fW nt) y).
  { unfold nt, in_range, imin, imax; cbn [fS fW]. replace (fb + 12 + 1) with (fb + 13) by lia. nia. }
  rewrite (conv_fits nt y (fb + 12)) by (try assumption; try reflexivity; unfold nt, fF; cbn [fW fI]; lia).
  set (yr := qround pQ (y * 5793) (2 ^ 12)).
  pose proof (qround_near pQ (y * 5793) (2 ^ 12) ltac:(lia)) as Hyr. fold yr in Hyr. change (2 ^ 12) with 4096 in Hyr.
  assert (Hr : in_range (fS nt) (fW nt) yr).
  { unfold nt, in_range, imin, imax; cbn [fS fW]. replace (fb + 12 + 1) with (fb + 13) by lia. split; [nia|].
    assert (yr * R < 2 ^ (fb + 13) * R); [|nia]. rewrite HR. nia. }
  rewrite (conv_drop nt (y * 5793) (fb + 12 + 12) 12); [|unfold nt; cbn [fW]; lia|unfold nt, fF; cbn [fW fI]; lia|lia|reflexivity|exact Hr].
  change (qround (fQ nt) (y * 5793) (2 ^ 12)) with yr. rewrite rem2_even.
  replace (x =? 0) with false by lia. eexists. split; [reflexivity|]. rewrite Z.shiftr_div_pow2 by lia. change (2 ^ 1) with 2.
  set (m1 := if e mod 2 =? 0 then y else yr).
  assert (Hm1 : 0 <= m1 < 2 ^ fW nt).
  { unfold in_range, imin, imax in Hy, Hr. cbn [fS nt] in Hy, Hr. unfold m1. destruct (e mod 2 =? 0); lia. }
  pose proof (shift_left_ui_spec (fW nt) 1 f m1 (e / 2) ltac:(unfold nt; cbn [fW]; lia) HfW HfS Hm1) as Q.
  apply (converts2_rescale f _ _ (12 - fb)) in Q; [|assumption|lia]. fold R in Q.
  replace (sqrt_mant pQ fb e Y) with (m1 * R).
  2:{ unfold sqrt_mant, m1. destruct (e mod 2 =? 0); [exact Es|]. f_equal. unfold yr. fold R. rewrite <- Es.
      replace (y * R * 5793) with (y * 5793 * R) by ring. symmetry. apply qround_scale; lia. }
  replace (e / 2 - 24) with (- (fW nt - 1) + e / 2 - (12 - fb)) by (unfold nt; cbn [fW]; lia). exact Q.
Qed.

(** Accuracy: the square of the value before conversion is x up to 0.9988^2 .. 1.0012^2. *)
Lemma sqrt_accuracy pQ W I XO f cn x : 1 <= W -> 1 <= fW f -> fS f = false -> 0 < x < 2 ^ W -> cn = true \/ 2 ^ (W - 1) <= x ->
  exists out M k n r, sqrt_pwl pQ W I XO f cn x = Some out /\ 0 < M /\ converts2 f M (k - 24) out /\
    (2 * k + r <= I /\ 0 <= r /\ n = x * 2 ^ (I - (2 * k + r))) /\
    9988 * 9988 * (n * 2 ^ (48 + r)) <= 10 ^ 8 * (M * M * 2 ^ W) <= 10012 * 10012 * (n * 2 ^ (48 + r)).
Proof.
  intros HW HfW HfS Hx Hcn. pose proof (sqrt_eval pQ W I XO f cn x HW HfW HfS Hx Hcn) as E.
  pose proof (normalize_u_ok W I XO x HW ltac:(lia)) as N. destruct (normalize W I false XO x) as [e n]. destruct N as (A & B & C).
  destruct E as (out & Eo & Ec).
  destruct (pos_bounds W 3 12 n HW ltac:(lia) ltac:(lia) C) as [[PB PE]|]; [|lia]. change (2 ^ (3 - 1 + 12)) with 16384 in *.
  pose proof (sqrt_near _ PB) as K. pose proof (sqrtY_range _ PB). cbv zeta in K.
  set (T := pos W 3 12 n) in *. set (Y := sqrtY T) in *. clearbody T Y.
  destruct K as [[K1 K2] [K3 K4]]. set (fb := Z.max 1 (Z.min 12 (W - 3))) in *.
  assert (0 < 2 ^ W) by (apply pow2_pos; lia). change (2 ^ 14) with 16384 in *.
  assert (L1 : (16384 + T) * 2 ^ W <= 32768 * n) by lia. assert (L2 : 32768 * n <= (16384 + T + 1) * 2 ^ W) by lia.
  exists out, (sqrt_mant pQ fb e Y), (e / 2), n, (e mod 2). split; [exact Eo|].
  pose proof (Z.div_mod e 2 ltac:(lia)). pose proof (Z.mod_pos_bound e 2 ltac:(lia)).
  pose proof (pow2_pos (12 - fb) ltac:(lia)) as PR. 
  assert (HR2 : 2 ^ (12 - fb) <= 2 ^ 11) by (apply pow2_le; lia).
  set (M := sqrt_mant pQ fb e Y) in *.
  assert (HM : (e mod 2 = 0 /\ M = Y) \/ (e mod 2 = 1 /\ Y * 5793 - 2 ^ 23 <= M * 4096 <= Y * 5793 + 2 ^ 23)).
  { unfold M, sqrt_mant. destruct (Z.eqb_spec (e mod 2) 0) as [E0|]; [left; split; [exact E0|reflexivity]|right; split; [lia|]].
    set (R := 2 ^ (12 - fb)) in *. pose proof (qround_near pQ (Y * 5793) (2 ^ 12 * R) ltac:(lia)) as Q.
    set (z := qround pQ (Y * 5793) (2 ^ 12 * R)) in *. lia. }
  clearbody M. split; [lia|]. split; [exact Ec|].
  split; [split; [lia|split; [lia|replace (2 * (e / 2) + e mod 2) with e by lia; exact B]]|].
  destruct HM as [[-> ->]|[-> HM]].
  - change (2 ^ (48 + 0)) with (2 ^ 48).
    assert (X1 : 9988 * 9988 * ((16384 + T + 1) * 2 ^ 33) * 2 ^ W <= 10 ^ 8 * (Y * Y) * 2 ^ W) by (apply Z.mul_le_mono_nonneg_r; lia).
    assert (X2 : 10 ^ 8 * (Y * Y) * 2 ^ W <= 10012 * 10012 * ((16384 + T) * 2 ^ 33) * 2 ^ W) by (apply Z.mul_le_mono_nonneg_r; lia).
    set (YY := Y * Y * 2 ^ W) in *. replace (10 ^ 8 * (Y * Y) * 2 ^ W) with (10 ^ 8 * YY) in X1, X2 by (unfold YY; ring).
    replace (9988 * 9988 * ((16384 + T + 1) * 2 ^ 33) * 2 ^ W) with (9988 * 9988 * 2 ^ 33 * ((16384 + T + 1) * 2 ^ W)) in X1 by ring.
    replace (10012 * 10012 * ((16384 + T) * 2 ^ 33) * 2 ^ W) with (10012 * 10012 * 2 ^ 33 * ((16384 + T) * 2 ^ W)) in X2 by ring.
    lia.
  - change (2 ^ (48 + 1)) with (2 ^ 49).
    assert (Q1 : (Y * 5793 - 2 ^ 23) * (Y * 5793 - 2 ^ 23) <= (M * 4096) * (M * 4096)) by (apply Z.mul_le_mono_nonneg; lia).
    assert (Q2 : (M * 4096) * (M * 4096) <= (Y * 5793 + 2 ^ 23) * (Y * 5793 + 2 ^ 23)) by (apply Z.mul_le_mono_nonneg; lia).
    assert (X1 : 9988 * 9988 * ((16384 + T + 1) * 2 ^ 58) <= 10 ^ 8 * ((M * 4096) * (M * 4096))) by lia.
    assert (X2 : 10 ^ 8 * ((M * 4096) * (M * 4096)) <= 10012 * 10012 * ((16384 + T) * 2 ^ 58)) by lia.
    apply (Z.mul_le_mono_nonneg_r _ _ (2 ^ W)) in X1; [|lia]. apply (Z.mul_le_mono_nonneg_r _ _ (2 ^ W)) in X2; [|lia].
    set (YY := M * M * 2 ^ W) in *. replace (10 ^ 8 * ((M * 4096) * (M * 4096)) * 2 ^ W) with (10 ^ 8 * 2 ^ 24 * YY) in X1, X2 by (unfold YY; ring).
    replace (9988 * 9988 * ((16384 + T + 1) * 2 ^ 58) * 2 ^ W) with (9988 * 9988 * 2 ^ 58 * ((16384 + T + 1) * 2 ^ W)) in X1 by ring.
    replace (10012 * 10012 * ((16384 + T) * 2 ^ 58) * 2 ^ W) with (10012 * 10012 * 2 ^ 58 * ((16384 + T) * 2 ^ W)) in X2 by ring.
    lia.
Qed.

Lemma table_total ms cs ib fb t : 0 <= ib -> Z.of_nat (length ms) = 2 ^ ib -> length cs = length ms -> exists y, pwl_table ms cs ib fb t = Some y.
Proof.
  intros Hi Hm Hc. unfold pwl_table. set (i := wrapu ib (Z.shiftr t fb)).
  assert (0 <= i < 2 ^ ib) by (apply wrapu_range; lia). rewrite !lut_ok by lia. eexists. reflexivity.
Qed.

Lemma sqrt_zero pQ W I XO f cn : sqrt_pwl pQ W I XO f cn 0 = Some 0.
Proof.
  unfold sqrt_pwl. destruct (pwl_norm cn W I XO 0) as [e n]. set (fb := Z.max 1 (Z.min 12 (W - 3))).
  destruct (table_total sqrt_m sqrt_c 2 fb (scale_half W 2 fb 3 n) ltac:(lia) eq_refl eq_refl) as [y ->]. reflexivity.
Qed.

(** The order of two values of the form mantissa * 2^(e/2), where odd exponents carry an extra factor. *)
Lemma sqrt_mant_mono q fb e1 e2 Y1 Y2 : 1 <= fb <= 12 ->
  11874304 <= Y1 <= 16781312 -> 11874304 <= Y2 <= 16781312 -> e1 < e2 \/ (e1 = e2 /\ Y1 <= Y2) ->
  dle (sqrt_mant q fb e1 Y1) (e1 / 2 - 24) (sqrt_mant q fb e2 Y2) (e2 / 2 - 24).
Proof.
  intros Hfb H1 H2 H. pose proof (pow2_pos (12 - fb) ltac:(lia)) as PR.
  assert (HR2 : 2 ^ (12 - fb) <= 2 ^ 11) by (apply pow2_le; lia).
  assert (B : forall e Y, 11874304 <= Y <= 16781312 -> (e mod 2 = 0 -> sqrt_mant q fb e Y = Y) /\
     (e mod 2 = 1 -> 16791849 <= sqrt_mant q fb e Y <= 23736241)).
  { intros e Y HY. unfold sqrt_mant. destruct (Z.eqb_spec (e mod 2) 0); [split; [reflexivity|lia]|split; [lia|intros _]].
    set (R := 2 ^ (12 - fb)) in *. pose proof (qround_near q (Y * 5793) (2 ^ 12 * R) ltac:(lia)) as Q.
    set (z := qround q (Y * 5793) (2 ^ 12 * R)) in *. lia. }
  destruct (B e1 Y1 H1) as [B1 B1'], (B e2 Y2 H2) as [B2 B2'].
  pose proof (Z.div_mod e1 2 ltac:(lia)). pose proof (Z.mod_pos_bound e1 2 ltac:(lia)).
  pose proof (Z.div_mod e2 2 ltac:(lia)). pose proof (Z.mod_pos_bound e2 2 ltac:(lia)).
  destruct H as [L|[-> L]].
  - destruct (Z.eq_dec (e1 / 2) (e2 / 2)) as [E|Ne].
    + rewrite E. apply dle_same. rewrite B1 by lia. specialize (B2' ltac:(lia)). lia.
    + assert (e1 mod 2 = 0 \/ e1 mod 2 = 1) as [X|X] by lia; assert (e2 mod 2 = 0 \/ e2 mod 2 = 1) as [Z|Z] by lia;
        try specialize (B1 X); try specialize (B1' X); try specialize (B2 Z); try specialize (B2' Z); apply dle_next; lia.
  - apply dle_same. unfold sqrt_mant. destruct (e2 mod 2 =? 0); [assumption|].
    apply Z.mul_le_mono_nonneg_r; [lia|]. apply qround_mono; lia.
Qed.

Lemma sqrt_increasing pQ W I XO f cn x y a b : 1 <= W -> 1 <= fW f -> fS f = false -> (fO f = SAT \/ fO f = SAT_SYM) ->
  0 <= x <= y -> y < 2 ^ W -> cn = true \/ 2 ^ (W - 1) <= x ->
  sqrt_pwl pQ W I XO f cn x = Some a -> sqrt_pwl pQ W I XO f cn y = Some b -> a <= b.
Proof.
  intros HW HfW HfS HO Hxy Hy Hcn Ea Eb. pose proof (pow2_pos (W - 1) ltac:(lia)).
  destruct (Z.eq_dec y 0) as [->|Ny]. { replace x with 0 in * by lia. rewrite Ea in Eb. injection Eb. lia. }
  pose proof (sqrt_eval pQ W I XO f cn y HW HfW HfS ltac:(lia) ltac:(destruct Hcn; [left; assumption|right; lia])) as E2.
  pose proof (normalize_u_ok W I XO y HW ltac:(lia)) as N2.
  destruct (Z.eq_dec x 0) as [->|].
  { rewrite sqrt_zero in Ea. injection Ea as <-. destruct (normalize W I false XO y) as [e n]. destruct E2 as (o & F & G).
    rewrite Eb in F. injection F as <-. pose proof (fun v => conv_converts2 f v (e / 2 - 24) HfW) as Cc.
    rewrite (converts2_unique _ _ _ _ _ HfW G (Cc _)). pose proof (conv_range f (sqrt_mant pQ (Z.max 1 (Z.min 12 (W - 3))) e (sqrtY (pos W 3 12 n))) (- (e / 2 - 24)) HfW) as R.
    rewrite HfS in R. unfold in_range, imin in R. lia. }
  pose proof (sqrt_eval pQ W I XO f cn x HW HfW HfS ltac:(lia) ltac:(destruct Hcn; [left; assumption|right; lia])) as E1.
  pose proof (normalize_u_ok W I XO x HW ltac:(lia)) as N1.
  pose proof (normalize_mono W I XO x y HW ltac:(lia) ltac:(lia) ltac:(lia)) as Mo.
  destruct (normalize W I false XO x) as [e1 n1], (normalize W I false XO y) as [e2 n2]. cbn [fst snd] in Mo.
  destruct N1 as (A1 & B1 & C1), N2 as (A2 & B2 & C2). destruct E1 as (o1 & F1 & G1), E2 as (o2 & F2 & G2).
  rewrite Ea in F1. injection F1 as <-. rewrite Eb in F2. injection F2 as <-.
  destruct (pos_bounds W 3 12 n1 HW ltac:(lia) ltac:(lia) C1) as [[P1 _]|]; [|lia].
  destruct (pos_bounds W 3 12 n2 HW ltac:(lia) ltac:(lia) C2) as [[P2 _]|]; [|lia]. change (2 ^ (3 - 1 + 12)) with 16384 in *.
  eapply converts2_mono; [exact HfW|exact HO| |exact G1|exact G2].
  apply sqrt_mant_mono; [lia|apply sqrtY_range; exact P1|apply sqrtY_range; exact P2|].
  destruct Mo as [L|[-> L]]; [left; exact L|right; split; [reflexivity|]].
  apply sqrtY_mono; [lia|apply pos_mono; lia|lia].
Qed.

(** ** Inverse square root *)
Notation isqrtY := (pw_lin isqrt_m isqrt_c 12).
Lemma isqrtY_mono a b : 0 <= a -> a <= b -> b < 32768 -> isqrtY b <= isqrtY a.
Proof. apply (pw_lin_down isqrt_m isqrt_c 12 8); [lia|vm_compute; reflexivity]. Qed.
Lemma isqrtY_range T : 0 <= T < 32768 -> 16773120 <= isqrtY T <= 23711744.
Proof.
  intros HT. pose proof (isqrtY_mono 0 T ltac:(lia) ltac:(lia) ltac:(lia)) as H1. pose proof (isqrtY_mono T 32767 ltac:(lia) ltac:(lia) ltac:(lia)) as H2.
  change (isqrtY 0) with 23711744 in H1. change (isqrtY 32767) with 16773254 in H2. set (v := isqrtY T) in *. lia.
Qed.
(** Blocks of 256 positions. *)
Definition cub_blk (C1 C2 U1 U2 V a : Z) : bool :=
  let L := 256 in let D := 10 ^ 10 in let K := 2 * U2 * V + V * V * L in
  (0 <=? U1) && (V <=? 0) && (0 <=? a) && (K <=? 0) &&
  (C1 <=? D * (U1 * U1) * a) && (C1 <=? (D * (U1 * U1) + D * (2 * U1 * V) * L) * (a + L)) &&
  (D * (U2 * U2) * (a + 1) <=? C2) && (D * (U2 * U2) * (a + 1) + (D * (U2 * U2) + D * K * (a + 1)) * L <=? C2).
Lemma cub_blk_ok C1 C2 U1 U2 V a s : 0 <= s <= 256 -> cub_blk C1 C2 U1 U2 V a = true ->
  C1 <= 10 ^ 10 * ((U1 + V * s) * (U1 + V * s) * (a + s)) /\ 10 ^ 10 * ((U2 + V * s) * (U2 + V * s) * (a + 1 + s)) <= C2.
Proof.
  intros Hs K. unfold cub_blk in K. repeat (apply andb_prop in K as [K ?]).
  split; [apply (cub_lo _ _ _ _ _ 256)|apply (cub_hi _ _ _ _ _ 256)]; lia.
Qed.
Definition isqrt_blk (B : Z) : bool :=
  let U := isqrtY (B * 2 ^ 8) in let V := slope isqrt_m 12 8 B in let a := 2 ^ 15 + B * 2 ^ 8 in
  cub_blk (99925 * 99925 * 2 ^ 64) (100075 * 100075 * 2 ^ 64) U U V a &&
  cub_blk (99925 * 99925 * 2 ^ 87) (100075 * 100075 * 2 ^ 87) (U * 2896 - 2 ^ 12) (U * 2896 + 2 ^ 12) (V * 2896) a.
Lemma isqrt_blk_all : zall isqrt_blk 128 0 = true.
Proof. vm_compute. reflexivity. Qed.
Lemma isqrt_near T : 0 <= T < 32768 -> let y := isqrtY T in let a := 32768 + T in
  (99925 * 99925 * 2 ^ 64 <= 10 ^ 10 * (y * y * a) /\ 10 ^ 10 * (y * y * (a + 1)) <= 100075 * 100075 * 2 ^ 64) /\
  99925 * 99925 * 2 ^ 87 <= 10 ^ 10 * ((y * 2896 - 2 ^ 12) * (y * 2896 - 2 ^ 12) * a) /\
  10 ^ 10 * ((y * 2896 + 2 ^ 12) * (y * 2896 + 2 ^ 12) * (a + 1)) <= 100075 * 100075 * 2 ^ 87.
Proof.
  intros HT y a. destruct (pw_block isqrt_m isqrt_c 12 8 T ltac:(lia) ltac:(lia)) as (B & s & ET & Hs & EB & EY). change (2 ^ 8) with 256 in *.
  assert (HB : 0 <= B < 128) by (rewrite EB; split; [apply Z.div_pos; lia|apply Z.div_lt_upper_bound; lia]).
  pose proof (zall_ok _ _ _ isqrt_blk_all B ltac:(lia)) as K. unfold isqrt_blk in K. fold y in EY. change (2 ^ 8) with 256 in K.
  set (U := isqrtY (B * 256)) in *. set (V := slope isqrt_m 12 8 B) in *. clearbody U V y.
  apply andb_prop in K as [K1 K2]. apply (cub_blk_ok _ _ _ _ _ _ s Hs) in K1, K2. change (2 ^ 15) with 32768 in *.
  replace (32768 + B * 256 + s) with a in * by (unfold a; lia). replace (32768 + B * 256 + 1 + s) with (a + 1) in * by (unfold a; lia).
  rewrite <- EY in K1. replace (U * 2896 - 2 ^ 12 + V * 2896 * s) with (y * 2896 - 2 ^ 12) in K2 by (rewrite EY; ring).
  replace (U * 2896 + 2 ^ 12 + V * 2896 * s) with (y * 2896 + 2 ^ 12) in K2 by (rewrite EY; ring).
  split; [exact K1|exact K2].
Qed.

Definition isqrt_mant (q : qmode) (e Y : Z) : Z := if e mod 2 =? 0 then Y else qround q (Y * 2896) (2 ^ 12).

Lemma isqrt_eval pQ W I XO f cn x : 1 <= W -> 1 <= fW f -> fS f = false -> 0 < x < 2 ^ W -> cn = true \/ 2 ^ (W - 1) <= x ->
  let '(e, n) := normalize W I false XO x in
  exists out, inverse_sqrt_pwl pQ W I XO f cn x = Some out /\
    converts2 f (isqrt_mant pQ e (isqrtY (pos W 4 12 n))) (- 24 - e / 2) out.
Proof.
  intros HW HfW HfS Hx Hcn. unfold inverse_sqrt_pwl. rewrite pwl_norm_eq by (assumption || lia).
  pose proof (normalize_u_ok W I XO x HW ltac:(lia)) as N. destruct (normalize W I false XO x) as [e n]. destruct N as (A & B & C).
  pose proof (pos_exact W 4 12 n HW ltac:(lia) ltac:(lia)) as Ex. cbv zeta in Ex.
  set (fb := Z.max 1 (Z.min 12 (W - 4))) in *. assert (Hfb : 1 <= fb <= 12) by lia.
  destruct (scale_half_ok W 3 fb 4 12 n HW ltac:(lia) ltac:(lia) Hfb C Ex) as [Ht Et].
  set (t := scale_half W 3 fb 4 n) in *. rewrite (pwl_table_ok isqrt_m isqrt_c 3 fb t); [|lia|lia|reflexivity|reflexivity|exact Ht].
  pose proof (pw_lin_scale isqrt_m isqrt_c fb 12 t ltac:(lia) ltac:(lia)) as Es. rewrite Et in Es.
  destruct (pos_bounds W 4 12 n HW ltac:(lia) ltac:(lia) C) as [[PB _]|]; [|lia]. change (2 ^ (4 - 1 + 12)) with 32768 in PB.
  pose proof (isqrtY_range _ PB) as YB.
  set (y := pw_lin isqrt_m isqrt_c fb t) in *. set (Y := isqrtY (pos W 4 12 n)) in *. clearbody t y Y.
  pose proof (pow2_pos (12 - fb) ltac:(lia)) as PR. set (R := 2 ^ (12 - fb)) in *.
  assert (HR : 2 ^ fb * R = 2 ^ 12) by (unfold R; rewrite <- pow2_add by lia; f_equal; lia).
  pose proof (pow2_pos fb ltac:(lia)) as PF.
  set (nt := Fmt (fb + 12 + 1) 1 false pQ WRAP).
  assert (Hy : in_range (fS nt) (fW nt) y).
  { unfold nt, in_range, imin, imax; cbn [fS fW]. replace (fb + 12 + 1) with (fb + 13) by lia. rewrite (pow2_add fb 13) by lia.
    set (PFb := 2 ^ fb) in *. change (2 ^ 13) with 8192. change (2 ^ 12) with 4096 in HR. split; [nia|]. assert (y * R < PFb * 8192 * R); nia. }
  rewrite (conv_fits nt y (fb + 12)) by (try assumption; try reflexivity; unfold nt, fF; cbn [fW fI]; lia).
  set (yr := qround pQ (Y * 2896) (2 ^ 12)).
  assert (Eyr : qround pQ (y * 2896) (2 ^ fb) = yr).
  { unfold yr. rewrite <- Es, <- HR. replace (y * R * 2896) with (y * 2896 * R) by ring. symmetry. apply qround_scale; lia. }
  pose proof (qround_near pQ (Y * 2896) (2 ^ 12) ltac:(lia)) as Hyr. fold yr in Hyr. change (2 ^ 12) with 4096 in Hyr.
  assert (Hr : in_range false 24 yr) by (unfold in_range, imin, imax; change (2 ^ 24) with 16777216; lia).
  rewrite (conv_drop (Fmt 24 0 false pQ WRAP) (y * 2896) (fb + 12 + 12) fb); [|cbn [fW]; lia|unfold fF; cbn [fW fI]; lia|lia|reflexivity|cbn [fQ fS fW]; rewrite Eyr; exact Hr].
  cbn [fQ]. rewrite Eyr, rem2_even.
  assert (E1 : conv (dfmt 25 1 false) y (fb + 12) = Y).
  { rewrite conv_fits_up; unfold dfmt, fF; cbn [fW fI fO fS].
    - replace (25 - 1 - (fb + 12)) with (12 - fb) by lia. exact Es.
    - lia. - lia. - reflexivity.
    - replace (25 - 1 - (fb + 12)) with (12 - fb) by lia. fold R. rewrite Es. unfold in_range, imin, imax. change (2 ^ 25) with 33554432. lia. }
  assert (E2 : conv (dfmt 25 1 false) yr 24 = yr).
  { apply conv_fits; [cbn; lia|reflexivity|reflexivity|]. unfold dfmt; cbn [fS fW]. unfold in_range, imin, imax in *. change (2 ^ 25) with 33554432. change (2 ^ 24) with 16777216 in Hr. lia. }
  rewrite E1, E2. replace (x =? 0) with false by lia. cbn [negb]. eexists. split; [reflexivity|].
  rewrite Z.shiftr_div_pow2 by lia. change (2 ^ 1) with 2.
  fold (isqrt_mant pQ e Y). change (if e mod 2 =? 0 then Y else yr) with (isqrt_mant pQ e Y).
  change (- 24 - e / 2) with (- (25 - 1) - e / 2). apply shift_right_ui_spec; [lia|assumption|assumption|].
  unfold isqrt_mant. fold yr. unfold in_range, imin, imax in Hr. change (2 ^ 25) with 33554432. change (2 ^ 24) with 16777216 in Hr. destruct (e mod 2 =? 0); lia.
Qed.

(** Accuracy: the square of the value before conversion times x is 1 up to 0.99925^2 .. 1.00075^2. *)
Lemma isqrt_accuracy pQ W I XO f cn x : 1 <= W -> 1 <= fW f -> fS f = false -> 0 < x < 2 ^ W -> cn = true \/ 2 ^ (W - 1) <= x ->
  exists out M k n r, inverse_sqrt_pwl pQ W I XO f cn x = Some out /\ 0 < M /\ converts2 f M (- 24 - k) out /\
    (2 * k + r <= I /\ 0 <= r /\ n = x * 2 ^ (I - (2 * k + r))) /\
    99925 * 99925 * 2 ^ (48 + W) <= 10 ^ 10 * (M * M * n * 2 ^ r) <= 100075 * 100075 * 2 ^ (48 + W).
Proof.
  intros HW HfW HfS Hx Hcn. pose proof (isqrt_eval pQ W I XO f cn x HW HfW HfS Hx Hcn) as E.
  pose proof (normalize_u_ok W I XO x HW ltac:(lia)) as N. destruct (normalize W I false XO x) as [e n]. destruct N as (A & B & C).
  destruct E as (out & Eo & Ec).
  destruct (pos_bounds W 4 12 n HW ltac:(lia) ltac:(lia) C) as [[PB PE]|]; [|lia]. change (2 ^ (4 - 1 + 12)) with 32768 in *.
  pose proof (isqrt_near _ PB) as K. pose proof (isqrtY_range _ PB). cbv zeta in K.
  set (T := pos W 4 12 n) in *. set (Y := isqrtY T) in *. clearbody T Y.
  destruct K as [[K1 K2] [K3 K4]].
  assert (0 < 2 ^ W) by (apply pow2_pos; lia). change (2 ^ 15) with 32768 in *.
  assert (L1 : (32768 + T) * 2 ^ W <= 65536 * n) by lia. assert (L2 : 65536 * n <= (32768 + T + 1) * 2 ^ W) by lia.
  exists out, (isqrt_mant pQ e Y), (e / 2), n, (e mod 2). split; [exact Eo|].
  pose proof (Z.div_mod e 2 ltac:(lia)). pose proof (Z.mod_pos_bound e 2 ltac:(lia)).
  set (M := isqrt_mant pQ e Y) in *.
  assert (HM : (e mod 2 = 0 /\ M = Y) \/ (e mod 2 = 1 /\ Y * 2896 - 2 ^ 12 <= M * 4096 <= Y * 2896 + 2 ^ 12)).
  { unfold M, isqrt_mant. destruct (Z.eqb_spec (e mod 2) 0) as [E0|]; [left; split; [exact E0|reflexivity]|right; split; [lia|]].
    pose proof (qround_near pQ (Y * 2896) (2 ^ 12) ltac:(lia)) as Q. exact Q. }
  clearbody M. split; [lia|]. split; [exact Ec|].
  split; [split; [lia|split; [lia|replace (2 * (e / 2) + e mod 2) with e by lia; exact B]]|].
  rewrite (pow2_add 48 W) by lia. set (P := 2 ^ W) in *. clearbody P.
  destruct HM as [[-> ->]|[-> HM]].
  - change (2 ^ 0) with 1.
    assert (X1 : Y * Y * ((32768 + T) * P) <= Y * Y * (65536 * n)) by (apply Z.mul_le_mono_nonneg_l; lia).
    assert (X2 : Y * Y * (65536 * n) <= Y * Y * ((32768 + T + 1) * P)) by (apply Z.mul_le_mono_nonneg_l; lia).
    assert (X3 : 99925 * 99925 * 2 ^ 64 * P <= 10 ^ 10 * (Y * Y * (32768 + T)) * P) by (apply Z.mul_le_mono_nonneg_r; lia).
    assert (X4 : 10 ^ 10 * (Y * Y * (32768 + T + 1)) * P <= 100075 * 100075 * 2 ^ 64 * P) by (apply Z.mul_le_mono_nonneg_r; lia).
    set (Q := Y * Y * n). replace (Y * Y * (65536 * n)) with (65536 * Q) in X1, X2 by (unfold Q; ring).
    replace (Y * Y * (32768 + T) * P) with (Y * Y * ((32768 + T) * P)) in * by ring.
    replace (10 ^ 10 * (Y * Y * (32768 + T)) * P) with (10 ^ 10 * (Y * Y * ((32768 + T) * P))) in X3 by ring.
    replace (10 ^ 10 * (Y * Y * (32768 + T + 1)) * P) with (10 ^ 10 * (Y * Y * ((32768 + T + 1) * P))) in X4 by ring.
    lia.
  - change (2 ^ 1) with 2. change (2 ^ 12) with 4096 in *.
    assert (Q1 : (Y * 2896 - 4096) * (Y * 2896 - 4096) <= (M * 4096) * (M * 4096)) by (apply Z.mul_le_mono_nonneg; lia).
    assert (Q2 : (M * 4096) * (M * 4096) <= (Y * 2896 + 4096) * (Y * 2896 + 4096)) by (apply Z.mul_le_mono_nonneg; lia).
    set (D1 := (Y * 2896 - 4096) * (Y * 2896 - 4096)) in *. set (D2 := (Y * 2896 + 4096) * (Y * 2896 + 4096)) in *.
    assert (0 <= D1) by (apply Z.square_nonneg). set (MM := M * M) in *.
    replace (M * 4096 * (M * 4096)) with (MM * 2 ^ 24) in Q1, Q2 by (unfold MM; ring).
    assert (0 <= MM) by (apply Z.square_nonneg). clearbody MM D1 D2.
    assert (X1 : MM * ((32768 + T) * P) <= MM * (65536 * n)) by (apply Z.mul_le_mono_nonneg_l; lia).
    assert (X2 : MM * (65536 * n) <= MM * ((32768 + T + 1) * P)) by (apply Z.mul_le_mono_nonneg_l; lia).
    assert (X3 : D1 * ((32768 + T) * P) <= MM * 2 ^ 24 * ((32768 + T) * P)) by (apply Z.mul_le_mono_nonneg_r; [apply Z.mul_nonneg_nonneg; lia|lia]).
    assert (X4 : MM * 2 ^ 24 * ((32768 + T + 1) * P) <= D2 * ((32768 + T + 1) * P)) by (apply Z.mul_le_mono_nonneg_r; [apply Z.mul_nonneg_nonneg; lia|lia]).
    assert (X5 : 99925 * 99925 * 2 ^ 87 * P <= 10 ^ 10 * (D1 * (32768 + T)) * P) by (apply Z.mul_le_mono_nonneg_r; lia).
    assert (X6 : 10 ^ 10 * (D2 * (32768 + T + 1)) * P <= 100075 * 100075 * 2 ^ 87 * P) by (apply Z.mul_le_mono_nonneg_r; lia).
    set (Q := MM * n). replace (MM * (65536 * n)) with (65536 * Q) in X1, X2 by (unfold Q; ring).
    replace (10 ^ 10 * (D1 * (32768 + T)) * P) with (10 ^ 10 * (D1 * ((32768 + T) * P))) in X5 by ring.
    replace (10 ^ 10 * (D2 * (32768 + T + 1)) * P) with (10 ^ 10 * (D2 * ((32768 + T + 1) * P))) in X6 by ring.
    replace (MM * 2 ^ 24 * ((32768 + T) * P)) with (2 ^ 24 * (MM * ((32768 + T) * P))) in X3 by ring.
    replace (MM * 2 ^ 24 * ((32768 + T + 1) * P)) with (2 ^ 24 * (MM * ((32768 + T + 1) * P))) in X4 by ring.
    lia.
Qed.

Lemma isqrt_zero pQ W I XO f cn : inverse_sqrt_pwl pQ W I XO f cn 0 = Some (imax false (fW f)).
Proof.
  unfold inverse_sqrt_pwl. destruct (pwl_norm cn W I XO 0) as [e n]. set (fb := Z.max 1 (Z.min 12 (W - 4))).
  destruct (table_total isqrt_m isqrt_c 3 fb (scale_half W 3 fb 4 n) ltac:(lia) eq_refl eq_refl) as [y ->]. reflexivity.
Qed.

Lemma isqrt_mant_mono q e1 e2 Y1 Y2 :
  16773120 <= Y1 <= 23711744 -> 16773120 <= Y2 <= 23711744 -> e1 < e2 \/ (e1 = e2 /\ Y2 <= Y1) ->
  dle (isqrt_mant q e2 Y2) (- 24 - e2 / 2) (isqrt_mant q e1 Y1) (- 24 - e1 / 2).
Proof.
  intros H1 H2 H.
  assert (B : forall e Y, 16773120 <= Y <= 23711744 -> (e mod 2 = 0 -> isqrt_mant q e Y = Y) /\
     (e mod 2 = 1 -> 11859119 <= isqrt_mant q e Y <= 16764945)).
  { intros e Y HY. unfold isqrt_mant. destruct (Z.eqb_spec (e mod 2) 0); [split; [reflexivity|lia]|split; [lia|intros _]].
    pose proof (qround_near q (Y * 2896) (2 ^ 12) ltac:(lia)) as Q. set (z := qround q (Y * 2896) (2 ^ 12)) in *. lia. }
  destruct (B e1 Y1 H1) as [B1 B1'], (B e2 Y2 H2) as [B2 B2'].
  pose proof (Z.div_mod e1 2 ltac:(lia)). pose proof (Z.mod_pos_bound e1 2 ltac:(lia)).
  pose proof (Z.div_mod e2 2 ltac:(lia)). pose proof (Z.mod_pos_bound e2 2 ltac:(lia)).
  destruct H as [L|[-> L]].
  - destruct (Z.eq_dec (e1 / 2) (e2 / 2)) as [E|Ne].
    + rewrite E. apply dle_same. rewrite B1 by lia. specialize (B2' ltac:(lia)). lia.
    + assert (e1 mod 2 = 0 \/ e1 mod 2 = 1) as [X|X] by lia; assert (e2 mod 2 = 0 \/ e2 mod 2 = 1) as [Z|Z] by lia;
        try specialize (B1 X); try specialize (B1' X); try specialize (B2 Z); try specialize (B2' Z); apply dle_next; lia.
  - apply dle_same. unfold isqrt_mant. destruct (e2 mod 2 =? 0); [assumption|]. apply qround_mono; lia.
Qed.

Lemma isqrt_decreasing pQ W I XO f cn x y a b : 1 <= W -> 1 <= fW f -> fS f = false -> (fO f = SAT \/ fO f = SAT_SYM) ->
  0 < x <= y -> y < 2 ^ W -> cn = true \/ 2 ^ (W - 1) <= x ->
  inverse_sqrt_pwl pQ W I XO f cn x = Some a -> inverse_sqrt_pwl pQ W I XO f cn y = Some b -> b <= a.
Proof.
  intros HW HfW HfS HO Hxy Hy Hcn Ea Eb.
  pose proof (isqrt_eval pQ W I XO f cn y HW HfW HfS ltac:(lia) ltac:(destruct Hcn; [left; assumption|right; lia])) as E2.
  pose proof (normalize_u_ok W I XO y HW ltac:(lia)) as N2.
  pose proof (isqrt_eval pQ W I XO f cn x HW HfW HfS ltac:(lia) ltac:(destruct Hcn; [left; assumption|right; lia])) as E1.
  pose proof (normalize_u_ok W I XO x HW ltac:(lia)) as N1.
  pose proof (normalize_mono W I XO x y HW ltac:(lia) ltac:(lia) ltac:(lia)) as Mo.
  destruct (normalize W I false XO x) as [e1 n1], (normalize W I false XO y) as [e2 n2]. cbn [fst snd] in Mo.
  destruct N1 as (A1 & B1 & C1), N2 as (A2 & B2 & C2). destruct E1 as (o1 & F1 & G1), E2 as (o2 & F2 & G2).
  rewrite Ea in F1. injection F1 as <-. rewrite Eb in F2. injection F2 as <-.
  destruct (pos_bounds W 4 12 n1 HW ltac:(lia) ltac:(lia) C1) as [[P1 _]|]; [|lia].
  destruct (pos_bounds W 4 12 n2 HW ltac:(lia) ltac:(lia) C2) as [[P2 _]|]; [|lia]. change (2 ^ (4 - 1 + 12)) with 32768 in *.
  eapply converts2_mono; [exact HfW|exact HO| |exact G2|exact G1].
  apply isqrt_mant_mono; [apply isqrtY_range; exact P1|apply isqrtY_range; exact P2|].
  destruct Mo as [L|[-> L]]; [left; exact L|right; split; [reflexivity|]].
  apply isqrtY_mono; [lia|apply pos_mono; lia|lia].
Qed.
