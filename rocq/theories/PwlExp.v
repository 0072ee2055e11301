(** Proofs about ac_pow2_pwl and ac_log2_pwl, integer level. *)
From Coq Require Import Lia ZifyBool.
From Verif Require Import AcTypes AcFacts Spec SpecFacts ShiftFacts ShiftModel ShiftProofs LeadingModel LeadingProofs SpecFloat DetProofs FlfxProofs PwlModel PwlFacts PwlProofs PwlSqrt.

(** ** Powers of two *)
Notation powY := (pw_lin pow2_m pow2_c 10).
Lemma powY_mono a b : 0 <= a -> a <= b -> b < 4096 -> powY a <= powY b.
Proof. apply (pw_lin_up pow2_m pow2_c 10 4); [lia|vm_compute; reflexivity]. Qed.
Lemma powY_range T : 0 <= T < 4096 -> 1046528 <= powY T <= 2093056.
Proof.
  intros HT. pose proof (powY_mono 0 T ltac:(lia) ltac:(lia) ltac:(lia)) as H1. pose proof (powY_mono T 4095 ltac:(lia) ltac:(lia) ltac:(lia)) as H2.
  change (powY 0) with 1046528 in H1. change (powY 4095) with 2092731 in H2. set (v := powY T) in *. lia.
Qed.

(** Integer part, and the fraction with 12 bits, of x / 2^F. *)
Definition ipart (F x : Z) : Z := x * pw (- F) / pw F.
Definition fpart (F x : Z) : Z := (x * pw (- F)) mod pw F * 2 ^ 12 / pw F.

Lemma fpart_range F x : 0 <= fpart F x < 4096.
Proof.
  unfold fpart. pose proof (pw_pos F). pose proof (Z.mod_pos_bound (x * pw (- F)) (pw F) ltac:(lia)).
  split; [apply Z.div_pos; lia|]. apply Z.div_lt_upper_bound; lia.
Qed.

Lemma pow2_eval pQ W I S f x : 1 <= W -> 1 <= fW f -> fS f = false -> in_range S W x -> - 2 ^ 31 <= ipart (W - I) x < 2 ^ 31 ->
  exists out, pow2_pwl pQ W I S f x = Some out /\ converts2 f (powY (fpart (W - I) x)) (ipart (W - I) x - 20) out.
Proof.
  intros HW HfW HfS Hx Hq. unfold pow2_pwl. set (F := W - I) in *. set (fb := Z.max 1 (Z.min 10 (F - 2))).
  assert (Hfb : 1 <= fb <= 10) by lia.
  replace (I <? W) with (0 <? F) by lia.
  (* the scaled fraction *)
  assert (Ht : exists t, conv (dfmt (2 + fb) 2 false) ((if 0 <? F then slc F 0 x else 0) * 2 ^ 2) (Z.max F 1) = t /\ 0 <= t < 2 ^ (2 + fb) /\ t * 2 ^ (10 - fb) = fpart F x).
  { eexists. split; [reflexivity|]. rewrite conv_dfmt_div by lia. replace (2 + fb - 2) with fb by lia. unfold wrap.
    assert (PF : 0 < 2 ^ fb) by (apply pow2_pos; lia).
    destruct (Z.ltb_spec 0 F) as [L|L].
    - rewrite Z.max_l by lia. unfold slc. rewrite Z.shiftr_0_r. change (wrapu F x) with (x mod 2 ^ F). unfold fpart. rewrite (pw_nonpos_eq (- F)), (pw_nonneg_eq F), Z.mul_1_r by lia.
      assert (0 < 2 ^ F) by (apply pow2_pos; lia). pose proof (Z.mod_pos_bound x (2 ^ F) ltac:(lia)). set (r := x mod 2 ^ F) in *.
      assert (B : 0 <= r * 2 ^ 2 * 2 ^ fb / 2 ^ F < 2 ^ (2 + fb)).
      { rewrite (pow2_add 2 fb) by lia. split; [apply Z.div_pos; [|lia]; repeat apply Z.mul_nonneg_nonneg; lia|]. apply Z.div_lt_upper_bound; [lia|].
        replace (r * 2 ^ 2 * 2 ^ fb) with (r * (2 ^ 2 * 2 ^ fb)) by ring. apply Z.mul_lt_mono_pos_r; lia. }
      rewrite wrapu_id by exact B. split; [exact B|].
      destruct (Z.eq_dec fb 10) as [E|E].
      + rewrite E. change (2 ^ (10 - 10)) with 1. rewrite Z.mul_1_r. replace (r * 2 ^ 2 * 2 ^ 10) with (r * 2 ^ 12) by lia. reflexivity.
      + assert (Hd : exists k, 2 ^ (2 + fb) = k * 2 ^ F). { exists (2 ^ (2 + fb - F)). rewrite <- pow2_add by lia. f_equal. lia. }
        destruct Hd as [k Hk]. rewrite pow2_add in Hk by lia.
        replace (r * 2 ^ 2 * 2 ^ fb) with (r * k * 2 ^ F) by (rewrite <- !Z.mul_assoc; f_equal; lia). rewrite Z.div_mul by lia.
        change (2 ^ 12) with (2 ^ 2 * 2 ^ 10). rewrite (pow2_split 10 fb) by lia.
        replace (r * (2 ^ 2 * (2 ^ fb * 2 ^ (10 - fb)))) with (r * k * 2 ^ (10 - fb) * 2 ^ F).
        * rewrite Z.div_mul by lia. reflexivity.
        * replace (r * (2 ^ 2 * (2 ^ fb * 2 ^ (10 - fb)))) with (r * 2 ^ (10 - fb) * (2 ^ 2 * 2 ^ fb)) by ring. rewrite Hk. ring.
    - unfold fpart. rewrite (pw_nonpos_eq F) by lia. rewrite Z.mod_1_r. rewrite !Z.mul_0_l, !Z.div_0_l by (try apply Z.pow_nonzero; lia).
      unfold wrapu. rewrite Z.mod_0_l by (apply Z.pow_nonzero; lia). rewrite pow2_add by lia. lia. }
  destruct Ht as (t & -> & Bt & Et). rewrite (pwl_table_ok pow2_m pow2_c 2 fb t); [|lia|lia|reflexivity|reflexivity|exact Bt].
  pose proof (pw_lin_scale pow2_m pow2_c fb 10 t ltac:(lia) ltac:(lia)) as Es. rewrite Et in Es.
  pose proof (powY_range _ (fpart_range F x)) as YB. set (Y := powY (fpart F x)) in *. set (y := pw_lin pow2_m pow2_c fb t) in *. clearbody Y y.
  pose proof (pow2_pos (10 - fb) ltac:(lia)) as PR. set (R := 2 ^ (10 - fb)) in *.
  assert (HR : 2 ^ (fb + 11) * R = 2 ^ 21) by (unfold R; rewrite <- pow2_add by lia; f_equal; lia).
  set (pt := Fmt (fb + 10 + 1) 1 false pQ WRAP).
  assert (Hy : 0 <= y < 2 ^ (fb + 11)) by (split; [nia|]; change (2 ^ 21) with 2097152 in HR; nia).
  rewrite (conv_fits pt y (fb + 10)); [|unfold pt; cbn [fW]; lia|unfold pt, fF; cbn [fW fI]; lia|reflexivity|].
  2:{ unfold pt, in_range, imin, imax; cbn [fS fW]. replace (fb + 10 + 1) with (fb + 11) by lia. lia. }
  eexists. split; [reflexivity|].
  assert (Ei : fx_to_int W I x = ipart F x).
  { unfold fx_to_int. replace (I - W) with (- F) by lia. rewrite shiftl_pw. replace (- - F) with F by lia. apply wraps_id; [lia|exact Hq]. }
  assert (Q : converts2 f y (- (fb + 10) + ipart F x) (if negb S && (I <=? 0) then conv f y (fb + 10) else shift_left_ui (fW pt) 1 f y (fx_to_int W I x))).
  { destruct (negb S && (I <=? 0)) eqn:D.
    - assert (E0 : ipart F x = 0).
      { destruct S; [discriminate|]. unfold in_range, imin, imax in Hx. assert (Hw : 2 ^ W <= 2 ^ F) by (apply pow2_le; unfold F; lia).
        unfold ipart. rewrite (pw_nonpos_eq (- F)), (pw_nonneg_eq F) by (unfold F; lia). apply Z.div_small. lia. }
      rewrite E0. eapply conv_eq_converts2; [exact HfW| |reflexivity]. lia.
    - rewrite Ei. replace (- (fb + 10)) with (- (fW pt - 1)) by (unfold pt; cbn [fW]; lia).
      apply shift_left_ui_spec; [unfold pt; cbn [fW]; lia|exact HfW|exact HfS|unfold pt; cbn [fW]; replace (fb + 10 + 1) with (fb + 11) by lia; exact Hy]. }
  apply (converts2_rescale f _ _ (10 - fb)) in Q; [|assumption|lia]. fold R in Q. rewrite Es in Q.
  replace (ipart F x - 20) with (- (fb + 10) + ipart F x - (10 - fb)) by lia. exact Q.
Qed.

Lemma part_mono F x y : x <= y -> ipart F x < ipart F y \/ (ipart F x = ipart F y /\ fpart F x <= fpart F y).
Proof.
  intros H. unfold ipart, fpart. pose proof (pw_pos F). pose proof (pw_pos (- F)).
  assert (L : x * pw (- F) <= y * pw (- F)) by (apply Z.mul_le_mono_nonneg_r; lia).
  set (u := x * pw (- F)) in *. set (v := y * pw (- F)) in *. pose proof (Z.div_le_mono u v (pw F) ltac:(lia) L).
  destruct (Z.eq_dec (u / pw F) (v / pw F)) as [E|]; [right|left; lia]. split; [exact E|].
  apply Z.div_le_mono; [lia|]. apply Z.mul_le_mono_nonneg_r; [lia|].
  pose proof (Z.div_mod u (pw F) ltac:(lia)). pose proof (Z.div_mod v (pw F) ltac:(lia)). rewrite E in *. lia.
Qed.

Lemma pow2_mono pQ W I S f x y a b : 1 <= W -> 1 <= fW f -> fS f = false -> (fO f = SAT \/ fO f = SAT_SYM) ->
  in_range S W x -> in_range S W y -> x <= y -> - 2 ^ 31 <= ipart (W - I) x -> ipart (W - I) y < 2 ^ 31 ->
  pow2_pwl pQ W I S f x = Some a -> pow2_pwl pQ W I S f y = Some b -> a <= b.
Proof.
  intros HW HfW HfS HO Hx Hy H B1 B2 Ea Eb.
  pose proof (part_mono (W - I) x y H) as M.
  destruct (pow2_eval pQ W I S f x HW HfW HfS Hx ltac:(lia)) as (o1 & F1 & G1).
  destruct (pow2_eval pQ W I S f y HW HfW HfS Hy ltac:(lia)) as (o2 & F2 & G2).
  rewrite Ea in F1. injection F1 as <-. rewrite Eb in F2. injection F2 as <-.
  eapply converts2_mono; [exact HfW|exact HO| |exact G1|exact G2].
  pose proof (fpart_range (W - I) x). pose proof (fpart_range (W - I) y).
  destruct M as [L|[-> L]].
  - pose proof (powY_range _ (fpart_range (W - I) x)). pose proof (powY_range _ (fpart_range (W - I) y)). apply dle_next; lia.
  - apply dle_same. apply powY_mono; lia.
Qed.

(** ** Logarithm *)
Notation logY := (pw_lin log2_m log2_c 11).
Lemma logY_mono a b : 0 <= a -> a <= b -> b < 16384 -> logY a <= logY b.
Proof. apply (pw_lin_up log2_m log2_c 11 8); [lia|vm_compute; reflexivity]. Qed.
Lemma logY_range T : 0 <= T < 16384 -> -4188160 <= logY T <= 2048.
Proof.
  intros HT. pose proof (logY_mono 0 T ltac:(lia) ltac:(lia) ltac:(lia)) as H1. pose proof (logY_mono T 16383 ltac:(lia) ltac:(lia) ltac:(lia)) as H2.
  change (logY 0) with (-4188160) in H1. change (logY 16383) with 1857 in H2. set (v := logY T) in *. lia.
Qed.

Lemma log2_eval pQ W I XO f cn x : 1 <= W -> 0 < x < 2 ^ W -> cn = true \/ 2 ^ (W - 1) <= x ->
  let '(e, n) := normalize W I false XO x in
  log2_pwl pQ W I XO f cn x = Some (conv f (logY (pos W 4 11 n) + e * 2 ^ 22) 22).
Proof.
  intros HW Hx Hcn. unfold log2_pwl. rewrite pwl_norm_eq by (assumption || lia).
  pose proof (normalize_u_ok W I XO x HW ltac:(lia)) as N. destruct (normalize W I false XO x) as [e n]. destruct N as (A & B & C).
  destruct (scale_half_ok W 3 11 4 11 n HW ltac:(lia) ltac:(lia) ltac:(lia) C ltac:(left; reflexivity)) as [Ht Et].
  rewrite Z.sub_diag in Et. change (2 ^ 0) with 1 in Et. rewrite Z.mul_1_r in Et. rewrite Et in *.
  rewrite (pwl_table_ok log2_m log2_c 3 11); [|lia|lia|reflexivity|reflexivity|exact Ht]. change (2 ^ (3 + 11)) with 16384 in Ht.
  pose proof (logY_range _ Ht) as YB. set (Y := logY (pos W 4 11 n)) in *. clearbody Y.
  rewrite (conv_fits (Fmt 23 1 true pQ WRAP) Y 22); [|cbn; lia|reflexivity|reflexivity|].
  2:{ unfold in_range, imin, imax; cbn [fS fW]. change (2 ^ (23 - 1)) with 4194304. lia. }
  replace (x =? 0) with false by lia. reflexivity.
Qed.

Lemma log2_zero pQ W I XO f cn : log2_pwl pQ W I XO f cn 0 = Some (imin (fS f) (fW f)).
Proof.
  unfold log2_pwl. destruct (pwl_norm cn W I XO 0) as [e n].
  destruct (table_total log2_m log2_c 3 11 (scale_half W 3 11 4 n) ltac:(lia) eq_refl eq_refl) as [y ->]. reflexivity.
Qed.

Lemma log2_mono pQ W I XO f cn x y a b : 1 <= W -> 1 <= fW f -> (fO f = SAT \/ fO f = SAT_SYM) ->
  0 <= x <= y -> y < 2 ^ W -> cn = true \/ 2 ^ (W - 1) <= x ->
  log2_pwl pQ W I XO f cn x = Some a -> log2_pwl pQ W I XO f cn y = Some b -> a <= b.
Proof.
  intros HW HfW HO Hxy Hy Hcn Ea Eb. pose proof (pow2_pos (W - 1) ltac:(lia)).
  destruct (Z.eq_dec y 0) as [->|Ny]. { replace x with 0 in * by lia. rewrite Ea in Eb. injection Eb. lia. }
  pose proof (log2_eval pQ W I XO f cn y HW ltac:(lia) ltac:(destruct Hcn; [left; assumption|right; lia])) as E2.
  pose proof (normalize_u_ok W I XO y HW ltac:(lia)) as N2.
  destruct (Z.eq_dec x 0) as [->|Nx].
  { rewrite log2_zero in Ea. injection Ea as <-. destruct (normalize W I false XO y) as [e n]. rewrite Eb in E2. injection E2 as ->.
    pose proof (conv_range f (logY (pos W 4 11 n) + e * 2 ^ 22) 22 HfW) as R. exact (proj1 R). }
  pose proof (log2_eval pQ W I XO f cn x HW ltac:(lia) ltac:(destruct Hcn; [left; assumption|right; lia])) as E1.
  pose proof (normalize_u_ok W I XO x HW ltac:(lia)) as N1.
  pose proof (normalize_mono W I XO x y HW ltac:(lia) ltac:(lia) ltac:(lia)) as Mo.
  destruct (normalize W I false XO x) as [e1 n1], (normalize W I false XO y) as [e2 n2]. cbn [fst snd] in Mo.
  destruct N1 as (A1 & B1 & C1), N2 as (A2 & B2 & C2).
  rewrite Ea in E1. injection E1 as ->. rewrite Eb in E2. injection E2 as ->.
  destruct (pos_bounds W 4 11 n1 HW ltac:(lia) ltac:(lia) C1) as [[P1 _]|]; [|lia].
  destruct (pos_bounds W 4 11 n2 HW ltac:(lia) ltac:(lia) C2) as [[P2 _]|]; [|lia]. change (2 ^ (4 - 1 + 11)) with 16384 in *.
  apply (conv_mono f _ (- 22) _ (- 22) HfW HO). apply dle_same.
  destruct Mo as [L|[-> L]].
  - pose proof (logY_range _ P1). pose proof (logY_range _ P2). change (2 ^ 22) with 4194304. lia.
  - pose proof (logY_mono (pos W 4 11 n1) (pos W 4 11 n2) ltac:(lia) ltac:(apply pos_mono; lia) ltac:(lia)). lia.
Qed.
