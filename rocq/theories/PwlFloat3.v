(** The ac_float overloads of the piecewise-linear tangent and reciprocal, and of ac_div. *)
From Coq Require Import Reals Lia Lra Psatz ZifyBool.
From Verif Require Import AcTypes AcFacts Spec SpecFacts SpecR SpecRFacts SoftFacts QrdThm MatrixProofs ShiftFacts ShiftModel ShiftProofs LeadingModel LeadingProofs PwlModel PwlFacts PwlProofs PwlReal DetProofs HcFloat AtanNum TanPwlModel TanNum TanPwlProofs TanPwlThm DivModel DivSpecs PwlFloatModel PwlFloat.
Local Open Scope R_scope.

(** ** Tangent *)
Lemma tan_value_range pQ W I Q O x v : (1 <= W)%Z -> (1 <= tan_Wi W I)%Z -> tan_dom W I Q O -> (0 <= x < 2 ^ W)%Z -> tan_ge W I 1594 x = false -> tan_value pQ W I Q O x v -> 0 <= fxval v 30 < 70.
Proof.
  intros HW HWi Dom Hx G V. destruct (tan_pos W I Q O HW HWi Dom x Hx G) as (_ & _ & TB). unfold tan_value in V. set (T := tan_scaled W I Q O x) in *. cbv zeta in V. destruct (tan_exceeds W I x).
  - destruct V as (r & Er & ->). destruct (tan_eta pQ T r TB Er) as [Pb Eta]. set (p := fxval (pw_lin tan_m tan_c 10 T) 20) in *. assert (EV : fxval (2 * pw_lin tan_m tan_c 10 T * r) 30 = 2 * p * fxval r 10). { unfold p, fxval. rewrite !mult_IZR. replace (- (30))%Z with (- (20) + - (10))%Z by lia. rewrite bpow2_add. ring. }
    rewrite EV. set (R := fxval r 10) in *. apply Rabs_le_both in Eta. assert (Q1 : 0.0288 <= 1 - p * p) by nra. assert (R1 : 0 <= R) by nra. assert (R2 : R <= 34.9) by nra. split; [apply Rmult_le_pos; lra|]. apply Rle_lt_trans with (2 * 0.98549 * 34.9); [apply Rmult_le_compat; lra|lra].
  - subst v. assert (EV : fxval (pw_lin tan_m tan_c 10 T * 2 ^ 10) 30 = fxval (pw_lin tan_m tan_c 10 T) 20) by (change 10%Z with (30 - 20)%Z at 2; apply fxval_up; lia). rewrite EV. destruct (tanL_all T ltac:(lia)) as [A B]. apply IZR_le in A, B. unfold fxval. rewrite bpow2_opp, bpow2_IZR by lia. change (IZR (2 ^ 20)) with 1048576. lra.
Qed.
Lemma tan_flt_real pQ W I m e : (2 <= W)%Z -> (0 <= m < 2 ^ (W - 1))%Z -> let X := fltval (W - I) m e in
  (X < 1594 / 1024 - bpow2 (-21) -> exists v P, tan_flt pQ W I m e = Some v /\ 0 <= P /\ Rabs (P - X) <= bpow2 (-21) /\
    Rabs (fxval v 29 - tan P) <= (if Rlt_dec P (804 / 1024) then 0.00276 else (if Rle_dec P 1.4 then 0.0121 else 0.0501) * tan P)) /\
  (1594 / 1024 <= X <= 2 - bpow2 (-21) -> tan_flt pQ W I m e = Some (2 ^ 36 - 1)%Z).
Proof.
  intros HW Hm X. unfold tan_flt. rewrite mant_id by lia. pose proof (shift_left_ui_spec (W - 1) (I - 1) (Fmt 22 1 false RND WRAP) m e ltac:(lia) ltac:(cbn; lia) eq_refl Hm) as SP. apply converts2_R in SP. replace (IZR m * bpow2 (- (W - 1 - (I - 1)) + e)) with X in SP by (unfold X, fltval, fxval; rewrite bpow2_add; replace (W - 1 - (I - 1))%Z with (W - I)%Z by lia; ring).
  set (x := shift_left_ui (W - 1) (I - 1) (Fmt 22 1 false RND WRAP) m e) in *. clearbody x. assert (X0 : 0 <= X) by (unfold X, fltval, fxval; repeat apply Rmult_le_pos; try (apply (IZR_le 0); lia); apply Rlt_le, bpow2_pos).
  set (u := bpow2 (-21)) in *. assert (Pu : 0 < u <= / 2097152) by (split; [apply bpow2_pos|]; unfold u; change (-21)%Z with (- (21))%Z; rewrite bpow2_opp, bpow2_IZR by lia; apply Rle_refl).
  assert (Near : X <= 2 - u -> (0 <= x < 2 ^ 22)%Z /\ Rabs (fxval x 21 - X) <= u).
  { intros HX. destruct (convR_mid 22 1 false RND X x ltac:(lia) SP) as [A B]; [cbv iota; lra|cbv iota; change (- (22 - 1))%Z with (-21)%Z; fold u; rewrite bpow2_1; lra|]. split; [unfold in_range, imin, imax in A; lia|exact B]. }
  split; intros HX.
  - destruct (Near ltac:(lra)) as [Rx D]. apply Rabs_le_both in D. set (P := fxval x 21) in *. assert (P0 : 0 <= P) by (unfold P, fxval; apply Rmult_le_pos; [apply (IZR_le 0); lia|apply Rlt_le, bpow2_pos]).
    assert (HP' : fxval x (22 - 1) < 1594 / 1024) by (change (22 - 1)%Z with 21%Z; fold P; lra).
    assert (G : tan_ge 22 1 1594 x = false). { destruct (tan_ge 22 1 1594 x) eqn:E; [|reflexivity]. apply tan_ge_real in E. lra. }
    assert (Dom : tan_dom 22 1 RND WRAP) by (left; lia). assert (HWi : (1 <= tan_Wi 22 1)%Z) by (vm_compute; discriminate).
    destruct (tan_eval pQ 22 1 RND WRAP (dfmt 36 7 false) x ltac:(lia) HWi Dom Rx G) as (v & Vv & E). rewrite E. exists (conv (dfmt 36 7 false) v 30), P. split; [reflexivity|]. split; [exact P0|]. split; [apply Rabs_le; lra|].
    pose proof (tan_value_range pQ 22 1 RND WRAP x v ltac:(lia) HWi Dom Rx G Vv) as VR. destruct (tan_main_v pQ 22 1 RND WRAP x ltac:(lia) HWi Dom Rx HP' v Vv) as [A B]. change (22 - 1)%Z with 21%Z in A, B. fold P in A, B.
    pose proof (tan_cases 22 1 x (fxval v 30) ltac:(lia) Rx A B) as Ac. cbv zeta in Ac. change (22 - 1)%Z with 21%Z in Ac. fold P in Ac. pose proof (tan_pos0 P ltac:(lra)) as T0.
    pose proof (conv_R (dfmt 36 7 false) v 30 ltac:(cbn; lia)) as C. destruct (convR_dfmt 36 7 false _ _ ltac:(lia) C) as [_ V2]; [cbv iota; rewrite (bpow2_IZR 7) by lia; change (IZR (2 ^ 7)) with 128; lra|]. change (36 - 7)%Z with 29%Z in V2. assert (P29 : bpow2 (- (29)) <= / 100000000) by (rewrite bpow2_opp, bpow2_IZR by lia; change (IZR (2 ^ 29)) with 536870912; lra).
    set (w := fxval _ 29) in *. destruct (Rlt_dec P (804 / 1024)) as [L|L]; [apply Rabs_le_both in Ac; apply Rabs_le; lra|]. assert (T1 : 0.1 <= tan P). { apply tan_le_of_atan; [lra|]. pose proof (atan_up 0 0.1 ltac:(lra) ltac:(lra)) as U. rewrite atan_0 in U. replace (1 + 0 ^ 2) with 1 in U by ring. rewrite Rinv_1 in U. lra. }
    destruct (Rle_dec P 1.4); apply Rabs_le_both in Ac; apply Rabs_le; lra.
  - destruct (Near ltac:(lra)) as [Rx D]. apply tan_top. change (22 - 1)%Z with 21%Z. destruct SP as (z & Hr & Hl).
    assert (Hz : (3264512 <= z)%Z). { apply (round_ge _ _ _ _ Hr). unfold fF. cbn [fW fI]. change (22 - 1)%Z with 21%Z. rewrite bpow2_IZR by lia. change (IZR (2 ^ 21)) with 2097152. lra. }
    assert (Hz2 : (z <= 2 ^ 22 - 1)%Z). { apply (round_le _ _ _ _ Hr). unfold fF. cbn [fW fI]. change (22 - 1)%Z with 21%Z. rewrite bpow2_IZR by lia. change (IZR (2 ^ 21)) with 2097152. rewrite minus_IZR. change (IZR (2 ^ 22)) with 4194304. assert (Eu : u = / 2097152) by (unfold u; change (-21)%Z with (- (21))%Z; rewrite bpow2_opp, bpow2_IZR by lia; reflexivity). lra. }
    assert (x = z) as ->. { apply is_limited_unique in Hl; [|cbn; lia]. cbn [fO fS fW] in Hl. rewrite overflow_id in Hl; [exact Hl|lia|unfold in_range, imin, imax; lia|discriminate]. }
    unfold fxval. rewrite bpow2_opp, bpow2_IZR by lia. change (IZR (2 ^ 21)) with 2097152. apply IZR_le in Hz. lra.
Qed.

(** ** Reciprocal *)
Lemma flt_full_ok W m e : (2 <= W)%Z -> in_range true W m -> (m <> 0)%Z -> exists n e', flt_full W m e = (n, e') /\ in_range true W n /\ (2 ^ (W - 2) <= Z.abs n)%Z /\ (n <> 0)%Z /\ forall F, fltval F n e' = fltval F m e.
Proof.
  intros HW Hm H0. unfold flt_full. replace (m =? 0)%Z with false by lia. unfold flt_lead. unfold in_range, imin, imax in *. set (a := (if m <? 0 then - m - 1 else m)%Z). assert (Ha : (0 <= a < 2 ^ (W - 1))%Z) by (unfold a; destruct (Z.ltb_spec m 0); lia).
  pose proof (nbits_ub a ltac:(lia)) as U. pose proof (nbits_nonneg a) as K0. set (k := nbits a) in *. assert (HA : (a = 0 /\ k = 0 \/ 0 < a /\ 1 <= k /\ 2 ^ (k - 1) <= a)%Z).
  { destruct (Z.eq_dec a 0) as [Z0|Z0]; [left; split; [exact Z0|unfold k; rewrite Z0; reflexivity]|right]. split; [lia|]. split; [|apply nbits_lb; lia]. destruct (Z.eq_dec k 0) as [K|K]; [rewrite K in U; change (2 ^ 0)%Z with 1%Z in U; lia|lia]. }
  assert (HK : (k <= W - 1)%Z). { destruct HA as [[_ ->]|(_ & K1 & B)]; [lia|]. assert (k - 1 < W - 1)%Z; [|lia]. apply (Z.pow_lt_mono_r_iff 2); lia. }
  set (l := (W - 1 - k)%Z). assert (Hl : (0 <= l)%Z) by (unfold l; lia). pose proof (Z.pow_pos_nonneg 2 l ltac:(lia) Hl) as PL. assert (E1 : (2 ^ (W - 1) = 2 ^ k * 2 ^ l)%Z) by (rewrite <- Z.pow_add_r by lia; f_equal; unfold l; lia).
  assert (Bn : (- 2 ^ (W - 1) <= m * 2 ^ l <= 2 ^ (W - 1) - 1)%Z /\ (2 ^ (W - 2) <= Z.abs (m * 2 ^ l))%Z).
  { rewrite E1. assert (E2 : (2 * 2 ^ (W - 2) = 2 ^ k * 2 ^ l)%Z) by (rewrite <- E1; replace (W - 1)%Z with (1 + (W - 2))%Z by lia; rewrite Z.pow_add_r by lia; reflexivity). assert (PW2 : (0 < 2 ^ (W - 2))%Z) by (apply Z.pow_pos_nonneg; lia). rewrite Z.abs_mul, (Z.abs_eq (2 ^ l)) by lia. unfold a in *. clearbody l. set (L := (2 ^ l)%Z) in *. set (H := (2 ^ (W - 2))%Z) in *.
    destruct HA as [[A0 K1]|(A0 & K1 & B)].
    - destruct (Z.ltb_spec m 0); [|lia]. assert (m = -1)%Z as -> by lia. rewrite K1 in *. change (2 ^ 0)%Z with 1%Z in *. lia.
    - assert (E3 : (2 ^ k = 2 * 2 ^ (k - 1))%Z) by (replace k with (1 + (k - 1))%Z at 1 by lia; rewrite Z.pow_add_r by lia; reflexivity). set (K := (2 ^ (k - 1))%Z) in *. rewrite E3 in *. clearbody K L H. destruct (Z.ltb_spec m 0); clear - PL E2 U B H1 A0 PW2; nia. }
  exists (m * 2 ^ l)%Z, (e - l)%Z. split; [reflexivity|]. split; [exact (proj1 Bn)|]. split; [exact (proj2 Bn)|]. split; [intros D; apply Z.mul_eq_0 in D; lia|]. intros F. unfold fltval, fxval. rewrite mult_IZR, <- bpow2_IZR by lia. replace e with (l + (e - l))%Z at 2 by lia. rewrite (bpow2_add l). ring.
Qed.
Lemma recip_flt_real pQ oQ W I m e : (2 <= W)%Z -> in_range true W m -> (m <> 0)%Z -> let X := fltval (W - I) m e in
  exists v n, recip_flt pQ oQ W I m e = Some (v, n) /\ Rabs (fltval (recip_flt_fb W + 9 + I) v n - / X) <= 0.0025 * / Rabs X.
Proof.
  intros HW Hm H0 X. unfold recip_flt. destruct (flt_full_ok W m e HW Hm H0) as (n & e' & E & Rn & Bn & N0 & EX). rewrite E. specialize (EX (W - I)%Z). fold X in EX. set (fb := recip_flt_fb W). assert (Hfb : (1 <= fb <= 10)%Z) by (unfold fb, recip_flt_fb; lia). set (f := Fmt (fb + 10 + 2) (- I + 3) true oQ WRAP).
  destruct (recip_accuracy_size pQ W I true f n ltac:(lia) ltac:(unfold f; cbn [fW]; lia) Rn N0) as (o & Y & k & Eo & Hk & HY & C & B & YB & K20 & SZ). rewrite Eo. exists o, (- e')%Z. split; [reflexivity|]. unfold f in C at 1. cbn [fS andb] in C. set (sg := (if n <? 0 then -1 else 1)%Z) in *.
  apply converts2_R in C. set (V := IZR (sg * Y) * bpow2 (W - I - k)) in *. set (N := fxval n (W - I)). set (A := Rabs N).
  assert (EA : A = IZR (Z.abs n) * bpow2 (- (W - I))). { unfold A, N, fxval. rewrite Rabs_mult, abs_IZR. f_equal. apply Rabs_pos_eq. apply Rlt_le, bpow2_pos. }
  assert (PA : 0 < A). { rewrite EA. apply Rmult_lt_0_compat; [apply (IZR_lt 0); lia|apply bpow2_pos]. } set (U := IZR Y * bpow2 (W - I - k)).
  assert (HU : Rabs (U * A - 1) <= 0.002).
  { assert (EU : U * A = IZR (Y * Z.abs n) * bpow2 (- k)). { unfold U. rewrite EA, mult_IZR. replace (- k)%Z with (W - I - k + - (W - I))%Z by lia. rewrite bpow2_add. ring. }
    rewrite EU. apply IZR_le in B. rewrite mult_IZR, abs_IZR, minus_IZR, (mult_IZR 2 (2 ^ k)) in B. rewrite <- bpow2_IZR in B by lia. pose proof (bpow2_pos k). rewrite (bpow2_opp k).
    replace (IZR (Y * Z.abs n) * / bpow2 k - 1) with ((IZR (Y * Z.abs n) - bpow2 k) * / bpow2 k) by (field; lra). rewrite Rabs_mult, (Rabs_pos_eq (/ bpow2 k)) by (apply Rlt_le, Rinv_0_lt_compat; lra). apply Rmult_le_reg_r with (bpow2 k); [lra|]. rewrite Rmult_assoc, Rinv_l by lra. lra. }
  pose proof (inv_close U A 0.002 PA HU) as Q. set (t := / A) in *. assert (Pt : 0 < t) by (apply Rinv_0_lt_compat; exact PA).
  assert (HKW : (W + 19 <= k)%Z). { assert (2 ^ (W - 2) < 2 ^ (k - 20))%Z as L by lia. apply (Z.pow_lt_mono_r_iff 2) in L; lia. }
  set (ulp := bpow2 (- (fb + 9 + I))). assert (Pu : 0 < ulp) by apply bpow2_pos. assert (TI : bpow2 (1 - I) <= t).
  { unfold t. apply Rmult_le_reg_r with A; [exact PA|]. rewrite Rinv_l by lra. rewrite EA. assert (IZR (Z.abs n) <= bpow2 (W - 1)). { rewrite bpow2_IZR by lia. apply IZR_le. unfold in_range, imin, imax in Rn. lia. }
    apply Rle_trans with (bpow2 (1 - I) * (bpow2 (W - 1) * bpow2 (- (W - I)))); [apply Rmult_le_compat_l; [apply Rlt_le, bpow2_pos|]; apply Rmult_le_compat_r; [apply Rlt_le, bpow2_pos|assumption]|]. rewrite <- !bpow2_add. replace (1 - I + (W - 1 + - (W - I)))%Z with 0%Z by lia. rewrite bpow2_0. lra. }
  assert (Hu : ulp <= / 2048 * t). { apply Rle_trans with (bpow2 (- (11) + (1 - I))); [apply bpow2_le; lia|]. rewrite bpow2_add, bpow2_opp, bpow2_IZR by lia. change (IZR (2 ^ 11)) with 2048. lra. }
  assert (UB : U + ulp <= bpow2 (2 - I)).
  { assert (U <= 2094080 / 2097152 * bpow2 (2 - I)). { unfold U. apply Rle_trans with (2094080 * bpow2 (- I - 19)); [apply Rmult_le_compat; [apply (IZR_le 0); lia|apply Rlt_le, bpow2_pos|apply IZR_le; exact YB|apply bpow2_le; lia]|]. replace (- I - 19)%Z with (- (21) + (2 - I))%Z by lia. rewrite bpow2_add, bpow2_opp, bpow2_IZR by lia. change (IZR (2 ^ 21)) with 2097152. lra. }
    assert (ulp <= / 4096 * bpow2 (2 - I)). { apply Rle_trans with (bpow2 (- (12) + (2 - I))); [apply bpow2_le; lia|]. rewrite bpow2_add, bpow2_opp, bpow2_IZR by lia. change (IZR (2 ^ 12)) with 4096. lra. } lra. }
  assert (U0 : 0 < U) by (unfold U; apply Rmult_lt_0_compat; [apply (IZR_lt 0); lia|apply bpow2_pos]).
  assert (ES : (sg = 1%Z /\ V = U /\ N = A) \/ (sg = (-1)%Z /\ V = - U /\ N = - A)).
  { unfold sg in *. destruct (Z.ltb_spec n 0) as [L|L]; [right|left]; (split; [reflexivity|]; split; [unfold V, U; rewrite mult_IZR; ring|]); unfold A.
    - rewrite Rabs_left; [ring|]. unfold N, fxval. apply (IZR_lt n 0) in L. pose proof (bpow2_pos (- (W - I))). nra.
    - symmetry. apply Rabs_pos_eq. unfold N, fxval. apply Rmult_le_pos; [apply (IZR_le 0); lia|apply Rlt_le, bpow2_pos]. }
  assert (EF : (fb + 10 + 2 - (- I + 3) = fb + 9 + I)%Z) by lia. assert (EI : (- I + 3 - 1 = 2 - I)%Z) by lia.
  assert (Near : Rabs (fxval o (fb + 9 + I) - V) <= ulp).
  { destruct (convR_mid (fb + 10 + 2) (- I + 3) true oQ V o ltac:(lia) C) as [_ D]; rewrite ?EF, ?EI in *; [cbv iota; destruct ES as [(_ & EV & _)|(_ & EV & _)]; rewrite EV; fold ulp; lra|cbv iota; fold ulp; destruct ES as [(_ & EV & _)|(_ & EV & _)]; rewrite EV; lra|exact D]. }
  assert (NI : Rabs (fxval o (fb + 9 + I) - / N) <= 0.0025 * t). { assert (VN : Rabs (V - / N) <= 0.002 * t). { destruct ES as [(_ & EV & EN)|(_ & EV & EN)]; rewrite EV, EN; [exact Q|]. replace (/ - A) with (- / A) by (field; lra). replace (- U - - / A) with (- (U - / A)) by ring. rewrite Rabs_Ropp. exact Q. } apply Rabs_le_both in VN, Near. apply Rabs_le. lra. }
  assert (EXN : X = N * bpow2 e') by (rewrite <- EX; reflexivity). pose proof (bpow2_pos e') as Pe. assert (HN0 : N <> 0) by (intros D; unfold A in PA; rewrite D, Rabs_R0 in PA; lra). assert (E1 : / X = / N * bpow2 (- e')) by (rewrite EXN, bpow2_opp; field; lra). assert (E2 : / Rabs X = t * bpow2 (- e')) by (rewrite EXN, Rabs_mult, (Rabs_pos_eq (bpow2 e')), bpow2_opp by lra; fold A; unfold t; field; lra).
  rewrite E1, E2. unfold fltval. replace (fxval o (fb + 9 + I) * bpow2 (- e') - / N * bpow2 (- e')) with ((fxval o (fb + 9 + I) - / N) * bpow2 (- e')) by ring. rewrite Rabs_mult, (Rabs_pos_eq (bpow2 (- e'))) by (apply Rlt_le, bpow2_pos). rewrite <- Rmult_assoc. apply Rmult_le_compat_r; [apply Rlt_le, bpow2_pos|exact NI].
Qed.

(** ** Division *)
Lemma div_flt_real NW NI DW DI QF NE DE mn en md ed junk : (1 <= NW)%Z -> (1 <= DW)%Z -> (1 <= NE)%Z -> (1 <= DE)%Z -> in_range true NW mn -> in_range true DW md -> in_range true NE en -> in_range true DE ed -> (md <> 0)%Z ->
  (1 <= NI + (DW - DI) + QF)%Z -> ~ (mn = - 2 ^ (NW - 1) /\ md = -1)%Z -> let '(tm, te, r) := div_flt NW NI DW DI QF NE DE mn en md ed junk in let N := fltval (NW - NI) mn en in let D := fltval (DW - DI) md ed in
  (te = en - ed)%Z /\ fltval QF tm te <= N / D < fltval QF tm te + bpow2 (en - ed - QF) /\ (r = false <-> fltval QF tm te = N / D).
Proof.
  intros HN HD HNE HDE Bn Bd Be1 Be2 D0 HQ Ex. unfold div_flt. set (STI := (NI + (DW - DI))%Z) in *. set (f := dfmt (STI + QF) STI true). assert (Bn' : (- 2 ^ (NW - 1) <= mn < 2 ^ (NW - 1))%Z) by (unfold in_range, imin, imax in Bn; lia). assert (Bd' : (- 2 ^ (DW - 1) <= md < 2 ^ (DW - 1))%Z) by (unfold in_range, imin, imax in Bd; lia).
  assert (HfF : fF f = QF) by (unfold f, fF, dfmt; cbn [fW fI]; lia). assert (G1 : fO f <> WRAP -> (1 <= NI + (DW - DI) + fF f)%Z) by (intros G; exfalso; apply G; reflexivity). assert (G2 : fO f = WRAP -> (0 < NI + (DW - DI) + fF f + guard (fQ f))%Z) by (intros _; rewrite HfF; change (guard (fQ f)) with 0%Z; fold STI; lia).
  assert (HfW : (1 <= fW f)%Z) by (unfold f, dfmt; cbn [fW]; lia). pose proof (div_sfx_converts NW NI DW DI f mn md junk HN HD HfW eq_refl Bn' Bd' D0 G1 G2) as C. pose proof (div_sfx_flag_iff NW NI DW DI f mn md junk HN HD HfW eq_refl Bn' Bd' D0 G1 G2) as FL. cbv zeta in C, FL. destruct (div_sfx NW NI DW DI f mn md junk) as [tm r]. cbn [fst snd] in C, FL. rewrite HfF in FL.
  set (e := ((DW - DI) - (NW - NI))%Z) in *. set (q := IZR mn / IZR md). assert (Rd : IZR md <> 0) by (apply not_0_IZR; exact D0).
  assert (Pm : forall k, 0 < IZR (2 ^ Z.max 0 k)) by (intros k; apply (IZR_lt 0), Z.pow_pos_nonneg; lia).
  assert (Ebp : forall k, bpow2 k = IZR (2 ^ Z.max 0 k) / IZR (2 ^ Z.max 0 (- k))). { intros k. rewrite <- !bpow2_IZR by lia. unfold Rdiv. rewrite <- bpow2_opp, <- bpow2_add. f_equal. lia. }
  assert (PD : (0 < Z.abs md * 2 ^ Z.max 0 (- e))%Z) by (apply Z.mul_pos_pos; [lia|apply Z.pow_pos_nonneg; lia]). apply converts_R in C; [|exact PD].
  assert (EQ : IZR (Z.sgn md * mn * 2 ^ Z.max 0 e) / IZR (Z.abs md * 2 ^ Z.max 0 (- e)) = q * bpow2 e).
  { rewrite (Ebp e), !mult_IZR. pose proof (Pm e) as P1. pose proof (Pm (- e)%Z) as P2. unfold q. destruct (Z.lt_total md 0) as [L|[L|L]]; [|lia|].
    - rewrite (Z.sgn_neg md L), (Z.abs_neq md) by lia. rewrite opp_IZR. field. lra.
    - rewrite (Z.sgn_pos md L), (Z.abs_eq md) by lia. field. lra. }
  rewrite EQ in C. set (P := (2 ^ (NW - 1))%Z) in *. assert (PP : (0 < P)%Z) by (apply Z.pow_pos_nonneg; lia).
  assert (Bq : - IZR P <= q < IZR P).
  { unfold q. destruct (Z.lt_total md 0) as [L|[L|L]]; [|lia|].
    - replace (IZR mn / IZR md) with (IZR (- mn) / IZR (- md)) by (rewrite !opp_IZR; field; exact Rd). assert (PM : 0 < IZR (- md)) by (apply (IZR_lt 0); lia). assert (I1 : (- P * (- md) <= - mn)%Z) by nia. assert (I2 : (- mn < P * (- md))%Z) by (destruct (Z.eq_dec md (-1)) as [->|]; [lia|nia]). apply IZR_le in I1. apply IZR_lt in I2. rewrite mult_IZR in I1, I2. rewrite opp_IZR in I1.
      split; [apply Rmult_le_reg_r with (IZR (- md))|apply Rmult_lt_reg_r with (IZR (- md))]; try exact PM; unfold Rdiv; rewrite Rmult_assoc, Rinv_l, Rmult_1_r by lra; assumption.
    - assert (PM : 0 < IZR md) by (apply (IZR_lt 0); lia). assert (I1 : (- P * md <= mn)%Z) by nia. assert (I2 : (mn < P * md)%Z) by nia. apply IZR_le in I1. apply IZR_lt in I2. rewrite mult_IZR in I1, I2. rewrite opp_IZR in I1.
      split; [apply Rmult_le_reg_r with (IZR md)|apply Rmult_lt_reg_r with (IZR md)]; try exact PM; unfold Rdiv; rewrite Rmult_assoc, Rinv_l, Rmult_1_r by lra; assumption. }
  assert (ESTI : bpow2 (STI - 1) = IZR P * bpow2 e). { unfold P. rewrite <- bpow2_IZR, <- bpow2_add by lia. f_equal. unfold STI, e. lia. } pose proof (bpow2_pos e) as Pe.
  destruct (convR_dfmt (STI + QF) STI true _ _ ltac:(lia) C) as [_ V]; [cbv iota; rewrite ESTI; split; [rewrite <- Ropp_mult_distr_l_reverse; apply Rmult_le_compat_r; lra|apply Rmult_lt_compat_r; lra]|]. replace (STI + QF - STI)%Z with QF in V by lia.
  assert (Ete : wraps (Z.max NE DE + 1) (en - ed) = (en - ed)%Z). { unfold in_range, imin, imax in Be1, Be2. apply wraps_id; [lia|]. replace (Z.max NE DE + 1 - 1)%Z with (1 + (Z.max NE DE - 1))%Z by lia. rewrite Z.pow_add_r by lia. assert (2 ^ (NE - 1) <= 2 ^ (Z.max NE DE - 1))%Z by (apply Z.pow_le_mono_r; lia). assert (2 ^ (DE - 1) <= 2 ^ (Z.max NE DE - 1))%Z by (apply Z.pow_le_mono_r; lia). lia. }
  rewrite Ete. cbv zeta. split; [reflexivity|]. assert (END : fltval (NW - NI) mn en / fltval (DW - DI) md ed = q * bpow2 e * bpow2 (en - ed)).
  { unfold fltval, fxval, q, Rdiv. rewrite !Rinv_mult, <- !bpow2_opp. replace e with (- (NW - NI) + (DW - DI))%Z by (unfold e; lia). replace (en - ed)%Z with (en + - ed)%Z by lia. rewrite !bpow2_add. rewrite Z.opp_involutive. ring. }
  rewrite END. pose proof (bpow2_pos (en - ed)) as Pd. set (Qr := q * bpow2 e) in *. unfold fltval. split.
  - replace (en - ed - QF)%Z with (- QF + (en - ed))%Z by lia. rewrite (bpow2_add (- QF)), <- Rmult_plus_distr_r. split; [apply Rmult_le_compat_r; lra|apply Rmult_lt_compat_r; lra].
  - assert (FI : r = false <-> exists z, Qr * bpow2 QF = IZR z).
    { rewrite FL. rewrite (Ebp QF). unfold Qr. rewrite (Ebp e). pose proof (Pm e) as P1. pose proof (Pm (- e)%Z) as P2. pose proof (Pm QF) as P3. pose proof (Pm (- QF)%Z) as P4. unfold q. split; intros (z & Hz); exists z.
      - apply (f_equal IZR) in Hz. rewrite !mult_IZR in Hz. apply Rmult_eq_reg_r with (IZR md * IZR (2 ^ Z.max 0 (- e)) * IZR (2 ^ Z.max 0 (- QF))); [|repeat apply Rmult_integral_contrapositive_currified; lra]. rewrite <- Hz. field. lra.
      - apply eq_IZR. rewrite !mult_IZR, <- Hz. field. lra. }
    rewrite FI. assert (EB : bpow2 (- QF) * bpow2 QF = 1) by (rewrite <- bpow2_add; replace (- QF + QF)%Z with 0%Z by lia; apply bpow2_0). pose proof (bpow2_pos QF) as PQ. split.
    + intros (z & Hz). f_equal. assert (z = tm); [|subst z; unfold fxval; rewrite <- Hz, Rmult_assoc, (Rmult_comm (bpow2 QF)), EB; ring]. destruct V as [V1 V2]. unfold fxval in V1, V2. apply (Rmult_le_compat_r (bpow2 QF)) in V1; [|lra]. apply (Rmult_lt_compat_r (bpow2 QF)) in V2; [|exact PQ]. rewrite Rmult_plus_distr_r in V2. rewrite Rmult_assoc, EB, Rmult_1_r in V1, V2. rewrite Hz in V1, V2. rewrite <- plus_IZR in V2. apply le_IZR in V1. apply lt_IZR in V2. lia.
    + intros G. exists tm. apply Rmult_eq_reg_r in G; [|lra]. rewrite <- G. unfold fxval. rewrite Rmult_assoc, EB. ring.
Qed.
