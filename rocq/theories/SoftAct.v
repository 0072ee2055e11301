(** Proofs about ac_softplus_pwl, ac_softsign_pwl, ac_elu_pwl, ac_selu_pwl and ac_gelu_pwl. *)
From Coq Require Import Reals Lra Lia ZifyBool.
From Verif Require Import AcTypes AcFacts Spec SpecFacts SpecR SpecRFacts PwlModel PwlFacts PwlProofs PwlSqrt PwlAct PwlReal PwlExp PwlExpReal ActReal SoftModel SoftFacts SoftReal.
Local Open Scope R_scope.

(** ** The reciprocal of an unsigned number, with the size of the result *)
Lemma recip_u pQ W I f x : (1 <= W)%Z -> (1 <= fW f)%Z -> (0 < x < 2 ^ W)%Z -> let X := fxval x (W - I) in
  exists out V, reciprocal_pwl pQ W I false f x = Some out /\ convertsR f V out /\ 0 < V /\ Rabs (V - / X) <= 0.002 * / X /\ (1 <= X -> V <= 2045 / 2048).
Proof.
  intros HW HfW Hx X. destruct (recip_accuracy_size pQ W I false f x HW HfW ltac:(unfold in_range, imin, imax; cbv iota; lia) ltac:(lia)) as (out & Y & k & E & Hk & HY & C & B & HY2 & K2 & Sz).
  cbn [andb] in C. rewrite Z.mul_1_l in C. rewrite (Z.abs_eq x) in B, Sz by lia. exists out, (IZR Y * bpow2 (W - I - k)). split; [exact E|]. split; [apply converts2_R; exact C|].
  assert (PX : 0 < X) by (unfold X, fxval; apply Rmult_lt_0_compat; [apply (IZR_lt 0); lia|apply bpow2_pos]).
  apply IZR_lt in HY as HYR. split; [apply Rmult_lt_0_compat; [exact HYR|apply bpow2_pos]|]. split.
  - apply inv_close; [exact PX|]. unfold X, fxval.
    replace (IZR Y * bpow2 (W - I - k) * (IZR x * bpow2 (- (W - I)))) with (IZR (Y * x) * bpow2 (- k)).
    2:{ rewrite mult_IZR. replace (- k)%Z with (W - I - k + - (W - I))%Z by lia. rewrite bpow2_add. ring. }
    apply IZR_le in B. rewrite mult_IZR, abs_IZR, minus_IZR, (mult_IZR 2 (2 ^ k)) in B. rewrite <- bpow2_IZR in B by lia.
    pose proof (bpow2_pos k). pose proof (bpow2_opp k) as Ek. rewrite Ek.
    replace (IZR (Y * x) * / bpow2 k - 1) with ((IZR (Y * x) - bpow2 k) * / bpow2 k) by (field; lra).
    rewrite Rabs_mult, (Rabs_pos_eq (/ bpow2 k)) by (apply Rlt_le, Rinv_0_lt_compat; lra).
    apply Rmult_le_reg_r with (bpow2 k); [lra|]. rewrite Rmult_assoc, Rinv_l by lra. lra.
  - intros H1. assert (L : (W - I < k - 20)%Z).
    { destruct (Z_lt_le_dec (W - I) (k - 20)) as [|L]; [assumption|exfalso]. apply IZR_lt in Sz. rewrite <- bpow2_IZR in Sz by lia.
      pose proof (bpow2_le _ _ L) as M. unfold X, fxval in H1. rewrite bpow2_opp in H1. pose proof (bpow2_pos (W - I)) as P.
      apply (Rmult_le_compat_r (bpow2 (W - I))) in H1; [|lra]. rewrite Rmult_assoc, Rinv_l in H1 by lra. lra. }
    pose proof (bpow2_le (W - I - k) (-21) ltac:(lia)) as M. replace (bpow2 (-21)) with (/ 2097152) in M by (symmetry; transitivity (/ bpow2 21); [exact (bpow2_opp 21)|rewrite bpow2_IZR by lia; reflexivity]).
    apply IZR_le in HY2. pose proof (bpow2_pos (W - I - k)). apply Rle_trans with (2094080 * / 2097152); [apply Rmult_le_compat; lra|lra].
Qed.

(** ** How large the exponential can get *)
Lemma pow2_val_lt F x : pow2_val F x < bpow2 (ipart F x + 1).
Proof.
  unfold pow2_val. pose proof (powY_range _ (fpart_range F x)) as R. set (v := powY (fpart F x)) in *. assert (H : (v < 2097152)%Z) by (clear - R; lia). apply IZR_lt in H.
  replace (ipart F x + 1)%Z with (21 + (ipart F x - 20))%Z by lia. rewrite bpow2_add. apply Rmult_lt_compat_r; [apply bpow2_pos|]. rewrite bpow2_IZR by lia. exact H.
Qed.
(** e^x stays below 2^n when x * log2(e) < n. *)
Lemma exp_val_lt W I S x n : (1 <= W)%Z -> in_range S W x -> fxval x (W - I) * (23637 / 16384) < IZR n -> exp_val W I S x < bpow2 n.
Proof.
  intros HW Hx H. destruct (exp_inter_ok W I S x HW Hx) as [_ [L _]]. unfold exp_val.
  eapply Rlt_le_trans; [apply pow2_val_lt|]. apply bpow2_le. pose proof (ipart_bounds (pit_frac W I) (exp_inter W I S x)) as [B _].
  assert (K : IZR (ipart (pit_frac W I) (exp_inter W I S x)) < IZR n) by lra. apply lt_IZR in K. lia.
Qed.

Lemma pow_fmt W I : fF (out_pow_fmt W I) = 20%Z /\ fI (out_pow_fmt W I) = ((Z.abs I + 1 + 1) * (Z.abs I + 1))%Z /\ fS (out_pow_fmt W I) = false /\
  out_pow_fmt W I = dfmt (fI (out_pow_fmt W I) + 20) (fI (out_pow_fmt W I)) false.
Proof.
  unfold out_pow_fmt, pit_frac, fF, dfmt. cbn [fW fI fS]. replace (if (I <? 0)%Z then (- I)%Z else I) with (Z.abs I) by (destruct (Z.ltb_spec I 0); lia).
  replace (Z.max 1 (Z.min 10 (Z.max (W - Z.abs I) 12 - 2))) with 10%Z by lia. split; [lia|]. split; [reflexivity|]. split; [reflexivity|]. f_equal; lia.
Qed.

Lemma exp_total pQ W I S f x : exists out, exp_pwl pQ W I S f x = Some out.
Proof.
  unfold exp_pwl, pow2_pwl. set (t := conv (dfmt (2 + _) 2 false) _ _). set (fb := Z.max 1 (Z.min 10 _)) in *.
  destruct (table_total pow2_m pow2_c 2 fb t ltac:(lia) eq_refl eq_refl) as [y ->]. eexists. reflexivity.
Qed.
Lemma exp_evalR_wide pQ W I S f x : (1 <= W)%Z -> (1 <= fW f)%Z -> fS f = false -> in_range S W x -> Rabs (fxval x (W - I)) <= bpow2 30 ->
  exists out, exp_pwl pQ W I S f x = Some out /\ convertsR f (exp_val W I S x) out.
Proof.
  intros HW HfW HfS Hx HX. destruct (exp_inter_ok W I S x HW Hx) as [A B]. unfold exp_pwl. fold (exp_inter W I S x).
  assert (HG : (12 <= pit_frac W I /\ W - I <= pit_frac W I)%Z) by (unfold pit_frac; lia).
  destruct (pow2_evalR pQ (I + 1 + pit_frac W I) (I + 1) S f (exp_inter W I S x)) as (out & E & C); try assumption; [lia| |].
  - replace (I + 1 + pit_frac W I - (I + 1))%Z with (pit_frac W I) by lia. apply Rabs_le_both in HX. rewrite !bpow2_IZR in * by lia. change (IZR (2 ^ 31)) with 2147483648. change (IZR (2 ^ 30)) with 1073741824 in HX.
    assert (bpow2 (- 12) = / 4096) by (exact bpow2_m12). lra.
  - replace (I + 1 + pit_frac W I - (I + 1))%Z with (pit_frac W I) in C by lia. exists out. split; assumption.
Qed.

(** ** softplus *)
Lemma ln_ratio a b e : 0 < a -> 0 <= e <= 0.1 -> Rabs (b - a) <= e * a -> Rabs (ln b - ln a) <= 1.12 * e.
Proof.
  intros Ha He H. apply Rabs_le_both in H. assert (Hb : 0 < b) by nra.
  pose proof (ln_tangent a b Ha Hb) as U. pose proof (ln_tangent b a Hb Ha) as L.
  assert (D1 : (b - a) / a <= e). { apply Rmult_le_reg_r with a; [lra|]. unfold Rdiv. rewrite Rmult_assoc, Rinv_l by lra. lra. }
  assert (D2 : (a - b) / b <= 1.12 * e). { apply Rmult_le_reg_r with b; [lra|]. unfold Rdiv. rewrite Rmult_assoc, Rinv_l by lra. nra. }
  apply Rabs_le. lra.
Qed.

Lemma softplus_gen pQ W I S f x : (1 <= W)%Z -> (1 <= fW f)%Z -> in_range S W x ->
  let X := fxval x (W - I) in Rabs X <= 64 -> X * (23637 / 16384) < IZR ((Z.abs I + 1 + 1) * (Z.abs I + 1)) ->
  exists out V, softplus_pwl pQ W I S f x = Some out /\ convertsR f V out /\ Rabs (V - ln (1 + exp X)) <= 0.005 + 0.0001 * ln (1 + exp X).
Proof.
  intros HW HfW Hx X HX Hn. unfold softplus_pwl. destruct (pow_fmt W I) as (EF & EI & ES & Ef). set (pf := out_pow_fmt W I) in *. set (n := fI pf) in *.
  assert (Hn0 : (2 <= n)%Z) by (rewrite EI; pose proof (Z.abs_nonneg I) as Pa; clear - Pa; nia).
  destruct (exp_evalR TRN W I S pf x HW ltac:(rewrite Ef; cbn [fW dfmt]; lia) ES Hx ltac:(fold X; lra)) as (E & -> & C).
  rewrite Ef in C. pose proof (exp_val_close W I S x HW Hx) as Q. cbv zeta in Q. fold X in Q. specialize (Q ltac:(lra)).
  pose proof (exp_val_lt W I S x n HW Hx ltac:(rewrite EI; exact Hn)) as Lt. pose proof (pow2_val_pos (pit_frac W I) (exp_inter W I S x)) as Ps. fold (exp_val W I S x) in Ps.
  apply convR_dfmt in C; [|lia|cbv iota; lra]. replace (n + 20 - n)%Z with 20%Z in C by lia. destruct C as [RE CE]. change (- (20))%Z with (-20)%Z in CE. rewrite bpow2_m20 in CE.
  unfold in_range, imin, imax in RE. cbv iota in RE. rewrite EF.
  assert (EW : fW pf = (n + 20)%Z) by (rewrite Ef; reflexivity). rewrite EW.
  assert (EL : conv (dfmt (n + 20 + 1) (n + 1) false) (E + 2 ^ 20) 20 = (E + 2 ^ 20)%Z).
  { apply conv_fits; [unfold dfmt; cbn [fW]; lia|unfold fF, dfmt; cbn [fW fI]; lia|reflexivity|]. unfold in_range, imin, imax, dfmt. cbn [fS fW].
    rewrite (pow2_succ (n + 20)) by lia. pose proof (pow2_le 20 (n + 20) ltac:(lia)). lia. }
  rewrite EL. assert (RL : (0 < E + 2 ^ 20 < 2 ^ (n + 20 + 1))%Z).
  { rewrite (pow2_succ (n + 20)) by lia. pose proof (pow2_le 20 (n + 20) ltac:(lia)). lia. }
  destruct (ln_real pQ (n + 20 + 1) (n + 1) WRAP f (E + 2 ^ 20) ltac:(lia) HfW RL) as (out & V & EO & CV & QV).
  exists out, V. split; [exact EO|]. split; [exact CV|]. replace (n + 20 + 1 - (n + 1))%Z with 20%Z in QV by lia.
  rewrite fxval_add, fxval_one in QV by lia. pose proof (exp_pos X) as PX. set (e := exp X) in *. set (l := fxval E 20) in *.
  assert (K : Rabs (l + 1 - (1 + e)) <= 0.0032 * (1 + e)).
  { apply Rabs_le_both in Q. assert ((0.0025 + 0.00001 * Rabs X) * e <= 0.00315 * e) by (apply Rmult_le_compat_r; lra). apply Rabs_le. lra. }
  pose proof (ln_ratio (1 + e) (l + 1) 0.0032 ltac:(lra) ltac:(lra) K) as R. apply Rabs_le_both in R. apply Rabs_le_both in QV.
  assert (P1 : 0 <= ln (1 + e)) by (rewrite <- ln_1; apply ln_le; lra).
  assert (A : Rabs (ln (l + 1)) <= ln (1 + e) + 0.0036) by (apply Rabs_le; lra). apply Rabs_le. lra.
Qed.
Lemma softplus_real pQ W I S f x : (1 <= W)%Z -> (1 <= fW f)%Z -> in_range S W x -> (I <= if S then 6 else 4)%Z ->
  let X := fxval x (W - I) in
  exists out V, softplus_pwl pQ W I S f x = Some out /\ convertsR f V out /\ Rabs (V - ln (1 + exp X)) <= 0.005 + 0.0001 * ln (1 + exp X).
Proof.
  intros HW HfW Hx HI X. pose proof (range_R S W I x HW Hx) as B. fold X in B.
  assert (T : forall k, (I <= k)%Z -> (0 <= k)%Z -> bpow2 I <= IZR (2 ^ k)) by (intros k Hk K0; rewrite <- bpow2_IZR by exact K0; apply bpow2_le; exact Hk).
  assert (U : forall k, (I - 1 <= k)%Z -> (0 <= k)%Z -> bpow2 (I - 1) <= IZR (2 ^ k)) by (intros k Hk K0; rewrite <- bpow2_IZR by exact K0; apply bpow2_le; exact Hk).
  assert (B' : Rabs X <= 64 /\ X * (23637 / 16384) < IZR ((Z.abs I + 1 + 1) * (Z.abs I + 1))).
  { assert (Hn : forall m, (m <= (Z.abs I + 1 + 1) * (Z.abs I + 1))%Z -> IZR m <= IZR ((Z.abs I + 1 + 1) * (Z.abs I + 1))) by (intros; apply IZR_le; assumption).
    destruct S; cbv iota in B, HI.
    - assert (UU : forall k, (I - 1 <= k)%Z -> (0 <= k)%Z -> Rabs X <= IZR (2 ^ k)) by (intros k Hk K0; pose proof (U k Hk K0); apply Rabs_le; lra).
      destruct (Z_le_gt_dec I 1) as [I1|I1]; [|assert (HH : I = 2%Z \/ I = 3%Z \/ I = 4%Z \/ I = 5%Z \/ I = 6%Z) by lia].
      + pose proof (UU 0%Z ltac:(lia) ltac:(lia)) as V. change (2 ^ 0)%Z with 1%Z in V. pose proof (Hn 2%Z ltac:(nia)). apply Rabs_le_both in V as V'. split; lra.
      + destruct HH as [->|[->|[->|[->| ->]]]].
        * pose proof (UU 1%Z ltac:(lia) ltac:(lia)) as V. change (2 ^ 1)%Z with 2%Z in V. pose proof (Hn 12%Z ltac:(lia)). apply Rabs_le_both in V as V'. split; lra.
        * pose proof (UU 2%Z ltac:(lia) ltac:(lia)) as V. change (2 ^ 2)%Z with 4%Z in V. pose proof (Hn 12%Z ltac:(lia)). apply Rabs_le_both in V as V'. split; lra.
        * pose proof (UU 3%Z ltac:(lia) ltac:(lia)) as V. change (2 ^ 3)%Z with 8%Z in V. pose proof (Hn 30%Z ltac:(lia)). apply Rabs_le_both in V as V'. split; lra.
        * pose proof (UU 4%Z ltac:(lia) ltac:(lia)) as V. change (2 ^ 4)%Z with 16%Z in V. pose proof (Hn 42%Z ltac:(lia)). apply Rabs_le_both in V as V'. split; lra.
        * pose proof (UU 5%Z ltac:(lia) ltac:(lia)) as V. change (2 ^ 5)%Z with 32%Z in V. pose proof (Hn 56%Z ltac:(lia)). apply Rabs_le_both in V as V'. split; lra.
    - assert (UU : forall k, (I <= k)%Z -> (0 <= k)%Z -> Rabs X <= IZR (2 ^ k)) by (intros k Hk K0; pose proof (T k Hk K0); apply Rabs_le; lra).
      destruct (Z_le_gt_dec I 0) as [I1|I1]; [|assert (HH : I = 1%Z \/ I = 2%Z \/ I = 3%Z \/ I = 4%Z) by lia].
      + pose proof (UU 0%Z ltac:(lia) ltac:(lia)) as V. change (2 ^ 0)%Z with 1%Z in V. pose proof (Hn 2%Z ltac:(nia)). apply Rabs_le_both in V as V'. split; lra.
      + destruct HH as [->|[->|[->| ->]]].
        * pose proof (UU 1%Z ltac:(lia) ltac:(lia)) as V. change (2 ^ 1)%Z with 2%Z in V. pose proof (Hn 6%Z ltac:(lia)). apply Rabs_le_both in V as V'. split; lra.
        * pose proof (UU 2%Z ltac:(lia) ltac:(lia)) as V. change (2 ^ 2)%Z with 4%Z in V. pose proof (Hn 12%Z ltac:(lia)). apply Rabs_le_both in V as V'. split; lra.
        * pose proof (UU 3%Z ltac:(lia) ltac:(lia)) as V. change (2 ^ 3)%Z with 8%Z in V. pose proof (Hn 20%Z ltac:(lia)). apply Rabs_le_both in V as V'. split; lra.
        * pose proof (UU 4%Z ltac:(lia) ltac:(lia)) as V. change (2 ^ 4)%Z with 16%Z in V. pose proof (Hn 30%Z ltac:(lia)). apply Rabs_le_both in V as V'. split; lra. }
  apply softplus_gen; try assumption; apply B'.
Qed.

(** The code's e^x wraps: I = 7 and x = 63.998 give 0.001 instead of 63.998. *)
Lemma softplus_false : ~ (forall pQ W I S f x, (1 <= W)%Z -> (1 <= fW f)%Z -> in_range S W x -> let X := fxval x (W - I) in
  exists out V, softplus_pwl pQ W I S f x = Some out /\ convertsR f V out /\ Rabs (V - ln (1 + exp X)) <= 1).
Proof.
  intros H. destruct (H TRN 16%Z 7%Z true (Fmt 40 10 false TRN WRAP) 32767%Z ltac:(lia) ltac:(cbn; lia) ltac:(vm_compute; split; discriminate)) as (out & V & E & C & B).
  assert (EO : softplus_pwl TRN 16 7 true (Fmt 40 10 false TRN WRAP) 32767 = Some 1090176%Z) by (vm_compute; reflexivity). rewrite EO in E. injection E as <-. clear EO.
  set (X := fxval 32767 (16 - 7)) in *. assert (EX : 63.99 <= X <= 64).
  { unfold X, fxval. change (- (16 - 7))%Z with (-9)%Z. replace (bpow2 (-9)) with (/ 512) by (symmetry; transitivity (/ bpow2 9); [exact (bpow2_opp 9)|rewrite bpow2_IZR by lia; reflexivity]). lra. }
  pose proof (exp_pos X) as P. assert (L1 : X <= ln (1 + exp X)) by (rewrite <- (ln_exp X) at 1; apply ln_le; lra).
  assert (L2 : ln (1 + exp X) <= X + 1).
  { rewrite <- (ln_exp (X + 1)). apply ln_le; [lra|]. rewrite exp_plus. pose proof (exp_ge1 X ltac:(lra)). pose proof (exp_ineq1_le 1). nra. }
  apply Rabs_le_both in B. destruct (convR_near (Fmt 40 10 false TRN WRAP) V _ ltac:(cbn; lia) ltac:(discriminate) C) as [_ N].
  { change (fF (Fmt 40 10 false TRN WRAP)) with 30%Z. change (imin (fS (Fmt 40 10 false TRN WRAP)) (fW (Fmt 40 10 false TRN WRAP))) with 0%Z.
    change (imax (fS (Fmt 40 10 false TRN WRAP)) (fW (Fmt 40 10 false TRN WRAP))) with 1099511627775%Z. rewrite bpow2_IZR by lia. change (2 ^ 30)%Z with 1073741824%Z. lra. }
  change (fF (Fmt 40 10 false TRN WRAP)) with 30%Z in N. unfold fxval in N. replace (bpow2 (- (30))) with (/ 1073741824) in N by (symmetry; rewrite (bpow2_opp 30), bpow2_IZR by lia; reflexivity).
  apply Rabs_le_both in N. lra.
Qed.

(** ** softsign *)
Lemma softsign_real pQ W I S f x : (1 <= W)%Z -> (0 <= I)%Z -> (1 <= fW f)%Z -> in_range S W x -> let X := fxval x (W - I) in
  exists out V, softsign_pwl pQ W I S f x = Some out /\ convertsR f V out /\
    Rabs (V - X / (1 + Rabs X)) <= 0.002 * (Rabs X / (1 + Rabs X)) + Rabs X * bpow2 (- (Z.max 1 (Z.min 10 (W - 4)) + 10)).
Proof.
  intros HW HI HfW Hx X. unfold softsign_pwl. set (sc := Z.max 1 (Z.min 10 (W - 4))). destruct (abs_u_ok W I S x HW Hx) as [-> Ha]. set (a := Z.abs x) in *.
  replace (if (I <? 0)%Z then (- I)%Z else I) with I by (destruct (Z.ltb_spec I 0); lia). set (Ww := if (W <? I)%Z then (W + I)%Z else W).
  assert (HWw : (I <= Ww /\ W <= Ww)%Z) by (unfold Ww; destruct (Z.ltb_spec W I); lia).
  assert (EA : Rabs X = fxval a (W - I)).
  { unfold X, fxval, a. rewrite Rabs_mult, <- abs_IZR. f_equal. apply Rabs_pos_eq. apply Rlt_le, bpow2_pos. }
  (* 1 + |x|, exact *)
  set (r := conv _ _ _). assert (Er : (0 < r < 2 ^ (Ww + 1))%Z /\ fxval r (Ww + 1 - (I + 1)) = 1 + Rabs X).
  { pose proof (pow2_pos W ltac:(lia)) as PW. unfold r. replace (Ww + 1 - (I + 1))%Z with (Ww - I)%Z by lia.
    destruct (Z.le_gt_cases I W) as [L|L].
    - rewrite pw_nonpos_eq, (pw_nonneg_eq (W - I)) by lia. rewrite Z.mul_1_r, Z.max_r by lia.
      assert (EWw : Ww = W) by (unfold Ww; destruct (Z.ltb_spec W I); lia). rewrite EWw.
      assert (RR : (0 < a + 2 ^ (W - I) < 2 ^ (W + 1))%Z).
      { rewrite pow2_succ by lia. pose proof (pow2_le (W - I) W ltac:(lia)). pose proof (pow2_pos (W - I) ltac:(lia)). lia. }
      rewrite conv_fits; [|unfold dfmt; cbn [fW]; lia|unfold fF, dfmt; cbn [fW fI]; lia|reflexivity|unfold in_range, imin, imax, dfmt; cbn [fS fW]; lia].
      split; [exact RR|]. rewrite fxval_add, fxval_one by lia. rewrite EA. ring.
    - rewrite (pw_nonneg_eq (I - W)), (pw_nonpos_eq (W - I)) by lia. rewrite Z.max_l by lia.
      assert (EWw : Ww = (W + I)%Z) by (unfold Ww; destruct (Z.ltb_spec W I); lia). rewrite EWw.
      assert (RR : (0 < (a * 2 ^ (I - W) + 1) * 2 ^ W < 2 ^ (W + I + 1))%Z).
      { pose proof (pow2_pos (I - W) ltac:(lia)) as P2. split; [nia|]. replace (W + I + 1)%Z with (I + 1 + W)%Z by lia. rewrite (pow2_add (I + 1)) by lia.
        apply Z.mul_lt_mono_pos_r; [lia|]. rewrite pow2_succ by lia.
        assert (EI : (2 ^ I = 2 ^ W * 2 ^ (I - W))%Z) by (rewrite <- pow2_add by lia; f_equal; lia).
        assert (a * 2 ^ (I - W) <= 2 ^ I - 2 ^ (I - W))%Z by (rewrite EI; nia). pose proof (pow2_pos I ltac:(lia)). lia. }
      rewrite conv_fits_up; unfold fF, dfmt; cbn [fW fI fS fO]; replace (W + I + 1 - (I + 1) - 0)%Z with W by lia; try lia; [|reflexivity|unfold in_range, imin, imax; lia].
      split; [exact RR|]. replace (W + I - I)%Z with (0 + W)%Z by lia. rewrite fxval_shift by lia. rewrite fxval_add.
      replace (fxval 1 0) with 1 by (unfold fxval; change (- 0)%Z with 0%Z; rewrite bpow2_0; ring).
      replace 0%Z with (W - I + (I - W))%Z by lia. rewrite fxval_shift by lia. rewrite EA. ring. }
  destruct Er as [Rr Vr]. set (pf := Fmt (sc + 10 + 1) 1 (fS f) pQ WRAP).
  destruct (recip_u TRN (Ww + 1) (I + 1) pf r ltac:(lia) ltac:(unfold pf; cbn [fW]; lia) Rr) as (q & Vq & Eq & Cq & Pq & Aq & Sq).
  rewrite Eq. exists (conv f (x * q) (W - I + sc + 10)), (X * fxval q (sc + 10)). split; [reflexivity|].
  split. { unfold X. rewrite <- fxval_mul. replace (W - I + (sc + 10))%Z with (W - I + sc + 10)%Z by lia. apply conv_R. exact HfW. }
  rewrite Vr in Aq, Sq. pose proof (Rabs_pos X) as PX. specialize (Sq ltac:(lra)).
  assert (Hsc : (1 <= sc <= 10)%Z) by (unfold sc; lia). assert (EFp : fF pf = (sc + 10)%Z) by (unfold fF, pf; cbn [fW fI]; lia).
  assert (Nq : Rabs (fxval q (sc + 10) - Vq) <= bpow2 (- (sc + 10))).
  { rewrite <- EFp. apply convR_near; [unfold pf; cbn [fW]; lia|discriminate|exact Cq|]. rewrite EFp. unfold pf. cbn [fS fW]. rewrite bpow2_IZR by lia.
    assert (B2 : 2048 <= IZR (2 ^ (sc + 10))) by (apply IZR_le; apply (pow2_le 11); lia).
    assert (B3 : IZR (2 ^ (sc + 10 + 1)) = 2 * IZR (2 ^ (sc + 10))) by (rewrite pow2_succ by lia; apply mult_IZR).
    unfold imin, imax. destruct (fS f); cbv iota.
    - replace (sc + 10 + 1 - 1)%Z with (sc + 10)%Z by lia. rewrite opp_IZR, minus_IZR. split; [nra|]. nra.
    - rewrite minus_IZR, B3. split; [nra|]. nra. }
  assert (PI : 0 < / (1 + Rabs X)) by (apply Rinv_0_lt_compat; lra).
  replace (X * fxval q (sc + 10) - X / (1 + Rabs X)) with (X * (fxval q (sc + 10) - / (1 + Rabs X))) by (unfold Rdiv; ring). rewrite Rabs_mult.
  assert (K : Rabs (fxval q (sc + 10) - / (1 + Rabs X)) <= 0.002 * / (1 + Rabs X) + bpow2 (- (sc + 10))).
  { apply Rabs_le_both in Nq. apply Rabs_le_both in Aq. apply Rabs_le. lra. }
  apply (Rmult_le_compat_l (Rabs X)) in K; [|exact PX]. unfold Rdiv. lra.
Qed.
(** The reciprocal has at most 20 fraction bits, so it is 0 for large x: 0 instead of 1 at x = 2^22 with 32 bits. *)
Lemma softsign_false : ~ (forall pQ W I S f x, (1 <= W)%Z -> (0 <= I)%Z -> (1 <= fW f)%Z -> in_range S W x -> let X := fxval x (W - I) in
  exists out V, softsign_pwl pQ W I S f x = Some out /\ convertsR f V out /\ Rabs (V - X / (1 + Rabs X)) <= 0.9).
Proof.
  intros H. destruct (H TRN 32%Z 24%Z true (Fmt 20 4 true TRN WRAP) 1073741824%Z ltac:(lia) ltac:(lia) ltac:(cbn; lia) ltac:(vm_compute; split; discriminate)) as (out & V & E & C & B).
  assert (EO : softsign_pwl TRN 32 24 true (Fmt 20 4 true TRN WRAP) 1073741824 = Some 0%Z) by (vm_compute; reflexivity). rewrite EO in E. injection E as <-. clear EO.
  set (X := fxval 1073741824 (32 - 24)) in *. assert (EX : X = 4194304).
  { unfold X, fxval. change (- (32 - 24))%Z with (-8)%Z. replace (bpow2 (-8)) with (/ 256) by (symmetry; transitivity (/ bpow2 8); [exact (bpow2_opp 8)|rewrite bpow2_IZR by lia; reflexivity]). lra. }
  rewrite EX in B. 
  assert (D : 0.99 <= 4194304 / (1 + Rabs 4194304) <= 1) by (rewrite Rabs_pos_eq by lra; lra).
  destruct (convR_near (Fmt 20 4 true TRN WRAP) V _ ltac:(cbn; lia) ltac:(discriminate) C) as [_ N].
  { change (fF (Fmt 20 4 true TRN WRAP)) with 16%Z. change (imin (fS (Fmt 20 4 true TRN WRAP)) (fW (Fmt 20 4 true TRN WRAP))) with (-524288)%Z.
    change (imax (fS (Fmt 20 4 true TRN WRAP)) (fW (Fmt 20 4 true TRN WRAP))) with 524287%Z. rewrite bpow2_IZR by lia. change (2 ^ 16)%Z with 65536%Z. apply Rabs_le_both in B. lra. }
  change (fF (Fmt 20 4 true TRN WRAP)) with 16%Z in N. unfold fxval in N. replace (bpow2 (- (16))) with (/ 65536) in N by (symmetry; rewrite (bpow2_opp 16), bpow2_IZR by lia; reflexivity).
  apply Rabs_le_both in N. apply Rabs_le_both in B. lra.
Qed.

(** ** elu and selu *)
Lemma elu_pos W I S f x alpha aF : (1 <= fW f)%Z -> (0 <= x)%Z -> exists out, elu_pwl W I S f x alpha aF = Some out /\ convertsR f (fxval x (W - I)) out.
Proof.
  intros HfW H0. unfold elu_pwl. destruct (exp_total TRN W I S (out_pow_fmt W I) x) as [E ->]. eexists. split; [reflexivity|].
  replace (0 <=? x)%Z with true by lia. apply conv_R. exact HfW.
Qed.
Lemma exp_trunc W I S x : (1 <= W)%Z -> in_range S W x -> (x < 0)%Z -> let X := fxval x (W - I) in - bpow2 30 <= X ->
  exists E, exp_pwl TRN W I S (out_pow_fmt W I) x = Some E /\ Rabs (fxval E 20 - exp X) <= 0.0026.
Proof.
  intros HW Hx Hneg X HX. assert (NX : X < 0). { apply (fxval_lt _ _ (W - I)) in Hneg. rewrite fxval_0 in Hneg. exact Hneg. }
  destruct (pow_fmt W I) as (EF & EI & ES & Ef). set (pf := out_pow_fmt W I) in *. set (n := fI pf) in *.
  assert (Hn0 : (2 <= n)%Z) by (rewrite EI; pose proof (Z.abs_nonneg I) as Pa; clear - Pa; nia).
  destruct (exp_evalR_wide TRN W I S pf x HW ltac:(rewrite Ef; cbn [fW dfmt]; lia) ES Hx ltac:(fold X; rewrite Rabs_left by exact NX; lra)) as (E & EE & C).
  exists E. split; [exact EE|]. rewrite Ef in C. pose proof (pow2_val_pos (pit_frac W I) (exp_inter W I S x)) as Ps. fold (exp_val W I S x) in Ps.
  pose proof (exp_val_lt W I S x n HW Hx ltac:(fold X; apply Rlt_le_trans with 0; [lra|apply (IZR_le 0); lia])) as Lt.
  apply convR_dfmt in C; [|lia|cbv iota; lra]. replace (n + 20 - n)%Z with 20%Z in C by lia. destruct C as [_ CE]. change (- (20))%Z with (-20)%Z in CE. rewrite bpow2_m20 in CE.
  assert (Q : Rabs (exp_val W I S x - exp X) <= 0.00255).
  { pose proof (exp_pos X) as PX. destruct (Rle_or_lt (-1024) X) as [L|L].
    - pose proof (exp_val_close W I S x HW Hx) as Q. cbv zeta in Q. fold X in Q. rewrite (Rabs_left X) in Q by exact NX. specialize (Q ltac:(lra)).
      eapply Rle_trans; [exact Q|]. assert (exp X < 1) by (rewrite <- exp_0; apply exp_increasing; exact NX).
      assert (H1 : - X * exp X <= 1).
      { pose proof (exp_ineq1_le (- X)) as H1. rewrite exp_Ropp in H1. apply (Rmult_le_compat_r (exp X)) in H1; [|lra]. rewrite Rinv_l in H1 by lra. lra. }
      lra.
    - pose proof (exp_val_lt W I S x (-20) HW Hx ltac:(fold X; lra)) as L2. rewrite bpow2_m20 in L2.
      assert (H1 : 1024 * exp X <= 1).
      { pose proof (exp_ineq1_le (- X)) as H1. rewrite exp_Ropp in H1. apply (Rmult_le_compat_r (exp X)) in H1; [|lra]. rewrite Rinv_l in H1 by lra. nra. }
      apply Rabs_le. lra. }
  apply Rabs_le_both in Q. apply Rabs_le. lra.
Qed.
Lemma elu_neg W I S f x alpha aF : (1 <= W)%Z -> (1 <= fW f)%Z -> in_range S W x -> (x < 0)%Z -> let X := fxval x (W - I) in let A := fxval alpha aF in
  - bpow2 30 <= X ->
  exists out V, elu_pwl W I S f x alpha aF = Some out /\ convertsR f V out /\ Rabs (V - A * (exp X - 1)) <= 0.0026 * Rabs A.
Proof.
  intros HW HfW Hx Hneg X A HX. destruct (exp_trunc W I S x HW Hx Hneg HX) as (E & EE & Q). fold X in Q.
  exists (conv f (alpha * (E - 2 ^ 20)) (aF + 20)), (A * (fxval E 20 - 1)). unfold elu_pwl. rewrite EE. destruct (pow_fmt W I) as (EF & _). rewrite EF.
  replace (0 <=? x)%Z with false by lia. split; [reflexivity|]. split.
  - replace (A * (fxval E 20 - 1)) with (fxval (alpha * (E - 2 ^ 20)) (aF + 20)); [apply conv_R; exact HfW|].
    rewrite fxval_mul. fold A. f_equal. replace (E - 2 ^ 20)%Z with (E + - 2 ^ 20)%Z by lia. rewrite fxval_add, fxval_opp, fxval_one by lia. ring.
  - replace (A * (fxval E 20 - 1) - A * (exp X - 1)) with (A * (fxval E 20 - exp X)) by ring. rewrite Rabs_mult. pose proof (Rabs_pos A). nra.
Qed.
Lemma selu_pos W I S f x : (1 <= fW f)%Z -> (0 <= x)%Z ->
  exists out, selu_pwl W I S f x = Some out /\ convertsR f (fxval 1101739 20 * fxval x (W - I)) out.
Proof.
  intros HfW H0. unfold selu_pwl. replace (0 <=? x)%Z with true by lia. eexists. split; [reflexivity|]. rewrite <- fxval_mul. apply conv_R. exact HfW.
Qed.
Lemma selu_neg W I S f x : (1 <= W)%Z -> (1 <= fW f)%Z -> in_range S W x -> (x < 0)%Z -> let X := fxval x (W - I) in - bpow2 30 <= X ->
  exists out e V, selu_pwl W I S f x = Some out /\ convertsR f V e /\ convertsR f (fxval 1101739 20 * fxval e (fF f)) out /\
    Rabs (V - fxval 1754543 20 * (exp X - 1)) <= 0.0044.
Proof.
  intros HW HfW Hx Hneg X HX. destruct (elu_neg W I S f x 1754543 20 HW HfW Hx Hneg HX) as (e & V & Ee & Ce & Q). fold X in Q.
  exists (conv f (1101739 * e) (20 + fF f)), e, V. unfold selu_pwl. replace (0 <=? x)%Z with false by lia. rewrite Ee. split; [reflexivity|]. split; [exact Ce|]. split.
  - rewrite <- fxval_mul. apply conv_R. exact HfW.
  - eapply Rle_trans; [exact Q|]. unfold fxval. change (- (20))%Z with (-20)%Z. rewrite bpow2_m20, Rabs_pos_eq by lra. lra.
Qed.

(** ** gelu *)
Lemma th_lip a b : Rabs (th a - th b) <= Rabs (a - b).
Proof.
  assert (K : forall a b, a <= b -> th b - th a <= b - a).
  { clear. intros a b H. destruct (Rle_or_lt 0 a) as [A|A].
    - pose proof (th_step a b ltac:(lra)). lra.
    - destruct (Rle_or_lt b 0) as [B|B].
      + pose proof (th_step (- b) (- a) ltac:(lra)) as T. rewrite !th_opp in T. lra.
      + pose proof (th_step 0 b ltac:(lra)) as T. pose proof (th_step 0 (- a) ltac:(lra)) as U. rewrite th_opp in U. rewrite th_0 in *. lra. }
  destruct (Rle_or_lt a b) as [H|H].
  - pose proof (K a b H). pose proof (th_mono a b H). rewrite Rabs_minus_sym, (Rabs_minus_sym a). rewrite !Rabs_pos_eq by lra. lra.
  - pose proof (K b a ltac:(lra)). pose proof (th_mono b a ltac:(lra)). rewrite !Rabs_pos_eq by lra. lra.
Qed.

(** The argument the code hands to tanh. *)
Definition gelu_arg (W I : Z) (f : fmt) (x : Z) : Z * Z * Z :=
  let tI := if (I <? W)%Z && (I =? 1)%Z then 1%Z else if (I <? W)%Z && (I =? 0)%Z then 0%Z else if (I <? 0)%Z then I else (3 * I - 3)%Z in
  let tW := (W + 2 * I + 10)%Z in
  let F := Z.max 0 (W - I) in
  let X := (x * pw (I - W))%Z in
  (tW, tI, conv (Fmt tW tI (fS f) (fQ f) (fO f)) (418321 * (X * 2 ^ 19 * 2 ^ (2 * F) + 23443 * (X * X * X)))%Z (19 + 19 + 3 * F)).

Definition ga : R := 418321 / 524288.
Definition gb : R := 23443 / 524288.
Lemma fxval_pwX x W I : fxval (x * pw (I - W)) (Z.max 0 (W - I)) = fxval x (W - I).
Proof.
  destruct (Z.le_gt_cases I W) as [L|L].
  - rewrite pw_nonpos_eq by lia. rewrite Z.mul_1_r, Z.max_r by lia. reflexivity.
  - rewrite pw_nonneg_eq by lia. rewrite Z.max_l by lia. replace 0%Z with (W - I + (I - W))%Z by lia. apply fxval_shift. lia.
Qed.
Lemma gelu_poly W I x : let F := Z.max 0 (W - I) in let X := (x * pw (I - W))%Z in let R := fxval x (W - I) in
  fxval (418321 * (X * 2 ^ 19 * 2 ^ (2 * F) + 23443 * (X * X * X))) (19 + 19 + 3 * F) = ga * (R + gb * (R * R * R)).
Proof.
  intros F X R. assert (EX : fxval X F = R) by apply fxval_pwX. assert (HF : (0 <= F)%Z) by (unfold F; lia).
  replace (19 + 19 + 3 * F)%Z with (19 + (F + 19 + 2 * F))%Z by lia. rewrite fxval_mul. rewrite fxval_add.
  replace (fxval 418321 19) with ga by (unfold ga, fxval; replace (bpow2 (- (19))) with (/ 524288); [lra|symmetry; rewrite (bpow2_opp 19), bpow2_IZR by lia; reflexivity]).
  f_equal. f_equal.
  - rewrite fxval_shift by lia. rewrite fxval_shift by lia. exact EX.
  - replace (F + 19 + 2 * F)%Z with (19 + (F + F + F))%Z by lia. rewrite fxval_mul. rewrite !fxval_mul, EX. f_equal.
    unfold gb, fxval. replace (bpow2 (- (19))) with (/ 524288); [lra|]. symmetry. rewrite (bpow2_opp 19), bpow2_IZR by lia. reflexivity.
Qed.

Lemma gelu_arg_ok W I f x : (0 <= I <= W)%Z -> (2 <= W)%Z -> fS f = true -> in_range true W x ->
  let '(tW, tI, u) := gelu_arg W I f x in
  (10 <= tW)%Z /\ in_range true tW u /\ let R := fxval x (W - I) in Rabs (fxval u (tW - tI) - ga * (R + gb * (R * R * R))) <= 0.001.
Proof.
  intros HI HW2 HS Hx. unfold gelu_arg. set (tI := if _ : bool then 1%Z else _). set (tW := (W + 2 * I + 10)%Z).
  assert (EtI : tI = if (I <=? 1)%Z then I else (3 * I - 3)%Z).
  { unfold tI. destruct (Z.leb_spec I 1); [|replace (I =? 1)%Z with false by lia; replace (I =? 0)%Z with false by lia; replace (I <? 0)%Z with false by lia; rewrite !Bool.andb_false_r; reflexivity].
    replace (I <? W)%Z with true by lia. cbn [andb]. destruct (Z.eqb_spec I 1); [lia|]. replace (I =? 0)%Z with true by lia. lia. }
  clearbody tI. set (p := (418321 * _)%Z). set (G := (19 + 19 + _)%Z).
  assert (Ep : fxval p G = ga * (fxval x (W - I) + gb * (fxval x (W - I) * fxval x (W - I) * fxval x (W - I)))) by apply gelu_poly.
  clearbody p G. set (u := conv _ p G). split; [unfold tW; lia|]. cbv zeta. rewrite <- Ep.
  set (g := Fmt tW tI true (fQ f) (fO f)). assert (Eu : u = conv g p G) by (unfold u, g; rewrite HS; reflexivity).
  assert (HgW : (1 <= fW g)%Z) by (unfold g, tW; cbn [fW]; lia). pose proof (conv_R g p G HgW) as C. rewrite <- Eu in C.
  assert (HF : (11 <= tW - tI)%Z) by (rewrite EtI; unfold tW; destruct (I <=? 1)%Z eqn:?; lia).
  pose proof (range_R true W I x ltac:(lia) Hx) as B. cbv iota in B. set (X := fxval x (W - I)) in *.
  assert (Bp : Rabs (fxval p G) <= 0.9 * bpow2 (tI - 1)).
  { rewrite Ep. assert (PI : 0 < bpow2 (I - 1)) by apply bpow2_pos. set (M := bpow2 (I - 1)) in *.
    assert (AX : Rabs X <= M) by (apply Rabs_le; lra). rewrite Rabs_mult. rewrite (Rabs_pos_eq ga) by (unfold ga; lra).
    assert (A3 : Rabs (X + gb * (X * X * X)) <= M + gb * (M * M * M)).
    { eapply Rle_trans; [apply Rabs_triang|]. apply Rplus_le_compat; [exact AX|]. rewrite Rabs_mult, (Rabs_pos_eq gb) by (unfold gb; lra).
      apply Rmult_le_compat_l; [unfold gb; lra|]. rewrite !Rabs_mult. pose proof (Rabs_pos X). repeat apply Rmult_le_compat; try assumption; repeat apply Rmult_le_pos; assumption. }
    apply Rle_trans with (ga * (M + gb * (M * M * M))); [apply Rmult_le_compat_l; [unfold ga; lra|exact A3]|].
    rewrite EtI. destruct (Z.leb_spec I 1) as [L|L].
    - fold M. assert (M <= 1) by (unfold M; rewrite <- bpow2_0; apply bpow2_le; lia). assert (M * M * M <= M) by nra. unfold ga, gb in *. nra.
    - assert (E3 : bpow2 (3 * I - 3 - 1) = M * M * M / 2).
      { replace (3 * I - 3 - 1)%Z with ((I - 1) + ((I - 1) + ((I - 1) + -1)))%Z by lia. rewrite !bpow2_add. fold M.
        replace (bpow2 (-1)) with (/ 2); [field|symmetry; transitivity (/ bpow2 1); [exact (bpow2_opp 1)|rewrite bpow2_1; reflexivity]]. }
      rewrite E3. assert (2 <= M) by (unfold M; rewrite <- bpow2_1; apply bpow2_le; lia). assert (4 * M <= M * M * M) by nra. unfold ga, gb. lra. }
  assert (EFg : fF g = (tW - tI)%Z) by reflexivity. rewrite <- EFg.
  destruct C as (z & Hr & Hl). apply is_limited_unique in Hl; [|exact HgW].
  assert (PF : bpow2 (fF g) * bpow2 (tI - 1) = bpow2 (tW - 1)) by (rewrite <- bpow2_add, EFg; f_equal; lia).
  assert (Bz : Rabs (fxval p G * bpow2 (fF g)) <= 0.9 * bpow2 (tW - 1)).
  { rewrite Rabs_mult, (Rabs_pos_eq (bpow2 (fF g))) by (apply Rlt_le, bpow2_pos). rewrite <- PF. pose proof (bpow2_pos (fF g)). nra. }
  pose proof (round_near _ _ _ Hr) as N. assert (P9 : 512 <= bpow2 (tW - 1)). { change 512 with (IZR (2 ^ 9)). rewrite <- bpow2_IZR by lia. apply bpow2_le. unfold tW. lia. }
  apply Rabs_le_both in Bz. pose proof N as N0. apply Rabs_le_both in N.
  assert (Rz : (- 2 ^ (tW - 1) + 1 <= z <= 2 ^ (tW - 1) - 1)%Z).
  { split; apply le_IZR; rewrite ?plus_IZR, ?minus_IZR, ?opp_IZR; rewrite <- bpow2_IZR by (unfold tW; lia); lra. }
  rewrite overflow_id in Hl; [|exact HgW|unfold in_range, imin, imax; unfold g; cbn [fS fW]; lia|unfold imin, imax, g; cbn [fS fW]; lia]. subst z.
  split; [unfold in_range, imin, imax; lia|]. unfold fxval at 1. pose proof (bpow2_pos (- fF g)) as P.
  replace (IZR u * bpow2 (- fF g) - fxval p G) with ((IZR u - fxval p G * bpow2 (fF g)) * bpow2 (- fF g)).
  2:{ rewrite Rmult_minus_distr_r, Rmult_assoc, <- bpow2_add. replace (fF g + - fF g)%Z with 0%Z by lia. rewrite bpow2_0. ring. }
  rewrite Rabs_mult, (Rabs_pos_eq (bpow2 (- fF g))) by lra. apply Rle_trans with (bpow2 (- fF g)); [nra|].
  apply Rle_trans with (bpow2 (-11)); [apply bpow2_le; lia|]. replace (bpow2 (-11)) with (/ 2048); [lra|]. symmetry. transitivity (/ bpow2 11); [exact (bpow2_opp 11)|rewrite bpow2_IZR by lia; reflexivity].
Qed.

Lemma gelu_unfold pQ W I S f x : gelu_pwl pQ W I S f x = let '(tW, tI, u) := gelu_arg W I f x in
  match tanh_pwl pQ tW tI (fS f) (Fmt 21 1 true pQ WRAP) u with
  | None => None
  | Some t => Some (conv f (x * pw (I - W) * (2 ^ 20 + t))%Z (1 + Z.max 0 (W - I) + 20))
  end.
Proof. reflexivity. Qed.
Lemma some_inj {A : Type} (a b : A) : Some a = Some b -> a = b.
Proof. congruence. Qed.
Lemma gelu_real pQ W I f x out : (0 <= I <= W)%Z -> (2 <= W)%Z -> (1 <= fW f)%Z -> fS f = true -> in_range true W x -> gelu_pwl pQ W I true f x = Some out ->
  let X := fxval x (W - I) in
  exists V, convertsR f V out /\ Rabs (V - X / 2 * (1 + tanh (ga * (X + gb * (X * X * X))))) <= 0.003 * Rabs X.
Proof.
  intros HI HW2 HfW HS Hx E X. pose proof (gelu_arg_ok W I f x HI HW2 HS Hx) as G. rewrite gelu_unfold in E.
  destruct (gelu_arg W I f x) as [[tW tI] u]. set (F := Z.max 0 (W - I)) in *. destruct G as (G1 & G2 & G3). fold X in G3. rewrite HS in E.
  destruct (tanh_pwl pQ tW tI true (Fmt 21 1 true pQ WRAP) u) as [t|] eqn:ET; [|discriminate]. apply some_inj in E. rewrite <- E. clear E.
  pose proof (tanh_real pQ tW tI true (Fmt 21 1 true pQ WRAP) u t ltac:(lia) ltac:(cbn; lia) G2 ET) as (Vt & _ & _).
  apply tanh_eval in ET; [|lia|exact G2]. rewrite conv_fits in ET; [|cbn; lia|reflexivity|reflexivity|].
  2:{ pose proof (tanh_val_range (tW - tI) u) as TR. unfold in_range, imin, imax; cbn [fS fW]. set (v := tanh_val _ _) in *. lia. }
  assert (AT : Rabs (fxval t 20 - th (fxval u (tW - tI))) <= 0.005).
  { rewrite ET. unfold tanh_val. destruct (Z.ltb_spec u 0) as [L|L].
    - pose proof (tanh_pos_close (tW - tI) (- u) ltac:(lia)) as [A _]. rewrite fxval_opp, th_opp in A. rewrite fxval_opp. apply Rabs_le_both in A. apply Rabs_le. lra.
    - apply (tanh_pos_close (tW - tI) u L). }
  exists (X / 2 * (1 + fxval t 20)). split.
  - replace (X / 2 * (1 + fxval t 20)) with (fxval (x * pw (I - W) * (2 ^ 20 + t)) (1 + F + 20)); [apply conv_R; exact HfW|].
    replace (1 + F + 20)%Z with (F + (1 + 20))%Z by lia. rewrite fxval_mul. unfold F. rewrite fxval_pwX. fold X.
    replace (fxval (2 ^ 20 + t) (1 + 20)) with ((1 + fxval t 20) / 2); [field|].
    replace (2 ^ 20 + t)%Z with (1 * (2 ^ 20 + t))%Z by lia. rewrite fxval_mul, fxval_add, fxval_one by lia.
    replace (fxval 1 1) with (/ 2); [field|]. unfold fxval. rewrite bpow2_opp, bpow2_1. ring.
  - rewrite <- th_tanh. set (a := ga * _) in *. replace (X / 2 * (1 + fxval t 20) - X / 2 * (1 + th a)) with (X * ((fxval t 20 - th a) / 2)) by field.
    pose proof (th_lip (fxval u (tW - tI)) a) as L. assert (Rabs ((fxval t 20 - th a) / 2) <= 0.003).
    { pose proof (Rle_trans _ _ _ L G3) as L'. apply Rabs_le_both in L'. apply Rabs_le_both in AT. apply Rabs_le. lra. }
    rewrite Rabs_mult. pose proof (Rabs_pos X). nra.
Qed.

Lemma gelu_small pQ W I f x : (0 <= I <= W)%Z -> (2 <= W)%Z -> fS f = true -> in_range true W x -> Rabs (fxval x (W - I)) <= 2.75 ->
  exists out, gelu_pwl pQ W I true f x = Some out.
Proof.
  intros HI HW2 HS Hx HX. pose proof (gelu_arg_ok W I f x HI HW2 HS Hx) as G. rewrite gelu_unfold. destruct (gelu_arg W I f x) as [[tW tI] u].
  destruct G as (G1 & G2 & G3). rewrite HS. cbv zeta in G3. set (X := fxval x (W - I)) in *.
  destruct (tanh_small pQ tW tI true (Fmt 21 1 true pQ WRAP) u ltac:(lia) G2) as [t ->]; [|eexists; reflexivity].
  destruct (Z_lt_le_dec (Z.abs u * pw (- (tW - tI))) (3 * pw (tW - tI))) as [|L]; [assumption|exfalso]. apply ge_R in L.
  assert (EA : fxval (Z.abs u) (tW - tI) = Rabs (fxval u (tW - tI))).
  { unfold fxval. rewrite Rabs_mult, abs_IZR. f_equal. symmetry. apply Rabs_pos_eq. apply Rlt_le, bpow2_pos. }
  rewrite EA in L. assert (B3 : Rabs (X + gb * (X * X * X)) <= 2.75 + gb * (2.75 * 2.75 * 2.75)).
  { eapply Rle_trans; [apply Rabs_triang|]. apply Rplus_le_compat; [exact HX|]. rewrite Rabs_mult, (Rabs_pos_eq gb) by (unfold gb; lra).
    apply Rmult_le_compat_l; [unfold gb; lra|]. rewrite !Rabs_mult. pose proof (Rabs_pos X). repeat apply Rmult_le_compat; try assumption; repeat apply Rmult_le_pos; assumption. }
  set (p := X + gb * (X * X * X)) in *. assert (HB : 2.75 + gb * (2.75 * 2.75 * 2.75) <= 3.7) by (unfold gb; lra).
  pose proof (Rabs_triang_inv (fxval u (tW - tI)) (ga * p)) as T. rewrite (Rabs_mult ga), (Rabs_pos_eq ga) in T by (unfold ga; lra). unfold ga in *. lra.
Qed.
(** x = 3.0 makes the table of tanh be read out of range. *)
Lemma gelu_undefined : ~ (forall pQ W I f x, (0 <= I <= W)%Z -> (2 <= W)%Z -> (1 <= fW f)%Z -> fS f = true -> in_range true W x -> gelu_pwl pQ W I true f x <> None).
Proof.
  intros H. apply (H TRN 16%Z 6%Z (Fmt 20 6 true TRN WRAP) 3072%Z); try lia; try reflexivity; [cbn; lia|vm_compute; split; discriminate].
Qed.
(** An unsigned input with a signed output: the argument of tanh wraps.  x = 1.992 gives 0.87. *)
Lemma gelu_unsigned : ~ (forall pQ W I f x out, (0 <= I <= W)%Z -> (2 <= W)%Z -> (1 <= fW f)%Z -> fS f = true -> in_range false W x -> gelu_pwl pQ W I false f x = Some out ->
  let X := fxval x (W - I) in exists V, convertsR f V out /\ Rabs (V - X / 2 * (1 + tanh (ga * (X + gb * (X * X * X))))) <= 0.1 * Rabs X).
Proof.
  intros H. set (f := Fmt 20 4 true TRN WRAP).
  destruct (H TRN 8%Z 1%Z f 255%Z 57012%Z ltac:(lia) ltac:(lia) ltac:(cbn; lia) eq_refl ltac:(vm_compute; split; discriminate) ltac:(vm_compute; reflexivity)) as (V & C & B).
  set (X := fxval 255 (8 - 1)) in *. assert (EX : X = 255 / 128).
  { unfold X, fxval. change (- (8 - 1))%Z with (-7)%Z. replace (bpow2 (-7)) with (/ 128) by (symmetry; transitivity (/ bpow2 7); [exact (bpow2_opp 7)|rewrite bpow2_IZR by lia; reflexivity]). lra. }
  rewrite EX in B. rewrite <- th_tanh in B. set (a := ga * _) in B. assert (Ha : 0 <= a) by (unfold a, ga, gb; lra).
  pose proof (th_mono 0 a Ha) as T0. rewrite th_0 in T0. pose proof (th_lt1 a) as T1. 
  assert (T2 : 0.5 <= th a).
  { assert (H1 : 1 <= a) by (unfold a, ga, gb; lra). pose proof (th_mono 1 a H1). assert (0.5 <= th 1); [|lra]. unfold th.
    pose proof (exp_ineq1_le (2 * 1)). apply Rmult_le_reg_r with (1 + exp (2 * 1)); [lra|]. replace ((1 - 2 / (1 + exp (2 * 1))) * (1 + exp (2 * 1))) with (exp (2 * 1) - 1) by (field; lra). lra. }
  rewrite (Rabs_pos_eq (255 / 128)) in B by lra. apply Rabs_le_both in B.
  destruct (convR_near f V _ ltac:(cbn; lia) ltac:(discriminate) C) as [_ N].
  { change (fF f) with 16%Z. change (imin (fS f) (fW f)) with (-524288)%Z. change (imax (fS f) (fW f)) with 524287%Z. rewrite bpow2_IZR by lia. change (2 ^ 16)%Z with 65536%Z. lra. }
  change (fF f) with 16%Z in N. unfold fxval in N. replace (bpow2 (- (16))) with (/ 65536) in N by (symmetry; rewrite (bpow2_opp 16), bpow2_IZR by lia; reflexivity).
  apply Rabs_le_both in N. lra.
Qed.
