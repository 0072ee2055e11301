(** Accuracy of ac_exp_pwl and of the natural logarithm ac_log_pwl. *)
From Coq Require Import Reals Lra Lia ZifyBool.
From Verif Require Import AcTypes AcFacts Spec SpecFacts SpecR SpecRFacts LeadingModel LeadingProofs SpecFloat FlfxProofs PwlModel PwlFacts PwlProofs PwlSqrt PwlReal PwlExp PwlExpReal SoftModel SoftFacts.
Local Open Scope R_scope.

Lemma ln2_dec : 0.693146 <= ln 2 <= 0.693149.
Proof.
  pose proof ln2_ok as [A B]. pose proof sc_pos as P. rewrite sc_IZR in *. change (IZR (2 ^ 60)) with 1152921504606846976 in *. unfold ln2L, ln2H in *. lra.
Qed.

(** ** Powers of two as a real function of the input *)
Definition pow2_val (F x : Z) : R := IZR (powY (fpart F x)) * bpow2 (ipart F x - 20).

Lemma pow2_val_close F x : Rabs (pow2_val F x - Rpower 2 (fxval x F)) <= 0.0023 * Rpower 2 (fxval x F).
Proof.
  destruct (parts_R F x) as (r & EX & Hr). pose proof (fpart_range F x) as FR. set (q := ipart F x) in *. set (T := fpart F x) in *.
  assert (r01 : 0 <= r < 1).
  { destruct FR as [F1 F2]. apply (IZR_le 0) in F1. assert (T + 1 <= 4096)%Z as F3 by lia. apply IZR_le in F3. lra. }
  pose proof (pow_close T FR r ltac:(lra)) as Q. unfold pow2_val. fold q T. rewrite EX, Rpower_plus, bpow2_Rpower. replace (q - 20)%Z with (q + - 20)%Z by lia. rewrite bpow2_add.
  pose proof (bpow2_pos q). set (g := Rpower 2 r) in *. set (y := IZR (powY T)) in *.
  replace (y * (bpow2 q * bpow2 (- 20)) - bpow2 q * g) with (bpow2 q * (y * bpow2 (- 20) - g)) by ring.
  rewrite Rabs_mult, (Rabs_pos_eq (bpow2 q)) by lra. nra.
Qed.

Lemma powY_pos T : (0 <= T < 4096)%Z -> 0 < IZR (powY T).
Proof. intros H. apply (IZR_lt 0). pose proof (powY_range T H). set (v := powY T) in *. lia. Qed.
Lemma pow2_val_pos F x : 0 < pow2_val F x.
Proof. unfold pow2_val. apply Rmult_lt_0_compat; [apply powY_pos, fpart_range|apply bpow2_pos]. Qed.

Lemma pow2_val_mono F x y : (x <= y)%Z -> pow2_val F x <= pow2_val F y.
Proof.
  intros H. unfold pow2_val. pose proof (fpart_range F x) as FX. pose proof (fpart_range F y) as FY.
  destruct (part_mono F x y H) as [L|[-> L]].
  - pose proof (powY_range _ FX) as A. pose proof (powY_range _ FY) as B. set (a := powY (fpart F x)) in *. set (b := powY (fpart F y)) in *.
    apply Rle_trans with (2 * IZR b * bpow2 (ipart F x - 20)).
    + apply Rmult_le_compat_r; [apply Rlt_le, bpow2_pos|]. rewrite <- (mult_IZR 2). apply IZR_le. lia.
    + replace (2 * IZR b * bpow2 (ipart F x - 20)) with (IZR b * bpow2 (ipart F x - 20 + 1)) by (rewrite bpow2_add, bpow2_1; ring).
      apply Rmult_le_compat_l; [apply (IZR_le 0); lia|]. apply bpow2_le. lia.
  - apply Rmult_le_compat_r; [apply Rlt_le, bpow2_pos|]. apply IZR_le. apply powY_mono; lia.
Qed.

Lemma ipart_bounds F x : IZR (ipart F x) <= fxval x F < IZR (ipart F x) + 1.
Proof.
  destruct (parts_R F x) as (r & EX & Hr). pose proof (fpart_range F x) as FR. destruct FR as [F1 F2]. apply (IZR_le 0) in F1.
  assert (fpart F x + 1 <= 4096)%Z as F3 by lia. apply IZR_le in F3. lra.
Qed.

Lemma pow2_evalR pQ W I S f x : (1 <= W)%Z -> (1 <= fW f)%Z -> fS f = false -> in_range S W x -> - bpow2 31 <= fxval x (W - I) < bpow2 31 ->
  exists out, pow2_pwl pQ W I S f x = Some out /\ convertsR f (pow2_val (W - I) x) out.
Proof.
  intros HW HfW HfS Hx HX. pose proof (ipart_bounds (W - I) x) as B. rewrite !bpow2_IZR in HX by lia.
  assert (Hq : (- 2 ^ 31 <= ipart (W - I) x < 2 ^ 31)%Z).
  { split.
    - assert (- 2 ^ 31 < ipart (W - I) x + 1)%Z; [|lia]. apply lt_IZR. rewrite plus_IZR, opp_IZR. lra.
    - apply lt_IZR. lra. }
  destruct (pow2_eval pQ W I S f x HW HfW HfS Hx Hq) as (out & E & C). exists out. split; [exact E|]. apply converts2_R. exact C.
Qed.

(** ** The exponential *)
Definition exp_inter (W I : Z) (S : bool) (x : Z) : Z := conv (dfmt (I + 1 + pit_frac W I) (I + 1) S) (x * 23637) (W - I + 14).

Lemma log2e_mul W I x : fxval (x * 23637) (W - I + 14) = fxval x (W - I) * (23637 / 16384).
Proof. rewrite fxval_mul. f_equal. unfold fxval. change (- (14))%Z with (-14)%Z. rewrite bpow2_m14. lra. Qed.

Lemma exp_inter_trn W I S x : (1 <= W)%Z -> in_range S W x -> let G := pit_frac W I in
  in_range S (I + 1 + G) (exp_inter W I S x) /\
  fxval (exp_inter W I S x) G <= fxval x (W - I) * (23637 / 16384) < fxval (exp_inter W I S x) G + bpow2 (- G).
Proof.
  intros HW Hx G. assert (HG : (12 <= G /\ W - I <= G)%Z) by (unfold G, pit_frac; lia).
  pose proof (conv_R (dfmt (I + 1 + G) (I + 1) S) (x * 23637) (W - I + 14) ltac:(cbn; lia)) as C. fold (exp_inter W I S x) in C.
  change (conv (dfmt (I + 1 + G) (I + 1) S) (x * 23637) (W - I + 14)) with (exp_inter W I S x) in C. rewrite log2e_mul in C.
  pose proof (range_R S W I x HW Hx) as B. set (X := fxval x (W - I)) in *.
  pose proof (bpow2_pos (I - 1)) as P1. assert (P2 : bpow2 I = 2 * bpow2 (I - 1)) by (replace I with (1 + (I - 1))%Z at 1 by lia; rewrite bpow2_add, bpow2_1; reflexivity).
  assert (P3 : bpow2 (I + 1) = 4 * bpow2 (I - 1)) by (rewrite bpow2_add, P2, bpow2_1; ring).
  apply convR_dfmt in C; [|lia|].
  - replace (I + 1 + G - (I + 1))%Z with G in C by lia. exact C.
  - replace (I + 1 - 1)%Z with I by lia. destruct S; cbv iota in *; lra.
Qed.
Lemma exp_inter_ok W I S x : (1 <= W)%Z -> in_range S W x ->
  in_range S (I + 1 + pit_frac W I) (exp_inter W I S x) /\
  fxval (exp_inter W I S x) (pit_frac W I) <= fxval x (W - I) * (23637 / 16384) < fxval (exp_inter W I S x) (pit_frac W I) + bpow2 (- 12).
Proof.
  intros HW Hx. destruct (exp_inter_trn W I S x HW Hx) as [A B]. split; [exact A|].
  pose proof (bpow2_le (- pit_frac W I) (- 12) ltac:(unfold pit_frac; lia)). lra.
Qed.

Definition exp_val (W I : Z) (S : bool) (x : Z) : R := pow2_val (pit_frac W I) (exp_inter W I S x).

Lemma exp_near d : Rabs d <= 0.0075 -> Rabs (exp (- d) - 1) <= 1.01 * Rabs d.
Proof.
  intros H. apply Rabs_le_both in H. pose proof (exp_ineq1_le (- d)) as A. pose proof (exp_ineq1_le d) as B. pose proof (exp_pos (- d)) as P.
  assert (E : exp (- d) * exp d = 1) by (rewrite <- exp_plus, Rplus_opp_l; apply exp_0).
  assert (C : exp (- d) * (1 + d) <= 1) by nra.
  destruct (Rcase_abs d) as [N|N].
  - rewrite (Rabs_left d) by exact N. apply Rabs_le. split; [lra|]. nra.
  - rewrite (Rabs_right d) by exact N. apply Rabs_le. split; [lra|]. nra.
Qed.

(** e^x compared with 2^y when y is nearly x * log2(e). *)
Lemma exp_pow2 X Y : Rabs X <= 1024 -> Y <= X * (23637 / 16384) < Y + bpow2 (- 12) ->
  Rabs (Rpower 2 Y - exp X) <= (0.000175 + 0.0000072 * Rabs X) * exp X.
Proof.
  intros HX HY. assert (b12 : bpow2 (- 12) = / 4096) by (exact bpow2_m12). rewrite b12 in HY.
  pose proof ln2_dec as L. set (d := X - Y * ln 2). assert (Hd : Rabs d <= 0.00017 + 0.000007 * Rabs X).
  { unfold d. set (l := ln 2) in *. assert (E1 : X - Y * l = X * (1 - 23637 / 16384 * l) + (X * (23637 / 16384) - Y) * l) by ring. rewrite E1.
    eapply Rle_trans; [apply Rabs_triang|]. rewrite !Rabs_mult.
    assert (A1 : Rabs (1 - 23637 / 16384 * l) <= 0.000007) by (apply Rabs_le; lra).
    assert (A2 : Rabs (X * (23637 / 16384) - Y) * Rabs l <= / 4096 * 0.693149).
    { apply Rmult_le_compat; try apply Rabs_pos; apply Rabs_le; lra. }
    pose proof (Rabs_pos X). pose proof (Rabs_pos (1 - 23637 / 16384 * l)). nra. }
  assert (EY : Rpower 2 Y = exp X * exp (- d)). { unfold Rpower. rewrite <- exp_plus. f_equal. unfold d. ring. }
  pose proof (exp_near d ltac:(pose proof (Rabs_pos X); lra)) as N. rewrite EY.
  pose proof (exp_pos X) as P. replace (exp X * exp (- d) - exp X) with (exp X * (exp (- d) - 1)) by ring.
  rewrite Rabs_mult, (Rabs_pos_eq (exp X)) by lra. pose proof (Rabs_pos X). nra.
Qed.

Lemma exp_val_close W I S x : (1 <= W)%Z -> in_range S W x -> let X := fxval x (W - I) in Rabs X <= 1024 ->
  Rabs (exp_val W I S x - exp X) <= (0.0025 + 0.00001 * Rabs X) * exp X.
Proof.
  intros HW Hx X HX. destruct (exp_inter_ok W I S x HW Hx) as [_ B]. fold X in B. pose proof (exp_pow2 X _ HX B) as Q.
  pose proof (pow2_val_close (pit_frac W I) (exp_inter W I S x)) as C. fold (exp_val W I S x) in C. set (p := Rpower 2 _) in *. set (v := exp_val W I S x) in *.
  pose proof (exp_pos X) as P. apply Rabs_le_both in Q, C. pose proof (Rabs_pos X). set (e := exp X) in *. set (a := Rabs X) in *.
  assert (0 <= a * e) by nra. apply Rabs_le. split; nra.
Qed.

Lemma exp_evalR pQ W I S f x : (1 <= W)%Z -> (1 <= fW f)%Z -> fS f = false -> in_range S W x -> Rabs (fxval x (W - I)) <= 1024 ->
  exists out, exp_pwl pQ W I S f x = Some out /\ convertsR f (exp_val W I S x) out.
Proof.
  intros HW HfW HfS Hx HX. destruct (exp_inter_ok W I S x HW Hx) as [A B]. unfold exp_pwl. fold (exp_inter W I S x).
  assert (HG : (12 <= pit_frac W I /\ W - I <= pit_frac W I)%Z) by (unfold pit_frac; lia).
  destruct (pow2_evalR pQ (I + 1 + pit_frac W I) (I + 1) S f (exp_inter W I S x)) as (out & E & C); try assumption; [lia| |].
  - replace (I + 1 + pit_frac W I - (I + 1))%Z with (pit_frac W I) by lia. apply Rabs_le_both in HX. rewrite !bpow2_IZR by lia. change (IZR (2 ^ 31)) with 2147483648.
    assert (bpow2 (- 12) = / 4096) by (exact bpow2_m12). lra.
  - replace (I + 1 + pit_frac W I - (I + 1))%Z with (pit_frac W I) in C by lia. exists out. split; assumption.
Qed.

Lemma exp_real pQ W I S f x : (1 <= W)%Z -> (1 <= fW f)%Z -> fS f = false -> in_range S W x ->
  let X := fxval x (W - I) in Rabs X <= 1024 ->
  exists out V, exp_pwl pQ W I S f x = Some out /\ convertsR f V out /\ Rabs (V - exp X) <= (0.0025 + 0.00001 * Rabs X) * exp X.
Proof.
  intros HW HfW HfS Hx X HX. destruct (exp_evalR pQ W I S f x HW HfW HfS Hx HX) as (out & E & C).
  exists out, (exp_val W I S x). split; [exact E|]. split; [exact C|]. apply exp_val_close; assumption.
Qed.

Lemma exp_inter_mono W I S x y : (1 <= W)%Z -> in_range S W x -> in_range S W y -> (x <= y)%Z -> (exp_inter W I S x <= exp_inter W I S y)%Z.
Proof.
  intros HW Hx Hy H. destruct (exp_inter_trn W I S x HW Hx) as [_ T1]. destruct (exp_inter_trn W I S y HW Hy) as [_ T2].
  apply (fxval_le _ _ (W - I)) in H. set (G := pit_frac W I) in *.
  assert (exp_inter W I S x < exp_inter W I S y + 1)%Z; [|lia]. apply (fxval_lt _ _ G). rewrite fxval_add.
  assert (fxval 1 G = bpow2 (- G)) by (unfold fxval; ring). lra.
Qed.
Lemma exp_val_mono W I S x y : (1 <= W)%Z -> in_range S W x -> in_range S W y -> (x <= y)%Z -> exp_val W I S x <= exp_val W I S y.
Proof. intros. apply pow2_val_mono, exp_inter_mono; assumption. Qed.

(** ** The natural logarithm *)
Lemma nbits_gt v : (0 <= v -> v < 2 ^ nbits v)%Z.
Proof. intros H. unfold nbits. destruct (Z.leb_spec v 0); [replace v with 0%Z by lia; reflexivity|]. pose proof (Z.log2_spec v ltac:(lia)). replace (Z.log2 v + 1)%Z with (Z.succ (Z.log2 v)) by lia. lia. Qed.

Lemma nbits_nonneg v : (0 <= nbits v)%Z.
Proof. unfold nbits. destruct (_ <=? 0)%Z; [lia|]. pose proof (Z.log2_nonneg v). lia. Qed.

Lemma ln_real pQ W I XO f x : (1 <= W)%Z -> (1 <= fW f)%Z -> (0 < x < 2 ^ W)%Z ->
  let X := fxval x (W - I) in
  exists out V, ln_pwl pQ W I XO f x = Some out /\ convertsR f V out /\ Rabs (V - ln X) <= 0.00104 + 0.00005 * Rabs (ln X).
Proof.
  intros HW HfW Hx X. set (tI := (Z.max (nbits (Z.max (W - I) 0)) (nbits (Z.max I 0)) + 1)%Z).
  pose proof (nbits_nonneg (Z.max (W - I) 0)) as N1. pose proof (nbits_nonneg (Z.max I 0)) as N2.
  set (tf := Fmt (22 + tI) tI true pQ WRAP). assert (HtI : (1 <= tI)%Z) by (unfold tI; lia).
  destruct (log2_real pQ W I XO tf true x HW ltac:(unfold tf; cbn [fW]; lia) Hx (or_introl eq_refl)) as (out & V & E & C & A). fold X in A.
  (* the logarithm fits the temporary *)
  assert (XB : bpow2 (- (W - I)) <= X < bpow2 I).
  { pose proof (range_R false W I x HW) as R. unfold in_range, imin, imax in R. specialize (R ltac:(lia)). cbv iota in R. fold X in R. split; [|lra].
    unfold X, fxval. assert (1 <= IZR x) by (apply (IZR_le 1); lia). pose proof (bpow2_pos (- (W - I))). nra. }
  pose proof ln2_dec as L2. set (l := ln 2) in *.
  assert (PX : 0 < X) by (pose proof (bpow2_pos (- (W - I))); lra).
  assert (LB : - IZR (W - I) <= ln X / l <= IZR I).
  { pose proof (ln_le _ _ (bpow2_pos (- (W - I))) (proj1 XB)) as B1. pose proof (ln_le _ _ PX (Rlt_le _ _ (proj2 XB))) as B2. rewrite ln_bpow2 in B1, B2. fold l in B1, B2.
    rewrite opp_IZR in B1. split; apply Rmult_le_reg_r with l; try lra; unfold Rdiv; rewrite Rmult_assoc, Rinv_l by lra; lra. }
  assert (TB : exists h, (2 ^ (tI - 1) = h)%Z /\ (W - I + 1 <= h)%Z /\ (I + 1 <= h)%Z).
  { exists (2 ^ (tI - 1))%Z. repeat split.
    - pose proof (nbits_gt (Z.max (W - I) 0) ltac:(lia)). pose proof (pow2_le (nbits (Z.max (W - I) 0)) (tI - 1) ltac:(unfold tI; lia)). lia.
    - pose proof (nbits_gt (Z.max I 0) ltac:(lia)). pose proof (pow2_le (nbits (Z.max I 0)) (tI - 1) ltac:(unfold tI; lia)). lia. }
  destruct TB as (h & Eh & T1 & T2). apply Rabs_le_both in A. apply IZR_le in T1, T2. rewrite !plus_IZR in T1, T2.
  set (L := ln X / l) in *. assert (EL : ln X = L * l) by (unfold L; field; lra).
  apply convR_near in C; [|unfold tf; cbn [fW]; lia|discriminate|].
  2:{ replace (fF tf) with 22%Z by (unfold tf, fF; cbn [fW fI]; lia). unfold tf. cbn [fS fW]. unfold imin, imax.
      replace (2 ^ (22 + tI - 1))%Z with (2 ^ 22 * h)%Z by (rewrite <- Eh, <- pow2_add by lia; f_equal; lia).
      rewrite opp_IZR, minus_IZR, mult_IZR, (bpow2_IZR 22) by lia. change (IZR (2 ^ 22)) with 4194304. lra. }
  destruct C as [_ C]. replace (fF tf) with 22%Z in C by (unfold tf, fF; cbn [fW fI]; lia).
  unfold ln_pwl. fold tI. fold tf. rewrite E. replace (x =? 0)%Z with false by lia. cbn [negb].
  exists (conv f (out * 2839) (22 + 12)), (fxval (out * 2839) (22 + 12)). split; [reflexivity|]. split; [apply conv_R; exact HfW|].
  assert (E12 : fxval 2839 12 = 2839 / 4096). { unfold fxval. change (- (12))%Z with (-12)%Z. rewrite bpow2_m12. lra. }
  rewrite fxval_mul, E12, EL. set (v := fxval out 22) in *. assert (b22 : bpow2 (- 22) <= 0.00000024).
  { replace (bpow2 (- 22)) with (/ bpow2 22) by (symmetry; exact (bpow2_opp 22)). rewrite (bpow2_IZR 22) by lia. change (IZR (2 ^ 22)) with 4194304. lra. }
  apply Rabs_le_both in C. change (- (22))%Z with (-22)%Z in C. replace (v * (2839 / 4096) - L * l) with ((v - L) * (2839 / 4096) + L * (2839 / 4096 - l)) by ring.
  eapply Rle_trans; [apply Rabs_triang|]. rewrite !Rabs_mult. rewrite (Rabs_pos_eq (2839 / 4096)) by lra. rewrite (Rabs_pos_eq l) by lra.
  assert (Rabs (v - L) <= 0.00150024) by (apply Rabs_le; lra). assert (Rabs (2839 / 4096 - l) <= 0.000034) by (apply Rabs_le; lra).
  pose proof (Rabs_pos L). pose proof (Rabs_pos (2839 / 4096 - l)). set (aL := Rabs L) in *. nra.
Qed.

Lemma ln_zero pQ W I XO f : exists t, ln_pwl pQ W I XO f 0 = Some t /\ t = imin (fS f) (fW f).
Proof. unfold ln_pwl. rewrite log2_zero. eexists. split; reflexivity. Qed.
