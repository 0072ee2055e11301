(** Accuracy of the power-of-two and logarithm approximations over the reals. *)
From Coq Require Import Reals Lra Lia ZifyBool.
From Verif Require Import AcTypes AcFacts Spec SpecFacts SpecR SpecRFacts LeadingModel LeadingProofs PwlModel PwlFacts PwlProofs PwlSqrt PwlReal PwlExp.
Local Open Scope R_scope.

Lemma bpow2_Rpower e : Rpower 2 (IZR e) = bpow2 e.
Proof. unfold bpow2. symmetry. apply powerRZ_Rpower. lra. Qed.
Lemma Rpower2_pos x : 0 < Rpower 2 x. Proof. unfold Rpower. apply exp_pos. Qed.
Lemma Rpower2_le x y : x <= y -> Rpower 2 x <= Rpower 2 y.
Proof. intros H. apply Rle_Rpower; lra. Qed.

(** Scaled integers: s stands for s / 2^60. *)
Definition sc : R := bpow2 60.
Lemma sc_pos : 0 < sc. Proof. apply bpow2_pos. Qed.
Lemma sc_IZR : sc = IZR (2 ^ 60). Proof. apply bpow2_IZR. lia. Qed.
Lemma div_R a b : (0 < b)%Z -> IZR (a / b) <= IZR a / IZR b < IZR (a / b) + 1.
Proof.
  intros Hb. pose proof (Z.mul_div_le a b Hb). pose proof (Z.mul_succ_div_gt a b Hb).
  assert (0 < IZR b) by (apply (IZR_lt 0); exact Hb). split.
  - apply Rmult_le_reg_r with (IZR b); [assumption|]. unfold Rdiv. rewrite Rmult_assoc, Rinv_l by lra. rewrite Rmult_1_r, <- mult_IZR. apply IZR_le. lia.
  - apply Rmult_lt_reg_r with (IZR b); [assumption|]. unfold Rdiv. rewrite Rmult_assoc, Rinv_l by lra. rewrite Rmult_1_r.
    replace (IZR (a / b) + 1) with (IZR (a / b + 1)) by (rewrite plus_IZR; reflexivity). rewrite <- mult_IZR. apply IZR_lt. lia.
Qed.

(** Bounds on 2^(1/2^k) by repeated squaring. *)
Fixpoint root_lo (k : nat) (s : Z) : bool :=
  match k with O => (s <=? 2 * 2 ^ 60)%Z | Datatypes.S k => root_lo k (s * s / 2 ^ 60 + 1)%Z end.
Fixpoint root_hi (k : nat) (s : Z) : bool :=
  match k with O => (2 * 2 ^ 60 <=? s)%Z | Datatypes.S k => root_hi k (s * s / 2 ^ 60)%Z end.
Definition root (k : nat) : R := Rpower 2 (/ 2 ^ k).
Lemma root_0 : root 0 = 2. Proof. unfold root. cbn [pow]. rewrite Rinv_1. apply Rpower_1. lra. Qed.
Lemma root_S k : root (Datatypes.S k) * root (Datatypes.S k) = root k.
Proof.
  unfold root. rewrite <- Rpower_plus. f_equal. cbn [pow]. assert (0 < 2 ^ k) by (apply pow_lt; lra). field. lra.
Qed.
Lemma root_lo_ok k : forall s, (0 <= s)%Z -> root_lo k s = true -> IZR s / sc <= root k.
Proof.
  pose proof sc_pos as P. induction k as [|k IH]; intros s Hs H; cbn [root_lo] in H.
  - rewrite root_0. apply Z.leb_le, IZR_le in H. rewrite mult_IZR, <- sc_IZR in H. apply Rmult_le_reg_r with sc; [assumption|]. unfold Rdiv. rewrite Rmult_assoc, Rinv_l by lra. lra.
  - assert (0 <= s * s / 2 ^ 60)%Z by (apply Z.div_pos; nia). apply IH in H; [|lia].
    pose proof (div_R (s * s) (2 ^ 60) ltac:(lia)) as [_ B]. rewrite <- sc_IZR, mult_IZR in B. rewrite plus_IZR in H.
    apply (IZR_le 0) in Hs. apply sq_le; [apply Rmult_le_pos; [lra|apply Rlt_le, Rinv_0_lt_compat; lra]|apply Rlt_le, Rpower2_pos|].
    rewrite root_S. eapply Rle_trans; [|exact H]. replace (IZR s / sc * (IZR s / sc)) with (IZR s * IZR s / sc / sc) by (field; lra).
    apply Rmult_le_compat_r; [apply Rlt_le, Rinv_0_lt_compat; lra|lra].
Qed.
Lemma root_hi_ok k : forall s, (0 <= s)%Z -> root_hi k s = true -> root k <= IZR s / sc.
Proof.
  pose proof sc_pos as P. induction k as [|k IH]; intros s Hs H; cbn [root_hi] in H.
  - rewrite root_0. apply Z.leb_le, IZR_le in H. rewrite mult_IZR, <- sc_IZR in H. apply Rmult_le_reg_r with sc; [assumption|]. unfold Rdiv. rewrite Rmult_assoc, Rinv_l by lra. lra.
  - assert (0 <= s * s / 2 ^ 60)%Z by (apply Z.div_pos; nia). apply IH in H; [|lia].
    pose proof (div_R (s * s) (2 ^ 60) ltac:(lia)) as [B _]. rewrite <- sc_IZR, mult_IZR in B.
    apply (IZR_le 0) in Hs. apply sq_le; [apply Rlt_le, Rpower2_pos|apply Rmult_le_pos; [lra|apply Rlt_le, Rinv_0_lt_compat; lra]|].
    rewrite root_S. eapply Rle_trans; [exact H|]. replace (IZR s / sc * (IZR s / sc)) with (IZR s * IZR s / sc / sc) by (field; lra).
    apply Rmult_le_compat_r; [apply Rlt_le, Rinv_0_lt_compat; lra|lra].
Qed.

(** ** Bounds on the logarithm *)
Lemma ln_le_sub1 z : 0 < z -> ln z <= z - 1.
Proof. intros Hz. pose proof (exp_ineq1_le (ln z)) as H. rewrite exp_ln in H by exact Hz. lra. Qed.
Lemma ln_div a b : 0 < a -> 0 < b -> ln (a / b) = ln a - ln b.
Proof. intros Ha Hb. unfold Rdiv. rewrite ln_mult, ln_Rinv; [ring|exact Hb|exact Ha|apply Rinv_0_lt_compat, Hb]. Qed.
Lemma ln_le a b : 0 < a -> a <= b -> ln a <= ln b.
Proof. intros Ha [H|<-]; [left; apply ln_increasing; assumption|right; reflexivity]. Qed.

(** A function with a non-negative derivative that starts at 0 stays non-negative. *)
Lemma grows f f' b : 1 <= b -> f 1 = 0 -> (forall c, 1 <= c <= b -> derivable_pt_lim f c (f' c)) -> (forall c, 1 <= c <= b -> 0 <= f' c) -> 0 <= f b.
Proof.
  intros [Hb| <-] H0 D P; [|lra]. destruct (MVT_cor2 f f' 1 b Hb D) as (c & E & Hc). rewrite H0 in E. pose proof (P c ltac:(lra)). nra.
Qed.
Lemma inv_shift_lim k c : c + k <> 0 -> derivable_pt_lim (fun x => / (x + k)) c (- / ((c + k) * (c + k))).
Proof.
  intros H. replace (- / ((c + k) * (c + k))) with ((0 * (id + fct_cte k)%F c - (1 + 0) * fct_cte 1 c) / Rsqr ((id + fct_cte k)%F c)) by (unfold plus_fct, id, fct_cte, Rsqr; field; exact H).
  apply (derivable_pt_lim_ext (fct_cte 1 / (id + fct_cte k))%F); [intros y; unfold div_fct, plus_fct, fct_cte, id, Rdiv; apply Rmult_1_l|].
  apply derivable_pt_lim_div; [apply derivable_pt_lim_const|apply derivable_pt_lim_plus; [apply derivable_pt_lim_id|apply derivable_pt_lim_const]|exact H].
Qed.
(** 2 (x - 1) / (x + 1) <= ln x, written with 4 / (x + 1). *)
Lemma ln_lower x : 1 <= x -> 2 - 4 * / (x + 1) <= ln x.
Proof.
  intros Hx. cut (0 <= (fun y => ln y - (2 - 4 * / (y + 1))) x); [cbv beta; lra|].
  apply (grows _ (fun c => / c - (0 - 4 * - / ((c + 1) * (c + 1))))); [exact Hx|cbv beta; rewrite ln_1; lra| |].
  - intros c Hc. apply (derivable_pt_lim_minus ln (fun y => 2 - 4 * / (y + 1))); [apply derivable_pt_lim_ln; lra|].
    apply (derivable_pt_lim_minus (fct_cte 2) (fun y => 4 * / (y + 1))); [apply derivable_pt_lim_const|].
    apply (derivable_pt_lim_scal (fun y => / (y + 1))). apply inv_shift_lim. lra.
  - intros c Hc. replace (/ c - (0 - 4 * - / ((c + 1) * (c + 1)))) with ((c - 1) * (c - 1) * / (c * ((c + 1) * (c + 1)))) by (field; lra).
    apply Rmult_le_pos; [nra|]. apply Rlt_le, Rinv_0_lt_compat. apply Rmult_lt_0_compat; nra.
Qed.
(** ln x <= (x - 1/x) / 2. *)
Lemma ln_upper x : 1 <= x -> ln x <= (x - / x) / 2.
Proof.
  intros Hx. cut (0 <= (fun y => / 2 * (y - / (y + 0)) - ln y) x).
  { cbv beta. rewrite Rplus_0_r. lra. }
  apply (grows _ (fun c => / 2 * (1 - - / ((c + 0) * (c + 0))) - / c)); [exact Hx|cbv beta; rewrite ln_1; lra| |].
  - intros c Hc. apply (derivable_pt_lim_minus (fun y => / 2 * (y - / (y + 0))) ln); [|apply derivable_pt_lim_ln; lra].
    apply (derivable_pt_lim_scal (fun y => y - / (y + 0))). apply (derivable_pt_lim_minus id (fun y => / (y + 0))); [apply derivable_pt_lim_id|].
    apply inv_shift_lim. lra.
  - intros c Hc. replace (/ 2 * (1 - - / ((c + 0) * (c + 0))) - / c) with (/ 2 * ((1 - / c) * (1 - / c))) by (field; lra). generalize (1 - / c). intros z. nra.
Qed.

Lemma ln_step a : (0 < a)%Z -> IZR 2 / IZR (2 * a + 1) <= ln (IZR (a + 1)) - ln (IZR a) <= IZR (2 * a + 1) / IZR (2 * a * (a + 1)).
Proof.
  intros Ha. assert (P : 1 <= IZR a) by (apply IZR_le; lia). rewrite !mult_IZR, !plus_IZR, !mult_IZR. set (x := IZR a) in *. clearbody x.
  rewrite <- ln_div by lra. assert (H : 1 <= (x + 1) / x).
  { apply Rmult_le_reg_r with x; [lra|]. unfold Rdiv. rewrite Rmult_assoc, Rinv_l by lra. lra. }
  split.
  - eapply Rle_trans; [|apply ln_lower; exact H]. right. field. lra.
  - eapply Rle_trans; [apply ln_upper; exact H|]. right. field. lra.
Qed.

Definition lnq (a : Z) : R := ln (IZR a) - ln 256.
Definition ln_lo (lo a : Z) : Z := (lo + 2 * 2 ^ 60 / (2 * a + 1))%Z.
Definition ln_hi (hi a : Z) : Z := (hi + (2 * a + 1) * 2 ^ 60 / (2 * a * (a + 1)) + 1)%Z.
Lemma ln_lo_ok lo a : (0 < a)%Z -> IZR lo / sc <= lnq a -> IZR (ln_lo lo a) / sc <= lnq (a + 1).
Proof.
  intros Ha H. pose proof sc_pos as P. pose proof (ln_step a Ha) as [S _]. pose proof (div_R (2 * 2 ^ 60) (2 * a + 1) ltac:(lia)) as [D _].
  rewrite (mult_IZR 2 (2 ^ 60)), <- sc_IZR in D. unfold ln_lo. rewrite plus_IZR. assert (0 < IZR (2 * a + 1)) by (apply (IZR_lt 0); lia).
  set (d := IZR (2 * 2 ^ 60 / (2 * a + 1))) in *. set (m := IZR (2 * a + 1)) in *.
  assert (d / sc <= 2 / m). { apply Rmult_le_reg_r with sc; [exact P|]. unfold Rdiv at 1. rewrite Rmult_assoc, Rinv_l by lra. unfold Rdiv in D |- *. lra. }
  unfold lnq in *. unfold Rdiv in *. rewrite Rmult_plus_distr_r. lra.
Qed.
Lemma ln_hi_ok hi a : (0 < a)%Z -> lnq a <= IZR hi / sc -> lnq (a + 1) <= IZR (ln_hi hi a) / sc.
Proof.
  intros Ha H. pose proof sc_pos as P. pose proof (ln_step a Ha) as [_ S]. pose proof (div_R ((2 * a + 1) * 2 ^ 60) (2 * a * (a + 1)) ltac:(nia)) as [_ D].
  rewrite (mult_IZR (2 * a + 1) (2 ^ 60)), <- sc_IZR in D. unfold ln_hi. rewrite (plus_IZR (hi + _)), (plus_IZR hi). assert (0 < IZR (2 * a * (a + 1))) by (apply (IZR_lt 0); nia).
  set (d := IZR ((2 * a + 1) * 2 ^ 60 / (2 * a * (a + 1)))) in *. set (m := IZR (2 * a * (a + 1))) in *. set (u := IZR (2 * a + 1)) in *.
  assert (u / m <= (d + 1) / sc). { apply Rmult_le_reg_r with sc; [exact P|]. unfold Rdiv at 2. rewrite (Rmult_assoc (d + 1)), Rinv_l by lra. unfold Rdiv in D |- *. lra. }
  unfold lnq in *. unfold Rdiv in *. rewrite !Rmult_plus_distr_r in *. lra.
Qed.

Fixpoint ln2_bounds (n : nat) (a lo hi : Z) : Z * Z :=
  match n with O => (lo, hi) | Datatypes.S n => ln2_bounds n (a + 1) (ln_lo lo a) (ln_hi hi a) end.
Lemma ln2_bounds_ok n : forall a lo hi, (0 < a)%Z -> IZR lo / sc <= lnq a <= IZR hi / sc ->
  IZR (fst (ln2_bounds n a lo hi)) / sc <= lnq (a + Z.of_nat n) <= IZR (snd (ln2_bounds n a lo hi)) / sc.
Proof.
  induction n as [|n IH]; intros a lo hi Ha H; cbn [ln2_bounds].
  - cbn [fst snd]. replace (a + Z.of_nat 0)%Z with a by lia. exact H.
  - replace (a + Z.of_nat (Datatypes.S n))%Z with (a + 1 + Z.of_nat n)%Z by lia. apply IH; [lia|]. split; [apply ln_lo_ok|apply ln_hi_ok]; tauto.
Qed.
Definition ln2L : Z := Eval vm_compute in fst (ln2_bounds (Z.to_nat 256) 256 0 0).
Definition ln2H : Z := Eval vm_compute in snd (ln2_bounds (Z.to_nat 256) 256 0 0).
Lemma ln2b_eq : ln2_bounds (Z.to_nat 256) 256 0 0 = (ln2L, ln2H).
Proof. vm_compute. reflexivity. Qed.
Lemma lnq_start : lnq 256 = 0. Proof. unfold lnq. ring. Qed.
Lemma ln2_steps n b : ln2_bounds n 256 0 0 = b -> Z.of_nat n = 256%Z -> IZR (fst b) / sc <= ln 2 <= IZR (snd b) / sc.
Proof.
  intros <- En.
  assert (E : lnq (256 + Z.of_nat n) = ln 2).
  { rewrite En. unfold lnq. replace (IZR (256 + 256)) with (2 * 256) by (change (256 + 256)%Z with 512%Z; lra). rewrite ln_mult by lra. ring. }
  pose proof (ln2_bounds_ok n 256 0 0 ltac:(lia)) as B. rewrite E, lnq_start in B. apply B. unfold Rdiv. rewrite Rmult_0_l. lra.
Qed.
Lemma ln2_ok : IZR ln2L / sc <= ln 2 <= IZR ln2H / sc.
Proof. exact (ln2_steps _ _ ln2b_eq (Z2Nat.id 256 ltac:(lia))). Qed.
Lemma ln2_low : 0.6931 <= ln 2.
Proof.
  eapply Rle_trans; [|apply ln2_ok]. apply Rmult_le_reg_r with sc; [apply sc_pos|]. pose proof sc_pos. unfold Rdiv. rewrite Rmult_assoc, Rinv_l by lra.
  rewrite sc_IZR. change (2 ^ 60)%Z with 1152921504606846976%Z. unfold ln2L. lra.
Qed.

(** Affine bounds from the two ends of an interval. *)
Lemma lin_le x y x' y' L s : 0 <= s <= L -> 0 < L -> x <= y -> x + x' * L <= y + y' * L -> x + x' * s <= y + y' * s.
Proof. intros Hs HL H1 H2. apply Rmult_le_reg_r with L; [exact HL|]. nra. Qed.

(** Chords of the logarithm and of the exponential. *)
Lemma ln_chord a b t : 0 < a -> 0 < b -> 0 <= t <= 1 -> (1 - t) * ln a + t * ln b <= ln ((1 - t) * a + t * b).
Proof.
  intros Ha Hb Ht. set (v := (1 - t) * a + t * b). assert (Hv : 0 < v) by (unfold v; nra).
  pose proof (ln_le_sub1 (a / v) ltac:(apply Rdiv_lt_0_compat; lra)) as A. rewrite ln_div in A by lra.
  pose proof (ln_le_sub1 (b / v) ltac:(apply Rdiv_lt_0_compat; lra)) as B. rewrite ln_div in B by lra.
  assert (E : (1 - t) * (a / v - 1) + t * (b / v - 1) = 0).
  { replace ((1 - t) * (a / v - 1) + t * (b / v - 1)) with (((1 - t) * a + t * b) / v - 1) by (field; lra). fold v. field. lra. }
  nra.
Qed.
Lemma ln_tangent a v : 0 < a -> 0 < v -> ln v <= ln a + (v - a) / a.
Proof.
  intros Ha Hv. pose proof (ln_le_sub1 (v / a) ltac:(apply Rdiv_lt_0_compat; lra)) as A. rewrite ln_div in A by lra.
  replace ((v - a) / a) with (v / a - 1) by (field; lra). lra.
Qed.
Lemma exp_chord a b t : 0 <= t <= 1 -> exp ((1 - t) * a + t * b) <= (1 - t) * exp a + t * exp b.
Proof.
  intros Ht. set (c := (1 - t) * a + t * b). pose proof (exp_pos c).
  assert (A : exp c * (1 + (a - c)) <= exp a). { replace a with (c + (a - c)) at 2 by ring. rewrite exp_plus. apply Rmult_le_compat_l; [lra|]. apply exp_ineq1_le. }
  assert (B : exp c * (1 + (b - c)) <= exp b). { replace b with (c + (b - c)) at 2 by ring. rewrite exp_plus. apply Rmult_le_compat_l; [lra|]. apply exp_ineq1_le. }
  assert (E : (1 - t) * (a - c) + t * (b - c) = 0) by (unfold c; ring).
  apply Rle_trans with ((1 - t) * (exp c * (1 + (a - c))) + t * (exp c * (1 + (b - c)))).
  - right. replace ((1 - t) * (exp c * (1 + (a - c))) + t * (exp c * (1 + (b - c)))) with (exp c * (1 + ((1 - t) * (a - c) + t * (b - c)))) by ring. rewrite E. ring.
  - apply Rplus_le_compat; apply Rmult_le_compat_l; lra.
Qed.
Lemma exp_tangent x h : 0 <= h -> Rpower 2 x * (1 + h * 0.6931) <= Rpower 2 (x + h).
Proof.
  intros Hh. rewrite Rpower_plus. apply Rmult_le_compat_l; [apply Rlt_le, Rpower2_pos|]. unfold Rpower. pose proof ln2_low.
  eapply Rle_trans; [|apply exp_ineq1_le]. nra.
Qed.

(** ** Powers of two, in blocks of 16 positions *)
Definition rL : Z := 1156047391917128406.
Definition rH : Z := 1156047391917130454.
Lemma rL_ok : IZR rL / sc <= Rpower 2 (/ 256).
Proof. replace (/ 256) with (/ 2 ^ 8) by lra. apply (root_lo_ok 8); [discriminate|vm_compute; reflexivity]. Qed.
Lemma rH_ok : Rpower 2 (/ 256) <= IZR rH / sc.
Proof. replace (/ 256) with (/ 2 ^ 8) by lra. apply (root_hi_ok 8); [discriminate|vm_compute; reflexivity]. Qed.

Fixpoint pow_loop (n : nat) (B lo hi : Z) : bool :=
  match n with
  | O => true
  | Datatypes.S n => let hi' := (hi * rH / 2 ^ 60 + 1)%Z in
    let U := (powY (B * 2 ^ 4) * 10000 * 2 ^ 40)%Z in let V := (slope pow2_m 10 4 B * 10000 * 2 ^ 40)%Z in
    ((U <=? 10023 * lo) && ((U + V * 16) * 40960000 <=? 10023 * lo * (40960000 + 16 * 6931)) &&
     (9977 * hi <=? U - V) && (9977 * hi' <=? U + V * 15) && pow_loop n (B + 1) (lo * rL / 2 ^ 60) hi')%Z%bool
  end.
Lemma pow_loop_all : pow_loop (Z.to_nat 256) 0 (2 ^ 60) (2 ^ 60) = true.
Proof. vm_compute. reflexivity. Qed.

Definition near_pow (U V B : Z) : Prop := forall s r, 0 <= s <= 15 -> (IZR B * 16 + s) / 4096 <= r <= (IZR B * 16 + s + 1) / 4096 ->
  Rabs ((IZR U + IZR V * s) * bpow2 (- 20) - Rpower 2 r) <= 0.0023 * Rpower 2 r.

Lemma pow_block U V B (lo hi hi' : Z) : (0 <= lo)%Z -> IZR lo / sc <= Rpower 2 (IZR B / 256) <= IZR hi / sc -> Rpower 2 (IZR (B + 1) / 256) <= IZR hi' / sc ->
  (U * 10000 * 2 ^ 40 <= 10023 * lo)%Z -> ((U * 10000 * 2 ^ 40 + V * 10000 * 2 ^ 40 * 16) * 40960000 <= 10023 * lo * (40960000 + 16 * 6931))%Z ->
  (9977 * hi <= U * 10000 * 2 ^ 40 - V * 10000 * 2 ^ 40)%Z -> (9977 * hi' <= U * 10000 * 2 ^ 40 + V * 10000 * 2 ^ 40 * 15)%Z -> near_pow U V B.
Proof.
  intros Hl [B1 B2] B3 C1 C2 C3 C4 s r Hs Hr.
  pose proof sc_pos as P. assert (PI : 0 < / sc) by (apply Rinv_0_lt_compat; exact P).
  apply (IZR_le 0) in Hl. set (g := Rpower 2 (IZR B / 256)) in *. set (g' := Rpower 2 (IZR (B + 1) / 256)) in *.
  apply IZR_le in C1, C2, C3, C4. repeat first [rewrite mult_IZR in C1|rewrite plus_IZR in C1|rewrite minus_IZR in C1]. repeat first [rewrite mult_IZR in C2|rewrite plus_IZR in C2|rewrite minus_IZR in C2]. repeat first [rewrite mult_IZR in C3|rewrite plus_IZR in C3|rewrite minus_IZR in C3]. repeat first [rewrite mult_IZR in C4|rewrite plus_IZR in C4|rewrite minus_IZR in C4]. 
  set (K := IZR (2 ^ 40)) in *. set (k := bpow2 (- 20)).
  assert (Ek : k = K / sc).
  { unfold k, K, sc. rewrite <- bpow2_IZR by lia. pose proof (bpow2_opp 60) as O6. change (- (60))%Z with (-60)%Z in O6. change (-20)%Z with (40 + -60)%Z. rewrite bpow2_add, O6. reflexivity. }
  set (u := IZR U) in *. set (v := IZR V) in *. clearbody u v K k.
  assert (c1 : u * k * 10000 <= 10023 * (IZR lo / sc)).
  { rewrite Ek. replace (u * (K / sc) * 10000) with (u * 10000 * K * / sc) by (field; lra). replace (10023 * (IZR lo / sc)) with (10023 * IZR lo * / sc) by (field; lra). apply Rmult_le_compat_r; lra. }
  assert (c2 : (u * k + v * k * 16) * 10000 * 40960000 <= 10023 * (IZR lo / sc) * (40960000 + 16 * 6931)).
  { rewrite Ek. replace ((u * (K / sc) + v * (K / sc) * 16) * 10000 * 40960000) with ((u * 10000 * K + v * 10000 * K * 16) * 40960000 * / sc) by (field; lra).
    replace (10023 * (IZR lo / sc) * (40960000 + 16 * 6931)) with (10023 * IZR lo * (40960000 + 16 * 6931) * / sc) by (field; lra). apply Rmult_le_compat_r; lra. }
  assert (c3 : 9977 * (IZR hi / sc) <= (u * k - v * k) * 10000).
  { rewrite Ek. replace ((u * (K / sc) - v * (K / sc)) * 10000) with ((u * 10000 * K - v * 10000 * K) * / sc) by (field; lra). replace (9977 * (IZR hi / sc)) with (9977 * IZR hi * / sc) by (field; lra). apply Rmult_le_compat_r; lra. }
  assert (c4 : 9977 * (IZR hi' / sc) <= (u * k + v * k * 15) * 10000).
  { rewrite Ek. replace ((u * (K / sc) + v * (K / sc) * 15) * 10000) with ((u * 10000 * K + v * 10000 * K * 15) * / sc) by (field; lra). replace (9977 * (IZR hi' / sc)) with (9977 * IZR hi' * / sc) by (field; lra). apply Rmult_le_compat_r; lra. }
  replace ((u + v * s) * k) with (u * k + v * k * s) by ring. set (x := u * k) in *. set (y := v * k) in *. clearbody x y.
  assert (L1 : g * (1 + s / 4096 * 0.6931) <= Rpower 2 r).
  { eapply Rle_trans; [apply exp_tangent; lra|]. apply Rpower2_le. lra. }
  assert (L2 : Rpower 2 r <= (1 - (s + 1) / 16) * g + (s + 1) / 16 * g').
  { eapply Rle_trans; [|unfold g, g', Rpower; apply exp_chord; lra].
    replace ((1 - (s + 1) / 16) * (IZR B / 256 * ln 2) + (s + 1) / 16 * (IZR (B + 1) / 256 * ln 2)) with ((IZR B * 16 + s + 1) / 4096 * ln 2) by (rewrite plus_IZR; field).
    apply Rpower2_le. lra. }
  assert (M1 : x + y * s <= 1.0023 * g + 1.0023 * g * 0.6931 / 4096 * s).
  { apply (lin_le _ _ _ _ 16); [lra|lra|lra|]. assert (10023 * (IZR lo / sc) * (40960000 + 16 * 6931) <= 10023 * g * (40960000 + 16 * 6931)) by nra. lra. }
  assert (M2 : 0.9977 * g + 0.9977 * (g' - g) / 16 * (s + 1) <= (x - y) + y * (s + 1)).
  { apply (lin_le _ _ _ _ 16); [lra|lra|lra|]. lra. }
  set (G := Rpower 2 r) in *. apply Rabs_le. split; lra.
Qed.

Lemma pow_loop_ok n : forall B lo hi, (0 <= lo)%Z -> (0 <= hi)%Z -> IZR lo / sc <= Rpower 2 (IZR B / 256) <= IZR hi / sc -> pow_loop n B lo hi = true ->
  forall j, (B <= j < B + Z.of_nat n)%Z -> near_pow (powY (j * 2 ^ 4)) (slope pow2_m 10 4 j) j.
Proof.
  pose proof sc_pos as P. assert (PI : 0 < / sc) by (apply Rinv_0_lt_compat; exact P).
  induction n as [|n IH]; intros T lo hi Hl Hh [B1 B2] C j Hj; [lia|].
  cbn [pow_loop] in C. set (hi' := (hi * rH / 2 ^ 60 + 1)%Z) in *. repeat (apply andb_prop in C as [C ?]).
  apply Z.leb_le in C, H0, H1, H2.
  assert (St : Rpower 2 (IZR (T + 1) / 256) = Rpower 2 (IZR T / 256) * Rpower 2 (/ 256)).
  { rewrite <- Rpower_plus. f_equal. rewrite plus_IZR. field. }
  pose proof rL_ok as RL. pose proof rH_ok as RH. pose proof (Rpower2_pos (IZR T / 256)) as PT. pose proof (Rpower2_pos (/ 256)) as PR.
  assert (Hl' : (0 <= lo * rL / 2 ^ 60)%Z) by (apply Z.div_pos; unfold rL; lia).
  assert (Hh' : (0 <= hi * rH / 2 ^ 60)%Z) by (apply Z.div_pos; unfold rH; lia).
  assert (L0 : 0 <= IZR lo / sc) by (apply Rmult_le_pos; [apply (IZR_le 0); exact Hl|lra]).
  assert (R0 : 0 <= IZR rL / sc) by (apply Rmult_le_pos; [apply (IZR_le 0); unfold rL; lia|lra]).
  assert (Bl : IZR (lo * rL / 2 ^ 60) / sc <= Rpower 2 (IZR (T + 1) / 256)).
  { rewrite St. pose proof (div_R (lo * rL) (2 ^ 60) ltac:(lia)) as [D _]. rewrite <- sc_IZR, mult_IZR in D.
    apply Rle_trans with (IZR lo / sc * (IZR rL / sc)).
    - replace (IZR lo / sc * (IZR rL / sc)) with (IZR lo * IZR rL / sc * / sc) by (field; lra). apply Rmult_le_compat_r; lra.
    - apply Rmult_le_compat; lra. }
  assert (Bh : Rpower 2 (IZR (T + 1) / 256) <= IZR hi' / sc).
  { rewrite St. pose proof (div_R (hi * rH) (2 ^ 60) ltac:(lia)) as [_ D]. rewrite <- sc_IZR, mult_IZR in D.
    apply Rle_trans with (IZR hi / sc * (IZR rH / sc)).
    - apply Rmult_le_compat; lra.
    - replace (IZR hi / sc * (IZR rH / sc)) with (IZR hi * IZR rH / sc * / sc) by (field; lra). apply Rmult_le_compat_r; [lra|]. unfold hi'. rewrite plus_IZR. lra. }
  destruct (Z.eq_dec j T) as [->|N].
  - apply (pow_block _ _ _ lo hi hi'); [exact Hl|split; assumption|exact Bh|exact C|exact H2|exact H1|exact H0].
  - apply (IH (T + 1)%Z (lo * rL / 2 ^ 60)%Z hi'); [assumption|unfold hi'; lia|split; assumption|assumption|lia].
Qed.

Definition close_pow (T : Z) : Prop := forall r, IZR T / 4096 <= r <= IZR (T + 1) / 4096 ->
  Rabs (IZR (powY T) * bpow2 (- 20) - Rpower 2 r) <= 0.0023 * Rpower 2 r.
Lemma pow_close T : (0 <= T < 4096)%Z -> close_pow T.
Proof.
  intros HT r Hr. pose proof (Z.div_mod T 16 ltac:(lia)) as DM. pose proof (Z.mod_pos_bound T 16 ltac:(lia)) as MB.
  destruct (pw_block pow2_m pow2_c 10 4 T ltac:(lia) ltac:(lia)) as (B & s & ET & Hs & EB & EY). change (2 ^ 4)%Z with 16%Z in *. rewrite <- EB in DM.
  assert (HB : (0 <= B < 256)%Z) by (rewrite EB; split; [apply Z.div_pos; lia|apply Z.div_lt_upper_bound; lia]).
  assert (Hs2 : (0 <= s <= 15)%Z) by lia.
  assert (near_pow (powY (B * 16)) (slope pow2_m 10 4 B) B) as Q.
  { apply (pow_loop_ok (Z.to_nat 256) 0 (2 ^ 60) (2 ^ 60)); [lia|lia| |exact pow_loop_all|lia].
    rewrite <- sc_IZR. pose proof sc_pos. replace (sc / sc) with 1 by (field; lra). replace (0 / 256) with 0 by lra. rewrite Rpower_O by lra. lra. }
  rewrite EY, plus_IZR, mult_IZR. apply Q.
  - split; [apply (IZR_le 0)|apply (IZR_le _ 15)]; lia.
  - rewrite ET in Hr. rewrite !plus_IZR, mult_IZR in Hr. exact Hr.
Qed.

Lemma parts_R F x : exists r, fxval x F = IZR (ipart F x) + r /\ IZR (fpart F x) / 4096 <= r < IZR (fpart F x + 1) / 4096.
Proof.
  unfold ipart, fpart, fxval. rewrite bpow2_split. replace (- - F)%Z with F by lia. pose proof (pw_pos F) as P.
  set (u := (x * pw (- F))%Z). set (p := pw F) in *. exists (IZR (u mod p) / IZR p).
  assert (PR : 0 < IZR p) by (apply (IZR_lt 0); exact P). split.
  - replace (IZR x * (IZR (pw (- F)) / IZR p)) with (IZR u / IZR p) by (unfold u; rewrite mult_IZR; field; lra).
    rewrite (Z.div_mod u p) at 1 by lia. rewrite plus_IZR, mult_IZR. field. lra.
  - pose proof (div_R (u mod p * 2 ^ 12) p P) as D. rewrite (mult_IZR (u mod p)) in D. change (IZR (2 ^ 12)) with 4096 in D. rewrite plus_IZR.
    replace (IZR (u mod p) * 4096 / IZR p) with (IZR (u mod p) / IZR p * 4096) in D by (field; lra). lra.
Qed.

Lemma pow2_real pQ W I S f x : (1 <= W)%Z -> (1 <= fW f)%Z -> fS f = false -> in_range S W x ->
  let X := fxval x (W - I) in - bpow2 31 <= X < bpow2 31 ->
  exists out V, pow2_pwl pQ W I S f x = Some out /\ convertsR f V out /\ Rabs (V - Rpower 2 X) <= 0.0023 * Rpower 2 X.
Proof.
  intros HW HfW HfS Hx X HX. destruct (parts_R (W - I) x) as (r & EX & Hr). fold X in EX.
  pose proof (fpart_range (W - I) x) as FR. set (q := ipart (W - I) x) in *. set (T := fpart (W - I) x) in *.
  assert (r01 : 0 <= r < 1).
  { destruct FR as [F1 F2]. apply (IZR_le 0) in F1. assert (T + 1 <= 4096)%Z as F3 by lia. apply IZR_le in F3. lra. }
  assert (Hq : (- 2 ^ 31 <= q < 2 ^ 31)%Z).
  { rewrite !bpow2_IZR in HX by lia. split.
    - assert (- 2 ^ 31 < q + 1)%Z; [|lia]. apply lt_IZR. rewrite plus_IZR, opp_IZR. lra.
    - apply lt_IZR. lra. }
  destruct (pow2_eval pQ W I S f x HW HfW HfS Hx Hq) as (out & E & C). fold q in C. fold T in C.
  exists out, (IZR (powY T) * bpow2 (q - 20)). split; [exact E|]. split; [apply converts2_R; exact C|].
  pose proof (pow_close T FR r ltac:(lra)) as Q. rewrite EX, Rpower_plus, bpow2_Rpower. replace (q - 20)%Z with (q + - 20)%Z by lia. rewrite bpow2_add.
  pose proof (bpow2_pos q). set (g := Rpower 2 r) in *. set (y := IZR (powY T)) in *.
  replace (y * (bpow2 q * bpow2 (- 20)) - bpow2 q * g) with (bpow2 q * (y * bpow2 (- 20) - g)) by ring.
  rewrite Rabs_mult, (Rabs_pos_eq (bpow2 q)) by lra. nra.
Qed.

(** ** The logarithm, in blocks of 64 positions *)
Fixpoint log_loop (n : nat) (B lo hi : Z) : bool :=
  match n with
  | O => true
  | Datatypes.S n => let A := (256 + B)%Z in let lo' := ln_lo lo A in let hi' := ln_hi hi A in
    let U := logY (B * 2 ^ 6) in let V := slope log2_m 11 6 B in let D := (10000 * 2 ^ 22)%Z in
    let p := ((U + 2 ^ 22) * 10000 - 15 * 2 ^ 22)%Z in let p' := (p + V * 64 * 10000)%Z in
    let q := ((U + 2 ^ 22) * 10000 + 15 * 2 ^ 22)%Z in let q' := (q + V * 64 * 10000)%Z in
    ((p * ln2L <=? lo * D) && (p * ln2H <=? lo * D) && (p' * ln2L <=? lo' * D) && (p' * ln2H <=? lo' * D) &&
     (0 <=? q) && (0 <=? q') && ((hi * (64 * A) + 2 ^ 60) * D <=? q * ln2L * (64 * A)) && ((hi * (64 * A) + 65 * 2 ^ 60) * D <=? q' * ln2L * (64 * A)) &&
     log_loop n (B + 1) lo' hi')%Z%bool
  end.
Lemma log_loop_all : log_loop (Z.to_nat 256) 0 0 0 = true.
Proof. vm_compute. reflexivity. Qed.

Lemma mul_between p l h L R c : l / c <= L <= h / c -> 0 < c -> p * l <= R -> p * h <= R -> p * L <= R / c.
Proof.
  intros [H1 H2] Hc A B. apply Rmult_le_reg_r with c; [exact Hc|]. unfold Rdiv at 1. rewrite (Rmult_assoc R), Rinv_l by lra. rewrite Rmult_1_r.
  assert (l <= L * c). { apply Rmult_le_reg_r with (/ c); [apply Rinv_0_lt_compat, Hc|]. rewrite Rmult_assoc, Rinv_r by lra. unfold Rdiv in H1. lra. }
  assert (L * c <= h). { apply Rmult_le_reg_r with (/ c); [apply Rinv_0_lt_compat, Hc|]. rewrite Rmult_assoc, Rinv_r by lra. unfold Rdiv in H2. lra. }
  rewrite Rmult_assoc. set (M := L * c) in *. destruct (Rle_dec 0 p) as [Hp|Hp]; nra.
Qed.
Lemma mul_above q l h L R c : l / c <= L <= h / c -> 0 < c -> 0 <= q -> R <= q * l -> R / c <= q * L.
Proof.
  intros [H1 _] Hc Hq A. apply Rle_trans with (q * (l / c)); [|apply Rmult_le_compat_l; assumption].
  unfold Rdiv. rewrite <- (Rmult_assoc q). apply Rmult_le_compat_r; [apply Rlt_le, Rinv_0_lt_compat, Hc|exact A].
Qed.

(** Positions are measured in units of 2^-14 of [1, 2): v / 2^14 is twice the normalised mantissa. *)
Definition near_log (U V B : Z) : Prop := forall s v, 0 <= s <= 63 -> (256 + IZR B) * 64 + s <= v <= (256 + IZR B) * 64 + s + 1 ->
  Rabs ((IZR U + IZR V * s) * bpow2 (- 22) - (ln (v / 16384) / ln 2 - 1)) <= 0.0015.

Lemma log_block U V B (lo hi : Z) : (0 <= B)%Z -> let A := (256 + B)%Z in let lo' := ln_lo lo A in
  let D := (10000 * 2 ^ 22)%Z in
  let p := ((U + 2 ^ 22) * 10000 - 15 * 2 ^ 22)%Z in let p' := (p + V * 64 * 10000)%Z in
  let q := ((U + 2 ^ 22) * 10000 + 15 * 2 ^ 22)%Z in let q' := (q + V * 64 * 10000)%Z in
  IZR lo / sc <= lnq A <= IZR hi / sc -> IZR lo' / sc <= lnq (A + 1) ->
  (p * ln2L <= lo * D)%Z -> (p * ln2H <= lo * D)%Z -> (p' * ln2L <= lo' * D)%Z -> (p' * ln2H <= lo' * D)%Z -> (0 <= q)%Z -> (0 <= q')%Z ->
  ((hi * (64 * A) + 2 ^ 60) * D <= q * ln2L * (64 * A))%Z -> ((hi * (64 * A) + 65 * 2 ^ 60) * D <= q' * ln2L * (64 * A))%Z -> near_log U V B.
Proof.
  intros HB A lo' D p p' q q' [B1 B2] B3 C1 C2 C3 C4 C5 C6 C7 C8 s v Hs Hv.
  pose proof sc_pos as P. pose proof ln2_ok as L2. pose proof ln_lt_2 as L0.
  assert (HA : 0 < IZR A) by (apply (IZR_lt 0); unfold A; lia).
  assert (EA : 256 + IZR B = IZR A) by (unfold A; rewrite plus_IZR; reflexivity). rewrite EA in Hv. clearbody A lo'.
  set (K := IZR (2 ^ 22)). assert (PK : 0 < K) by (apply (IZR_lt 0); lia).
  assert (EK : bpow2 (- 22) = / K) by (unfold K; rewrite <- bpow2_IZR by lia; exact (bpow2_opp 22)). rewrite EK.
  assert (ED : IZR D = 10000 * K) by (unfold D, K; rewrite mult_IZR; reflexivity).
  set (u := IZR U) in *. set (w := IZR V) in *.
  assert (Ep : IZR p = (u + K) * 10000 - 15 * K) by (unfold p, u, K; rewrite minus_IZR, !mult_IZR, plus_IZR; reflexivity).
  assert (Ep' : IZR p' = (u + K) * 10000 - 15 * K + w * 640000) by (unfold p'; rewrite plus_IZR, Ep, !mult_IZR; fold w; ring).
  assert (Eq : IZR q = (u + K) * 10000 + 15 * K) by (unfold q, u, K; rewrite plus_IZR, !mult_IZR, plus_IZR; reflexivity).
  assert (Eq' : IZR q' = (u + K) * 10000 + 15 * K + w * 640000) by (unfold q'; rewrite plus_IZR, Eq, !mult_IZR; fold w; ring).
  clearbody p p' q q' D K u w.
  apply IZR_le in C1, C2, C3, C4, C5, C6, C7, C8. rewrite !mult_IZR in *. rewrite !plus_IZR, !mult_IZR in *. rewrite <- sc_IZR in *.
  pose proof (mul_between _ _ _ _ _ _ L2 P C1 C2) as Q1. pose proof (mul_between _ _ _ _ _ _ L2 P C3 C4) as Q2.
  rewrite Ep, Ep', Eq, Eq', ED in *. set (a := IZR A) in *.
  assert (Q3 : (IZR hi / sc + / (64 * a)) * (10000 * K) <= ((u + K) * 10000 + 15 * K) * ln 2).
  { assert (X : (IZR hi + sc / (64 * a)) * (10000 * K) <= ((u + K) * 10000 + 15 * K) * IZR ln2L).
    { apply Rmult_le_reg_r with (64 * a); [lra|]. replace ((IZR hi + sc / (64 * a)) * (10000 * K) * (64 * a)) with ((IZR hi * (64 * a) + sc) * (10000 * K)) by (field; lra). exact C7. }
    pose proof (mul_above _ _ _ _ _ _ L2 P C5 X) as Y. replace ((IZR hi / sc + / (64 * a)) * (10000 * K)) with ((IZR hi + sc / (64 * a)) * (10000 * K) / sc) by (field; lra). exact Y. }
  assert (Q4 : (IZR hi / sc + 65 * / (64 * a)) * (10000 * K) <= ((u + K) * 10000 + 15 * K + w * 640000) * ln 2).
  { assert (X : (IZR hi + 65 * sc / (64 * a)) * (10000 * K) <= ((u + K) * 10000 + 15 * K + w * 640000) * IZR ln2L).
    { apply Rmult_le_reg_r with (64 * a); [lra|]. replace ((IZR hi + 65 * sc / (64 * a)) * (10000 * K) * (64 * a)) with ((IZR hi * (64 * a) + 65 * sc) * (10000 * K)) by (field; lra). exact C8. }
    pose proof (mul_above _ _ _ _ _ _ L2 P C6 X) as Y. replace ((IZR hi / sc + 65 * / (64 * a)) * (10000 * K)) with ((IZR hi + 65 * sc / (64 * a)) * (10000 * K) / sc) by (field; lra). exact Y. }
  replace (IZR lo * (10000 * K) / sc) with (IZR lo / sc * (10000 * K)) in Q1 by (field; lra).
  replace (IZR lo' * (10000 * K) / sc) with (IZR lo' / sc * (10000 * K)) in Q2 by (field; lra).
  set (l := ln (v / 16384)).
  assert (El : l = ln (v / 64) - ln 256).
  { unfold l. rewrite <- ln_div by lra. f_equal. field. }
  (* from below: the chord *)
  assert (G1 : (1 - s / 64) * lnq A + s / 64 * lnq (A + 1) <= l).
  { pose proof (ln_chord a (a + 1) (s / 64) HA ltac:(lra) ltac:(lra)) as Ch. rewrite El. unfold lnq. rewrite plus_IZR. fold a.
    assert (ln ((1 - s / 64) * a + s / 64 * (a + 1)) <= ln (v / 64)) by (apply ln_le; [nra|lra]). lra. }
  (* from above: the tangent *)
  assert (G2 : l <= lnq A + (s + 1) * / (64 * a)).
  { pose proof (ln_tangent a (v / 64) HA ltac:(lra)) as Tg. rewrite El. unfold lnq. fold a.
    assert ((v / 64 - a) / a <= (s + 1) * / (64 * a)).
    { apply Rmult_le_reg_r with (64 * a); [lra|]. replace ((s + 1) * / (64 * a) * (64 * a)) with (s + 1) by (field; lra). replace ((v / 64 - a) / a * (64 * a)) with (v - 64 * a) by (field; lra). lra. }
    lra. }
  assert (F1 : ((u + K) * 10000 - 15 * K) * ln 2 + w * 10000 * ln 2 * s <= l * (10000 * K)).
  { apply Rle_trans with (((1 - s / 64) * (IZR lo / sc) + s / 64 * (IZR lo' / sc)) * (10000 * K)).
    - replace (((1 - s / 64) * (IZR lo / sc) + s / 64 * (IZR lo' / sc)) * (10000 * K)) with (IZR lo / sc * (10000 * K) + (IZR lo' / sc - IZR lo / sc) * (10000 * K) / 64 * s) by (field; lra).
      apply (lin_le _ _ _ _ 64); [lra|lra|exact Q1|]. lra.
    - apply Rmult_le_compat_r; [lra|]. eapply Rle_trans; [|exact G1]. apply Rplus_le_compat; apply Rmult_le_compat_l; lra. }
  assert (F2 : l * (10000 * K) <= ((u + K) * 10000 + 15 * K) * ln 2 + w * 10000 * ln 2 * s).
  { apply Rle_trans with ((IZR hi / sc + (s + 1) * / (64 * a)) * (10000 * K)); [apply Rmult_le_compat_r; lra|].
    replace ((IZR hi / sc + (s + 1) * / (64 * a)) * (10000 * K)) with ((IZR hi / sc + / (64 * a)) * (10000 * K) + / (64 * a) * (10000 * K) * s) by ring.
    apply (lin_le _ _ _ _ 64); [lra|lra|exact Q3|]. lra. }
  set (g := l / ln 2). assert (Eg : l = g * ln 2) by (unfold g; field; lra). rewrite Eg in F1, F2.
  assert (V1 : (u + K) * 10000 - 15 * K + w * 10000 * s <= g * (10000 * K)) by (apply Rmult_le_reg_r with (ln 2); lra).
  assert (V2 : g * (10000 * K) <= (u + K) * 10000 + 15 * K + w * 10000 * s) by (apply Rmult_le_reg_r with (ln 2); lra).
  replace ((u + w * s) * / K - (g - 1)) with ((u + w * s + K - g * K) * / K) by (field; lra).
  rewrite Rabs_mult, (Rabs_pos_eq (/ K)) by (apply Rlt_le, Rinv_0_lt_compat, PK).
  apply Rmult_le_reg_r with K; [exact PK|]. rewrite Rmult_assoc, Rinv_l by lra. rewrite Rmult_1_r. apply Rabs_le. lra.
Qed.

Lemma log_loop_ok n : forall B lo hi, (0 <= B)%Z -> IZR lo / sc <= lnq (256 + B) <= IZR hi / sc -> log_loop n B lo hi = true ->
  forall j, (B <= j < B + Z.of_nat n)%Z -> near_log (logY (j * 2 ^ 6)) (slope log2_m 11 6 j) j.
Proof.
  induction n as [|n IH]; intros B lo hi HB [B1 B2] C j Hj; [lia|].
  cbn [log_loop] in C. repeat (apply andb_prop in C as [C ?]). apply Z.leb_le in C, H0, H1, H2, H3, H4, H5, H6.
  pose proof (ln_lo_ok lo (256 + B) ltac:(lia) B1) as Bl. pose proof (ln_hi_ok hi (256 + B) ltac:(lia) B2) as Bh.
  destruct (Z.eq_dec j B) as [->|N].
  - exact (log_block _ _ B lo hi HB (conj B1 B2) Bl C H6 H5 H4 H3 H2 H1 H0).
  - apply (IH (B + 1)%Z (ln_lo lo (256 + B)) (ln_hi hi (256 + B))); [lia| |assumption|lia].
    replace (256 + (B + 1))%Z with (256 + B + 1)%Z by lia. split; assumption.
Qed.

Definition close_log (T : Z) : Prop := forall v, IZR (2 ^ 14 + T) <= v <= IZR (2 ^ 14 + T + 1) ->
  Rabs (IZR (logY T) * bpow2 (- 22) - (ln (v / IZR (2 ^ 14)) / ln 2 - 1)) <= 0.0015.
Lemma log_close T : (0 <= T < 16384)%Z -> close_log T.
Proof.
  intros HT v Hv. pose proof (Z.div_mod T 64 ltac:(lia)) as DM. pose proof (Z.mod_pos_bound T 64 ltac:(lia)) as MB.
  destruct (pw_block log2_m log2_c 11 6 T ltac:(lia) ltac:(lia)) as (B & s & ET & Hs & EB & EY). change (2 ^ 6)%Z with 64%Z in *. rewrite <- EB in DM.
  assert (HB : (0 <= B < 256)%Z) by (rewrite EB; split; [apply Z.div_pos; lia|apply Z.div_lt_upper_bound; lia]).
  assert (Hs2 : (0 <= s <= 63)%Z) by lia.
  assert (near_log (logY (B * 64)) (slope log2_m 11 6 B) B) as Q.
  { apply (log_loop_ok (Z.to_nat 256) 0 0 0); [lia| |exact log_loop_all|lia]. rewrite Z.add_0_r, lnq_start. unfold Rdiv. rewrite Rmult_0_l. lra. }
  rewrite EY, plus_IZR, mult_IZR. change (2 ^ 14)%Z with 16384%Z in *. apply Q.
  - split; [apply (IZR_le 0)|apply (IZR_le _ 63)]; lia.
  - rewrite ET in Hv. rewrite !plus_IZR, mult_IZR in Hv. lra.
Qed.

Lemma ln_bpow2 e : ln (bpow2 e) = IZR e * ln 2.
Proof. rewrite <- bpow2_Rpower. unfold Rpower. apply ln_exp. Qed.

Lemma log2_real pQ W I XO f cn x : (1 <= W)%Z -> (1 <= fW f)%Z -> (0 < x < 2 ^ W)%Z -> cn = true \/ (2 ^ (W - 1) <= x)%Z ->
  let X := fxval x (W - I) in
  exists out V, log2_pwl pQ W I XO f cn x = Some out /\ convertsR f V out /\ Rabs (V - ln X / ln 2) <= 0.0015.
Proof.
  intros HW HfW Hx Hcn X. pose proof (log2_eval pQ W I XO f cn x HW Hx Hcn) as E.
  pose proof (normalize_u_ok W I XO x HW ltac:(lia)) as N. destruct (normalize W I false XO x) as [e n]. destruct N as (A & B & C).
  destruct (pos_bounds W 4 11 n HW ltac:(lia) ltac:(lia) C) as [[PB PE]|]; [|lia]. change (2 ^ (4 - 1 + 11))%Z with (2 ^ 14)%Z in *.
  set (T := pos W 4 11 n) in *. set (Y := logY T) in *.
  exists (conv f (Y + e * 2 ^ 22) 22), (IZR (Y + e * 2 ^ 22) * bpow2 (- 22)). split; [exact E|]. split.
  { apply converts2_R. eapply conv_eq_converts2; [exact HfW| |reflexivity]. lia. }
  assert (PW : 0 < IZR (2 ^ W)) by (apply (IZR_lt 0), pow2_pos; lia).
  set (v := 2 * IZR n / IZR (2 ^ W) * IZR (2 ^ 14)).
  assert (Hv : IZR (2 ^ 14 + T) <= v <= IZR (2 ^ 14 + T + 1)).
  { destruct PE as [P1 P2]. apply IZR_le in P1. apply IZR_lt in P2. rewrite !mult_IZR, minus_IZR, mult_IZR in P1, P2. rewrite plus_IZR in P2. rewrite !plus_IZR.
    unfold v. set (k := IZR (2 ^ 14)) in *. set (w := IZR (2 ^ W)) in *. split.
    - apply Rmult_le_reg_r with w; [exact PW|]. replace (2 * IZR n / w * k * w) with (2 * IZR n * k) by (field; lra). lra.
    - apply Rmult_le_reg_r with w; [exact PW|]. replace (2 * IZR n / w * k * w) with (2 * IZR n * k) by (field; lra). lra. }
  pose proof (log_close T PB v Hv) as Q. fold Y in Q.
  replace (v / IZR (2 ^ 14)) with (2 * IZR n / IZR (2 ^ W)) in Q by (unfold v; field; split; [lra|apply not_0_IZR; lia]).
  pose proof ln_lt_2 as L0. assert (Pn : 0 < IZR n) by (apply (IZR_lt 0); pose proof (pow2_pos (W - 1) ltac:(lia)); lia).
  assert (EX : X = 2 * IZR n / IZR (2 ^ W) * bpow2 (e - 1)).
  { unfold X, fxval. rewrite B, mult_IZR, <- !bpow2_IZR by lia. unfold Rdiv. rewrite <- (bpow2_opp W). rewrite <- bpow2_1 at 1.
    replace (- (W - I))%Z with (1 + (I - e) + - W + (e - 1))%Z by lia. rewrite !bpow2_add. ring. }
  assert (EL : ln X / ln 2 = ln (2 * IZR n / IZR (2 ^ W)) / ln 2 - 1 + IZR e).
  { rewrite EX, ln_mult, ln_bpow2, minus_IZR; [field; lra|apply Rdiv_lt_0_compat; lra|apply bpow2_pos]. }
  assert (EV : IZR (Y + e * 2 ^ 22) * bpow2 (- 22) = IZR Y * bpow2 (- 22) + IZR e).
  { rewrite plus_IZR, mult_IZR, <- bpow2_IZR by lia. rewrite Rmult_plus_distr_r. f_equal. rewrite Rmult_assoc, <- bpow2_add. change (22 + -22)%Z with 0%Z. rewrite bpow2_0. ring. }
  rewrite EL, EV. replace (IZR Y * bpow2 (- 22) + IZR e - (ln (2 * IZR n / IZR (2 ^ W)) / ln 2 - 1 + IZR e)) with (IZR Y * bpow2 (- 22) - (ln (2 * IZR n / IZR (2 ^ W)) / ln 2 - 1)) by ring.
  exact Q.
Qed.

Lemma pow2_increasing pQ W I S f x y a b : (1 <= W)%Z -> (1 <= fW f)%Z -> fS f = false -> (fO f = SAT \/ fO f = SAT_SYM) ->
  in_range S W x -> in_range S W y -> (x <= y)%Z -> - bpow2 31 <= fxval x (W - I) -> fxval y (W - I) < bpow2 31 ->
  pow2_pwl pQ W I S f x = Some a -> pow2_pwl pQ W I S f y = Some b -> (a <= b)%Z.
Proof.
  intros HW HfW HfS HO Hx Hy H B1 B2. apply pow2_mono with (f := f); try assumption.
  - destruct (parts_R (W - I) x) as (r & EX & Hr). pose proof (fpart_range (W - I) x) as FR.
    assert (r < 1). { assert (fpart (W - I) x + 1 <= 4096)%Z as F3 by lia. apply IZR_le in F3. lra. }
    rewrite bpow2_IZR in B1 by lia. assert (- 2 ^ 31 < ipart (W - I) x + 1)%Z; [|lia]. apply lt_IZR. rewrite plus_IZR, opp_IZR. lra.
  - destruct (parts_R (W - I) y) as (r & EX & Hr). pose proof (fpart_range (W - I) y) as [FR _]. apply (IZR_le 0) in FR.
    rewrite bpow2_IZR in B2 by lia. apply lt_IZR. lra.
Qed.
