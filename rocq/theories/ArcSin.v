(** Accuracy of the CORDIC arcsine.  The iterations look for the angle theta with sin theta = |t|; chi = pi/2 - theta is followed instead, as for the arccosine.
    What is new is that chi must not end near - acos |t|. *)
From Coq Require Import ZArith Reals Ratan Lia Lra Psatz List.
From Verif Require Import AcTypes AcFacts Spec SpecFacts SpecR SpecRFacts SoftFacts CholReal CholThm QrdThm CordicModel CordicNum CordicProofs Atan2Num ArcModel ArcNum ArcProofs ArcReal ArcThm.
Import ListNotations.
Local Open Scope R_scope.

Definition b0 (pf : Z) (st : Z * Z * Z * Z) : bool := let '(x, y, tn, th) := st in ((y <=? tn) && (0 <=? x)) || ((tn <? y) && (x <? 0)).
Lemma ang_mono i : ang (S i) <= ang i.
Proof. unfold ang. destruct (two_pow_pos i) as [A B]. apply Rmult_le_compat_l; [lra|]. apply Rlt_le, atan_increasing. cbn [pow]. rewrite Rinv_mult. lra. Qed.

(** The angles that the iterations can pass through near a quarter turn, as offsets from it in units of 2^-128.
    An offset of more than [nS i] at iteration i cannot come back. *)
Definition nS (i : nat) : Z := (41 * 2 ^ (123 - Z.of_nat i))%Z.
Fixpoint cand (i : nat) : list Z :=
  match i with
  | O => [] | S O => [] | S (S O) => [T 1; - T 1]%Z
  | S j => let s := nS (S j) in let c := cand j in let d := T j in filter (fun z => Z.abs z <=? s)%Z (map (fun z => z + d)%Z c ++ map (fun z => z - d)%Z c)
  end.
Definition cond (i : nat) (z : Z) : Prop := In z (cand i) \/ (nS i < Z.abs z)%Z.
Lemma cand_S j : (2 <= j)%nat -> cand (S j) = filter (fun z => Z.abs z <=? nS (S j))%Z (map (fun z => z + T j)%Z (cand j) ++ map (fun z => z - T j)%Z (cand j)).
Proof. intros H. destruct j as [|[|j]]; [lia|lia|reflexivity]. Qed.
Lemma cond_2 (sel : bool) z : z = (if sel then T 1 else - T 1)%Z -> cond 2 z.
Proof. intros ->. left. cbn [cand]. destruct sel; [left; reflexivity|right; left; reflexivity]. Qed.
Lemma nS_ok : forallb (fun i => T i + nS (S i) <=? nS i)%Z (seq 2 66) = true.
Proof. vm_compute. reflexivity. Qed.
Lemma cond_step i z (sel : bool) : (2 <= i <= 66)%nat -> cond i z -> cond (S i) (if sel then z + T i else z - T i)%Z.
Proof.
  intros Hi H. pose proof nS_ok as C. rewrite forallb_forall in C. specialize (C i ltac:(apply in_seq; lia)). apply Z.leb_le in C. pose proof (arc_tab_range i) as [T0 _]. fold (T i) in T0. set (z' := if sel then (z + T i)%Z else (z - T i)%Z). destruct (Z_le_gt_dec (Z.abs z') (nS (S i))) as [L|L]; [|right; lia]. destruct H as [H|H].
  - left. rewrite cand_S by lia. apply filter_In. split; [|apply Z.leb_le, L]. apply in_or_app. unfold z'. destruct sel; [left|right]; apply in_map_iff; exists z; split; auto.
  - exfalso. unfold z' in L. destruct sel; lia.
Qed.
Definition thr (F : Z) : Z := (315 * (2 * F + 2) * 2 ^ (128 - 2 * F) + 200 * (2 * F + 2) * 2 ^ 28)%Z.
Definition far_check (i : nat) : bool := let c := cand i in forallb (fun k => (Nat.ltb (k + 1) i) || ((thr (Z.of_nat k) <? 314 * nS i) && forallb (fun z => thr (Z.of_nat k) <? 314 * Z.abs z) c))%Z (seq 11 54).
Lemma far_checks : forallb far_check (seq 2 64) = true.
Proof. vm_compute. reflexivity. Qed.
Lemma cond_far F i z : (11 <= F <= 64)%Z -> (2 <= i <= Z.to_nat F + 1)%nat -> cond i z -> (315 * (pf F + 2) * 2 ^ (128 - pf F) + 200 * (pf F + 2) * 2 ^ 28 < 314 * Z.abs z)%Z.
Proof.
  intros HF Hi H. pose proof far_checks as C. rewrite forallb_forall in C. specialize (C i ltac:(apply in_seq; lia)). unfold far_check in C. cbv zeta in C. rewrite forallb_forall in C. specialize (C (Z.to_nat F) ltac:(apply in_seq; lia)). assert (LT : Nat.ltb (Z.to_nat F + 1) i = false) by (apply Nat.ltb_ge; lia). rewrite LT in C. cbn [orb] in C.
  rewrite Z2Nat.id in C by lia. apply andb_prop in C. destruct C as [C1 C2]. apply Z.ltb_lt in C1. change (thr F < 314 * Z.abs z)%Z. destruct H as [H|H]; [|lia]. rewrite forallb_forall in C2. specialize (C2 z H). apply Z.ltb_lt, C2.
Qed.

Section Sin.
Variables (F AF t : Z).
Hypothesis HF : (3 <= F <= 64)%Z.
Hypothesis Hta : ta AF t <= 1.
Let HF2 : (2 <= F <= 64)%Z. Proof. lia. Qed.
Let p := pf F.
Let tt := ta AF t.
Let t1 := t0 F AF t.
Let phi := acos tt.
Let Hp : (4 <= p <= 128)%Z. Proof. unfold p, pf. lia. Qed.

(** One iteration, in terms of chi. *)
Lemma sin_rot i st th m (sel : bool) : (1 <= i < N p)%nat -> base p t1 i st th m -> let chi := PI / 2 - th in let sg := if sel then -1 else 1 in
  -102 / 100 <= chi + sg * ang i <= 303 / 100 ->
  base p t1 (S i) (arc_rot p 1 sel i st) (PI / 2 - (chi + sg * ang i)) (if sel then m + T i else m - T i)%Z.
Proof.
  intros Hi HB chi sg HC. pose proof (t0_range F AF t HF2 Hta) as T0. fold t1 in T0. pose proof (arc_step p 1 Hp ltac:(lia) t1 i st th m sel Hi T0 HB) as S. cbv zeta in S.
  assert (ET : th + (if sel then 1 else -1) * ang i = PI / 2 - (chi + sg * ang i)) by (unfold chi, sg; destruct sel; ring). rewrite ET in S. apply S. pose proof PI_lo. pose proof PI_hi.
  pose proof (N_small F i ltac:(fold p; lia)) as IN. fold p in IN. change (1 - 1)%Z with 0%Z. rewrite bpow2_0. assert (HH : (IZR p + 2) * h p <= 1 / 8).
  { unfold h. rewrite bpow2_opp, (bpow2_IZR p) by lia. assert (ZP : (8 * (p + 2) <= 2 ^ p)%Z). { assert (P6 : (6 <= p)%Z) by (unfold p, pf; lia).  replace p with ((p - 6) + 6)%Z at 2 by lia. rewrite Z.pow_add_r by (unfold p, pf; lia). change (2 ^ 6)%Z with 64%Z. pose proof (Z.pow_gt_lin_r 2 (p - 6) ltac:(lia) ltac:(unfold p, pf; lia)). lia. }
    apply IZR_le in ZP. rewrite mult_IZR, plus_IZR in ZP. assert (B : 0 < IZR (2 ^ p)) by (apply IZR_lt; apply Z.pow_pos_nonneg; lia). apply (Rmult_le_reg_r (IZR (2 ^ p))); [exact B|]. rewrite Rmult_assoc, Rinv_l by lra. lra. }
  pose proof (h_pos p) as HP0. assert (INR i * h p <= (IZR p + 1) * h p) by (apply Rmult_le_compat_r; lra). apply Rabs_le. lra.
Qed.

(** What the comparisons tell. *)
Lemma sin_cmp i x y tn a th m : (1 <= i < N p)%nat -> base p t1 i (x, y, tn, a) th m -> let chi := PI / 2 - th in
  ((y <= tn)%Z -> cos chi <= tt + eps p i) /\ ((tn < y)%Z -> tt - eps p i <= cos chi) /\ ((0 <= x)%Z -> - (9 / 10 * INR (i - 1) * q p) <= sin chi) /\ ((x < 0)%Z -> sin chi <= 9 / 10 * INR (i - 1) * q p).
Proof.
  intros Hi HB chi. destruct (start_ok F AF t HF2 Hta) as (_ & Htt & _). fold p tt t1 in Htt. destruct (vec_near p t1 i x y tn a th m HB) as [VX VY]. unfold chi. rewrite cos_shift, sin_shift. refine (conj _ (conj _ (conj _ _))); intros L.
  - apply (lo_cmp p tt t1 i x y tn a th m Htt HB y (sin th) VY L).
  - apply (hi_cmp p tt t1 i x y tn a th m Htt HB y (sin th) VY ltac:(lia)).
  - apply (pos_cmp p i x (cos th) VX L).
  - apply (neg_cmp p i Hi x (cos th) VX L).
Qed.
Lemma first_x x y tn a th m : base p t1 1 (x, y, tn, a) th m -> th = PI / 2 -> x = 0%Z /\ fxval y (F2 p) = 2 /\ fxval tn (F2 p) = 2 * t1.
Proof.
  intros HB ->. destruct (vec_near p t1 1 x y tn a (PI / 2) m HB) as [VX VY]. destruct HB as (_ & HN & _). unfold E, Et, G in *. change (INR (1 - 1)) with 0 in *. rewrite gain_1, cos_PI2, sin_PI2 in *. refine (conj _ (conj _ _)); [|lra|lra].
  assert (E0 : fxval x (F2 p) = 0) by lra. apply Z.le_antisymm; apply (fxval_le _ _ (F2 p)); rewrite fxval_0; lra.
Qed.
Lemma sin_first : base p t1 1 (arc_rot p 1 true 0 (arc_start p AF (Z.abs t))) (PI / 2) (2 ^ 127).
Proof. destruct (start_ok F AF t HF2 Hta) as (A & B & E). fold p in E. rewrite E. apply arc_first; [exact Hp|lia|exact A]. Qed.
Lemma sin_first_sel : asin_sel p (arc_start p AF (Z.abs t)) = true.
Proof.
  destruct (start_ok F AF t HF2 Hta) as ((A & B) & _ & E). fold p in E. rewrite E. unfold asin_sel. assert (L1 : (0 <=? a0 F AF t)%Z = true) by (apply Z.leb_le; lia). assert (L2 : (0 <=? 2 ^ F2 p)%Z = true) by (apply Z.leb_le, Z.pow_nonneg; lia). rewrite L1, L2. cbn [andb orb].
  assert (L3 : (0 <=? 2 ^ (p - 1))%Z = true) by (apply Z.leb_le, Z.pow_nonneg; lia). rewrite L3. destruct (20 <? p)%Z; reflexivity.
Qed.
Lemma phi_ok : 0 <= phi <= PI / 2. Proof. apply phi_range. split; [apply Rabs_pos|exact Hta]. Qed.

Lemma em_3 : em F <= 88 / 2560 /\ D F <= 28 / 100.
Proof.
  assert (A : em F <= 88 / 2560).
  { unfold em. fold p. assert (P6 : (6 <= p)%Z) by (unfold p, pf; lia). assert (E : bpow2 (p + 2) * q p = 1) by (unfold q, F2; rewrite <- bpow2_add, Z.add_opp_diag_r; reflexivity).
    assert (B : 256 * (13 * IZR p + 10) <= 88 * bpow2 (p + 2)). { rewrite (bpow2_IZR (p + 2)) by lia. assert (BZ : (256 * (13 * p + 10) <= 88 * 2 ^ (p + 2))%Z). { replace (p + 2)%Z with ((p - 6) + 8)%Z by lia. rewrite Z.pow_add_r by lia. change (2 ^ 8)%Z with 256%Z. pose proof (Z.pow_gt_lin_r 2 (p - 6) ltac:(lia) ltac:(lia)). lia. } apply IZR_le in BZ. rewrite !mult_IZR, plus_IZR, mult_IZR in BZ. lra. }
    pose proof (q_pos p) as Q. set (b := bpow2 (p + 2)) in *. assert (256 * (13 * IZR p + 10) * q p <= 88 * b * q p) by (apply Rmult_le_compat_r; lra). replace (88 * b * q p) with (88 * (b * q p)) in * by ring. rewrite E in *. lra. }
  split; [exact A|]. apply sq_le; [lra|]. rewrite (D_sq F HF2). lra.
Qed.

(** *** Up to ten fraction bits: theta is not compared. *)
Section Small.
Hypothesis Hs : (F <= 10)%Z.
Fixpoint cch (i : nat) : R := match i with O => 0 | S O => 0 | S (S O) => ang 1 | S j => cch j - ang j end.
Lemma cch_S i : (2 <= i)%nat -> cch (S i) = cch i - ang i.
Proof. intros H. destruct i as [|[|i]]; [lia|lia|reflexivity]. Qed.
Definition D6 : R := sqrt (75 / 10 * q p / (49 / 100)).
Definition Kc (i : nat) (chi : R) : Prop :=
  (phi = 0 /\ Rabs chi <= 102 / 100) \/ (i = 1%nat /\ chi = 0) \/
  ((2 <= i <= 6)%nat /\ (chi = cch i \/ cch i + 2 * ang (i - 1) <= chi)) \/
  ((7 <= i)%nat /\ 4 * / 2 ^ i <= chi) \/
  ((7 <= i)%nat /\ - (1 / 16 - 4 * / 2 ^ i) <= chi /\ ((6 <= F)%Z -> phi <= cch 6 + D6)).
Lemma cch_num : 13 / 10000 <= cch 6 <= 132 / 100000 /\ 312 / 10000 <= ang 6 /\ 624 / 10000 <= ang 5.
Proof.
  pose proof (ang_near 1 ltac:(lia)) as A1. pose proof (ang_near 2 ltac:(lia)) as A2. pose proof (ang_near 3 ltac:(lia)) as A3. pose proof (ang_near 4 ltac:(lia)) as A4. pose proof (ang_near 5 ltac:(lia)) as A5. pose proof (ang_near 6 ltac:(lia)) as A6.
  apply Rabs_le_both in A1, A2, A3, A4, A5, A6. pose proof PI_lo as PL. pose proof PI_hi as PH.
  assert (TN : bpow2 (- (100)) <= / 10000000) by (replace (/ 10000000) with (/ IZR 10000000) by reflexivity; rewrite bpow2_opp; apply Rinv_le_contravar; [lra|rewrite (bpow2_IZR 100) by lia; apply IZR_le; discriminate]).
  assert (Z1 : 417 / 1000000 <= fxval (T 1 - T 2 - T 3 - T 4 - T 5) 128 <= 418 / 1000000). { unfold fxval. rewrite bpow2_opp, (bpow2_IZR 128) by lia. assert (C1 : (417 * 2 ^ 128 <= 1000000 * (T 1 - T 2 - T 3 - T 4 - T 5) <= 418 * 2 ^ 128)%Z) by (split; vm_compute; discriminate). destruct C1 as [C1 C2]. apply IZR_le in C1, C2. rewrite !mult_IZR in C1, C2. assert (B : 0 < IZR (2 ^ 128)) by (apply IZR_lt; reflexivity). split; apply (Rmult_le_reg_r (IZR (2 ^ 128)) _ _ B); rewrite Rmult_assoc, Rinv_l by lra; lra. }
  assert (Z6 : 9946 / 1000000 <= fxval (T 6) 128). { unfold fxval. rewrite bpow2_opp, (bpow2_IZR 128) by lia. assert (C1 : (9946 * 2 ^ 128 <= 1000000 * T 6)%Z) by (vm_compute; discriminate). apply IZR_le in C1. rewrite !mult_IZR in C1. assert (B : 0 < IZR (2 ^ 128)) by (apply IZR_lt; reflexivity). apply (Rmult_le_reg_r (IZR (2 ^ 128)) _ _ B); rewrite Rmult_assoc, Rinv_l by lra; lra. }
  assert (Z5 : 19887 / 1000000 <= fxval (T 5) 128). { unfold fxval. rewrite bpow2_opp, (bpow2_IZR 128) by lia. assert (C1 : (19887 * 2 ^ 128 <= 1000000 * T 5)%Z) by (vm_compute; discriminate). apply IZR_le in C1. rewrite !mult_IZR in C1. assert (B : 0 < IZR (2 ^ 128)) by (apply IZR_lt; reflexivity). apply (Rmult_le_reg_r (IZR (2 ^ 128)) _ _ B); rewrite Rmult_assoc, Rinv_l by lra; lra. }
  unfold Z.sub in Z1. rewrite !fxval_add, !fxval_opp in Z1. unfold T in *. set (v1 := fxval (nth 1 arc_tab 0%Z) 128) in *. set (v2 := fxval (nth 2 arc_tab 0%Z) 128) in *. set (v3 := fxval (nth 3 arc_tab 0%Z) 128) in *. set (v4 := fxval (nth 4 arc_tab 0%Z) 128) in *. set (v5 := fxval (nth 5 arc_tab 0%Z) 128) in *. set (v6 := fxval (nth 6 arc_tab 0%Z) 128) in *.
  set (c := v1 + - v2 + - v3 + - v4 + - v5) in *. assert (C : PI * c = PI * v1 - PI * v2 - PI * v3 - PI * v4 - PI * v5) by (unfold c; ring). assert (314 / 100 * (417 / 1000000) <= PI * c <= 315 / 100 * (418 / 1000000)) by (split; apply Rmult_le_compat; lra).
  assert (314 / 100 * (9946 / 1000000) <= PI * v6) by (apply Rmult_le_compat; lra). assert (314 / 100 * (19887 / 1000000) <= PI * v5) by (apply Rmult_le_compat; lra). cbn [cch]. lra.
Qed.
Lemma cch_pos i : (2 <= i <= 6)%nat -> 0 <= cch i.
Proof.
  intros H. destruct cch_num as [C _]. pose proof (ang_pos 2). pose proof (ang_pos 3). pose proof (ang_pos 4). pose proof (ang_pos 5). assert (K : (i = 2 \/ i = 3 \/ i = 4 \/ i = 5 \/ i = 6)%nat) by lia. cbn [cch] in C. destruct K as [->|[->|[->|[->| ->]]]]; cbn [cch]; lra.
Qed.
Lemma Kc_lo i chi : Kc i chi -> -102 / 100 <= chi.
Proof.
  intros [[_ H]|[[_ ->]|[[Hi [-> |H]]|[[_ H]|[_ [H _]]]]]].
  - apply Rabs_le_both in H. lra.
  - lra.
  - pose proof (cch_pos i Hi). lra.
  - pose proof (cch_pos i Hi). pose proof (ang_pos (i - 1)). lra.
  - pose proof (two_pow_pos i). lra.
  - pose proof (two_pow_pos i). lra.
Qed.
Definition inv_s (i : nat) (st : Z * Z * Z * Z) : Prop :=
  exists th m, base p t1 i st th m /\ Rabs (Rabs (PI / 2 - th) - phi) <= D F + 21 / 10 * em F * INR (i - 1) + Rm (N p) i /\ Rabs (PI / 2 - th) <= 303 / 100 /\ (i = 1%nat -> th = PI / 2) /\ Kc i (PI / 2 - th).
Lemma inv_s_1 : inv_s 1 (arc_rot p 1 true 0 (arc_start p AF (Z.abs t))).
Proof.
  exists (PI / 2), (2 ^ 127)%Z. split; [apply sin_first|]. replace (PI / 2 - PI / 2) with 0 by ring. rewrite Rabs_R0. pose proof phi_ok as PH. pose proof (Rm_1 (N p) ltac:(unfold N; lia)). pose proof (D_range F HF2). change (INR (1 - 1)) with 0.
  refine (conj _ (conj _ (conj (fun _ => eq_refl) _))); [apply Rabs_le; lra|lra|right; left; split; reflexivity].
Qed.
Lemma asin_sel_s st : asin_sel p st = b0 p st.
Proof. destruct st as [[[x y] tn] a]. unfold asin_sel, b0. destruct (Z.ltb_spec 20 p) as [L|L]; [unfold p, pf in L; lia|reflexivity]. Qed.
Lemma D6_ok : 0 <= D6 <= 9 / 20 /\ 75 / 10 * q p <= 49 / 100 * (D6 * D6).
Proof.
  pose proof (q_pos p) as Q. assert (QS : q p <= 1 / 256). { replace (1 / 256) with (bpow2 (- (8))) by (rewrite bpow2_opp, (bpow2_IZR 8) by lia; change (2 ^ 8)%Z with 256%Z; lra). apply bpow2_le. unfold F2, p, pf. lia. }
  assert (SQ : D6 * D6 = 75 / 10 * q p / (49 / 100)) by (apply sqrt_sqrt; lra). split; [|lra]. assert (0 <= D6) by apply sqrt_pos. split; [assumption|]. apply sq_le; lra.
Qed.
Lemma small_step i st : (1 <= i < N p)%nat -> inv_s i st -> inv_s (S i) (arc_rot p 1 (asin_sel p st) i st).
Proof.
  intros Hi (th & m & HB & HI & HR & H1 & HK). rewrite asin_sel_s. pose proof (D_range F HF2) as DR. pose proof (em_range F HF2) as ER. pose proof (em_D F HF2) as ED. pose proof (eps_em F i Hi) as EE. fold p in EE. pose proof phi_ok as PH.
  destruct st as [[[x y] tn] a]. destruct (sin_cmp i x y tn a th m Hi HB) as (Q1 & Q2 & Q3 & Q4). pose proof (eps_ge p tt t1 i (proj1 (proj2 (start_ok F AF t HF2 Hta)))) as EG. set (chi := PI / 2 - th) in *.
  set (cge := (tn <? y)%Z). set (sge := (0 <=? x)%Z). set (sel := b0 p (x, y, tn, a)). set (sg := if sel then -1 else 1).
  assert (SEL : sg = if Bool.eqb cge sge then 1 else -1). { unfold sg, sel, b0, cge, sge. rewrite (Z.leb_antisym tn y), (Z.ltb_antisym 0 x). destruct (tn <? y)%Z, (0 <=? x)%Z; reflexivity. }
  assert (C1 : if cge then tt - em F <= cos chi else cos chi <= tt + em F). { unfold cge. destruct (Z.ltb_spec tn y) as [L|L]; [specialize (Q2 L)|specialize (Q1 L)]; lra. }
  assert (C2 : if sge then - em F <= sin chi else sin chi <= em F). { unfold sge. destruct (Z.leb_spec 0 x) as [L|L]; [specialize (Q3 L)|specialize (Q4 L)]; lra. }
  destruct (ang_pos i) as [A0 A1]. pose proof (ang_1 i ltac:(lia)) as A2.
  destruct (chi_step tt (D F) (em F) chi (conj (Rabs_pos _) Hta) DR (conj (proj1 ER) ED) HR cge sge sg (ang i) (21 / 10 * em F * INR (i - 1)) (Rm (N p) (S i))) as [K1 K2]; [lra|exact C1|exact C2|exact SEL|exact A0|apply Rm_ang; lia|exact A2|apply Rmult_le_pos; [lra|apply pos_INR]|fold phi; rewrite (Rm_S (N p) i) in HI by lia; lra|]. fold phi in K1.
  assert (KC : Kc (S i) (chi + sg * ang i)).
  { assert (AS : - ang i <= sg * ang i <= ang i) by (unfold sg; destruct sel; lra). destruct HK as [[E0 HK]|[[E1 HK]|[[E2 HK]|[[E3 HK]|[E4 [HK HP]]]]]].
    - (* the argument is 1 *) left. split; [exact E0|]. destruct (Nat.eq_dec i 1) as [->|].
      + specialize (H1 eq_refl). unfold chi. rewrite H1. replace (PI / 2 - PI / 2 + sg * ang 1) with (sg * ang 1) by ring. apply Rabs_le. lra.
      + assert (ang i <= 1 / 2). { destruct i as [|[|j]]; [lia|lia|]. cbn [pow] in A1. rewrite !Rinv_mult in A1. pose proof (two_pow_pos j) as TP. set (w := / 2 ^ j) in *. clear - A1 TP. lra. }
        apply (chi_bound tt (D F) (em F) chi (conj (Rabs_pos _) Hta) DR (conj (proj1 ER) ED) HR cge sge sg (ang i)); [lra|exact C1|exact C2|exact SEL|exact A0|exact HK|]. fold phi. pose proof em_3. lra.
    - (* the second iteration *) subst i. specialize (H1 eq_refl). destruct (first_x x y tn a th m HB H1) as (X0 & Y2 & TN). rewrite HK, Rplus_0_l. pose proof (t0_range F AF t HF2 Hta) as T0. fold t1 in T0. destruct (start_ok F AF t HF2 Hta) as (_ & (L1 & _) & _). fold t1 tt in L1. change (ta AF t) with tt in Hta.
      unfold sg, sel, b0. subst x. change (0 <=? 0)%Z with true. change (0 <? 0)%Z with false. rewrite andb_true_r, andb_false_r, orb_false_r. destruct (Z.leb_spec y tn) as [L|L].
      + left. split; [|apply Rabs_le; lra]. apply fxval_le with (F := F2 p) in L. unfold phi. replace tt with 1 by lra. apply Ratan.acos_1.
      + right. right. left. split; [lia|]. left. cbn [cch]. ring.
    - destruct (Nat.eq_dec i 6) as [->|NE].
      + destruct cch_num as (N1 & N2 & N3). right. right. right. assert (P7 : / 2 ^ 7 = 1 / 128) by (cbn [pow]; lra). assert (P6 : / 2 ^ 6 = 1 / 64) by (cbn [pow]; lra). rewrite P7. rewrite P6 in A1. destruct HK as [HK|HK].
        * destruct sel eqn:ES; unfold sg.
          -- right. split; [lia|]. split; [lra|]. intros H6. assert (QS : q p <= 1 / 16384). { replace (1 / 16384) with (bpow2 (- (14))) by (rewrite bpow2_opp, (bpow2_IZR 14) by lia; change (2 ^ 14)%Z with 16384%Z; lra). apply bpow2_le. unfold F2, p, pf. lia. }
             change (INR (6 - 1)) with (1 + 1 + 1 + 1 + 1) in *. unfold eps in Q1. change (INR (6 - 1)) with (1 + 1 + 1 + 1 + 1) in Q1. assert (XP : (0 <= x)%Z). { apply Z.nlt_ge. intros L. specialize (Q4 L). rewrite HK in Q4. pose proof PI_lo. pose proof (sin_cub (cch 6) ltac:(lra)) as SC. assert (cch 6 * cch 6 * cch 6 <= 132 / 100000 * (132 / 100000) * (132 / 100000)) by (apply Rmult_le_compat; [apply Rmult_le_pos; lra|lra|apply Rmult_le_compat; lra|lra]). lra. }
             assert (YT : (y <= tn)%Z). { unfold sel, b0 in ES. assert (LX : (x <? 0)%Z = false) by (apply Z.ltb_ge; exact XP). rewrite LX, andb_false_r, orb_false_r in ES. apply andb_prop in ES. destruct ES as [ES _]. apply Z.leb_le, ES. }
             specialize (Q1 YT). destruct D6_ok as [D61 D62]. pose proof (q_pos p). pose proof (chi_ge tt D6 (75 / 10 * q p) chi (conj (Rabs_pos _) Hta) D61 ltac:(split; lra)) as CG. fold phi in CG. rewrite HK in CG. rewrite (Rabs_pos_eq (cch 6)) in CG by lra. rewrite HK in Q1. assert (phi - D6 <= cch 6) by (apply CG; lra). lra.
          -- left. split; [lia|]. lra.
        * left. split; [lia|]. change (6 - 1)%nat with 5%nat in HK. lra.
      + right. right. left. split; [lia|]. replace (S i - 1)%nat with i by lia. rewrite (cch_S i) by lia. destruct HK as [HK|HK].
        * rewrite HK. unfold sg. destruct sel; [left; ring|right; lra].
        * right. pose proof (ang_mono (i - 1)) as AM. replace (S (i - 1)) with i in AM by lia. lra.
    - right. right. right. left. split; [lia|]. cbn [pow]. rewrite Rinv_mult. lra.
    - right. right. right. right. split; [lia|]. split; [|exact HP]. cbn [pow]. rewrite Rinv_mult. lra. }
  exists (PI / 2 - (chi + sg * ang i)), (if sel then m + T i else m - T i)%Z. split; [|replace (PI / 2 - (PI / 2 - (chi + sg * ang i))) with (chi + sg * ang i) by ring; split; [|split; [exact K2|split; [lia|exact KC]]]].
  - apply sin_rot; [exact Hi|exact HB|]. fold chi sg. split; [apply (Kc_lo _ _ KC)|apply Rabs_le_both in K2; lra].
  - replace (INR (S i - 1)) with (INR (i - 1) + 1) by (rewrite <- S_INR; f_equal; lia). lra.
Qed.
Lemma small_loop : inv_s (N p) (asin_loop p AF (Z.abs t)).
Proof.
  unfold asin_loop. change (Z.to_nat (p + 2)) with (N p). apply (fold_seq inv_s); [unfold N; lia| |intros i st Hi H; apply small_step; assumption]. rewrite sin_first_sel. apply inv_s_1.
Qed.
End Small.

(** *** From eleven fraction bits on: theta is also compared with a quarter turn. *)
Section Large.
Hypothesis Hl : (11 <= F)%Z.
Definition eta : R := 315 / 100 * (IZR p + 2) * h p + (IZR p + 2) * bpow2 (- (100)).
Definition D' : R := D F + 105 / 100 * em F + 2 * eta.
Definition I0 : nat := Z.to_nat (F + 2).
Definition Bnd (i : nat) : R := if Nat.leb i I0 then D' + Rm (N p) i else D' + Rm (N p) I0 + asum I0 (i - I0).
Definition inv_l (i : nat) (st : Z * Z * Z * Z) : Prop :=
  exists th m, base p t1 i st th m /\ Rabs (PI / 2 - th - phi) <= Bnd i /\ -102 / 100 <= PI / 2 - th <= 303 / 100 /\ (i = 1%nat -> th = PI / 2 /\ m = (2 ^ 127)%Z) /\ ((2 <= i <= I0)%nat -> cond i (m - 2 ^ 127)).
Lemma eta_pos : 0 <= eta <= 1 / 100.
Proof.
  unfold eta. assert (P1 : (22 <= p <= 128)%Z) by (unfold p, pf; lia). assert (IP : 22 <= IZR p <= 128) by (split; apply IZR_le; lia). pose proof (h_pos p) as H0. pose proof (bpow2_pos (- (100))) as B0.
  assert (HS : h p <= / IZR 1000000) by (unfold h; rewrite bpow2_opp; apply Rinv_le_contravar; [apply IZR_lt; reflexivity|]; apply Rle_trans with (bpow2 22); [rewrite (bpow2_IZR 22) by lia; apply IZR_le; discriminate|apply bpow2_le; lia]).
  assert (BS : bpow2 (- (100)) <= / IZR 1000000) by (rewrite bpow2_opp; apply Rinv_le_contravar; [apply IZR_lt; reflexivity|rewrite (bpow2_IZR 100) by lia; apply IZR_le; discriminate]).
  assert (0 <= 315 / 100 * (IZR p + 2) * h p <= 315 / 100 * 130 * / 1000000) by (split; [apply Rmult_le_pos; lra|apply Rmult_le_compat; lra]). assert (0 <= (IZR p + 2) * bpow2 (- (100)) <= 130 * / 1000000) by (split; [apply Rmult_le_pos; lra|apply Rmult_le_compat; lra]). lra.
Qed.
(** The angle register and chi. *)
Lemma reg_chi i x y tn a th m : (1 <= i < N p)%nat -> base p t1 i (x, y, tn, a) th m -> ((a <= 2 ^ (p - 1))%Z -> - eta <= PI / 2 - th) /\ ((2 ^ (p - 1) < a)%Z -> PI / 2 - th <= eta).
Proof.
  intros Hi (_ & _ & HA & HM). assert (HF' : fxval (2 ^ (p - 1)) p = 1 / 2) by (rewrite fxval_pow by lia; replace (p - 1 - p)%Z with (- (1))%Z by lia; rewrite bpow2_opp, (bpow2_IZR 1) by lia; change (2 ^ 1)%Z with 2%Z; lra).
  apply Rabs_le_both in HA, HM. assert (IN : INR (i - 1) <= IZR p + 2) by (rewrite INR_IZR_INZ, <- (plus_IZR p 2); apply IZR_le; unfold N in Hi; lia). pose proof (pos_INR (i - 1)) as IP. pose proof (h_pos p) as H0. pose proof (bpow2_pos (- (100))) as B0. pose proof PI_lo as PL. pose proof PI_hi as PH.
  assert (K1 : INR (i - 1) * h p <= (IZR p + 2) * h p) by (apply Rmult_le_compat_r; lra). assert (K2 : INR (i - 1) * bpow2 (- (100)) <= (IZR p + 2) * bpow2 (- (100))) by (apply Rmult_le_compat_r; lra). set (n := IZR p + 2) in *. assert (N0 : 0 <= n * h p) by (apply Rmult_le_pos; lra).
  assert (K3 : PI * (n * h p) <= 315 / 100 * (n * h p)) by (apply Rmult_le_compat_r; lra). set (mr := fxval m 128) in *. unfold eta. fold n. split; intros L.
  - apply fxval_le with (F := p) in L. rewrite HF' in L. assert (PI * mr <= PI * (1 / 2 + n * h p)) by (apply Rmult_le_compat_l; lra). lra.
  - apply fxval_lt with (F := p) in L. rewrite HF' in L. assert (PI * (1 / 2 - n * h p) <= PI * mr) by (apply Rmult_le_compat_l; lra). lra.
Qed.
Lemma node_far i x y tn a th m : (2 <= i <= I0 - 1)%nat -> (i < N p)%nat -> base p t1 i (x, y, tn, a) th m -> cond i (m - 2 ^ 127) -> eta < Rabs (PI / 2 - th) /\ 105 / 100 * em F < Rabs (PI / 2 - th).
Proof.
  intros Hi HN (_ & _ & _ & HM) HC. assert (THR := cond_far F i (m - 2 ^ 127) ltac:(lia) ltac:(unfold I0 in Hi; lia) HC). fold p in THR. apply IZR_lt in THR. rewrite plus_IZR, !mult_IZR, plus_IZR, abs_IZR in THR. set (sg := (m - 2 ^ 127)%Z) in *.
  assert (HF' : fxval (2 ^ 127) 128 = 1 / 2) by (rewrite fxval_pow by lia; replace (127 - 128)%Z with (- (1))%Z by lia; rewrite bpow2_opp, (bpow2_IZR 1) by lia; change (2 ^ 1)%Z with 2%Z; lra).
  assert (ES : fxval sg 128 = fxval m 128 - 1 / 2) by (unfold sg, Z.sub; rewrite fxval_add, fxval_opp, HF'; ring). pose proof PI_lo as PL. pose proof (bpow2_pos (- (128))) as B0.
  assert (SV : Rabs (fxval sg 128) = Rabs (IZR sg) * bpow2 (- (128))) by (unfold fxval; rewrite Rabs_mult, (Rabs_pos_eq (bpow2 (- (128)))) by lra; reflexivity).
  assert (IN : INR (i - 1) * bpow2 (- (100)) <= (IZR p + 2) * bpow2 (- (100))). { apply Rmult_le_compat_r; [pose proof (bpow2_pos (- (100))); lra|]. rewrite INR_IZR_INZ, <- (plus_IZR p 2). apply IZR_le. unfold N in HN. lia. }
  assert (EQ1 : IZR (2 ^ (128 - p)) * bpow2 (- (128)) = h p) by (rewrite <- bpow2_IZR by lia; unfold h; rewrite <- bpow2_add; f_equal; lia). assert (EQ2 : IZR (2 ^ 28) * bpow2 (- (128)) = bpow2 (- (100))) by (rewrite <- (bpow2_IZR 28) by lia; rewrite <- bpow2_add; f_equal; lia).
  assert (TH2 : 315 * (IZR p + 2) * h p + 200 * (IZR p + 2) * bpow2 (- (100)) < 314 * Rabs (fxval sg 128)). { rewrite SV, <- EQ1, <- EQ2. assert (TT := Rmult_lt_compat_r _ _ _ B0 THR). lra. }
  assert (CH : 314 / 100 * Rabs (fxval sg 128) - (IZR p + 2) * bpow2 (- (100)) <= Rabs (PI / 2 - th)).
  { assert (314 / 100 * Rabs (fxval sg 128) <= PI * Rabs (fxval sg 128)) by (apply Rmult_le_compat_r; [apply Rabs_pos|lra]). assert (EM : PI * fxval m 128 - th = PI * fxval sg 128 + (PI / 2 - th)) by (rewrite ES; field). rewrite EM in HM.
    assert (PS : Rabs (PI * fxval sg 128) = PI * Rabs (fxval sg 128)) by (rewrite Rabs_mult, (Rabs_pos_eq PI) by lra; reflexivity). assert (TR := Rabs_triang (PI * fxval sg 128 + (PI / 2 - th)) (- (PI / 2 - th))). rewrite Rabs_Ropp in TR. replace (PI * fxval sg 128 + (PI / 2 - th) + - (PI / 2 - th)) with (PI * fxval sg 128) in TR by ring. lra. }
  assert (QP : 0 <= IZR p) by (apply IZR_le; lia). pose proof (h_pos p) as H0. assert (E1 : 105 / 100 * em F <= 315 / 100 * (IZR p + 2) * h p). { unfold em. fold p. pose proof (q_h p) as QH. rewrite QH. assert (0 <= IZR p * q p) by (apply Rmult_le_pos; pose proof (q_pos p); lra). pose proof (q_pos p). lra. }
  unfold eta. assert (0 <= (IZR p + 2) * bpow2 (- (100))) by (apply Rmult_le_pos; [lra|pose proof (bpow2_pos (- (100))); lra]). lra.
Qed.
Lemma Bnd_S i : (1 <= i < N p)%nat -> (i < I0)%nat -> Bnd i = D' + ang i + Rm (N p) (S i) /\ Bnd (S i) = D' + Rm (N p) (S i).
Proof. intros H1 H2. unfold Bnd. assert (L1 : Nat.leb i I0 = true) by (apply Nat.leb_le; lia). assert (L2 : Nat.leb (S i) I0 = true) by (apply Nat.leb_le; lia). rewrite L1, L2, (Rm_S (N p) i) by lia. split; ring. Qed.
Lemma Bnd_late i : (I0 <= i)%nat -> Bnd (S i) = Bnd i + ang i.
Proof.
  intros H. unfold Bnd. assert (L2 : Nat.leb (S i) I0 = false) by (apply Nat.leb_gt; lia). rewrite L2. replace (S i - I0)%nat with (S (i - I0)) by lia. rewrite asum_last. replace (I0 + (i - I0))%nat with i by lia. destruct (Nat.leb_spec i I0) as [L|L]; [|ring].
  replace i with I0 by lia. rewrite Nat.sub_diag. cbn [asum]. ring.
Qed.
Lemma inv_l_1 : inv_l 1 (arc_rot p 1 true 0 (arc_start p AF (Z.abs t))).
Proof.
  exists (PI / 2), (2 ^ 127)%Z. split; [apply sin_first|]. pose proof phi_ok as PH. pose proof (Rm_1 (N p) ltac:(unfold N; lia)). pose proof (D_range F HF2). pose proof (em_range F HF2). pose proof eta_pos. refine (conj _ (conj _ (conj (fun _ => conj eq_refl eq_refl) _))); [|lra|lia].
  unfold Bnd. assert (L1 : Nat.leb 1 I0 = true) by (apply Nat.leb_le; unfold I0; lia). rewrite L1. unfold D'. apply Rabs_le. lra.
Qed.
Lemma large_step i st : (1 <= i < N p)%nat -> inv_l i st -> inv_l (S i) (arc_rot p 1 (asin_sel p st) i st).
Proof.
  intros Hi (th & m & HB & HI & HR & H1 & HK). pose proof (D_range F HF2) as DR. pose proof (em_range F HF2) as ER. pose proof (em_D F HF2) as ED. pose proof (eps_em F i Hi) as EE. fold p in EE. pose proof phi_ok as PH. pose proof eta_pos as ET. pose proof PI_hi as PIH. pose proof em_3 as [E3 D3].
  destruct st as [[[x y] tn] a]. destruct (sin_cmp i x y tn a th m Hi HB) as (Q1 & Q2 & Q3 & Q4). pose proof (eps_ge p tt t1 i (proj1 (proj2 (start_ok F AF t HF2 Hta)))) as EG. destruct (reg_chi i x y tn a th m Hi HB) as [G1 G2].
  destruct (ang_pos i) as [A0 A1]. pose proof (ang_1 i ltac:(lia)) as A2. pose proof (Rm_ang (N p) i ltac:(lia)) as AR.
  assert (XF : i = 1%nat -> x = 0%Z) by (intros E1; subst i; destruct (H1 eq_refl) as [E1 _]; apply (first_x x y tn a th m HB E1)).
  assert (NF : (2 <= i)%nat -> (i < I0)%nat -> eta < Rabs (PI / 2 - th) /\ 105 / 100 * em F < Rabs (PI / 2 - th)) by (intros E1 E2; apply (node_far i x y tn a th m); [lia|lia|exact HB|apply HK; lia]).
  set (chi := PI / 2 - th) in *. set (sel := asin_sel p (x, y, tn, a)). set (sg := if sel then -1 else 1).
  assert (HR' : Rabs chi <= 303 / 100) by (apply Rabs_le; lra).
  assert (CG : cos chi <= tt + em F -> phi - D F <= Rabs chi) by (intros C; apply (chi_ge tt (D F) (em F) chi (conj (Rabs_pos _) Hta) DR (conj (proj1 ER) ED) C)).
  assert (CL : tt - em F <= cos chi -> Rabs chi <= phi + D F) by (intros C; apply (chi_le tt (D F) (em F) chi (conj (Rabs_pos _) Hta) DR (conj (proj1 ER) ED) HR' C)).
  assert (CP : 0 <= chi -> sin chi <= em F -> Rabs chi <= 105 / 100 * em F) by (intros C C'; apply (chi_pos (em F) chi HR' ltac:(lra) C C')).
  apply Rabs_le_both in HI.
  assert (MAIN : (-102 / 100 <= chi + sg * ang i <= 303 / 100) /\ ((i < I0)%nat -> Rabs (chi + sg * ang i - phi) <= D' + Rm (N p) (S i))).
  { assert (LOW : (i < I0)%nat -> - (D' + ang i + Rm (N p) (S i)) <= chi - phi <= D' + ang i + Rm (N p) (S i)) by (intros L; destruct (Bnd_S i Hi L) as [B1 _]; rewrite B1 in HI; exact HI).
    unfold sg, sel, asin_sel. assert (L20 : (20 <? p)%Z = true) by (apply Z.ltb_lt; unfold p, pf; lia). rewrite L20. unfold D' in *. destruct (Z.leb_spec a (2 ^ (p - 1))) as [La|La].
    - specialize (G1 La). rewrite andb_true_r. destruct (Z.leb_spec 0 x) as [Lx|Lx].
      + assert (Lx' : (x <? 0)%Z = false) by (apply Z.ltb_ge; lia). rewrite Lx', andb_true_r, andb_false_r, orb_false_r. destruct (Z.leb_spec y tn) as [Ly|Ly].
        * specialize (CG ltac:(specialize (Q1 Ly); lra)). split; [lra|]. intros L. specialize (LOW L). unfold Rabs in CG. destruct (Rcase_abs chi); apply Rabs_le; lra.
        * specialize (CL ltac:(specialize (Q2 Ly); lra)). apply Rabs_le_both in CL. split; [lra|]. intros L. specialize (LOW L). apply Rabs_le; lra.
      + assert (Lx' : (x <? 0)%Z = true) by (apply Z.ltb_lt; lia). rewrite Lx', andb_true_r, andb_false_r, orb_false_l. specialize (Q4 Lx). assert (CB : chi <= 105 / 100 * em F) by (destruct (Rle_lt_dec 0 chi) as [L|L]; [pose proof (CP L ltac:(lra)) as K; apply Rabs_le_both in K; lra|lra]).
        destruct (Z.ltb_spec tn y) as [Ly|Ly].
        * split; [lra|]. intros L. exfalso. destruct (Nat.eq_dec i 1) as [E1|]; [specialize (XF E1); lia|]. destruct (NF ltac:(lia) L) as [F1 F2']. unfold Rabs in F1, F2'. destruct (Rcase_abs chi); lra.
        * split; [lra|]. intros L. specialize (LOW L). apply Rabs_le; lra.
    - specialize (G2 La). rewrite andb_false_r. split; [lra|]. intros L. specialize (LOW L). apply Rabs_le; lra. }
  destruct MAIN as [M1 M2]. exists (PI / 2 - (chi + sg * ang i)), (if sel then m + T i else m - T i)%Z. split; [apply sin_rot; [exact Hi|exact HB|exact M1]|]. replace (PI / 2 - (PI / 2 - (chi + sg * ang i))) with (chi + sg * ang i) by ring.
  refine (conj _ (conj M1 (conj _ _))).
  - destruct (Nat.lt_ge_cases i I0) as [L|L]; [destruct (Bnd_S i Hi L) as [_ B2]; rewrite B2; apply M2, L|]. rewrite (Bnd_late i L). assert (- ang i <= sg * ang i <= ang i) by (unfold sg; destruct sel; lra). apply Rabs_le. lra.
  - lia.
  - intros Hi2. destruct (Nat.eq_dec i 1) as [->|].
    + destruct (H1 eq_refl) as [_ ->]. apply (cond_2 sel). destruct sel; lia.
    + replace ((if sel then m + T i else m - T i) - 2 ^ 127)%Z with (if sel then (m - 2 ^ 127) + T i else (m - 2 ^ 127) - T i)%Z by (destruct sel; lia). apply cond_step; [unfold I0 in Hi2; lia|apply HK; lia].
Qed.
Lemma large_loop : inv_l (N p) (asin_loop p AF (Z.abs t)).
Proof.
  unfold asin_loop. change (Z.to_nat (p + 2)) with (N p). apply (fold_seq inv_l); [unfold N; lia| |intros i st Hi H; apply large_step; assumption]. rewrite sin_first_sel. apply inv_l_1.
Qed.
End Large.

(** The angle register at the end. *)
Lemma sin_close x y tn a th m B : base p t1 (N p) (x, y, tn, a) th m -> Rabs (PI / 2 - th - phi) <= B -> 0 <= B ->
  B + (IZR p + 1) * bpow2 (- (100)) + 314 / 100 * ((IZR p + 1) * h p) <= 314 / 100 * (4 * bpow2 (- F)) -> Rabs (fxval a p - asin tt / PI) <= 4 * bpow2 (- F).
Proof.
  intros (_ & _ & HA & HM) HC B0 BG. assert (EN : INR (N p - 1) = IZR p + 1) by (rewrite INR_IZR_INZ, <- (plus_IZR p 1); f_equal; unfold N; lia). rewrite EN in HA, HM. pose proof PI_lo as PL. set (ar := fxval a p) in *. set (mr := fxval m 128) in *. set (n := IZR p + 1) in *.
  assert (N0 : 0 <= n) by (unfold n; assert (0 <= IZR p) by (apply IZR_le; lia); lra). assert (0 <= n * bpow2 (- (100))) by (apply Rmult_le_pos; [lra|pose proof (bpow2_pos (- (100))); lra]). assert (NH : 0 <= n * h p) by (apply Rmult_le_pos; [lra|pose proof (h_pos p); lra]).
  assert (EA : asin tt = PI / 2 - phi) by (unfold phi; apply asin_acos; split; [pose proof (Rabs_pos (fxval t AF)); unfold tt, ta; lra|exact Hta]).
  assert (K : Rabs (PI * ar - asin tt) <= PI * (4 * bpow2 (- F))).
  { rewrite EA. replace (PI * ar - (PI / 2 - phi)) with (PI * (ar - mr) + (PI * mr - th) - (PI / 2 - th - phi)) by ring. assert (KP : Rabs (PI * (ar - mr)) <= PI * (n * h p)) by (rewrite Rabs_mult, (Rabs_pos_eq PI) by lra; apply Rmult_le_compat_l; lra).
    assert (314 / 100 * (4 * bpow2 (- F) - n * h p) <= PI * (4 * bpow2 (- F) - n * h p)) by (apply Rmult_le_compat_r; lra). apply Rabs_le_both in KP, HM, HC. apply Rabs_le. lra. }
  apply (Rmult_le_reg_l PI); [lra|]. rewrite <- (Rabs_pos_eq PI) at 1 by lra. rewrite <- Rabs_mult. replace (PI * (ar - asin tt / PI)) with (PI * ar - asin tt) by (field; lra). exact K.
Qed.
End Sin.

(** The bounds of the error for up to ten fraction bits. *)
Definition small_check (F : Z) : bool :=
  (10 * dn F * 2 ^ F + 525 * (26 * F + 10) * (2 * F + 1) + 10000 + 31400 * (2 * F + 1) + 10 * 2 ^ F + (if F <=? 5 then 1250 * (2 ^ F * 2 ^ F) else 27 * (2 ^ F * 2 ^ F) + 39140 * 2 ^ F) <=? 125600 * 2 ^ F)%Z.
Lemma small_checks : forallb (fun k => small_check (Z.of_nat k)) (seq 3 8) = true.
Proof. vm_compute. reflexivity. Qed.
Definition large_check (F : Z) : bool :=
  (10 * dn F * 2 ^ F + 263 * (26 * F + 10) + 63000 * (2 * F + 2) + 20000 * 2 ^ F + 31400 * (2 * F + 1) + 100 * 2 ^ F <=? 125600 * 2 ^ F)%Z.
Lemma large_checks : forallb (fun k => large_check (Z.of_nat k)) (seq 11 54) = true.
Proof. vm_compute. reflexivity. Qed.
Lemma tiny F n : (2 <= F <= 64)%Z -> 0 <= n <= 130 -> n * bpow2 (- (100)) <= 1 / 1000 * bpow2 (- F).
Proof.
  intros HF Hn. set (u := bpow2 (- F)). assert (E : bpow2 (- (100)) = bpow2 (- (36)) * bpow2 (- (64))) by (rewrite <- bpow2_add; reflexivity). assert (bpow2 (- (64)) <= u) by (apply bpow2_le; lia). pose proof (bpow2_pos (- (64))).
  assert (B : bpow2 (- (36)) <= / 1000000) by (replace (/ 1000000) with (/ IZR 1000000) by reflexivity; rewrite bpow2_opp; apply Rinv_le_contravar; [lra|rewrite (bpow2_IZR 36) by lia; apply IZR_le; discriminate]). pose proof (bpow2_pos (- (36))). pose proof (bpow2_pos (- (100))).
  assert (bpow2 (- (36)) * bpow2 (- (64)) <= / 1000000 * u) by (apply Rmult_le_compat; lra). assert (n * bpow2 (- (100)) <= 130 * (/ 1000000 * u)) by (apply Rmult_le_compat; lra). lra.
Qed.
Lemma small_budget F X : (3 <= F <= 10)%Z -> let p := pf F in let u := bpow2 (- F) in X <= (if (F <=? 5)%Z then 1 / 8 else 27 / 10000 + 3914 / 1000 * u) ->
  D F + 21 / 10 * em F * (IZR p + 1) + h p + X + (IZR p + 1) * bpow2 (- (100)) + 314 / 100 * ((IZR p + 1) * h p) <= 314 / 100 * (4 * u).
Proof.
  intros H p u HX. pose proof (D_le F ltac:(lia)) as DL. pose proof small_checks as C. rewrite forallb_forall in C. specialize (C (Z.to_nat F) ltac:(apply in_seq; lia)). rewrite Z2Nat.id in C by lia. unfold small_check in C. apply Z.leb_le, IZR_le in C.
  destruct (scale F ltac:(lia)) as (S1 & S2 & S3). unfold em. fold p in S2, S3 |- *. fold u in S1, S2, S3, DL. rewrite S2, S3. assert (U : 0 < u) by apply bpow2_pos. pose proof (tiny F (IZR p + 1) ltac:(lia) ltac:(unfold p, pf; rewrite mult_IZR; assert (3 <= IZR F <= 10) by (split; apply IZR_le; lia); lra)) as TN. fold u in TN.
  set (Z' := bpow2 F) in *. set (d := IZR (dn F)) in *. assert (XX : X * 10000 <= (if (F <=? 5)%Z then 1250 * (Z' * Z') else 27 * (Z' * Z') + 39140 * Z') * (u * u)).
  { destruct (F <=? 5)%Z; [replace (1250 * (Z' * Z') * (u * u)) with (1250 * ((Z' * u) * (Z' * u))) by ring|replace ((27 * (Z' * Z') + 39140 * Z') * (u * u)) with (27 * ((Z' * u) * (Z' * u)) + 39140 * (Z' * u) * u) by ring]; rewrite S1; lra. }
  assert (CX : 10 * d * Z' + 525 * (26 * IZR F + 10) * (2 * IZR F + 1) + 10000 + 31400 * (2 * IZR F + 1) + 10 * Z' + (if (F <=? 5)%Z then 1250 * (Z' * Z') else 27 * (Z' * Z') + 39140 * Z') <= 125600 * Z').
  { destruct (F <=? 5)%Z; repeat (rewrite ?plus_IZR, ?mult_IZR in C); rewrite <- !(bpow2_IZR F) in C by lia; fold d Z' in C; lra. }
  clear C. set (xx := if (F <=? 5)%Z then 1250 * (Z' * Z') else 27 * (Z' * Z') + 39140 * Z') in *. clearbody xx. assert (EP : IZR p = 2 * IZR F) by (unfold p, pf; rewrite mult_IZR; reflexivity). rewrite EP in *. set (f := IZR F) in *.
  assert (CC : (10 * d * Z' + 525 * (26 * f + 10) * (2 * f + 1) + 10000 + 31400 * (2 * f + 1) + 10 * Z' + xx) * (u * u) <= 125600 * Z' * (u * u)) by (apply Rmult_le_compat_r; [apply Rmult_le_pos; lra|lra]).
  replace (125600 * Z' * (u * u)) with (125600 * (Z' * u) * u) in CC by ring. replace ((10 * d * Z' + 525 * (26 * f + 10) * (2 * f + 1) + 10000 + 31400 * (2 * f + 1) + 10 * Z' + xx) * (u * u)) with (10 * d * (Z' * u) * u + 525 * (26 * f + 10) * (2 * f + 1) * (u * u) + 10000 * (u * u) + 31400 * (2 * f + 1) * (u * u) + 10 * (Z' * u) * u + xx * (u * u)) in CC by ring. rewrite S1 in CC.
  replace (21 / 10 * ((13 / 10 * (2 * f) + 1) * (u * u / 4)) * (2 * f + 1)) with (525 / 10000 * (26 * f + 10) * (2 * f + 1) * (u * u)) by field. lra.
Qed.
Lemma large_budget F : (11 <= F <= 64)%Z -> let p := pf F in let u := bpow2 (- F) in
  D F + 105 / 100 * em F + 2 * (315 / 100 * (IZR p + 2) * h p + (IZR p + 2) * bpow2 (- (100))) + 2 * u + (IZR p + 1) * bpow2 (- (100)) + 314 / 100 * ((IZR p + 1) * h p) <= 314 / 100 * (4 * u).
Proof.
  intros H p u. pose proof (D_le F ltac:(lia)) as DL. pose proof large_checks as C. rewrite forallb_forall in C. specialize (C (Z.to_nat F) ltac:(apply in_seq; lia)). rewrite Z2Nat.id in C by lia. unfold large_check in C. apply Z.leb_le, IZR_le in C.
  destruct (scale F ltac:(lia)) as (S1 & S2 & S3). unfold em. fold p in S2, S3 |- *. fold u in S1, S2, S3, DL. rewrite S2, S3. assert (U : 0 < u) by apply bpow2_pos. assert (FB : 11 <= IZR F <= 64) by (split; apply IZR_le; lia). assert (EP : IZR p = 2 * IZR F) by (unfold p, pf; rewrite mult_IZR; reflexivity).
  pose proof (tiny F (IZR p + 1) ltac:(lia) ltac:(lra)) as TN. pose proof (tiny F (IZR p + 2) ltac:(lia) ltac:(lra)) as TN2. fold u in TN, TN2. rewrite EP in *. repeat (rewrite ?plus_IZR, ?mult_IZR in C). rewrite <- !(bpow2_IZR F) in C by lia. set (Z' := bpow2 F) in *. set (d := IZR (dn F)) in *. set (f := IZR F) in *.
  assert (CC : (10 * d * Z' + 263 * (26 * f + 10) + 63000 * (2 * f + 2) + 20000 * Z' + 31400 * (2 * f + 1) + 100 * Z') * (u * u) <= 125600 * Z' * (u * u)) by (apply Rmult_le_compat_r; [apply Rmult_le_pos; lra|lra]).
  replace (125600 * Z' * (u * u)) with (125600 * (Z' * u) * u) in CC by ring. replace ((10 * d * Z' + 263 * (26 * f + 10) + 63000 * (2 * f + 2) + 20000 * Z' + 31400 * (2 * f + 1) + 100 * Z') * (u * u)) with (10 * d * (Z' * u) * u + 263 * (26 * f + 10) * (u * u) + 63000 * (2 * f + 2) * (u * u) + 20000 * (Z' * u) * u + 31400 * (2 * f + 1) * (u * u) + 100 * (Z' * u) * u) in CC by ring. rewrite S1 in CC.
  assert (UU : 0 <= f * (u * u)) by (apply Rmult_le_pos; [lra|apply Rmult_le_pos; lra]). assert (0 <= u * u) by (apply Rmult_le_pos; lra). lra.
Qed.
Lemma pow_h p : (4 <= p)%Z -> 2 * / 2 ^ (N p - 1) = h p.
Proof. intros H. unfold h. rewrite bpow2_opp. rewrite (bpow2_IZR p) by lia. replace (N p - 1)%nat with (S (Z.to_nat p)) by (unfold N; lia). cbn [pow]. rewrite <- (Z2Nat.id p) at 2 by lia. rewrite <- pow_IZR. field. apply pow_nonzero. lra. Qed.
Lemma asin_end F AF t : (3 <= F <= 64)%Z -> Rabs (fxval t AF) <= 1 ->
  Rabs (fxval (snd (asin_loop (2 * F) AF (Z.abs t))) (2 * F) - asin (Rabs (fxval t AF)) / PI) <= 4 * bpow2 (- F).
Proof.
  intros HF Ht. fold (pf F). set (p := pf F). assert (PP : (4 <= p <= 128)%Z) by (unfold p, pf; lia). pose proof (h_pos p) as H0. pose proof (D_range F ltac:(lia)) as [D0 _]. pose proof (em_range F ltac:(lia)) as [E0 _]. assert (IP : 0 <= IZR p) by (apply IZR_le; lia).
  destruct (Z_le_gt_dec F 10) as [L|L].
  - destruct (small_loop F AF t HF Ht L) as (th & m & HB & HI & HR & _ & HK). fold p in HB, HI, HK |- *. destruct (asin_loop p AF (Z.abs t)) as [[[x y] tn] a]. cbn [snd]. set (chi := PI / 2 - th) in *. set (phi := acos (ta AF t)) in *. pose proof (phi_ok AF t Ht) as PH. fold phi in PH.
    assert (EN : INR (N p - 1) = IZR p + 1) by (rewrite INR_IZR_INZ, <- (plus_IZR p 1); f_equal; unfold N; lia). rewrite EN, Rm_last in HI. destruct (ang_pos (N p - 1)) as [_ AP]. rewrite (pow_h p) in AP by lia. set (B0 := D F + 21 / 10 * em F * (IZR p + 1) + h p) in *.
    assert (BP : 0 <= B0) by (unfold B0; assert (0 <= 21 / 10 * em F * (IZR p + 1)) by (apply Rmult_le_pos; lra); lra).
    assert (HI' : Rabs (Rabs chi - phi) <= B0) by (unfold B0; lra). apply Rabs_le_both in HI'. pose proof (bpow2_pos (- F)) as U.
    assert (XC : exists X, 0 <= X <= (if (F <=? 5)%Z then 1 / 8 else 27 / 10000 + 3914 / 1000 * bpow2 (- F)) /\ Rabs (chi - phi) <= B0 + X).
    { assert (Z0 : 0 <= 0 <= (if (F <=? 5)%Z then 1 / 8 else 27 / 10000 + 3914 / 1000 * bpow2 (- F))) by (destruct (F <=? 5)%Z; lra).
      assert (NB : (8 <= N p)%nat) by (unfold N, p, pf; lia). destruct HK as [[K0 _]|[[K1 _]|[[K2 _]|[[K3 K4]|[K5 [K6 K7]]]]]]; [|lia|lia| |].
      - exists 0. split; [exact Z0|]. fold phi in K0. rewrite K0 in *. rewrite !Rminus_0_r in *. rewrite Rplus_0_r. lra.
      - exists 0. split; [exact Z0|]. pose proof (two_pow_pos (N p)). rewrite (Rabs_pos_eq chi) in HI' by lra. apply Rabs_le. lra.
      - fold phi in K7. pose proof (two_pow_pos (N p)). destruct (Z.leb_spec F 5) as [L5|L5].
        + exists (1 / 8). split; [lra|]. unfold Rabs in HI'. destruct (Rcase_abs chi); apply Rabs_le; lra.
        + specialize (K7 ltac:(lia)). destruct (D6_ok F ltac:(lia)) as [D61 D62]. destruct (cch_num F) as [CN _]. assert (DU : D6 F <= 1957 / 1000 * bpow2 (- F)).
          { apply sq_le; [lra|]. unfold D6. rewrite sqrt_sqrt by (pose proof (q_pos (pf F)); lra). destruct (scale F ltac:(lia)) as (_ & _ & S3). rewrite S3. set (u := bpow2 (- F)) in *. assert (0 <= u * u) by (apply Rmult_le_pos; lra). lra. }
          exists (2 * phi). split; [lra|]. unfold Rabs in HI'. destruct (Rcase_abs chi); apply Rabs_le; lra. }
    destruct XC as (X & HX & HC). apply (sin_close F AF t ltac:(lia) Ht x y tn a th m (B0 + X) HB HC ltac:(lra)). pose proof (small_budget F X ltac:(lia) (proj2 HX)) as BG. cbv zeta in BG. exact BG.
  - destruct (large_loop F AF t HF Ht ltac:(lia)) as (th & m & HB & HI & _). fold p in HB, HI |- *. destruct (asin_loop p AF (Z.abs t)) as [[[x y] tn] a]. cbn [snd]. pose proof (eta_pos F ltac:(lia) ltac:(lia)) as ET.
    assert (BB : Bnd F (N p) <= D' F + 2 * bpow2 (- F)).
    { unfold Bnd. fold p. assert (L2 : Nat.leb (N p) (I0 F) = false) by (apply Nat.leb_gt; unfold N, I0, p, pf; lia). rewrite L2. unfold Rm. pose proof (asum_le (N p - I0 F) (I0 F)) as A. replace (I0 F + (N p - I0 F))%nat with (N p) in A by (unfold N, I0, p, pf; lia). destruct (ang_pos (N p - 1)) as [_ AP].
      assert (EP : / 2 ^ (N p - 1) = 2 * / 2 ^ N p) by (replace (N p) with (S (N p - 1)) at 2 by (unfold N; lia); cbn [pow]; rewrite Rinv_mult; lra). assert (EI : 4 * / 2 ^ I0 F = bpow2 (- F)). { rewrite bpow2_opp. rewrite (bpow2_IZR F) by lia. replace (I0 F) with (2 + Z.to_nat F)%nat by (unfold I0; lia). rewrite pow_add. rewrite <- (Z2Nat.id F) at 2 by lia. rewrite <- pow_IZR. field. apply pow_nonzero. lra. }
      pose proof (two_pow_pos (N p)). lra. }
    pose proof (large_budget F ltac:(lia)) as BG. cbv zeta in BG. fold p in BG. pose proof (bpow2_pos (- F)). apply (sin_close F AF t ltac:(lia) Ht x y tn a th m (D' F + 2 * bpow2 (- F)) HB); fold p; [lra|unfold D'; lra|]. unfold D', eta. fold p. lra.
Qed.
Lemma asin_range F AF t : (1 <= F)%Z -> (- 2 ^ (2 * F) <= snd (asin_loop (2 * F) AF (Z.abs t)) < 2 ^ (2 * F))%Z.
Proof.
  intros HF. unfold asin_loop. set (p := (2 * F)%Z). assert (PP : (2 <= p)%Z) by (unfold p; lia). replace (Z.to_nat (p + 2)) with (S (Z.to_nat (p + 1))) by lia. rewrite seq_S, fold_left_app. cbn [fold_left Nat.add]. set (st := fold_left _ _ _). set (sel := asin_sel p st). destruct st as [[[x y] tn] a]. unfold arc_rot. cbv zeta.
  assert (K : forall z, (- 2 ^ p <= conv (dfmt (p + 1) 1 true) z p < 2 ^ p)%Z). { intros z. unfold conv, conv_rat, dfmt. cbn [fO fS fW overflow]. match goal with |- context [wrap true (p + 1) ?v] => pose proof (wrap_range true (p + 1) v ltac:(lia)) as W end. unfold in_range, imin, imax in W. replace (p + 1 - 1)%Z with p in W by lia. lia. }
  destruct sel; cbn [snd]; apply K.
Qed.
Lemma arcsin_accurate AF fo t : (1 <= fW fo)%Z -> (1 <= fF fo <= 64)%Z -> Rabs (fxval t AF) <= 1 ->
  exists V, Rabs (V - asin (fxval t AF) / PI) <= 4 * bpow2 (- fF fo) /\ convertsR fo V (arcsin_cordic AF fo t).
Proof.
  intros HW HF Ht. unfold arcsin_cordic. cbv zeta. set (p := (2 * fF fo)%Z). set (th := snd (asin_loop p AF (Z.abs t))). pose proof PI_lo as PL. set (tt := Rabs (fxval t AF)) in *.
  assert (AB : 0 <= asin tt / PI <= 1 / 2). { assert (0 <= tt) by apply Rabs_pos. pose proof (phi_range tt (conj H Ht)) as PH. rewrite (asin_acos tt) by lra. split; [apply Rmult_le_pos; [lra|apply Rlt_le, Rinv_0_lt_compat; lra]|]. apply (Rmult_le_reg_r PI); [lra|]. replace ((PI / 2 - acos tt) / PI * PI) with (PI / 2 - acos tt) by (field; lra). lra. }
  assert (K : Rabs (fxval (Z.abs th) p - asin tt / PI) <= 4 * bpow2 (- fF fo)).
  { rewrite abs_fx. destruct (Z_le_gt_dec 3 (fF fo)) as [L|L].
    - pose proof (asin_end (fF fo) AF t ltac:(lia) Ht) as A. fold p th tt in A. apply Rabs_le_both in A. unfold Rabs at 2. destruct (Rcase_abs (fxval th p)); apply Rabs_le; lra.
    - pose proof (asin_range (fF fo) AF t ltac:(lia)) as [R1 R2]. fold p th in R1, R2. assert (A : Rabs (fxval th p) <= 1). { apply fxval_le with (F := p) in R1. apply fxval_lt with (F := p) in R2. rewrite fxval_opp in R1. rewrite fxval_one in R1, R2 by lia. apply Rabs_le. lra. }
      assert (1 / 4 <= bpow2 (- fF fo)). { replace (1 / 4) with (bpow2 (- (2))) by (rewrite bpow2_opp, (bpow2_IZR 2) by lia; change (2 ^ 2)%Z with 4%Z; lra). apply bpow2_le. lia. } pose proof (Rabs_pos (fxval th p)). apply Rabs_le. lra. }
  destruct (Z.ltb_spec t 0) as [L|L].
  - assert (TN : fxval t AF < 0) by (rewrite <- (fxval_0 AF); apply fxval_lt, L). exists (- fxval (Z.abs th) p). split.
    + replace (fxval t AF) with (- tt) by (unfold tt; rewrite (Rabs_left _ TN); ring). rewrite asin_opp. replace (- fxval (Z.abs th) p - - asin tt / PI) with (- (fxval (Z.abs th) p - asin tt / PI)) by (field; lra). rewrite Rabs_Ropp. exact K.
    + rewrite <- fxval_opp. destruct (Z.ltb_spec th 0) as [L2|L2]; cbn [Bool.eqb negb]; [replace th with (- Z.abs th)%Z at 2 by lia|replace th with (Z.abs th) at 2 by lia]; apply conv_R, HW.
  - assert (TN : 0 <= fxval t AF) by (rewrite <- (fxval_0 AF); apply fxval_le, L). exists (fxval (Z.abs th) p). split.
    + unfold tt in K. rewrite (Rabs_pos_eq _ TN) in K. exact K.
    + destruct (Z.ltb_spec th 0) as [L2|L2]; cbn [Bool.eqb negb]; [replace (- th)%Z with (Z.abs th) by lia|replace th with (Z.abs th) at 2 by lia]; apply conv_R, HW.
Qed.

(** Opposite arguments. *)
Lemma arcsin_odd AF fo t : (1 <= fW fo)%Z -> (0 < t)%Z -> exists V, 0 <= V /\ convertsR fo V (arcsin_cordic AF fo t) /\ convertsR fo (- V) (arcsin_cordic AF fo (- t)).
Proof.
  intros HW Ht. unfold arcsin_cordic. cbv zeta. rewrite Z.abs_opp. set (p := (2 * fF fo)%Z). set (th := snd (asin_loop p AF (Z.abs t))). exists (fxval (Z.abs th) p).
  split; [rewrite <- (fxval_0 p); apply fxval_le; lia|]. rewrite <- fxval_opp. replace (t <? 0)%Z with false by (symmetry; apply Z.ltb_ge; lia). replace (- t <? 0)%Z with true by (symmetry; apply Z.ltb_lt; lia).
  destruct (Z.ltb_spec th 0) as [L|L]; cbn [Bool.eqb negb]; [replace (Z.abs th) with (- th)%Z by lia; rewrite Z.opp_involutive|replace (Z.abs th) with th by lia]; split; apply conv_R, HW.
Qed.
Lemma arccos_refl AF fo t : (1 <= fW fo)%Z -> (0 <= fF fo)%Z -> (0 < t)%Z -> exists V, convertsR fo V (arccos_cordic AF fo t) /\ convertsR fo (1 - V) (arccos_cordic AF fo (- t)).
Proof.
  intros HW HF Ht. unfold arccos_cordic. cbv zeta. rewrite Z.abs_opp. set (p := (2 * fF fo)%Z). set (th := snd (acos_loop p AF (Z.abs t))). set (v := if (th <? 0)%Z then _ else _). exists (fxval v p).
  replace (t <? 0)%Z with false by (symmetry; apply Z.ltb_ge; lia). replace (- t <? 0)%Z with true by (symmetry; apply Z.ltb_lt; lia). split; [apply conv_R, HW|]. replace (1 - fxval v p) with (fxval (2 ^ p - v) p). { apply conv_R, HW. }
  unfold Z.sub. rewrite fxval_add, fxval_opp, fxval_one by (unfold p; lia). ring.
Qed.
