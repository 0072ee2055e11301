(** Numerical facts for the CORDIC functions: bounds for pi and for the arctangents of 2^-i, and the table entries. *)
From Coq Require Import Reals Ratan Machin Lia Lra Psatz.
From Verif Require Import AcTypes Spec SpecR SpecRFacts SoftFacts CordicModel.
Local Open Scope R_scope.

(** ** The arctangent series in integers *)
Lemma atan_series x n : 0 < x < 1 -> sum_f_R0 (tg_alt (Ratan_seq x)) (S (2 * n)) <= atan x <= sum_f_R0 (tg_alt (Ratan_seq x)) (2 * n).
Proof.
  intros Hx. rewrite (atan_eq_ps_atan x Hx). apply alternated_series_ineq.
  - apply Ratan_seq_decreasing. lra.
  - apply Ratan_seq_converging. lra.
  - unfold ps_atan. destruct (Ratan.in_int x) as [H|H]; [|exfalso; apply H; lra]. destruct (ps_atan_exists_1 x H) as (l & Hl). exact Hl.
Qed.

(** The sum of the first n + 1 terms of the series for atan(1/m), in units of 1/B. *)
Fixpoint atanZ (B m : Z) (n : nat) : Z :=
  let t := (B / (m ^ (2 * Z.of_nat n + 1) * (2 * Z.of_nat n + 1)))%Z in
  match n with O => t | S n' => if Nat.even n then (atanZ B m n' + t)%Z else (atanZ B m n' - t)%Z end.
Lemma atan_term B m n : (1 < m)%Z -> (0 <= B)%Z ->
  IZR (B / (m ^ (2 * Z.of_nat n + 1) * (2 * Z.of_nat n + 1))) <= IZR B * Ratan_seq (/ IZR m) n <= IZR (B / (m ^ (2 * Z.of_nat n + 1) * (2 * Z.of_nat n + 1))) + 1.
Proof.
  intros Hm HB. set (D := (m ^ (2 * Z.of_nat n + 1) * (2 * Z.of_nat n + 1))%Z). assert (P : (0 < m ^ (2 * Z.of_nat n + 1))%Z) by (apply Z.pow_pos_nonneg; lia). assert (HD : (0 < D)%Z) by (unfold D; nia).
  assert (E : IZR B * Ratan_seq (/ IZR m) n = IZR B / IZR D).
  { unfold Ratan_seq, Rdiv. f_equal. unfold D. rewrite mult_IZR, Rinv_mult. f_equal.
    - rewrite pow_inv. f_equal. rewrite pow_IZR. f_equal. f_equal. lia.
    - f_equal. rewrite INR_IZR_INZ. f_equal. lia. }
  rewrite E. apply IZR_lt in HD. pose proof (Z.div_mod B D ltac:(unfold D; nia)) as DM. pose proof (Z.mod_pos_bound B D ltac:(unfold D; nia)) as MB.
  split; [apply (Rmult_le_reg_r (IZR D)); [exact HD|] | apply (Rmult_le_reg_r (IZR D)); [exact HD|]]; unfold Rdiv; rewrite ?Rmult_assoc, Rinv_l, Rmult_1_r by lra; rewrite <- ?plus_IZR, <- mult_IZR; apply IZR_le; nia.
Qed.
Lemma atan_sumZ B m n : (1 < m)%Z -> (0 <= B)%Z -> Rabs (IZR B * sum_f_R0 (tg_alt (Ratan_seq (/ IZR m))) n - IZR (atanZ B m n)) <= INR (S n).
Proof.
  intros Hm HB. induction n as [|n IH].
  - cbn [sum_f_R0]. unfold tg_alt. cbn [pow]. pose proof (atan_term B m 0 Hm HB) as T. cbn [atanZ]. rewrite Rmult_1_l. cbn [INR]. apply Rabs_le. lra.
  - pose proof (atan_term B m (S n) Hm HB) as T. rewrite S_INR. set (k := S n) in *. change (sum_f_R0 (tg_alt (Ratan_seq (/ IZR m))) k) with (sum_f_R0 (tg_alt (Ratan_seq (/ IZR m))) n + tg_alt (Ratan_seq (/ IZR m)) k).
    set (t := (B / (m ^ (2 * Z.of_nat k + 1) * (2 * Z.of_nat k + 1)))%Z) in *.
    assert (E : atanZ B m k = if Nat.even k then (atanZ B m n + t)%Z else (atanZ B m n - t)%Z) by reflexivity. rewrite E. unfold tg_alt at 2. apply Rabs_le_both in IH.
    destruct (Nat.even k) eqn:Ev.
    + apply Nat.even_spec in Ev. destruct Ev as (c & Ec). rewrite Ec at 1. rewrite pow_1_even, plus_IZR. apply Rabs_le. lra.
    + assert (Od : Nat.odd k = true) by (rewrite <- Nat.negb_even, Ev; reflexivity). apply Nat.odd_spec in Od. destruct Od as (c & Ec). replace k with (S (2 * c)) at 1 by lia. rewrite pow_1_odd, minus_IZR. apply Rabs_le. lra.
Qed.
Definition at_lo (B m : Z) (n : nat) : Z := (atanZ B m (S (2 * n)) - 2 * Z.of_nat n - 2)%Z.
Definition at_hi (B m : Z) (n : nat) : Z := (atanZ B m (2 * n) + 2 * Z.of_nat n + 1)%Z.
Lemma atan_Z B m n : (1 < m)%Z -> (0 <= B)%Z -> IZR (at_lo B m n) <= IZR B * atan (/ IZR m) <= IZR (at_hi B m n).
Proof.
  intros Hm HB. assert (Hx : 0 < / IZR m < 1). { apply IZR_lt in Hm. split; [apply Rinv_0_lt_compat; lra|]. rewrite <- Rinv_1. apply Rinv_lt_contravar; lra. }
  pose proof (atan_series _ n Hx) as [L H]. pose proof (atan_sumZ B m (S (2 * n)) Hm HB) as L2. pose proof (atan_sumZ B m (2 * n) Hm HB) as H2. apply IZR_le in HB.
  rewrite !S_INR, !mult_INR, (INR_IZR_INZ n) in *. cbn [INR] in *. apply Rabs_le_both in L2, H2. unfold at_lo, at_hi. rewrite !minus_IZR, !plus_IZR, mult_IZR.
  apply (Rmult_le_compat_l (IZR B)) in L; [|exact HB]. apply (Rmult_le_compat_l (IZR B)) in H; [|exact HB]. split; lra.
Qed.

(** ** Pi *)
Definition B90 : Z := (2 ^ 90)%Z.
Definition pi_lo : Z := (16 * at_lo B90 5 10 - 4 * at_hi B90 239 4)%Z.
Definition pi_hi : Z := (16 * at_hi B90 5 10 - 4 * at_lo B90 239 4)%Z.
Lemma pi_Z : IZR pi_lo <= IZR B90 * PI <= IZR pi_hi.
Proof.
  pose proof (atan_Z B90 5 10 ltac:(lia) ltac:(discriminate)) as A5. pose proof (atan_Z B90 239 4 ltac:(lia) ltac:(discriminate)) as A239. pose proof Machin_4_5_239 as E.
  assert (PI = 16 * atan (/ 5) - 4 * atan (/ 239)) as -> by lra. unfold pi_lo, pi_hi. rewrite !minus_IZR, !mult_IZR. lra.
Qed.

(** ** The angles *)
(** |pi T_i / 2^71 - atan 2^-i| <= 2^-(52+i) + 2^-70 *)
Definition at_terms (i : nat) : nat := ((64 + i) / (4 * i) + 1)%nat.
Definition angle_ok (lo hi : Z) (i : nat) (T : Z) : bool :=
  let m := (2 ^ Z.of_nat i)%Z in
  ((T * hi <=? 2 ^ 71 * at_lo B90 m (at_terms i) + 2 ^ (109 - Z.of_nat i) + 2 ^ 91) && (2 ^ 71 * at_hi B90 m (at_terms i) <=? T * lo + 2 ^ (109 - Z.of_nat i) + 2 ^ 91))%Z.
Lemma angles_ok : let lo := pi_lo in let hi := pi_hi in forallb (fun i => angle_ok lo hi i (nth i atan_tab 0%Z)) (seq 1 69) = true.
Proof. vm_compute. reflexivity. Qed.
Definition angle (i : nat) : R := fxval (nth i atan_tab 0%Z) 71.
Lemma angle_near i : (i < 70)%nat -> Rabs (PI * angle i - atan (/ 2 ^ i)) <= bpow2 (- (52 + Z.of_nat i)) + bpow2 (-70).
Proof.
  intros Hi. destruct i as [|i'].
  - unfold angle. cbn [nth atan_tab]. unfold fxval. assert (E : IZR 590295810358705651712 * bpow2 (- (71)) = / 4) by (rewrite bpow2_opp, bpow2_IZR by lia; change (2 ^ 71)%Z with (4 * 590295810358705651712)%Z; rewrite mult_IZR; field).
    rewrite E. cbn [pow]. rewrite Rinv_1, atan_1. replace (PI * / 4 - PI / 4) with 0 by lra. rewrite Rabs_R0. pose proof (bpow2_pos (- (52 + Z.of_nat 0))). pose proof (bpow2_pos (-70)). lra.
  - set (i := S i') in *. pose proof angles_ok as A. cbv zeta in A. rewrite forallb_forall in A. specialize (A i ltac:(apply in_seq; lia)). unfold angle_ok in A. apply andb_prop in A. destruct A as [A1 A2]. apply Z.leb_le in A1, A2.
    assert (Hm : (1 < 2 ^ Z.of_nat i)%Z) by (apply Z.pow_gt_1; lia). pose proof (atan_Z B90 (2 ^ Z.of_nat i) (at_terms i) Hm ltac:(discriminate)) as AZ. pose proof pi_Z as PZ.
    assert (EM : IZR (2 ^ Z.of_nat i) = 2 ^ i) by (rewrite pow_IZR; reflexivity). rewrite EM in AZ.
    assert (T0 : 0 <= IZR (nth i atan_tab 0%Z)). { apply IZR_le. assert (F : forallb (fun z => 0 <=? z)%Z atan_tab = true) by reflexivity. rewrite forallb_forall in F. apply Z.leb_le, F, nth_In. cbn; lia. }
    unfold angle. set (T := nth i atan_tab 0%Z) in *. clearbody T. set (at_ := atan (/ 2 ^ i)) in *.
    apply IZR_le in A1, A2. rewrite !plus_IZR, !mult_IZR in A1, A2. set (lo := at_lo B90 (2 ^ Z.of_nat i) (at_terms i)) in *. set (hi := at_hi B90 (2 ^ Z.of_nat i) (at_terms i)) in *. clearbody lo hi.
    unfold fxval. set (X := IZR (2 ^ 71) * (IZR B90 * at_)). assert (P71 : 0 < IZR (2 ^ 71)) by (apply (IZR_lt 0); reflexivity). assert (P90 : 0 < IZR B90) by (apply (IZR_lt 0); reflexivity).
    assert (Q1 : IZR T * (IZR B90 * PI) <= X + IZR (2 ^ (109 - Z.of_nat i)) + IZR (2 ^ 91)) by (unfold X; eapply Rle_trans; [apply Rmult_le_compat_l; [exact T0|apply PZ]|]; eapply Rle_trans; [exact A1|]; do 2 apply Rplus_le_compat_r; apply Rmult_le_compat_l; [lra|apply AZ]).
    assert (Q2 : X <= IZR T * (IZR B90 * PI) + IZR (2 ^ (109 - Z.of_nat i)) + IZR (2 ^ 91)) by (unfold X; eapply Rle_trans; [apply Rmult_le_compat_l; [lra|apply AZ]|]; eapply Rle_trans; [exact A2|]; do 2 apply Rplus_le_compat_r; apply Rmult_le_compat_l; [exact T0|apply PZ]).
    unfold X in *. unfold B90 in *. rewrite <- !bpow2_IZR in Q1, Q2 by lia. rewrite <- bpow2_IZR in P71, P90 by lia.
    assert (C1 : bpow2 (109 - Z.of_nat i) = bpow2 71 * bpow2 90 * bpow2 (- (52 + Z.of_nat i))) by (rewrite <- !bpow2_add; f_equal; lia).
    assert (C2 : bpow2 91 = bpow2 71 * bpow2 90 * bpow2 (-70)) by (rewrite <- !bpow2_add; f_equal).
    rewrite C1, C2 in *. assert (P : 0 < bpow2 71 * bpow2 90) by (apply Rmult_lt_0_compat; assumption).
    assert (E71 : bpow2 (- (71)) = / bpow2 71) by apply bpow2_opp. rewrite E71. set (g := bpow2 71) in *. set (h := bpow2 90) in *.
    apply Rabs_le. split; apply (Rmult_le_reg_l (g * h)); try exact P; replace (g * h * (PI * (IZR T * / g) - at_)) with (IZR T * (h * PI) - g * (h * at_)) by (field; lra); lra.
Qed.

(** Successive angles: at least half of the one before, and not greater. *)
Lemma tab_steps : forallb (fun i => (nth i atan_tab 0 <=? 2 * nth (S i) atan_tab 0 + 1) && (nth (S i) atan_tab 0 <=? nth i atan_tab 0) && (0 <=? nth (S i) atan_tab 0))%Z (seq 0 69) = true.
Proof. vm_compute. reflexivity. Qed.
Lemma tab_step i : (S i < 70)%nat -> (0 <= nth (S i) atan_tab 0 <= nth i atan_tab 0 /\ nth i atan_tab 0 <= 2 * nth (S i) atan_tab 0 + 1)%Z.
Proof. intros H. pose proof tab_steps as A. rewrite forallb_forall in A. specialize (A i ltac:(apply in_seq; lia)). rewrite !andb_true_iff, !Z.leb_le in A. lia. Qed.
Lemma tab_ratios : forallb (fun i => 5 * nth (S i) atan_tab 0 <=? 3 * nth i atan_tab 0)%Z (seq 0 69) = true.
Proof. vm_compute. reflexivity. Qed.
Lemma angle_ratio i : (S i < 70)%nat -> 0 <= angle (S i) <= 3 / 5 * angle i /\ angle i <= 2 * angle (S i) + bpow2 (- (71)).
Proof.
  intros H. destruct (tab_step i H) as (A & B). pose proof tab_ratios as R. rewrite forallb_forall in R. specialize (R i ltac:(apply in_seq; lia)). apply Z.leb_le in R. unfold angle, fxval. pose proof (bpow2_pos (- (71))) as P.
  destruct A as [A _]. apply IZR_le in A, B, R. rewrite !plus_IZR, ?mult_IZR in *. nra.
Qed.
Lemma angle_0 : angle 0 = / 4.
Proof. unfold angle, fxval. cbn [nth atan_tab]. rewrite bpow2_opp, bpow2_IZR by lia. change (2 ^ 71)%Z with (4 * 590295810358705651712)%Z. rewrite mult_IZR. field. Qed.
Lemma angle_small i : (i < 70)%nat -> 0 <= angle i <= / 4.
Proof.
  induction i as [|i IH]; intros H; [rewrite angle_0; lra|]. specialize (IH ltac:(lia)). pose proof (angle_ratio i H). lra.
Qed.

(** ** The gain *)
(** The square of the gain of n steps: the product of 1 + 4^-j for j < n. *)
Fixpoint gain2 (n : nat) : R := match n with O => 1 | S j => gain2 j * (1 + / 4 ^ j) end.
Fixpoint gain_lo (n : nat) : Z := match n with O => (2 ^ 120)%Z | S j => let g := gain_lo j in (g + g / 4 ^ Z.of_nat j)%Z end.
Fixpoint gain_hi (n : nat) : Z := match n with O => (2 ^ 120)%Z | S j => let g := gain_hi j in (g + (g / 4 ^ Z.of_nat j + 1))%Z end.
Lemma gain2_ge n : 1 <= gain2 n.
Proof. induction n as [|n IH]; cbn [gain2]; [lra|]. pose proof (Rinv_0_lt_compat _ (pow_lt 4 n ltac:(lra))). nra. Qed.
Lemma gain_Z n : IZR (gain_lo n) <= bpow2 120 * gain2 n <= IZR (gain_hi n) /\ (0 <= gain_lo n)%Z /\ (0 <= gain_hi n)%Z.
Proof.
  induction n as [|n (IH & I0 & I1)]; cbn [gain2 gain_lo gain_hi]; [rewrite bpow2_IZR by lia; repeat split; try lra; discriminate|].
  assert (P : (0 < 4 ^ Z.of_nat n)%Z) by (apply Z.pow_pos_nonneg; lia). assert (E : IZR (4 ^ Z.of_nat n) = 4 ^ n) by (rewrite pow_IZR; reflexivity). set (d := (4 ^ Z.of_nat n)%Z) in *.
  assert (Dp : 0 < IZR d) by (apply (IZR_lt 0); exact P). rewrite <- E. pose proof (Rinv_0_lt_compat _ Dp) as Ip.
  assert (F : forall g, (0 <= g)%Z -> IZR (g / d) <= IZR g * / IZR d <= IZR (g / d + 1) /\ (0 <= g / d)%Z).
  { intros g Hg. pose proof (Z.div_mod g d ltac:(lia)). pose proof (Z.mod_pos_bound g d P). repeat split; [| |apply Z.div_pos; lia]; apply (Rmult_le_reg_r (IZR d)); try exact Dp; rewrite Rmult_assoc, Rinv_l, Rmult_1_r by lra; rewrite <- mult_IZR; apply IZR_le; nia. }
  destruct (F _ I0) as [F0 F0']. destruct (F _ I1) as [F1 F1']. rewrite !plus_IZR in *. repeat split; try lia.
  - apply Rle_trans with (IZR (gain_lo n) * (1 + / IZR d)); [lra|]. rewrite <- Rmult_assoc. apply Rmult_le_compat_r; lra.
  - apply Rle_trans with (IZR (gain_hi n) * (1 + / IZR d)); [rewrite <- Rmult_assoc; apply Rmult_le_compat_r; lra|lra].
Qed.
(** K_n^2 times the square of the gain is within 2^-51 of 1, and the gain below 1.6468. *)
Fixpoint gains_ok (n : nat) (lo hi : Z) (ks : list Z) (c : nat) : bool :=
  match c with
  | O => true
  | S c => let k := hd 0%Z ks in
    ((2 ^ 262 - 2 ^ 211 <=? k * k * lo) && (k * k * hi <=? 2 ^ 262 + 2 ^ 211) && (hi <=? 27120 * 2 ^ 120 / 10000) && (0 <=? k) && (k <? 3 * 2 ^ 69)
     && gains_ok (S n) (lo + lo / 4 ^ Z.of_nat n) (hi + (hi / 4 ^ Z.of_nat n + 1)) (tl ks) c)%Z
  end.
Lemma gains_all : gains_ok 2 (gain_lo 2) (gain_hi 2) (skipn 2 k_tab) 68 = true.
Proof. vm_compute. reflexivity. Qed.
Lemma gains_ok_nth c : forall n ks, gains_ok n (gain_lo n) (gain_hi n) ks c = true -> forall i, (i < c)%nat ->
  let k := nth i ks 0%Z in (2 ^ 262 - 2 ^ 211 <= k * k * gain_lo (n + i) /\ k * k * gain_hi (n + i) <= 2 ^ 262 + 2 ^ 211 /\ gain_hi (n + i) <= 27120 * 2 ^ 120 / 10000 /\ 0 <= k < 3 * 2 ^ 69)%Z.
Proof.
  induction c as [|c IH]; intros n ks H i Hi; [lia|]. cbn [gains_ok] in H. rewrite !andb_true_iff, !Z.leb_le, Z.ltb_lt in H. destruct H as (((((H1 & H2) & H3) & H4) & H5) & H6). destruct i as [|i].
  - rewrite Nat.add_0_r. destruct ks; cbn [hd nth] in *; repeat split; assumption.
  - replace (n + S i)%nat with (S n + i)%nat by lia. specialize (IH (S n) (tl ks) H6 i ltac:(lia)). destruct ks as [|k ks]; [destruct i; exact IH|exact IH].
Qed.
Definition kR (n : nat) : R := fxval (k_val n) 71.
Lemma gain_near n : (2 <= n < 70)%nat -> Rabs (kR n * sqrt (gain2 n) - 1) <= bpow2 (-51) /\ gain2 n <= 2712 / 1000 /\ 0 <= kR n < 3 / 4.
Proof.
  intros Hn. pose proof (gains_ok_nth 68 2 _ gains_all (n - 2) ltac:(lia)) as H. cbv zeta in H. replace (2 + (n - 2))%nat with n in H by lia.
  assert (Ek : nth (n - 2) (skipn 2 k_tab) 0%Z = k_val n). { unfold k_val. destruct (Nat.leb_spec 70 n); [lia|]. replace n with (2 + (n - 2))%nat at 2 by lia. reflexivity. }
  rewrite Ek in H. destruct H as (H1 & H2 & H3 & H4). pose proof (gain_Z n) as ((G1 & G2) & _). unfold kR. set (k := k_val n) in *. clearbody k. pose proof (gain2_ge n) as G0. set (g := gain2 n) in *. clearbody g.
  apply IZR_le in H1, H2, H3. rewrite minus_IZR, !mult_IZR in H1. rewrite plus_IZR, !mult_IZR in H2. assert (P : 0 < bpow2 120) by apply bpow2_pos.
  assert (H3' : IZR (27120 * 2 ^ 120 / 10000) <= 2712 / 1000 * bpow2 120) by (rewrite bpow2_IZR by lia; vm_compute (27120 * 2 ^ 120 / 10000)%Z; vm_compute (2 ^ 120)%Z; lra).
  rewrite <- !bpow2_IZR in H1, H2 by lia. set (K := fxval k 71). assert (EK : IZR k = K * bpow2 71) by (unfold K, fxval; rewrite bpow2_opp; pose proof (bpow2_pos 71); field; lra).
  assert (K0 : 0 <= K < 3 / 4). { assert (P71 : 0 < bpow2 71) by apply bpow2_pos. destruct H4 as [H4 H5]. apply IZR_le in H4. apply IZR_lt in H5. rewrite mult_IZR, <- bpow2_IZR in H5 by lia. rewrite EK in H4, H5. replace (bpow2 71) with (bpow2 69 * 4) in * by (replace 4 with (bpow2 2) by (rewrite bpow2_IZR by lia; reflexivity); rewrite <- bpow2_add; f_equal). nra. }
  split; [|split; [nra|exact K0]].
  assert (KG : 1 - bpow2 (-51) <= K * K * g <= 1 + bpow2 (-51)).
  { assert (E262 : bpow2 262 = bpow2 71 * bpow2 71 * bpow2 120) by (rewrite <- !bpow2_add; reflexivity). assert (E211 : bpow2 211 = bpow2 71 * bpow2 71 * bpow2 120 * bpow2 (-51)) by (rewrite <- !bpow2_add; reflexivity).
    rewrite EK, E262, E211 in *. assert (P71 : 0 < bpow2 71) by apply bpow2_pos. set (s := bpow2 71) in *. set (r := bpow2 120) in *. set (e := bpow2 (-51)) in *.
    assert (Q : 0 < s * s * r) by (apply Rmult_lt_0_compat; [apply Rmult_lt_0_compat|]; assumption). assert (KK : 0 <= K * s * (K * s)) by apply Rle_0_sqr.
    pose proof (Rmult_le_compat_l _ _ _ KK G1). pose proof (Rmult_le_compat_l _ _ _ KK G2). split; apply (Rmult_le_reg_l (s * s * r)); try exact Q; nra. }
  set (s := K * sqrt g). assert (S0 : 0 <= s) by (apply Rmult_le_pos; [lra|apply sqrt_pos]). assert (SS : s * s = K * K * g) by (unfold s; replace (K * sqrt g * (K * sqrt g)) with (K * K * (sqrt g * sqrt g)) by ring; rewrite sqrt_sqrt by lra; ring).
  rewrite <- SS in KG. pose proof (bpow2_pos (-51)) as E0. set (e := bpow2 (-51)) in *. apply Rabs_le. split; apply Rnot_lt_le; intros X; nra.
Qed.
