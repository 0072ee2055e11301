(** The hyperbolic CORDIC registers: one iteration, the table entries, and facts about exp used by both directions. *)
From Coq Require Import Reals Lia Lra Psatz.
From Verif Require Import AcTypes AcFacts Spec SpecR SpecRFacts SoftFacts QrdThm MatrixProofs ShiftFacts Atan2Proofs PwlExpReal ActReal HcModel HcNum.
Local Open Scope R_scope.

(** ** Iterating over a prefix of a list *)
Lemma firstn_snoc {A} (d : A) n : forall l, (n < length l)%nat -> firstn (S n) l = firstn n l ++ [nth n l d].
Proof. induction n as [|n IH]; intros [|a l] H; cbn [length] in H; try lia; [reflexivity|]. cbn [firstn nth app]. f_equal. apply IH. lia. Qed.
Definition hc_at (m : hc_mode) (tab : list Z) (I J : Z) (st : Z * Z * Z) (n : nat) : Z * Z * Z :=
  fold_left (fun st s => hc_step tab I J (hc_dir m st) s st) (firstn n hc_dist) st.
Lemma hc_at_S m tab I J st n : (n < 60)%nat -> hc_at m tab I J st (S n) = hc_step tab I J (hc_dir m (hc_at m tab I J st n)) (hs n) (hc_at m tab I J st n).
Proof. intros H. unfold hc_at. rewrite (firstn_snoc 1%Z n hc_dist H), fold_left_app. reflexivity. Qed.

(** ** Sizes *)
Definition size_ok (J : Z) : bool :=
  let L := hc_L J in let w := hc_LW J in
  ((2 <=? L) && (L <=? 50) && (4 <=? w) && (w <=? 56) && (J <=? 3) || (4 <=? J) && (6 <=? L) && (L <=? 50) && (9 <=? w) && (w <=? 56) && (J + 1 <=? w - 4) && ((J <=? 5) || (J + 2 <=? w - 4)) && ((J <=? 13) || (J + 6 <=? w - 4)))%Z.
Lemma sizes_ok : forallb (fun j => size_ok (Z.of_nat j)) (seq 1 45) = true.
Proof. vm_compute. reflexivity. Qed.
Lemma size_of J : (1 <= J <= 45)%Z -> size_ok J = true.
Proof. intros H. pose proof sizes_ok as A. rewrite forallb_forall in A. specialize (A (Z.to_nat J) ltac:(apply in_seq; lia)). rewrite Z2Nat.id in A by lia. exact A. Qed.
Lemma size_L J : (1 <= J <= 45)%Z -> (2 <= hc_L J <= 50 /\ 4 <= hc_LW J <= 56)%Z.
Proof. intros H. pose proof (size_of J H) as A. unfold size_ok in A. cbv zeta in A. lia. Qed.
Lemma size_4 J : (4 <= J <= 45)%Z -> (6 <= hc_L J <= 50 /\ 9 <= hc_LW J <= 56 /\ J + 1 <= hc_LW J - 4)%Z.
Proof. intros H. pose proof (size_of J ltac:(lia)) as A. unfold size_ok in A. cbv zeta in A. lia. Qed.

(** ** Table entries *)
Definition htab (tab : list Z) (s : Z) : Z := nth (Z.to_nat (s - 1)) tab 0%Z.
Definition tab_bnd (tab : list Z) : Prop := forall s, (0 <= htab tab s < 2 ^ 63)%Z.
Lemma tab_bnd_of tab : forallb (fun t => (0 <=? t) && (t <? 2 ^ 63))%Z tab = true -> tab_bnd tab.
Proof.
  intros H s. rewrite forallb_forall in H. unfold htab. destruct (Nat.lt_ge_cases (Z.to_nat (s - 1)) (length tab)) as [Hi|Hi].
  - specialize (H _ (nth_In tab 0%Z Hi)). lia.
  - rewrite nth_overflow by exact Hi. lia.
Qed.
Lemma hc_tab_bnd : tab_bnd hc_tab. Proof. apply tab_bnd_of. reflexivity. Qed.
Lemma hc_tab2_bnd : tab_bnd hc_tab2. Proof. apply tab_bnd_of. reflexivity. Qed.
Lemma entry_val tab I J s : tab_bnd tab -> (1 <= J <= 45)%Z -> (0 <= I)%Z -> (I + 1 <= hc_LW J)%Z -> hc_entry tab I J s = (htab tab s / 2 ^ (63 - (hc_LW J - I - 1)))%Z.
Proof.
  intros HT HJ HI HL. destruct (size_L J HJ) as [_ HW]. specialize (HT s). unfold hc_entry. fold (htab tab s). set (w := hc_LW J) in *. set (T := htab tab s) in *.
  unfold hc_dp. fold w. rewrite (conv_dfmt_down w 0) by lia. cbn [wrap]. assert (D : (0 <= T / 2 ^ (63 - w) < 2 ^ w)%Z).
  { split; [apply Z.div_pos; [lia|apply Z.pow_pos_nonneg; lia]|]. apply Z.div_lt_upper_bound; [apply Z.pow_pos_nonneg; lia|]. rewrite <- Z.pow_add_r by lia. replace (63 - w + w)%Z with 63%Z by lia. lia. }
  replace (63 - (w - 0))%Z with (63 - w)%Z by lia. rewrite wrapu_id by exact D. rewrite conv_dfmt_down by lia. cbn [wrap]. replace (w - (w - (I + 1)))%Z with (I + 1)%Z by lia. rewrite Z.div_div by (try apply Z.pow_pos_nonneg; try apply Z.pow_nonzero; lia).
  rewrite <- Z.pow_add_r by lia. replace (63 - w + (I + 1))%Z with (63 - (w - I - 1))%Z by lia. apply wraps_id; [lia|]. split.
  - apply Z.le_trans with 0%Z; [pose proof (Z.pow_nonneg 2 (w - 1) ltac:(lia)); lia|]. apply Z.div_pos; [lia|apply Z.pow_pos_nonneg; lia].
  - apply Z.div_lt_upper_bound; [apply Z.pow_pos_nonneg; lia|]. rewrite <- Z.pow_add_r by lia. apply Z.lt_le_trans with (2 ^ 63)%Z; [lia|]. apply Z.pow_le_mono_r; lia.
Qed.
(** The same entry in units of 2^-63. *)
Definition t63 (tab : list Z) (f s : Z) : Z := (htab tab s / 2 ^ (63 - f) * 2 ^ (63 - f))%Z.
Lemma t63_le tab f s : (f <= 63)%Z -> tab_bnd tab -> (0 <= t63 tab f s <= htab tab s)%Z.
Proof.
  intros Hf HT. specialize (HT s). unfold t63. assert (P : (0 < 2 ^ (63 - f))%Z) by (apply Z.pow_pos_nonneg; lia). pose proof (Z.mul_div_le (htab tab s) _ P). pose proof (Z.div_pos (htab tab s) _ ltac:(lia) P). nia.
Qed.
Lemma t63_val tab f s : (f <= 63)%Z -> fxval (htab tab s / 2 ^ (63 - f)) f = fxval (t63 tab f s) 63.
Proof. intros Hf. unfold t63. pose proof (fxval_shift (htab tab s / 2 ^ (63 - f)) f (63 - f) ltac:(lia)) as E. replace (f + (63 - f))%Z with 63%Z in E by lia. symmetry. exact E. Qed.

(** ** Registers *)
Lemma shr_in W x s : (1 <= W)%Z -> (0 <= s)%Z -> in_range true W x -> in_range true W (Z.shiftr x s).
Proof.
  intros HW Hs H. unfold in_range, imin, imax in *. rewrite Z.shiftr_div_pow2 by exact Hs. assert (P : (1 <= 2 ^ s)%Z) by (apply (Z.pow_le_mono_r 2 0); lia). set (A := (2 ^ (W - 1))%Z) in *. set (B := (2 ^ s)%Z) in *.
  assert (1 <= A)%Z by (apply (Z.pow_le_mono_r 2 0); lia). split.
  - apply Z.div_le_lower_bound; [lia|]. nia.
  - apply Z.lt_le_pred. apply Z.div_lt_upper_bound; [lia|]. nia.
Qed.
Lemma shr_id W x s : (1 <= W)%Z -> (0 <= s)%Z -> in_range true W x -> shr true W x s = Z.shiftr x s.
Proof. intros HW Hs H. unfold shr. cbn [wrap]. apply wraps_id; [exact HW|]. pose proof (shr_in W x s HW Hs H) as R. unfold in_range, imin, imax in R. lia. Qed.
Lemma shr_val F x s : (0 <= s)%Z -> exists r, 0 <= r <= bpow2 (- F) /\ fxval (Z.shiftr x s) F = fxval x F * bpow2 (- s) - r.
Proof.
  intros Hs. destruct (shr_fx F x (Z.to_nat s)) as (r & Hr & _ & E). exists r. split; [exact Hr|]. rewrite Z2Nat.id in E by lia. rewrite E. f_equal. f_equal. rewrite bpow2_opp, bpow2_IZR by lia. f_equal.
  rewrite <- (Z2Nat.id s) at 2 by lia. symmetry. rewrite <- pow_IZR. reflexivity.
Qed.
Lemma dp_id I J x : (1 <= hc_LW J)%Z -> in_range true (hc_LW J) x -> conv (hc_dp I J) x (fF (hc_dp I J)) = x.
Proof.
  intros HW H. unfold hc_dp. rewrite conv_dfmt_same by reflexivity. cbn [wrap]. apply wraps_id; [exact HW|]. unfold in_range, imin, imax in H. lia.
Qed.
Lemma dp_range I J x : (1 <= hc_LW J)%Z -> Rabs (fxval x (hc_LW J - I - 1)) <= bpow2 I - bpow2 (- (hc_LW J - I - 1)) -> in_range true (hc_LW J) x.
Proof.
  intros HW H. apply (range_of (hc_dp I J)); [reflexivity|exact HW|]. unfold fF, hc_dp. cbn [dfmt fW fI]. replace (hc_LW J - (I + 1))%Z with (hc_LW J - I - 1)%Z by lia. replace (I + 1 - 1)%Z with I by lia. exact H.
Qed.

(** ** Exponentials *)
Lemma exp_2ath t : -1 < t < 1 -> exp (ath t) * exp (ath t) = (1 + t) / (1 - t).
Proof. intros H. rewrite <- exp_plus. unfold ath. replace (_ + _) with (ln (1 + t) - ln (1 - t)) by lra. rewrite <- ln_div by lra. apply exp_ln. apply Rdiv_lt_0_compat; lra. Qed.
Lemma sq_eq a b : 0 <= a -> 0 <= b -> a * a = b * b -> a = b.
Proof. intros Ha Hb E. apply Rsqr_inj; assumption. Qed.
Lemma one_plus t : 0 <= t < 1 -> 1 + t = sqrt (1 - t * t) * exp (ath t).
Proof.
  intros H. apply sq_eq; [lra|apply Rmult_le_pos; [apply sqrt_pos|apply Rlt_le, exp_pos]|]. transitivity (sqrt (1 - t * t) * sqrt (1 - t * t) * (exp (ath t) * exp (ath t))); [|ring]. rewrite sqrt_sqrt by nra. rewrite exp_2ath by lra. field. lra.
Qed.
Lemma one_minus t : 0 <= t < 1 -> 1 - t = sqrt (1 - t * t) * exp (- ath t).
Proof.
  intros H. rewrite exp_Ropp. pose proof (one_plus t H) as E. pose proof (exp_pos (ath t)) as P. assert (S : sqrt (1 - t * t) * sqrt (1 - t * t) = 1 - t * t) by (apply sqrt_sqrt; nra).
  apply (Rmult_eq_reg_r (1 + t)); [|lra]. rewrite E at 2. transitivity (sqrt (1 - t * t) * sqrt (1 - t * t)); [lra|]. field. lra.
Qed.
Lemma exp_ge x : 1 + x <= exp x.
Proof. destruct (Req_dec x 0) as [->|H]; [rewrite exp_0; lra|]. left. apply exp_ineq1. exact H. Qed.
Lemma exp_quad x : 0 <= x <= 1 -> exp x <= 1 + x + x * x.
Proof.
  intros H. apply exp_hi; [nra|]. assert (P : 0 < 1 + x + x * x + 1) by nra. apply (Rmult_le_reg_r (1 + x + x * x + 1)); [exact P|].
  rewrite Rmult_minus_distr_r, (Rmult_assoc 4), Rinv_l by lra. assert (0 <= x * x * (1 - x)) by (apply Rmult_le_pos; nra). nra.
Qed.
Lemma bpow2_half s : (1 <= s)%Z -> 0 < bpow2 (- s) <= / 2.
Proof. intros H. split; [apply bpow2_pos|]. replace (/ 2) with (bpow2 (-1)) by (transitivity (/ bpow2 1); [exact (bpow2_opp 1)|rewrite bpow2_1; reflexivity]). apply bpow2_le. lia. Qed.
Lemma ath_nonneg t : 0 <= t < 1 -> 0 <= ath t.
Proof. intros H. unfold ath. assert (ln (1 - t) <= ln (1 + t)) by (apply ln_le; lra). lra. Qed.
Lemma fx_sub a b F : fxval (a - b) F = fxval a F - fxval b F. Proof. unfold fxval. rewrite minus_IZR. ring. Qed.
