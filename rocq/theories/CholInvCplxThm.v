(** The error of the inverse that the complex ac_cholinv computes. *)
From Coq Require Import Reals Lia Lra Psatz.
From Verif Require Import AcTypes AcFacts Spec SpecFacts SpecR SpecRFacts SpecLin SpecCplx SpecLinC RtTypes DivModel DivProofs DivSpecs MatrixModel MatrixProofs MatCplxModel SoftFacts
  CholModel CholProofs CholReal CholThm CholStruct QrdProofs QrdThm CholInv CholCplxModel CholCplx CholCplxReal CholCplxThm CholInvCplxModel CholInvCplx.
Local Open Scope R_scope.

(** ** The real form of complex products *)
Lemma mul_emb a b c d M I J : mulR (2 * M) (emb a b) (emb c d) I J =
  emb (fun i j => sumR (fun k => a i k * c k j - b i k * d k j) M) (fun i j => sumR (fun k => a i k * d k j + b i k * c k j) M) I J.
Proof.
  unfold mulR. rewrite sumR_two. destruct (halves I) as (i & [-> | ->]), (halves J) as (j & [-> | ->]).
  - rewrite emb_ee. apply sumR_ext. intros k _. rewrite !emb_ee, emb_eo, emb_oe. ring.
  - rewrite emb_eo, <- sumR_opp. apply sumR_ext. intros k _. rewrite emb_ee, !emb_eo, emb_oo. ring.
  - rewrite emb_oe. apply sumR_ext. intros k _. rewrite !emb_oe, emb_ee, emb_oo. ring.
  - rewrite emb_oo. apply sumR_ext. intros k _. rewrite emb_oe, !emb_oo, emb_eo. ring.
Qed.
Lemma tr_emb a b I J : trR (emb a b) I J = emb (fun i j => a j i) (fun i j => - b j i) I J.
Proof. unfold trR. destruct (halves I) as (i & [-> | ->]), (halves J) as (j & [-> | ->]); rewrite ?emb_ee, ?emb_eo, ?emb_oe, ?emb_oo; ring. Qed.
Lemma id_emb I J : idR I J = emb idR (fun _ _ => 0) I J.
Proof.
  unfold idR. destruct (halves I) as (i & [-> | ->]), (halves J) as (j & [-> | ->]); rewrite ?emb_ee, ?emb_eo, ?emb_oe, ?emb_oo.
  - destruct (Nat.eqb_spec i j), (Nat.eqb_spec (2 * i) (2 * j)); lia || reflexivity.
  - destruct (Nat.eqb_spec (2 * i) (S (2 * j))); lia || ring.
  - destruct (Nat.eqb_spec (S (2 * i)) (2 * j)); lia || reflexivity.
  - destruct (Nat.eqb_spec i j), (Nat.eqb_spec (S (2 * i)) (S (2 * j))); lia || reflexivity.
Qed.
Lemma emb_near M a b c d e : (forall i j, (i < M)%nat -> (j < M)%nat -> Rabs (a i j - c i j) <= e /\ Rabs (b i j - d i j) <= e) ->
  forall I J, (I < 2 * M)%nat -> (J < 2 * M)%nat -> Rabs (emb a b I J - emb c d I J) <= e.
Proof.
  intros H I J HI HJ. destruct (halves I) as (i & [-> | ->]), (halves J) as (j & [-> | ->]); rewrite ?emb_ee, ?emb_eo, ?emb_oe, ?emb_oo; destruct (H i j ltac:(lia) ltac:(lia)); try assumption.
  replace (- b i j - - d i j) with (- (b i j - d i j)) by ring. rewrite Rabs_Ropp. assumption.
Qed.
Lemma emb_abs M a b e : (forall i j, (i < M)%nat -> (j < M)%nat -> Rabs (a i j) <= e /\ Rabs (b i j) <= e) -> forall I J, (I < 2 * M)%nat -> (J < 2 * M)%nat -> Rabs (emb a b I J) <= e.
Proof.
  intros H I J HI HJ. replace (emb a b I J) with (emb a b I J - emb (fun _ _ => 0) (fun _ _ => 0) I J).
  - apply (emb_near M); [|assumption|assumption]. intros i j Hi Hj. rewrite !Rminus_0_r. apply H; assumption.
  - replace (emb (fun _ _ => 0) (fun _ _ => 0) I J) with 0; [ring|]. destruct (halves I) as (i & [-> | ->]), (halves J) as (j & [-> | ->]); rewrite ?emb_ee, ?emb_eo, ?emb_oe, ?emb_oo; ring.
Qed.
Lemma emb_upper M a b : (forall i j, (i < j < M)%nat -> a i j = 0 /\ b i j = 0) -> (forall i, (i < M)%nat -> b i i = 0) -> forall I J, (I < J < 2 * M)%nat -> emb a b I J = 0.
Proof.
  intros H D I J HIJ. destruct (halves I) as (i & [-> | ->]), (halves J) as (j & [-> | ->]); rewrite ?emb_ee, ?emb_eo, ?emb_oe, ?emb_oo; try (apply H; lia).
  destruct (Nat.eq_dec i j) as [->|]; [rewrite D by lia; ring|]. destruct (H i j ltac:(lia)) as [_ ->]. ring.
Qed.

Lemma sq_abs a g : 0 <= g -> a * a <= g * g -> Rabs a <= g.
Proof. intros G H. apply Rabs_le. split; apply Rnot_lt_le; intros X; nra. Qed.

(** One element of the residual. *)
Lemma part_resid N u be ga S s l w wd : 0 <= u -> 0 < l <= be -> 0 <= be * ga -> 0 <= N -> Rabs (s - S) <= N * u -> Rabs S <= N * (be * ga) -> Rabs (w - - (s * wd)) <= u -> Rabs (wd - / l) <= u ->
  Rabs (S + l * w) <= N * u + be * u * (1 + N * (be * ga) + N * u).
Proof.
  intros U0 L0 BG N0 A1 N2 WJ DN. set (e1 := wd - / l) in *. set (e2 := w - - (s * wd)) in *.
  replace (S + l * w) with ((S - s) + (l * e2 - s * l * e1)) by (unfold e1, e2; field; lra). rewrite Rabs_minus_sym in A1.
  assert (LB : Rabs l <= be) by (rewrite Rabs_pos_eq; lra). assert (A2 : Rabs (l * e2) <= be * u) by (apply prod_abs; assumption).
  assert (A3 : Rabs s <= N * (be * ga) + N * u) by (apply Rabs_le_both in A1, N2; apply Rabs_le; lra).
  assert (A4 : Rabs (s * l * e1) <= (N * (be * ga) + N * u) * be * u) by (apply prod_abs; [apply prod_abs; assumption|assumption]).
  apply Rabs_le_both in A1, A2, A4. apply Rabs_le. lra.
Qed.

Section Inv.
Variables (MW : Z) (M : nat) (ft : fmt) (L : nat -> nat -> gi) (junk : Z) (V : nat -> nat -> gi) (be ga : R).
Hypotheses (HW : (1 <= fW ft)%Z) (HS : fS ft = true) (HO : fO ft = SAT) (HF : (0 <= fF ft)%Z).
Hypothesis HV : cinv_eqs false MW M ft L junk V.
Hypothesis HLr : forall j, (j < M)%nat -> in_range true (fW ft) (fst (L j j)).
Let u := bpow2 (- fF ft).
Let lr j k := fxval (fst (L j k)) (fF ft).
Let li j k := fxval (snd (L j k)) (fF ft).
Let wr k i := low i k (fxval (fst (V k i)) (fF ft)).
Let wi k i := low i k (fxval (snd (V k i)) (fF ft)).
Hypothesis Hl : forall j k, (j < M)%nat -> (k < M)%nat -> Rabs (lr j k) <= be /\ Rabs (li j k) <= be.
Hypothesis Hlp : forall j, (j < M)%nat -> 0 < lr j j.
Hypothesis Hld : forall j, (j < M)%nat -> li j j = 0.
Hypothesis Hup : forall j k, (j < k < M)%nat -> lr j k = 0 /\ li j k = 0.
Hypothesis Hw : forall k i, (i <= k < M)%nat -> Rabs (fxval (fst (V k i)) (fF ft)) <= ga /\ Rabs (fxval (snd (V k i)) (fF ft)) <= ga.
Hypothesis Hga : ga < top ft.
Hypothesis Hroom : INR (2 * M) * (be * ga) + INR (2 * M) * u <= top ft.

Lemma cbe0 : (1 <= M)%nat -> 0 <= be /\ 0 <= ga.
Proof. intros H. destruct (Hl 0 0 ltac:(lia) ltac:(lia)) as [A _]. destruct (Hw 0 0 ltac:(lia)) as [B _]. pose proof (Rabs_pos (lr 0%nat 0%nat)). pose proof (Rabs_pos (fxval (fst (V 0%nat 0%nat)) (fF ft))). lra. Qed.
Lemma cw_le k i : (k < M)%nat -> Rabs (wr k i) <= ga /\ Rabs (wi k i) <= ga.
Proof. intros Hk. unfold wr, wi, low. destruct (Nat.leb_spec i k); [apply Hw; lia|]. rewrite Rabs_R0. pose proof (cbe0 ltac:(lia)). lra. Qed.
Lemma crecip_parts j r : cinv_recip false MW ft junk (L j j) = Some r -> snd r = 0%Z /\ inv_recip false ft junk (fst (L j j)) = Some (fst r).
Proof.
  unfold cinv_recip. destruct (inv_recip false ft junk (fst (L j j))) as [x|]; cbn [obind]; [|discriminate]. intros E. injection E as <-. cbn [fst snd]. split; [apply AbsProofs.conv_0, HW|reflexivity].
Qed.
Lemma cdiag_near j : (j < M)%nat -> Rabs (wr j j - / lr j j) <= u /\ wi j j = 0.
Proof.
  intros Hj. destruct (HV j j ltac:(lia)) as (r & Er & EV). rewrite Nat.eqb_refl in EV. destruct (crecip_parts j r Er) as [R0 R1]. unfold wr, wi, low. rewrite Nat.leb_refl, EV, R0. split; [|apply fxval_0].
  apply sat_out; try assumption.
  - exact (recip_conv M ft (fun i j => fst (L i j)) junk (fun i j => fst (V i j)) be ga HW HS HO HF HLr (fun j k H1 H2 => proj1 (Hl j k H1 H2)) Hlp (fun j k H => proj1 (Hup j k H)) (fun k i H => proj1 (Hw k i H)) j (fst r) Hj R1).
  - rewrite <- EV. eapply Rle_lt_trans; [apply (Hw j j); lia|exact Hga].
Qed.

Lemma citerm_R i j k : fxval (fst (citerm L V i j k)) (2 * fF ft) = (if Nat.ltb k j then lr j k * wr k i - li j k * wi k i else 0) /\
  fxval (snd (citerm L V i j k)) (2 * fF ft) = (if Nat.ltb k j then lr j k * wi k i + li j k * wr k i else 0).
Proof.
  unfold citerm, wr, wi, low, lr, li. replace (2 * fF ft)%Z with (fF ft + fF ft)%Z by lia.
  destruct (Nat.ltb k j), (Nat.leb i k); cbn [andb fst snd c_mul]; unfold Z.sub; rewrite ?fxval_add, ?fxval_opp, ?fxval_mul, ?fxval_0; split; ring.
Qed.
Lemma two_abs a b c d x y : Rabs a <= x -> Rabs b <= y -> Rabs c <= x -> Rabs d <= y -> Rabs (a * b + c * d) <= 2 * (x * y) /\ Rabs (a * b - c * d) <= 2 * (x * y).
Proof.
  intros Ha Hb Hc Hd. pose proof (prod_abs a b x y Ha Hb) as H1. pose proof (prod_abs c d x y Hc Hd) as H2. apply Rabs_le_both in H1, H2. split; apply Rabs_le; lra.
Qed.
Lemma INR2 n : INR (2 * n) = 2 * INR n. Proof. rewrite mult_INR. reflexivity. Qed.
(** One part of the sum. *)
Lemma cpart_near (t : nat -> Z) (q : nat -> R) i j : (i < j < M)%nat -> (forall k, fxval (t k) (2 * fF ft) = if Nat.ltb k j then q k else 0) -> (forall k, (k < j)%nat -> Rabs (q k) <= 2 * (be * ga)) ->
  Rabs (fxval (fold_left (fun s k => acc_add ft s (t k) (2 * fF ft)) (seq 0 (S j)) (conv ft 0 0)) (fF ft) - sumR q j) <= INR (2 * M) * u /\ Rabs (sumR q j) <= INR (2 * M) * (be * ga).
Proof.
  intros Hij Ht Hq. destruct (cbe0 ltac:(lia)) as [B0 G0]. assert (BG : 0 <= be * ga) by (apply Rmult_le_pos; assumption). pose proof (bpow2_pos (- fF ft)) as U0. fold u in U0. pose proof (INR2 M) as I2. pose proof (pos_INR M) as M0.
  assert (PS : forall n, (n <= S j)%nat -> Rabs (sumR (fun k => fxval (t k) (2 * fF ft)) n) <= INR (2 * M) * (be * ga)).
  { intros n Hn. eapply Rle_trans; [apply (sumR_abs_le _ n (2 * (be * ga)))|].
    - intros k Hk. rewrite Ht. destruct (Nat.ltb_spec k j); [apply Hq; lia|rewrite Rabs_R0; lra].
    - eapply Rle_trans; [apply (n_le n M); [lia|lra]|]. rewrite I2. lra. }
  assert (E : sumR (fun k => fxval (t k) (2 * fF ft)) (S j) = sumR q j).
  { cbn [sumR]. rewrite Ht, Nat.ltb_irrefl, Rplus_0_r. apply sumR_ext. intros k Hk. rewrite Ht. replace (Nat.ltb k j) with true by (symmetry; apply Nat.ltb_lt; exact Hk). reflexivity. }
  assert (NU : INR (S j) * u <= INR (2 * M) * u) by (apply n_le; [lia|lra]).
  pose proof (chain_near ft HW HS HO t (2 * fF ft) (S j) _ PS ltac:(fold u; lra)) as N. rewrite E in N. fold u in N. split.
  - eapply Rle_trans; [exact N|exact NU].
  - rewrite <- E. apply PS. lia.
Qed.

Notation resid := (inv_res (2 * M) ft be ga).
Lemma clv_near i j : (i < M)%nat -> (j < M)%nat ->
  Rabs (sumR (fun k => lr j k * wr k i - li j k * wi k i) M - idR i j) <= resid /\ Rabs (sumR (fun k => lr j k * wi k i + li j k * wr k i) M) <= resid.
Proof.
  intros Hi Hj. destruct (cbe0 ltac:(lia)) as [B0 G0]. pose proof (bpow2_pos (- fF ft)) as U0. fold u in U0. assert (BG : 0 <= be * ga) by (apply Rmult_le_pos; assumption).
  assert (BU : 0 <= be * u) by (apply Rmult_le_pos; lra). pose proof (pos_INR (2 * M)) as M0. assert (MU : 0 <= INR (2 * M) * u) by (apply Rmult_le_pos; lra). assert (MB : 0 <= INR (2 * M) * (be * ga)) by (apply Rmult_le_pos; assumption).
  assert (Q0 : 0 <= be * u * (INR (2 * M) * (be * ga))) by (apply Rmult_le_pos; assumption). assert (Q1 : 0 <= be * u * (INR (2 * M) * u)) by (apply Rmult_le_pos; assumption).
  rewrite (sumR_cut _ (S j) M) by (lia || (intros k Hk; destruct (Hup j k ltac:(lia)) as [-> ->]; ring)). rewrite (sumR_cut (fun k => lr j k * wi k i + li j k * wr k i) (S j) M) by (lia || (intros k Hk; destruct (Hup j k ltac:(lia)) as [-> ->]; ring)).
  cbn [sumR]. rewrite (Hld j Hj). destruct (cdiag_near j Hj) as [DN DI]. destruct (Hl j j Hj Hj) as [LB _]. pose proof (Hlp j Hj) as LP. rewrite Rabs_pos_eq in LB by lra.
  unfold idR. destruct (Nat.lt_trichotomy i j) as [H|[->|H]].
  - replace (Nat.eqb i j) with false by (symmetry; apply Nat.eqb_neq; lia). destruct (HV i j ltac:(lia)) as (r & Er & EV). destruct (crecip_parts j r Er) as [R0 _].
    replace (Nat.eqb i j) with false in EV by (symmetry; apply Nat.eqb_neq; lia). destruct (HV j j ltac:(lia)) as (r' & Er' & EV'). rewrite Nat.eqb_refl in EV'. rewrite Er in Er'. injection Er' as <-.
    destruct (cpart_near (fun k => fst (citerm L V i j k)) (fun k => lr j k * wr k i - li j k * wi k i) i j ltac:(lia)) as [N1 N2].
    { intros k. apply citerm_R. } { intros k Hk. destruct (Hl j k Hj ltac:(lia)), (cw_le k i ltac:(lia)). apply two_abs; assumption. }
    destruct (cpart_near (fun k => snd (citerm L V i j k)) (fun k => lr j k * wi k i + li j k * wr k i) i j ltac:(lia)) as [N3 N4].
    { intros k. apply citerm_R. } { intros k Hk. destruct (Hl j k Hj ltac:(lia)), (cw_le k i ltac:(lia)). apply two_abs; assumption. }
    unfold cisum in EV. rewrite cfold_parts in EV. cbn [fst snd c_conv] in EV. set (sr := fold_left _ _ _) in EV, N1. set (si := fold_left _ _ _) in EV, N3.
    assert (ER : fxval (fst r) (fF ft) = wr j j) by (unfold wr, low; rewrite Nat.leb_refl, EV'; reflexivity).
    assert (LE : Nat.leb i j = true) by (apply Nat.leb_le; lia). destruct (Hw j i ltac:(lia)) as [G1 G2].
    assert (PART : forall s v, v = conv ft (- (s * fst r)) (2 * fF ft) -> Rabs (fxval v (fF ft)) <= ga -> Rabs (fxval v (fF ft) - - (fxval s (fF ft) * wr j j)) <= u).
    { intros s v -> Hv. replace (- (fxval s (fF ft) * wr j j)) with (fxval (- (s * fst r)) (2 * fF ft)) by (replace (2 * fF ft)%Z with (fF ft + fF ft)%Z by lia; rewrite fxval_opp, fxval_mul, ER; reflexivity).
      apply sat_out; try assumption; [apply conv_R, HW|]. eapply Rle_lt_trans; [exact Hv|exact Hga]. }
    unfold c_conv, c_opp, c_mul in EV. cbn [fst snd] in EV. rewrite R0 in EV.
    pose proof (PART sr (fst (V j i)) ltac:(rewrite EV; cbn [fst]; f_equal; ring) G1) as W1. pose proof (PART si (snd (V j i)) ltac:(rewrite EV; cbn [snd]; f_equal; ring) G2) as W2.
    assert (E1 : wr j i = fxval (fst (V j i)) (fF ft)) by (unfold wr, low; rewrite LE; reflexivity). assert (E2 : wi j i = fxval (snd (V j i)) (fF ft)) by (unfold wi, low; rewrite LE; reflexivity). rewrite <- E1 in W1. rewrite <- E2 in W2.
    split.
    + match goal with |- Rabs (?S + (lr j j * wr j i - 0 * wi j i) - 0) <= _ => replace (S + (lr j j * wr j i - 0 * wi j i) - 0) with (S + lr j j * wr j i) by ring end.
      apply (part_resid (INR (2 * M)) u be ga _ (fxval sr (fF ft)) (lr j j) (wr j i) (wr j j)); try assumption; try lra. 
    + match goal with |- Rabs (?S + (lr j j * wi j i + 0 * wr j i)) <= _ => replace (S + (lr j j * wi j i + 0 * wr j i)) with (S + lr j j * wi j i) by ring end.
      apply (part_resid (INR (2 * M)) u be ga _ (fxval si (fF ft)) (lr j j) (wi j i) (wr j j)); try assumption; try lra.
  - rewrite Nat.eqb_refl, DI.
    assert (Z1 : sumR (fun k => lr j k * wr k j - li j k * wi k j) j = 0) by (rewrite (sumR_ext _ (fun _ => 0 * 0)), (sumR_scal 0 (fun _ => 0)) by (intros k Hk; unfold wr, wi, low; destruct (Nat.leb_spec j k); [lia|ring]); ring).
    assert (Z2 : sumR (fun k => lr j k * wi k j + li j k * wr k j) j = 0) by (rewrite (sumR_ext _ (fun _ => 0 * 0)), (sumR_scal 0 (fun _ => 0)) by (intros k Hk; unfold wr, wi, low; destruct (Nat.leb_spec j k); [lia|ring]); ring).
    rewrite Z1, Z2. replace (0 + (lr j j * wr j j - 0 * 0) - 1) with (lr j j * (wr j j - / lr j j)) by (field; lra).
    assert (A : Rabs (lr j j * (wr j j - / lr j j)) <= be * u) by (apply prod_abs; [rewrite Rabs_pos_eq; lra|exact DN]).
    replace (0 + (lr j j * 0 + 0 * wr j j)) with 0 by ring. rewrite Rabs_R0. unfold inv_res; fold u. split; lra.
  - replace (Nat.eqb i j) with false by (symmetry; apply Nat.eqb_neq; lia).
    assert (W0 : forall k, (k <= j)%nat -> wr k i = 0 /\ wi k i = 0) by (intros k Hk; unfold wr, wi, low; destruct (Nat.leb_spec i k); [lia|split; reflexivity]).
    assert (Z1 : sumR (fun k => lr j k * wr k i - li j k * wi k i) j = 0) by (rewrite (sumR_ext _ (fun _ => 0 * 0)), (sumR_scal 0 (fun _ => 0)) by (intros k Hk; destruct (W0 k ltac:(lia)) as [-> ->]; ring); ring).
    assert (Z2 : sumR (fun k => lr j k * wi k i + li j k * wr k i) j = 0) by (rewrite (sumR_ext _ (fun _ => 0 * 0)), (sumR_scal 0 (fun _ => 0)) by (intros k Hk; destruct (W0 k ltac:(lia)) as [-> ->]; ring); ring).
    rewrite Z1, Z2. destruct (W0 j ltac:(lia)) as [-> ->]. replace (0 + (lr j j * 0 - 0 * 0) - 0) with 0 by ring. replace (0 + (lr j j * 0 + 0 * 0)) with 0 by ring. rewrite Rabs_R0. unfold inv_res; fold u. split; lra.
Qed.
End Inv.

(** ** The product *)
Section Prod.
Variables (M : nat) (ft fo : fmt) (V : nat -> nat -> gi) (ga : R).
Hypotheses (HW : (1 <= fW ft)%Z) (HS : fS ft = true) (HO : fO ft = SAT) (HWo : (1 <= fW fo)%Z) (HSo : fS fo = true) (HOo : fO fo = SAT).
Let u := bpow2 (- fF ft).
Let uo := bpow2 (- fF fo).
Let wr k i := low i k (fxval (fst (V k i)) (fF ft)).
Let wi k i := low i k (fxval (snd (V k i)) (fF ft)).
Lemma cpterm_R i j k : fxval (fst (cpterm V i j k)) (2 * fF ft) = wr k i * wr k j + wi k i * wi k j /\ fxval (snd (cpterm V i j k)) (2 * fF ft) = wr k i * wi k j - wi k i * wr k j.
Proof.
  unfold cpterm, wr, wi, low. replace (2 * fF ft)%Z with (fF ft + fF ft)%Z by lia.
  destruct (Nat.ltb_spec k j), (Nat.ltb_spec k i), (Nat.leb_spec i k), (Nat.leb_spec j k); try lia; cbn [orb fst snd c_mul c_conj]; unfold Z.sub; rewrite ?fxval_add, ?fxval_opp, ?fxval_mul, ?fxval_opp, ?fxval_0; split; ring.
Qed.
Lemma cpart_prod (t : nat -> Z) (q : nat -> R) : (1 <= M)%nat -> 0 <= ga -> (forall k, fxval (t k) (2 * fF ft) = q k) -> (forall k, (k < M)%nat -> Rabs (q k) <= 2 * (ga * ga)) ->
  INR (2 * M) * (ga * ga) + INR (2 * M) * u <= top ft -> INR (2 * M) * (ga * ga) + INR (2 * M) * u <= top fo ->
  Rabs (fxval (conv fo (fold_left (fun s k => acc_add ft s (t k) (2 * fF ft)) (seq 0 M) (conv ft 0 0)) (fF ft)) (fF fo) - sumR q M) <= INR (2 * M) * u + uo.
Proof.
  intros HM G0 Ht Hq T1 T2. assert (GG : 0 <= ga * ga) by (apply Rmult_le_pos; assumption). pose proof (INR2 M) as I2. pose proof (pos_INR M) as M0. pose proof (bpow2_pos (- fF ft)) as U0. fold u in U0. assert (MU : 0 <= INR M * u) by (apply Rmult_le_pos; lra).
  assert (PS : forall n, (n <= M)%nat -> Rabs (sumR (fun k => fxval (t k) (2 * fF ft)) n) <= INR (2 * M) * (ga * ga)).
  { intros n Hn. eapply Rle_trans; [apply (sumR_abs_le _ n (2 * (ga * ga)))|].
    - intros k Hk. rewrite Ht. apply Hq. lia.
    - eapply Rle_trans; [apply (n_le n M); [lia|lra]|]. rewrite I2. lra. }
  assert (MU2 : INR M * u <= INR (2 * M) * u) by (rewrite I2; lra). pose proof (chain_near ft HW HS HO t (2 * fF ft) M _ PS ltac:(fold u; lra)) as N. fold u in N. specialize (PS M (le_n M)). rewrite (sumR_ext _ q) in PS, N by (intros k _; apply Ht).
  set (s := fold_left _ _ _) in *. apply Rabs_le_both in N, PS. pose proof (sat_in fo HWo HSo HOo _ _ (conv_R fo s (fF ft) HWo) ltac:(apply Rabs_le; lra)) as N'. fold uo in N'. apply Rabs_le_both in N'. apply Rabs_le. lra.
Qed.
Lemma cprod_ok : (1 <= M)%nat -> (forall k i, (k < M)%nat -> Rabs (wr k i) <= ga /\ Rabs (wi k i) <= ga) -> INR (2 * M) * (ga * ga) + INR (2 * M) * u <= top ft -> INR (2 * M) * (ga * ga) + INR (2 * M) * u <= top fo ->
  forall i j, (i < M)%nat -> (j < M)%nat -> Rabs (fxval (fst (cinv_prod M ft fo V i j)) (fF fo) - sumR (fun k => wr k i * wr k j + wi k i * wi k j) M) <= INR (2 * M) * u + uo /\
    Rabs (fxval (snd (cinv_prod M ft fo V i j)) (fF fo) - sumR (fun k => wr k i * wi k j - wi k i * wr k j) M) <= INR (2 * M) * u + uo.
Proof.
  intros HM Hw Ht Hto i j Hi Hj. assert (G0 : 0 <= ga) by (eapply Rle_trans; [apply Rabs_pos|apply (Hw 0%nat 0%nat); lia]). rewrite cinv_prod_eq, cfold_parts. cbn [fst snd c_conv]. unfold c_conv; cbn [fst snd]. split.
  - apply (cpart_prod (fun k => fst (cpterm V i j k))); try assumption; [intros k; apply cpterm_R|]. intros k Hk. destruct (Hw k i Hk), (Hw k j Hk). apply two_abs; assumption.
  - apply (cpart_prod (fun k => snd (cpterm V i j k))); try assumption; [intros k; apply cpterm_R|]. intros k Hk. destruct (Hw k i Hk), (Hw k j Hk). apply two_abs; assumption.
Qed.
Lemma cdiag_bound g : (1 <= M)%nat -> 0 <= ga -> g + uo + INR (2 * M) * u <= ga * ga -> INR (2 * M) * (ga * ga) + INR (2 * M) * u <= top ft -> INR (2 * M) * (ga * ga) + INR (2 * M) * u <= top fo ->
  forall i, (i < M)%nat -> fxval (fst (cinv_prod M ft fo V i i)) (fF fo) <= g -> forall k, (k < M)%nat -> Rabs (wr k i) <= ga /\ Rabs (wi k i) <= ga.
Proof.
  intros HM G0 Hg Ht Hto i Hi Ho k Hk. assert (GG : 0 <= ga * ga) by (apply Rmult_le_pos; assumption). pose proof (bpow2_pos (- fF ft)) as U0. pose proof (bpow2_pos (- fF fo)) as U1. fold u in U0. fold uo in U1. pose proof (INR2 M) as I2. rewrite I2 in *.
  assert (M1 : 1 <= INR M) by (apply (le_INR 1); exact HM). assert (u <= INR M * u) by (rewrite <- (Rmult_1_l u) at 1; apply Rmult_le_compat_r; lra). assert (ga * ga <= INR M * (ga * ga)) by (rewrite <- (Rmult_1_l (ga * ga)) at 1; apply Rmult_le_compat_r; lra).
  assert (P0 : forall k, 0 <= wr k i * wr k i + wi k i * wi k i) by (intros c; pose proof (Rle_0_sqr (wr c i)); pose proof (Rle_0_sqr (wi c i)); unfold Rsqr in *; lra).
  assert (SQ : sumR (fun k => wr k i * wr k i + wi k i * wi k i) M <= ga * ga).
  { apply Rnot_lt_le. intros H1. set (S := sumR (fun k => wr k i * wr k i + wi k i * wi k i) M) in *.
    set (a := Rmin S (Rmin (top ft) (top fo))). assert (A1 : a <= S /\ a <= top ft /\ a <= top fo /\ ga * ga < a) by (unfold a, Rmin; destruct (Rle_dec (top ft) (top fo)); destruct (Rle_dec _ _); repeat split; lra).
    pose proof (chain_mono ft HW HS HO (fun k => fst (cpterm V i i k)) (2 * fF ft) M) as N. rewrite (sumR_ext _ (fun k => wr k i * wr k i + wi k i * wi k i)) in N by (intros; apply cpterm_R). fold S u in N.
    specialize (N ltac:(intros c _; rewrite (proj1 (cpterm_R i i c)); apply P0) a ltac:(lra) ltac:(lra) ltac:(lra)).
    rewrite cinv_prod_eq, cfold_parts in Ho. unfold c_conv in Ho. cbn [fst snd] in Ho.
    set (s := fold_left _ _ _) in *. pose proof (sat_ge fo HWo HSo HOo _ _ (a - INR M * u) (conv_R fo s (fF ft) HWo) N ltac:(lra) ltac:(lra)) as N'. fold uo in N'. lra. }
  pose proof (sumR_entry (fun k => wr k i * wr k i + wi k i * wi k i) M k ltac:(intros; apply P0) Hk) as E. cbv beta in E. pose proof (Rle_0_sqr (wr k i)) as E1. pose proof (Rle_0_sqr (wi k i)) as E2. unfold Rsqr in E1, E2.
  split; apply sq_abs; lra.
Qed.
End Prod.

(** ** The inverse *)
Lemma ccholinv_near MW M fa fo ft A V0 j1 j2 b be ga g : let fi := imd_fmt ft 0 0 RND SAT in
  let P := fun i j => fxval (fst (A i j)) (fF fa) in let N := fun i j => fxval (snd (A i j)) (fF fa) in
  chol_types ft fi -> (2 * fW ft <= MW)%Z -> chol_room M fi b <= bpow2 (fI fi - 2) -> hermitian M P N ->
  (forall i j, (i < M)%nat -> (j < M)%nat -> Rabs (P i j) <= b /\ Rabs (N i j) <= b) ->
  b + chol_err M ft fi b <= be * be -> g + bpow2 (- fF fo) + INR (2 * M) * bpow2 (- fF ft) <= ga * ga -> inv_room (2 * M) ft fo be ga ->
  exists out, ccholinv false false MW M fa fo ft A V0 j1 j2 = Some out /\
    let X := fun i j => fxval (fst (out i j)) (fF fo) in let Y := fun i j => fxval (snd (out i j)) (fF fo) in
    ((forall i, (i < M)%nat -> X i i <= g) -> forall i j, (i < M)%nat -> (j < M)%nat ->
      Rabs (sumR (fun k => P i k * X k j - N i k * Y k j) M - (if Nat.eqb i j then 1 else 0)) <= inv_err (2 * M) ft fo (chol_err M ft fi b) be ga /\
      Rabs (sumR (fun k => P i k * Y k j + N i k * X k j) M) <= inv_err (2 * M) ft fo (chol_err M ft fi b) be ga /\
      Rabs (Y i j + Y j i) <= 2 * (INR (2 * M) * bpow2 (- fF ft) + bpow2 (- fF fo))).
Proof.
  intros fi P N TK HMW HB HH HA Hbe Hga [HM2 HWo HSo HOo B0 G0 R1 R2 R3 R4 R5]. assert (HM : (1 <= M)%nat) by lia. pose proof (tk_wo _ _ TK) as HW. pose proof (tk_so _ _ TK) as HS. pose proof (tk_oo _ _ TK) as HO. assert (HF : (0 <= fF ft)%Z) by (pose proof (tk_fra _ _ TK) as X; lia).
  destruct (ccholinv_char false false MW M fa fo ft A V0 j1 j2 ltac:(lia) HMW) as (outL & V & EL & HV & E). eexists. split; [exact E|]. intros X Y Hd.
  assert (HWg : forall k i, (k < M)%nat -> (i < M)%nat -> Rabs (low i k (fxval (fst (V k i)) (fF ft))) <= ga /\ Rabs (low i k (fxval (snd (V k i)) (fF ft))) <= ga) by (intros k c Hk Hc; apply (cdiag_bound M ft fo V ga ltac:(lia) HS HO HWo HSo HOo g HM G0 Hga R3 R4 c Hc (Hd c Hc) k Hk)).
  assert (HWl : forall k i, (i <= k < M)%nat -> Rabs (fxval (fst (V k i)) (fF ft)) <= ga /\ Rabs (fxval (snd (V k i)) (fF ft)) <= ga).
  { intros k c Hk. specialize (HWg k c ltac:(lia) ltac:(lia)). unfold low in HWg. destruct (Nat.leb_spec c k); [exact HWg|lia]. }
  destruct (cchol_exact M fa ft fi A j1 b TK HB ltac:(intros i j Hij; destruct (HA i j ltac:(lia) ltac:(lia)); split; [assumption|intros _; assumption])) as (outL' & EL' & [(L & HL1 & HL2 & HL3 & HL4)|HZ] & _); fold fi in EL; rewrite EL in EL'; injection EL' as <-.
  2:{ exfalso. destruct (HV 0%nat 0%nat ltac:(lia)) as (r & Er & EV). cbn [Nat.eqb] in EV. unfold cchol_l in Er. rewrite HZ in Er by lia. unfold cinv_recip in Er. cbn [fst] in Er. unfold inv_recip in Er. rewrite HS in Er. rewrite div_sfx_zero in Er. cbn [Z.ltb Z.compare obind] in Er. injection Er as Er.
    destruct (HWl 0%nat 0%nat ltac:(lia)) as [Q _]. rewrite EV, <- Er in Q. cbn [fst] in Q. unfold highest in Q. rewrite HS in Q. pose proof (top_max ft ltac:(lia) HS) as T. rewrite HS in T. unfold imax in T. rewrite T in Q. apply Rabs_le_both in Q. lra. }
  assert (CL : forall i j, (i < M)%nat -> (j < M)%nat -> cchol_l outL i j = L i j) by (intros a c Ha Hc; unfold cchol_l; rewrite HL1 by assumption; reflexivity).
  set (lr := fun j k => fxval (fst (cchol_l outL j k)) (fF ft)). set (li := fun j k => fxval (snd (cchol_l outL j k)) (fF ft)). set (wr := fun k i => low i k (fxval (fst (V k i)) (fF ft))). set (wi := fun k i => low i k (fxval (snd (V k i)) (fF ft))).
  assert (FA : forall i j, (i < M)%nat -> (j < M)%nat -> Rabs (P i j - sumR (fun k => lr i k * lr j k + li i k * li j k) M) <= chol_err M ft fi b /\ Rabs (N i j - sumR (fun k => li i k * lr j k - lr i k * li j k) M) <= chol_err M ft fi b).
  { assert (FL : forall i j, (j <= i < M)%nat -> Rabs (P i j - sumR (fun k => lr i k * lr j k + li i k * li j k) M) <= chol_err M ft fi b /\ Rabs (N i j - sumR (fun k => li i k * lr j k - lr i k * li j k) M) <= chol_err M ft fi b).
    { intros a c Hac. destruct (HL4 a c Hac) as [Q1 Q2]. unfold dotCr, dotCi in *.
      rewrite (sumR_ext _ (fun k => lr a k * lr c k + li a k * li c k)) in Q1 by (intros k Hk; unfold lr, li; rewrite !CL by lia; reflexivity).
      rewrite (sumR_ext _ (fun k => li a k * lr c k - lr a k * li c k)) in Q2 by (intros k Hk; unfold lr, li; rewrite !CL by lia; reflexivity). split; [exact Q1|].
      destruct (Nat.eq_dec a c) as [->|]; [|apply Q2; lia]. destruct (HH c c ltac:(lia) ltac:(lia)) as [_ E2]. rewrite (sumR_ext _ (fun k => 0 * 0)) by (intros; ring). rewrite sumR_scal.
      replace (N c c) with 0 by lra. rewrite Rmult_0_l, Rminus_0_r, Rabs_R0. eapply Rle_trans; [apply Rabs_pos|exact Q1]. }
    intros a c Ha Hc. destruct (Nat.le_ge_cases c a); [apply FL; lia|]. destruct (HH a c Ha Hc) as [E1 E2]. rewrite E1, E2. destruct (FL c a ltac:(lia)) as [Q1 Q2]. split.
    - rewrite (sumR_ext _ (fun k => lr c k * lr a k + li c k * li a k)) by (intros; ring). exact Q1.
    - rewrite (sumR_ext _ (fun k => - (li c k * lr a k - lr c k * li a k))) by (intros; ring). rewrite sumR_opp. match goal with |- Rabs (- ?x - - ?y) <= _ => replace (- x - - y) with (- (x - y)) by ring end. rewrite Rabs_Ropp. exact Q2. }
  assert (LB : forall i k, (i < M)%nat -> (k < M)%nat -> Rabs (lr i k) <= be /\ Rabs (li i k) <= be).
  { intros a c Ha Hc. destruct (FA a a Ha Ha) as [Q _]. destruct (HA a a Ha Ha) as [Q2 _].
    assert (P0 : forall k, 0 <= lr a k * lr a k + li a k * li a k) by (intros k; pose proof (Rle_0_sqr (lr a k)); pose proof (Rle_0_sqr (li a k)); unfold Rsqr in *; lra).
    pose proof (sumR_entry (fun k => lr a k * lr a k + li a k * li a k) M c ltac:(intros; apply P0) Hc) as Q3. cbv beta in Q3. pose proof (Rle_0_sqr (lr a c)) as E1. pose proof (Rle_0_sqr (li a c)) as E2. unfold Rsqr in E1, E2.
    apply Rabs_le_both in Q, Q2. clear - Q Q2 Q3 E1 E2 B0 Hbe. split; apply sq_abs; lra. }
  assert (LP : forall j, (j < M)%nat -> 0 < lr j j) by (intros c Hc; unfold lr; rewrite CL by assumption; apply fx_pos, HL3, Hc).
  assert (LD : forall j, (j < M)%nat -> li j j = 0) by (intros c Hc; unfold li; rewrite CL by assumption; destruct (HL3 c Hc) as [_ ->]; apply fxval_0).
  assert (LU : forall j k, (j < k < M)%nat -> lr j k = 0 /\ li j k = 0) by (intros a c Hac; unfold lr, li; rewrite CL by lia; rewrite HL2 by lia; split; apply fxval_0).
  assert (HLr : forall j, (j < M)%nat -> in_range true (fW ft) (fst (cchol_l outL j j))) by (intros c Hc; destruct (cchol_l_diag false M fa ft A j1 outL ltac:(lia) EL c Hc) as [Q _]; rewrite HS in Q; exact Q).
  pose proof (clv_near MW M ft (cchol_l outL) j2 V be ga ltac:(lia) HS HO HF HV HLr LB LP LD LU HWl R1 R2) as LV. 
  assert (WD : forall i, (i < M)%nat -> wi i i = 0) by (intros c Hc; apply (cdiag_near MW M ft (cchol_l outL) j2 V be ga ltac:(lia) HS HO HF HV HLr LB LP LD LU HWl R1 c Hc)).
  assert (HWa : forall k i, (k < M)%nat -> Rabs (wr k i) <= ga /\ Rabs (wi k i) <= ga).
  { intros k c Hk. unfold wr, wi, low. destruct (Nat.leb_spec c k); [apply HWl; lia|rewrite Rabs_R0; split; exact G0]. }
  assert (WU : forall i j, (i < j < M)%nat -> wr i j = 0 /\ wi i j = 0) by (intros a c Hac; unfold wr, wi, low; destruct (Nat.leb_spec c a); [lia|split; reflexivity]).
  pose proof (cprod_ok M ft fo V ga ltac:(lia) HS HO HWo HSo HOo HM HWa R3 R4) as PO.
  assert (MAIN : forall I J, (I < 2 * M)%nat -> (J < 2 * M)%nat -> Rabs (mulR (2 * M) (emb P N) (emb X Y) I J - idR I J) <= inv_err (2 * M) ft fo (chol_err M ft fi b) be ga).
  { apply (inverse_near (2 * M) (emb lr li) (emb wr wi) be ga (inv_res (2 * M) ft be ga) HM2).
    - intros I HI. destruct (halves I) as (i & [-> | ->]); rewrite ?emb_ee, ?emb_oo; specialize (LP i ltac:(lia)); lra.
    - apply emb_upper; assumption.
    - apply emb_upper; assumption.
    - apply emb_abs. exact LB.
    - apply emb_abs. intros; apply HWa; assumption.
    - exact R5.
    - intros I J HI HJ. rewrite mul_emb, id_emb. revert I J HI HJ. apply emb_near. intros i j Hi Hj. destruct (LV j i Hj Hi) as [Q1 Q2]. unfold idR in *. rewrite (Nat.eqb_sym j i) in Q1. split; [exact Q1|rewrite Rminus_0_r; exact Q2].
    - intros I J HI HJ. rewrite (mul_ext (2 * M) (emb lr li) (trR (emb lr li)) (emb lr li) (emb (fun i j => lr j i) (fun i j => - li j i)) I J ltac:(reflexivity) ltac:(intros; apply tr_emb)), mul_emb. revert I J HI HJ. apply emb_near.
      intros i j Hi Hj. destruct (FA i j Hi Hj) as [Q1 Q2]. split.
      + rewrite (sumR_ext _ (fun k => lr i k * lr j k + li i k * li j k)) by (intros; ring). exact Q1.
      + rewrite (sumR_ext _ (fun k => li i k * lr j k - lr i k * li j k)) by (intros; ring). exact Q2.
    - intros I J HI HJ. rewrite (mul_ext (2 * M) (trR (emb wr wi)) (emb wr wi) (emb (fun i j => wr j i) (fun i j => - wi j i)) (emb wr wi) I J ltac:(intros; apply tr_emb) ltac:(reflexivity)), mul_emb. revert I J HI HJ. apply emb_near.
      intros i j Hi Hj. destruct (PO i j Hi Hj) as [Q1 Q2]. split.
      + rewrite (sumR_ext _ (fun k => wr k i * wr k j + wi k i * wi k j)) by (intros; ring). exact Q1.
      + rewrite (sumR_ext _ (fun k => wr k i * wi k j - wi k i * wr k j)) by (intros; ring). exact Q2. }
  intros i j Hi Hj. split; [|split].
  - pose proof (MAIN (2 * i)%nat (2 * j)%nat ltac:(lia) ltac:(lia)) as Q. rewrite mul_emb, id_emb, !emb_ee in Q. exact Q.
  - pose proof (MAIN (S (2 * i)) (2 * j)%nat ltac:(lia) ltac:(lia)) as Q. rewrite mul_emb, id_emb, !emb_oe, Rminus_0_r in Q. exact Q.
  - destruct (PO i j Hi Hj) as [_ Q1]. destruct (PO j i Hj Hi) as [_ Q2]. rewrite (sumR_ext _ (fun k => - (wr k i * wi k j - wi k i * wr k j))), sumR_opp in Q2 by (intros; unfold wr, wi; ring).
    fold wr wi in Q1. set (S := sumR _ _) in Q1, Q2. fold (Y i j) in Q1. fold (Y j i) in Q2. apply Rabs_le_both in Q1, Q2. apply Rabs_le. lra.
Qed.
