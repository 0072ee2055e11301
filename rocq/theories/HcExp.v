(** Accuracy of the range-reduced power of two computed by hyperbolic CORDIC. *)
From Coq Require Import Reals Lia Lra Psatz.
From Verif Require Import AcTypes AcFacts Spec SpecR SpecRFacts SoftFacts QrdThm MatrixProofs ShiftFacts Atan2Proofs PwlExpReal ActReal HcModel HcNum HcIter.
Local Open Scope R_scope.

(** ** Error budget in units of 2^-63: bound on |z|, sum of table errors, accumulated register error, validity *)
Definition eb_next (f s : Z) (b : Z * Z * Z * bool) : Z * Z * Z * bool :=
  let '(zb, se, cs, ok) := b in
  let T := htab hc_tab s in
  let t := t63 hc_tab f s in
  let se' := (se + (T - t) + 2)%Z in
  let zb' := Z.max t (zb - t) in
  let x := (zb' + se')%Z in
  let cs' := (cs + (2 ^ 63 + x + (x * x / 2 ^ 63 + 1)))%Z in
  (zb', se', cs', ok && (x <=? 2 ^ 63)%Z && (3 * cs' <=? 2 ^ 63 * 2 ^ f)%Z).
Fixpoint eb (f : Z) (n : nat) : Z * Z * Z * bool := match n with O => ((hc_ln2 / 2 ^ 96 + 1)%Z, 0%Z, 0%Z, true) | S n' => eb_next f (hs n') (eb f n') end.
Lemma eb_ok_S f n b : eb f (S n) = b -> snd b = true -> snd (eb f n) = true.
Proof. cbn [eb]. destruct (eb f n) as [[[zb se] cs] ok]. unfold eb_next. cbv zeta. intros <-. cbn [snd]. destruct ok; [reflexivity|discriminate]. Qed.
Lemma eb_ok_le f n m : (n <= m)%nat -> snd (eb f m) = true -> snd (eb f n) = true.
Proof. induction 1 as [|m H IH]; [tauto|]. intros A. apply IH. exact (eb_ok_S f m _ eq_refl A). Qed.

(** ** One iteration over the reals *)
Definition km : R := 8279 / 10000.
Lemma gain_km n : (n < 52)%nat -> km <= sqrt (hgain n) <= 1.
Proof.
  intros H. pose proof (hgain_low n H) as L. pose proof (hgain_pos n) as P. unfold km. split.
  - replace (8279 / 10000) with (sqrt (8279 / 10000 * (8279 / 10000))) by (apply sqrt_square; lra). apply sqrt_le_1; lra.
  - replace 1 with (sqrt 1) at 1 by apply sqrt_1. apply sqrt_le_1; lra.
Qed.
Lemma exp_step (e g t S Z0 v r s cs cs' x : R) : 0 < e -> 0 < g -> 0 < t <= / 2 -> (s = 1 \/ s = -1) ->
  let g' := g * sqrt (1 - t * t) in let S' := S + s * ath t in
  Rabs (v - g * exp S) <= e * (g * exp (S - Z0)) * cs / km -> 0 <= r <= e -> km <= g' -> Z0 - S' <= x -> 0 <= x <= 1 -> cs + (1 + x + x * x) <= cs' ->
  Rabs (v + s * (v * t - r) - g' * exp S') <= e * (g' * exp (S' - Z0)) * cs' / km.
Proof.
  intros He Hg Ht Hs g' S' H Hr Hk HS Hx Hc. assert (Pk : 0 < km) by (unfold km; lra). set (m := 1 + s * t). assert (Pm : 0 < m) by (unfold m; destruct Hs; subst s; lra).
  assert (Em : m = sqrt (1 - t * t) * exp (s * ath t)).
  { unfold m. destruct Hs; subst s; [rewrite !Rmult_1_l; apply one_plus; lra|]. replace (1 + -1 * t) with (1 - t) by ring. replace (-1 * ath t) with (- ath t) by ring. apply one_minus. lra. }
  assert (E1 : g' * exp S' = m * (g * exp S)) by (rewrite Em; unfold g', S'; rewrite exp_plus; ring).
  assert (E2 : g' * exp (S' - Z0) = m * (g * exp (S - Z0))). { rewrite Em. unfold g', S'. replace (S + s * ath t - Z0) with (S - Z0 + s * ath t) by ring. rewrite exp_plus. ring. }
  rewrite E1. replace (v + s * (v * t - r) - m * (g * exp S)) with (m * (v - g * exp S) + - (s * r)) by (unfold m; ring).
  eapply Rle_trans; [apply Rabs_triang|]. rewrite Rabs_mult, (Rabs_pos_eq m), Rabs_Ropp by lra. assert (Rs : Rabs (s * r) <= e) by (destruct Hs; subst s; apply Rabs_le; lra).
  assert (G : 1 <= g' * exp (S' - Z0) * (1 + x + x * x) / km).
  { pose proof (exp_quad x Hx) as Q. assert (X1 : exp (Z0 - S') <= 1 + x + x * x). { eapply Rle_trans; [|exact Q]. apply exp_le_mono. exact HS. }
    assert (X2 : exp (S' - Z0) * exp (Z0 - S') = 1). { rewrite <- exp_plus. replace (S' - Z0 + (Z0 - S')) with 0 by ring. apply exp_0. }
    pose proof (exp_pos (S' - Z0)) as P1. apply (Rmult_le_reg_r km); [exact Pk|]. unfold Rdiv. rewrite (Rmult_assoc _ (/ km)), Rinv_l by lra. rewrite Rmult_1_l, Rmult_1_r, Rmult_assoc.
    assert (1 <= exp (S' - Z0) * (1 + x + x * x)). { rewrite <- X2 at 1. apply Rmult_le_compat_l; lra. } apply Rle_trans with (km * 1); [lra|]. apply Rmult_le_compat; lra. }
  apply (Rmult_le_compat_l m) in H; [|lra]. apply (Rmult_le_compat_l e) in G; [|lra]. pose proof (exp_pos (S' - Z0)) as P1.
  apply Rle_trans with (e * (g' * exp (S' - Z0)) * (cs + (1 + x + x * x)) / km).
  - rewrite E2 at 1. unfold Rdiv in *. rewrite E2 in G. lra.
  - unfold Rdiv. apply Rmult_le_compat_r; [apply Rlt_le, Rinv_0_lt_compat, Pk|]. apply Rmult_le_compat_l; [|exact Hc]. apply Rmult_le_pos; [lra|]. apply Rmult_le_pos; [unfold g'; apply Rmult_le_pos; [lra|apply sqrt_pos]|lra].
Qed.

(** ** The invariant *)
Section Loop.
Variable EW : Z.
Hypothesis HE : (4 <= EW <= 45)%Z.
Variable z0 : R.
Hypothesis Hz0 : 0 <= z0 <= ln 2.
Let f : Z := (hc_LW EW - 3 - 1)%Z.
Let e : R := bpow2 (- f).
Lemma f_rng : (5 <= f <= 52)%Z. Proof. unfold f. pose proof (size_4 EW HE). lia. Qed.
Lemma e_rng : 0 < e <= / 16.
Proof. pose proof f_rng. unfold e. split; [apply bpow2_pos|]. replace (/ 16) with (bpow2 (- (4))) by (rewrite bpow2_opp, bpow2_IZR by lia; reflexivity). apply bpow2_le. lia. Qed.
Definition InvE (n : nat) (st : Z * Z * Z) : Prop :=
  let '(zb, se, cs, _) := eb f n in
  exists v z S, st = (v, v, z) /\ in_range true (hc_LW EW) v /\ in_range true (hc_LW EW) z /\
    Rabs (fxval z f) <= fxval zb 63 /\ Rabs (S - (z0 - fxval z f)) <= fxval se 63 /\
    Rabs (fxval v f - sqrt (hgain n) * exp S) <= e * (sqrt (hgain n) * exp (S - z0)) * fxval cs 63 / km.
Lemma quad63 x : (0 <= x)%Z -> 1 + fxval x 63 + fxval x 63 * fxval x 63 <= fxval (2 ^ 63 + x + (x * x / 2 ^ 63 + 1)) 63.
Proof.
  intros Hx. rewrite !fxval_add, fxval_one by lia. assert (fxval x 63 * fxval x 63 <= fxval (x * x / 2 ^ 63) 63 + fxval 1 63); [|lra].
  rewrite <- fxval_add. pose proof (div_R (x * x) (2 ^ 63) ltac:(lia)) as [_ D]. rewrite mult_IZR in D. unfold fxval. rewrite plus_IZR. pose proof (bpow2_pos (- (63))) as P. rewrite <- bpow2_IZR in D by lia. unfold Rdiv in D. rewrite <- bpow2_opp in D.
  replace (IZR x * bpow2 (- (63)) * (IZR x * bpow2 (- (63)))) with (IZR x * IZR x * bpow2 (- (63)) * bpow2 (- (63))) by ring. apply Rmult_le_compat_r; lra.
Qed.
Lemma InvE_step n st : (n < 51)%nat -> snd (eb f (S n)) = true -> InvE n st -> InvE (S n) (hc_step hc_tab 3 EW (hc_dir ROT_Z st) (hs n) st).
Proof.
  intros Hn Hok H. unfold InvE in *. cbn [eb] in *. destruct (eb f n) as [[[zb se] cs] ok]. destruct H as (v & z & S & -> & Rv & Rz & Bz & BS & Bv).
  unfold eb_next in *. cbv zeta in *. cbn [snd] in Hok. pose proof (hs_range n) as Hs. set (s := hs n) in *. set (T := htab hc_tab s) in *. set (t := t63 hc_tab f s) in *.
  set (se' := (se + (T - t) + 2)%Z) in *. set (zb' := Z.max t (zb - t)) in *. set (x := (zb' + se')%Z) in *. set (cs' := (cs + (2 ^ 63 + x + (x * x / 2 ^ 63 + 1)))%Z) in *.
  apply andb_prop in Hok. destruct Hok as [Hok Hc]. apply andb_prop in Hok. destruct Hok as [_ Hx]. apply Z.leb_le in Hc, Hx.
  pose proof f_rng as Hf. pose proof e_rng as He. pose proof (size_4 EW HE) as HW. assert (HW1 : (1 <= hc_LW EW)%Z) by lia.
  pose proof (t63_le hc_tab f s ltac:(lia) hc_tab_bnd) as Ht. fold t T in Ht.
  assert (Hent : hc_entry hc_tab 3 EW s = (T / 2 ^ (63 - f))%Z). { rewrite (entry_val hc_tab 3 EW s hc_tab_bnd) by lia. reflexivity. }
  pose proof (t63_val hc_tab f s ltac:(lia)) as Et. fold t T in Et.
  set (a := ath (bpow2 (- s))). assert (Ba : - fxval 2 63 <= a - fxval t 63 <= fxval (T - t + 2) 63).
  { pose proof (tab_near s ltac:(lia)) as N. fold a in N. unfold T63 in N. fold (htab hc_tab s) in N. fold T in N. apply Rabs_le_both in N. assert (E62 : bpow2 (-62) = fxval 2 63) by (unfold fxval; rewrite <- bpow2_1, <- bpow2_add; reflexivity).
    assert (fxval t 63 <= fxval T 63) by (apply fxval_le; lia). rewrite fxval_add, fx_sub. lra. }
  pose proof (bpow2_half s ltac:(lia)) as Bs. set (sg := if (0 <=? z)%Z then 1 else -1). assert (Hsg : sg = 1 \/ sg = -1) by (unfold sg; destruct (0 <=? z)%Z; tauto).
  set (z' := if (0 <=? z)%Z then (z - T / 2 ^ (63 - f))%Z else (z + T / 2 ^ (63 - f))%Z). set (v' := if (0 <=? z)%Z then (v + Z.shiftr v s)%Z else (v - Z.shiftr v s)%Z).
  assert (Ez : fxval z' f = fxval z f - sg * fxval t 63). { unfold z', sg. destruct (0 <=? z)%Z; [rewrite fx_sub, Et; ring|rewrite fxval_add, Et; ring]. }
  destruct (shr_val f v s ltac:(lia)) as (r & Hr & Er). fold e in Hr.
  assert (Ev : fxval v' f = fxval v f + sg * (fxval v f * bpow2 (- s) - r)). { unfold v', sg. destruct (0 <=? z)%Z; [rewrite fxval_add, Er; ring|rewrite fx_sub, Er; ring]. }
  assert (Bz' : Rabs (fxval z' f) <= fxval zb' 63).
  { rewrite Ez. assert (M1 : fxval t 63 <= fxval zb' 63) by (apply fxval_le; unfold zb'; lia). assert (M2 : fxval zb 63 - fxval t 63 <= fxval zb' 63). { replace (fxval zb 63 - fxval t 63) with (fxval (zb - t) 63) by (rewrite fx_sub; ring). apply fxval_le. unfold zb'. lia. }
    apply Rabs_le_both in Bz. unfold sg. destruct (Z.leb_spec 0 z) as [Hz|Hz].
    - apply fxval_le with (F := f) in Hz. rewrite fxval_0 in Hz. assert (0 <= fxval t 63) by (rewrite <- (fxval_0 63); apply fxval_le; lia). apply Rabs_le. lra.
    - apply fxval_lt with (F := f) in Hz. rewrite fxval_0 in Hz. assert (0 <= fxval t 63) by (rewrite <- (fxval_0 63); apply fxval_le; lia). apply Rabs_le. lra. }
  set (S' := S + sg * a). assert (BS' : Rabs (S' - (z0 - fxval z' f)) <= fxval se' 63).
  { rewrite Ez. unfold S'. apply Rabs_le_both in BS. unfold se'. replace (se + (T - t) + 2)%Z with (se + (T - t + 2))%Z by lia. rewrite fxval_add. assert (fxval 2 63 <= fxval (T - t + 2) 63) by (apply fxval_le; lia).
    assert (0 <= fxval 2 63) by (rewrite <- (fxval_0 63); apply fxval_le; lia). apply Rabs_le. destruct Hsg as [->| ->]; lra. }
  assert (X0 : 0 <= fxval zb' 63) by (eapply Rle_trans; [apply Rabs_pos|exact Bz']). assert (X1 : 0 <= fxval se' 63) by (eapply Rle_trans; [apply Rabs_pos|exact BS']).
  assert (Hx0 : (0 <= x)%Z). { apply (fxval_le 0 x 63). rewrite fxval_0. unfold x. rewrite fxval_add. lra. }
  assert (Hx1 : 0 <= fxval x 63 <= 1). { split; [rewrite <- (fxval_0 63); apply fxval_le; lia|]. rewrite <- (fxval_one 63) by lia. apply fxval_le, Hx. }
  assert (Sx : - fxval x 63 <= S' - z0 <= fxval x 63). { unfold x. rewrite fxval_add. apply Rabs_le_both in BS', Bz'. lra. }
  pose proof (gain_km n ltac:(lia)) as G0. pose proof (gain_km (Datatypes.S n) ltac:(lia)) as G1. assert (Pk : 0 < km) by (unfold km; lra).
  assert (Eg : sqrt (hgain (Datatypes.S n)) = sqrt (hgain n) * sqrt (1 - bpow2 (- s) * bpow2 (- s))). { cbn [hgain]. fold s. apply sqrt_mult; [pose proof (hgain_pos n); lra|nra]. }
  assert (Q : fxval cs 63 + (1 + fxval x 63 + fxval x 63 * fxval x 63) <= fxval cs' 63). { unfold cs'. rewrite (fxval_add cs). pose proof (quad63 x Hx0). lra. }
  assert (Bv' : Rabs (fxval v' f - sqrt (hgain (Datatypes.S n)) * exp S') <= e * (sqrt (hgain (Datatypes.S n)) * exp (S' - z0)) * fxval cs' 63 / km).
  { rewrite Ev, Eg. apply exp_step with (cs := fxval cs 63) (x := fxval x 63); try assumption; try lra; fold a; fold S'; lra. }
  assert (Rv' : in_range true (hc_LW EW) v').
  { apply (dp_range 3); [exact HW1|]. fold f. fold e. replace (bpow2 3) with 8 by (rewrite bpow2_IZR by lia; reflexivity).
    assert (Cb : e * fxval cs' 63 <= / 3). { apply IZR_le in Hc. rewrite !mult_IZR, <- !bpow2_IZR in Hc by lia. unfold e, fxval. pose proof (bpow2_pos 63). pose proof (bpow2_pos f). rewrite !bpow2_opp. apply (Rmult_le_reg_r (bpow2 63 * bpow2 f)); [apply Rmult_lt_0_compat; assumption|].
      replace (/ bpow2 f * (IZR cs' * / bpow2 63) * (bpow2 63 * bpow2 f)) with (IZR cs') by (field; lra). lra. }
    assert (Ex : exp (S' - z0) <= 3). { eapply Rle_trans; [apply exp_le_mono; apply Sx|]. eapply Rle_trans; [apply exp_quad; exact Hx1|]. nra. }
    assert (E2 : exp z0 <= 2). { rewrite <- (exp_ln 2) by lra. apply exp_le_mono. lra. }
    assert (ES : exp S' = exp z0 * exp (S' - z0)) by (rewrite <- exp_plus; f_equal; ring). pose proof (exp_pos (S' - z0)) as P1. pose proof (exp_pos z0) as P2.
    assert (W1 : 0 <= sqrt (hgain (Datatypes.S n)) * exp S' <= 1 * 6). { rewrite ES. split; [repeat apply Rmult_le_pos; lra|]. apply Rmult_le_compat; try lra; [apply Rmult_le_pos; lra|]. replace 6 with (2 * 3) by ring. apply Rmult_le_compat; lra. }
    assert (W2 : e * (sqrt (hgain (Datatypes.S n)) * exp (S' - z0)) * fxval cs' 63 / km <= 1.21).
    { assert (Pcs : 0 <= fxval cs' 63). { assert (0 <= e * (sqrt (hgain n) * exp (S - z0)) * fxval cs 63 / km) by (eapply Rle_trans; [apply Rabs_pos|exact Bv]). assert (0 < e * (sqrt (hgain n) * exp (S - z0)) / km). { apply Rdiv_lt_0_compat; [|exact Pk]. apply Rmult_lt_0_compat; [lra|]. apply Rmult_lt_0_compat; [lra|apply exp_pos]. }
        assert (0 <= fxval cs 63); [|nra]. apply (Rmult_le_reg_l (e * (sqrt (hgain n) * exp (S - z0)) / km)); [assumption|]. unfold Rdiv in *. lra. }
      assert (M : sqrt (hgain (Datatypes.S n)) * exp (S' - z0) <= 1 * 3) by (apply Rmult_le_compat; lra).
      assert (M2 : (e * fxval cs' 63) * (sqrt (hgain (Datatypes.S n)) * exp (S' - z0)) <= / 3 * (1 * 3)). { apply Rmult_le_compat; try lra; [apply Rmult_le_pos; lra|apply Rmult_le_pos; lra]. }
      apply (Rmult_le_reg_r km); [exact Pk|]. unfold Rdiv. rewrite (Rmult_assoc _ (/ km)), Rinv_l by lra. unfold km. lra. }
    apply Rabs_le_both in Bv'. apply Rabs_le. lra. }
  assert (Rz' : in_range true (hc_LW EW) z').
  { apply (dp_range 3); [exact HW1|]. fold f. fold e. replace (bpow2 3) with 8 by (rewrite bpow2_IZR by lia; reflexivity).
    assert (fxval zb' 63 <= 1). { unfold x in Hx1. rewrite fxval_add in Hx1. lra. } lra. }
  exists v', z', S'. split; [|refine (conj Rv' (conj Rz' (conj Bz' (conj BS' Bv'))))].
  unfold hc_step, hc_dir. rewrite Hent, (shr_id _ v s HW1 ltac:(lia) Rv). unfold v', z' in *. destruct (0 <=? z)%Z; rewrite !dp_id by assumption; reflexivity.
Qed.
Lemma InvE_all st n : InvE 0 st -> (n <= 51)%nat -> snd (eb f n) = true -> InvE n (hc_at ROT_Z hc_tab 3 EW st n).
Proof.
  intros H0. induction n as [|n IH]; intros Hn Hok; [exact H0|]. rewrite hc_at_S by lia. apply InvE_step; [lia|exact Hok|]. apply IH; [lia|]. exact (eb_ok_S f n _ eq_refl Hok).
Qed.
End Loop.
