(** Backward error of ac_chol_d with the piecewise-linear square roots. *)
From Coq Require Import Reals Lra Psatz.
From Verif Require Import AcTypes AcFacts Spec SpecFacts SpecR SpecRFacts SpecLin RtTypes PwlModel PwlReal MatrixModel MatrixProofs SoftFacts CholModel CholProofs CholReal CholThm.
Local Open Scope R_scope.

Section Root.
Variables (fo fi : fmt) (B : R).
Hypothesis TK : chol_types fo fi.
Hypothesis Wo4 : (4 <= fW fo)%Z.
Hypothesis HB : B <= bpow2 (fI fi - 2).
Local Notation u := (bpow2 (- fF fo)).
Local Notation ui := (bpow2 (- fF fi)).

Lemma u_small4 : 4 * u <= bpow2 (fI fo - 2).
Proof. replace (4 * u) with (bpow2 (2 - fF fo)) by (unfold Z.sub; rewrite bpow2_add; change (bpow2 2) with (2 * (2 * 1)); ring). apply bpow2_le. unfold fF. lia. Qed.

(** The algebra of the two relative errors. *)
Lemma two_errors vd vr q u' v Bq s l : 0 < q -> 0 <= u' -> 0 <= v -> 0 <= Bq -> q <= Bq -> u' <= q / 2 -> 0 < vd ->
  Rabs (vd - q) <= 12 / 10000 * q + u' -> Rabs (vr - / q) <= 75 / 100000 * / q + v ->
  Rabs s <= 2 * (Bq * Bq) -> Rabs l <= Bq -> Rabs (l - vr * s) <= u' ->
  Rabs (vd * l - s) <= 4 / 1000 * (Bq * Bq) + 201 / 100 * (Bq + u') * (u' + 2 * (Bq * Bq) * v).
Proof.
  intros Q0 U0 V0 B0 QB UQ D0 N1 N2 Hs Hl Hr. set (i := / q) in *. assert (QI : q * i = 1) by (apply Rinv_r; lra). assert (I0 : 0 < i) by (apply Rinv_0_lt_compat; lra).
  set (e1 := vd - q) in *. set (e2 := vr - i) in *. set (S := Rabs s) in *. pose proof (Rabs_pos s) as S0. fold S in S0. pose proof (Rabs_pos e1) as E10. pose proof (Rabs_pos e2) as E20.
  (* |s| / q *)
  assert (T : S * i * (1 - 75 / 100000) <= Bq + u' + 2 * (Bq * Bq) * v).
  { assert (A : S * i <= Rabs (vr * s) + S * Rabs e2). { unfold S. rewrite <- (Rabs_pos_eq i) by lra. rewrite <- !Rabs_mult. replace (s * i) with (vr * s - s * e2) by (unfold e2; ring). eapply Rle_trans; [apply Rabs_triang|]. rewrite Rabs_Ropp. lra. }
    assert (A2 : Rabs (vr * s) <= Bq + u'). { replace (vr * s) with (l - (l - vr * s)) by ring. eapply Rle_trans; [apply Rabs_triang|]. rewrite Rabs_Ropp. lra. }
    assert (A3 : S * Rabs e2 <= S * (75 / 100000 * i + v)) by (apply Rmult_le_compat_l; assumption). assert (A4 : S * v <= 2 * (Bq * Bq) * v) by (apply Rmult_le_compat_r; assumption). lra. }
  (* the error *)
  assert (E : vd * l - s = vd * (l - vr * s) + s * (e1 * i + q * e2 + e1 * e2)).
  { assert (X : vd * vr = 1 + (e1 * i + q * e2 + e1 * e2)) by (rewrite <- QI; unfold e1, e2; ring). replace (vd * (l - vr * s)) with (vd * l - s * (vd * vr)) by ring. rewrite X. ring. }
  rewrite E. eapply Rle_trans; [apply Rabs_triang|]. rewrite !Rabs_mult. fold S. rewrite (Rabs_pos_eq vd) by lra.
  assert (D1 : vd <= q + (12 / 10000 * q + u')) by (apply Rabs_le_both in N1; unfold e1 in N1; lra).
  assert (P1 : vd * Rabs (l - vr * s) <= (10012 / 10000 * Bq + u') * u') by (apply Rmult_le_compat; [lra|apply Rabs_pos|lra|exact Hr]).
  assert (P2 : Rabs (e1 * i + q * e2 + e1 * e2) <= (12 / 10000 + u' * i) + (75 / 100000 + q * v) + (12 / 10000 * (75 / 100000) + 12 / 10000 * (q * v) + 75 / 100000 * (u' * i) + u' * v)).
  { eapply Rle_trans; [apply Rabs_triang|]. apply Rplus_le_compat; [eapply Rle_trans; [apply Rabs_triang|]; apply Rplus_le_compat|].
    - rewrite Rabs_mult, (Rabs_pos_eq i) by lra. apply Rle_trans with ((12 / 10000 * q + u') * i); [apply Rmult_le_compat_r; lra|]. replace ((12 / 10000 * q + u') * i) with (12 / 10000 * (q * i) + u' * i) by ring. rewrite QI. lra.
    - rewrite Rabs_mult, (Rabs_pos_eq q) by lra. apply Rle_trans with (q * (75 / 100000 * i + v)); [apply Rmult_le_compat_l; lra|]. replace (q * (75 / 100000 * i + v)) with (75 / 100000 * (q * i) + q * v) by ring. rewrite QI. lra.
    - rewrite Rabs_mult. apply Rle_trans with ((12 / 10000 * q + u') * (75 / 100000 * i + v)); [apply Rmult_le_compat; lra|].
      replace ((12 / 10000 * q + u') * (75 / 100000 * i + v)) with (12 / 10000 * (75 / 100000) * (q * i) + 12 / 10000 * (q * v) + 75 / 100000 * (u' * i) + u' * v) by ring. rewrite QI. lra. }
  assert (P3 : S * Rabs (e1 * i + q * e2 + e1 * e2) <= S * (19509 / 10000000) + S * i * u' * (100075 / 100000) + S * (q * v) * (10012 / 10000) + S * (u' * v)).
  { eapply Rle_trans; [apply Rmult_le_compat_l; [exact S0|exact P2]|]. lra. }
  assert (SI : 0 <= S * i) by (apply Rmult_le_pos; lra).
  assert (P4 : S * i * u' <= 1001 / 1000 * (Bq + u' + 2 * (Bq * Bq) * v) * u') by (apply Rmult_le_compat_r; lra).
  assert (QV : q * v <= Bq * v) by (apply Rmult_le_compat_r; assumption). assert (V1 : 0 <= q * v) by (apply Rmult_le_pos; lra). assert (V2 : 0 <= u' * v) by (apply Rmult_le_pos; lra).
  assert (P5 : S * (q * v) <= 2 * (Bq * Bq) * (Bq * v)) by (apply Rmult_le_compat; assumption).
  assert (P6 : S * (u' * v) <= 2 * (Bq * Bq) * (u' * v)) by (apply Rmult_le_compat_r; assumption).
  assert (B2 : 0 <= Bq * Bq) by nra. assert (0 <= Bq * Bq * v) by (apply Rmult_le_pos; lra). assert (0 <= u' * u') by nra. assert (0 <= Bq * u') by (apply Rmult_le_pos; lra).
  assert (0 <= Bq * Bq * v * u') by (apply Rmult_le_pos; lra). assert (0 <= Bq * Bq * v * Bq) by (apply Rmult_le_pos; lra).
  replace (201 / 100 * (Bq + u') * (u' + 2 * (Bq * Bq) * v)) with (201 / 100 * (Bq * u') + 201 / 100 * (u' * u') + 402 / 100 * (Bq * Bq * v * Bq) + 402 / 100 * (Bq * Bq * v * u')) by field.
  lra.
Qed.

Lemma root_pwl junk p d r : (0 < p)%Z -> in_range true (fW fi) p -> fxval p (fF fi) <= B -> chol_root true fo fi junk p = Some (d, r) ->
  root_spec fo fi B (sqrt B) (2 * sqrt B + u) (4 / 1000 * B + 201 / 100 * (sqrt B + u) * (u + 2 * B * ui)) (4 / 1000 * B + 201 / 100 * (sqrt B + u) * (u + 2 * B * ui)) (fxval p (fF fi)) d r.
Proof.
  intros P R HpB E. pose proof (tk_wo _ _ TK) as Wo. pose proof (tk_wi _ _ TK) as Wi.
  assert (Ep : conv (unsig fi) p (fF fi) = p).
  { apply (conv_own (unsig fi)); cbn [unsig fW fO fS]; [lia|rewrite (tk_oi _ _ TK); discriminate|]. unfold in_range, imin, imax in *. pose proof (pow2_succ (fW fi - 1)).
    replace (fW fi - 1 + 1)%Z with (fW fi) in * by lia. pose proof (pow2_pos (fW fi - 1)). lia. }
  assert (Rp : (0 < p < 2 ^ fW fi)%Z). { unfold in_range, imin, imax in R. pose proof (pow2_le (fW fi - 1) (fW fi)). lia. }
  destruct (sqrt_real TRN (fW fi) (fI fi) (fO fi) (unsig fo) true p Wi ltac:(cbn; lia) eq_refl Rp (or_introl eq_refl)) as (o1 & V1 & E1 & C1 & N1).
  destruct (isqrt_real TRN (fW fi) (fI fi) (fO fi) (unsig fi) true p Wi ltac:(cbn; lia) eq_refl Rp (or_introl eq_refl)) as (o2 & V2 & E2 & C2 & N2).
  unfold chol_root in E. rewrite Ep in E. cbv zeta in E. rewrite E1, E2 in E. apply (f_equal (fun o => match o with Some x => x | None => (0, 0)%Z end)) in E.
  assert (Ed := f_equal fst E). assert (Er := f_equal snd E). cbn [fst snd] in Ed, Er. clear E. subst o1 o2.
  change (fW fi - fI fi)%Z with (fF fi) in *. cbv zeta in N1, N2.
  pose proof (least_pivot fi p P) as LP. set (vp := fxval p (fF fi)) in *. pose proof (bpow2_pos (- fF fo)) as U0. pose proof (bpow2_pos (- fF fi)) as U1.
  assert (S1 : sqrt vp <= sqrt B) by (apply sqrt_le_1_alt; exact HpB). assert (Sv : sqrt vp * sqrt vp = vp) by (apply sqrt_sqrt; lra).
  assert (SB : sqrt B * sqrt B = B) by (apply sqrt_sqrt; lra).
  set (w := sqrt ui). assert (Sw : w <= sqrt vp) by (apply sqrt_le_1_alt; exact LP). assert (W0 : 0 < w) by (apply sqrt_lt_R0; lra).
  assert (Wu : 2 * u <= w).
  { replace (2 * u) with (sqrt (bpow2 (2 * (1 - fF fo)))) by (rewrite sqrt_bpow2; unfold Z.sub; rewrite bpow2_add, bpow2_1; ring). apply sqrt_le_1_alt, bpow2_le. pose proof (tk_fra _ _ TK). lia. }
  assert (Wi' : bpow2 (2 - fI fi) <= w). { rewrite <- sqrt_bpow2. apply sqrt_le_1_alt, bpow2_le. pose proof (tk_rec _ _ TK). lia. }
  pose proof (sqrtB_le fo fi B TK HB) as S2. pose proof u_small4 as U. pose proof (Io_half fo) as Io2.
  set (q := sqrt vp) in *. assert (Q0 : 0 < q) by lra. assert (I0 : 0 < / q) by (apply Rinv_0_lt_compat; lra). assert (QI : q * / q = 1) by (apply Rinv_r; lra).
  assert (N1' := N1). assert (N2' := N2). apply Rabs_le_both in N1', N2'.
  destruct (sat_near (unsig fo) _ _ ltac:(cbn; lia) ltac:(cbn; rewrite (tk_oo _ _ TK); discriminate) C1) as [R1 M1].
  { cbn [unsig fS fW]. split; [unfold imin; rewrite fxval_0; lra|]. destruct (imax_R (unsig fo)) as [E|]; [|cbn in *; lia].
    cbn [unsig fS fW] in E. rewrite E. change (fF (unsig fo)) with (fF fo). replace (fW fo - fF fo)%Z with (2 + (fI fo - 2))%Z by (unfold fF; lia).
    rewrite bpow2_add. change (bpow2 2) with (2 * (2 * 1)). lra. }
  assert (I2 : / q <= bpow2 (fI fi - 2)).
  { assert (E : bpow2 (2 - fI fi) * bpow2 (fI fi - 2) = 1) by (rewrite <- bpow2_add; replace (2 - fI fi + (fI fi - 2))%Z with 0%Z by lia; apply bpow2_0).
    pose proof (bpow2_pos (fI fi - 2)) as Pb. assert (1 <= q * bpow2 (fI fi - 2)) by nra. apply (Rmult_le_reg_l q); lra. }
  destruct (sat_near (unsig fi) _ _ ltac:(cbn; lia) ltac:(cbn; rewrite (tk_oi _ _ TK); discriminate) C2) as [_ M2].
  { cbn [unsig fS fW]. split; [unfold imin; rewrite fxval_0; lra|]. destruct (imax_R (unsig fi)) as [E|]; [|cbn in *; lia].
    cbn [unsig fS fW] in E. rewrite E. change (fF (unsig fi)) with (fF fi). replace (fW fi - fF fi)%Z with (2 + (fI fi - 2))%Z by (unfold fF; lia).
    rewrite bpow2_add. change (bpow2 2) with (2 * (2 * 1)). assert (ui <= bpow2 (1 + (fI fi - 2))) by (apply bpow2_le; unfold fF; lia). rewrite bpow2_add, bpow2_1 in H. lra. }
  change (fF (unsig fo)) with (fF fo) in M1. change (fF (unsig fi)) with (fF fi) in M2. cbn [unsig fS fW] in R1. unfold root_spec. cbv zeta. set (vd := fxval d (fF fo)) in *. set (vr := fxval r (fF fi)) in *.
  assert (Nd : Rabs (vd - q) <= 12 / 10000 * q + u). { replace (vd - q) with ((vd - V1) + (V1 - q)) by ring. eapply Rle_trans; [apply Rabs_triang|]. lra. }
  assert (Nr : Rabs (vr - / q) <= 75 / 100000 * / q + ui). { replace (vr - / q) with ((vr - V2) + (V2 - / q)) by ring. eapply Rle_trans; [apply Rabs_triang|]. lra. }
  assert (Nd' := Nd). apply Rabs_le_both in Nd'. split; [|split; [lra|split]].
  - assert (vd <= fxval (imax (fS fo) (fW fo)) (fF fo)). { destruct (imax_R fo) as [->|]; [|lia]. rewrite (tk_so _ _ TK). lra. }
    apply fxval_le in H. rewrite (tk_so _ _ TK) in H. destruct R1 as [R1 _]. split; [|exact H]. unfold imin in *. pose proof (pow2_pos (fW fo - 1)). lia.
  - rewrite <- Sv. replace (vd * vd - q * q) with ((vd - q) * (vd + q)) by ring. rewrite Rabs_mult. rewrite (Rabs_pos_eq (vd + q)) by lra.
    apply Rle_trans with ((12 / 10000 * q + u) * (20012 / 10000 * q + u)); [apply Rmult_le_compat; [apply Rabs_pos|lra|exact Nd|lra]|].
    assert (q * q <= B) by lra. assert (q * u <= sqrt B * u) by (apply Rmult_le_compat_r; lra). assert (0 <= u * u) by nra. assert (0 <= sqrt B * u) by (apply Rmult_le_pos; lra).
    assert (0 <= (sqrt B + u) * (2 * B * ui)) by (apply Rmult_le_pos; [lra|apply Rmult_le_pos; lra]).
    replace (201 / 100 * (sqrt B + u) * (u + 2 * B * ui)) with (201 / 100 * (sqrt B * u) + 201 / 100 * (u * u) + 201 / 100 * ((sqrt B + u) * (2 * B * ui))) by field. lra.
  - intros s l Hs Hl Hr. pose proof (two_errors vd vr q u ui (sqrt B) s l ltac:(lra) ltac:(lra) ltac:(lra) ltac:(lra) ltac:(lra) ltac:(lra) ltac:(lra) Nd Nr) as K. rewrite SB in K. apply K; assumption.
Qed.
End Root.

Section Pwl.
Variables (M : nat) (fa fo fi : fmt) (A : mat) (junk : nat -> Z) (b : R).
Hypothesis TK : chol_types fo fi.
Hypothesis Wo4 : (4 <= fW fo)%Z.
Hypothesis HB : chol_room M fi b <= bpow2 (fI fi - 2).
Local Notation vA i j := (fxval (A i j) (fF fa)).
Hypothesis HA : forall i j, (j <= i < M)%nat -> Rabs (vA i j) <= b.
Let B := chol_room M fi b.
Local Notation factors := (chol_factors M (fun i j => vA i j) (fF fo) (chol_err_pwl M fo fi b)).

Lemma chol_pwl : exists out, chol_d true M fa fo fi A junk = Some out /\ ((exists L, factors out L) \/ zero_out M out).
Proof.
  destruct (chol_d_eq true M fa fo fi A junk ltac:(pose proof (tk_wo _ _ TK); lia) (tk_wi _ _ TK)) as (out & L & E & HC & HO). exists out. split; [exact E|].
  destruct (all_pos fa fo fi A L M) eqn:AP; [left|right; intros i j Hi Hj; rewrite HO by assumption; rewrite orb_true_r; reflexivity].
  pose proof (fun k d r P R PB RE => root_pwl fo fi B TK Wo4 HB (junk k) (chain fo fi (L k) (L k) k (conv fi (A k k) (fF fa))) d r P R PB RE) as HR.
  exists (fun i j => if Nat.ltb i j then 0%Z else L i j). split; [|split; [|split]].
  - intros i j Hi Hj. rewrite HO by assumption. rewrite orb_false_r. reflexivity.
  - intros i j H. destruct (Nat.ltb_spec i j); [reflexivity|lia].
  - intros j Hj. rewrite Nat.ltb_irrefl. destruct (col_fact true M fa fo fi A junk L b _ _ _ (sqrt B) TK HB HA HC HR j Hj (all_pos_k M fa fo fi A L AP j Hj)) as (r & RS & _). apply (fx_pos _ (fF fo)), RS.
  - intros i j H. rewrite (sumR_cut _ (S j)); [|lia|intros k Hk; destruct (Nat.ltb_spec j k); [rewrite fxval_0; ring|lia]].
    rewrite (sumR_ext _ (fun c => fxval (L i c) (fF fo) * fxval (L j c) (fF fo))) by (intros k Hk; destruct (Nat.ltb_spec i k); [lia|]; destruct (Nat.ltb_spec j k); [lia|reflexivity]).
    eapply Rle_trans; [apply (residual true M fa fo fi A junk L b _ _ _ (sqrt B) TK HB HA HC (Rle_refl _) HR i j AP H)|].
    rewrite Rmax_left by lra. apply Rle_refl.
Qed.
End Pwl.
