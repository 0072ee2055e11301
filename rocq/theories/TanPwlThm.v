(** Accuracy of the piecewise-linear tangent, over the reals. *)
From Coq Require Import Reals ZArith List Lia Lra Psatz ZifyBool.
From Verif Require Import AcTypes AcFacts Spec SpecFacts SpecR SpecRFacts PwlModel PwlFacts PwlProofs PwlSqrt PwlReal AtanNum AtanPwlReal TanPwlModel TanNum TanPwlProofs.
Local Open Scope R_scope.
Ltac Zify.zify_post_hook ::= idtac.

(** ** The table against the tangent *)
Definition tb_up (ea K U V hi hi2 s : Z) : bool :=
  (let l := 100 * s + 102 in
   ((6400 - l) * hi + l * hi2 - 6400 * (U + V * s)) * (P30 * 1000000) <=? ea * (6400 * P30 * 1000000) + K * (6400 * (P30 * P30) - ((6400 - l) * (hi * hi) + l * (hi2 * hi2))))%Z.
Definition tb_dn (ea K U V lo hi hi2 s : Z) : bool :=
  (((U + V * s - lo) * (10433 * P30 * 100) - 100 * s * (P30 * P30 + lo * lo) + 2 * (P30 * P30 + hi * hi)) * 64000000 <=?
   ea * (10433 * P30 * 6400 * 1000000) + K * (1043300 * (64 * (P30 * P30) - ((64 - s) * (hi * hi) + s * (hi2 * hi2)))))%Z.
Definition tb_chk (b0 b1 sm ea Ku Kd : Z) (B lo hi hi2 : Z) : bool :=
  ((B <? b0) || (b1 <? B) ||
   (let U := pw_lin tan_m tan_c 10 (B * 2 ^ 5) * 2 ^ 10 in let V := slope tan_m 10 5 B * 2 ^ 10 in
    tb_up ea Ku U V hi hi2 0 && tb_up ea Ku U V hi hi2 sm && tb_dn ea Kd U V lo hi hi2 0 && tb_dn ea Kd U V lo hi hi2 sm))%Z.

Lemma affine a b m s : 0 <= s <= m -> a <= 0 -> a + b * m <= 0 -> a + b * s <= 0.
Proof. intros Hs Ha Hm. destruct (Rle_dec 0 b); nra. Qed.

Section Real.
Variable P : R.
Hypothesis HP : 0 < P.
Lemma up_real ea K U V hi hi2 s : IZR P30 = P -> tb_up ea K U V hi hi2 s = true ->
  let l := (IZR s + (51 / 50)) / 64 in
  (1 - l) * (IZR hi / P) + l * (IZR hi2 / P) - (IZR U / P + IZR V / P * IZR s) <=
  IZR ea / P + IZR K / 1000000 * (1 - ((1 - l) * (IZR hi / P * (IZR hi / P)) + l * (IZR hi2 / P * (IZR hi2 / P)))).
Proof.
  intros EP H l. unfold tb_up in H. cbv zeta in H. apply Z.leb_le in H. apply IZR_le in H. repeat rewrite ?plus_IZR, ?minus_IZR, ?mult_IZR in H. rewrite EP in H.
  apply (Rmult_le_reg_l (6400 * P * P * 1000000)); [assert (0 < P * P) by nra; nra|]. unfold l.
  match type of H with ?A <= ?B => match goal with |- ?C <= ?D => replace C with A by (field; lra); replace D with B by (field; lra) end end. exact H.
Qed.
Lemma dn_real ea K U V lo hi hi2 s : IZR P30 = P -> tb_dn ea K U V lo hi hi2 s = true ->
  let l := IZR s / 64 in
  IZR U / P + IZR V / P * IZR s - IZR lo / P - IZR s / 10433 * (1 + IZR lo / P * (IZR lo / P)) + (1 / 50) / 10433 * (1 + IZR hi / P * (IZR hi / P)) <=
  IZR ea / P + IZR K / 1000000 * (1 - ((1 - l) * (IZR hi / P * (IZR hi / P)) + l * (IZR hi2 / P * (IZR hi2 / P)))).
Proof.
  intros EP H l. unfold tb_dn in H. apply Z.leb_le in H. apply IZR_le in H. repeat rewrite ?plus_IZR, ?minus_IZR, ?mult_IZR in H. rewrite EP in H.
  apply (Rmult_le_reg_l (6400 * 10433 * P * P * 1000000)); [assert (0 < P * P) by nra; nra|]. unfold l.
  match type of H with ?A <= ?B => match goal with |- ?C <= ?D => replace C with A by (field; lra); replace D with B by (field; lra) end end. exact H.
Qed.
End Real.

Lemma tb_near b0 b1 sm ea Ku Kd : (0 < sm <= 32)%Z -> (0 <= Ku <= 400000)%Z -> (0 <= Kd <= 400000)%Z -> tg_all (tb_chk b0 b1 sm ea Ku Kd) 256 0 0 0 = true ->
  forall T y, (0 <= T <= 8191)%Z -> (b0 <= T / 32 <= b1)%Z -> (T mod 32 <= sm)%Z -> 0 <= y -> IZR T - (1 / 50) <= y <= IZR T + (51 / 50) ->
  let p := fxval (pw_lin tan_m tan_c 10 T) 20 in let t := tan (y / 10433) in
  - (IZR ea / IZR P30 + IZR Ku / 1000000 * (1 - t * t)) <= p - t <= IZR ea / IZR P30 + IZR Kd / 1000000 * (1 - t * t).
Proof.
  intros Hsm HKu HKd chk T y HT HB Hm Hy0 Hy p t. destruct (pw_block tan_m tan_c 10 5 T ltac:(lia) ltac:(lia)) as (B & s & En & Hs & EB & EL). change (2 ^ 5)%Z with 32%Z in *.
  assert (Es : s = (T mod 32)%Z) by (rewrite Z.mod_eq by lia; lia). assert (HB' : (0 <= B < 256)%Z) by (rewrite EB; split; [apply Z.div_pos; lia|apply Z.div_lt_upper_bound; lia]).
  destruct (tg_all_256 _ chk B HB') as (lo & hi & hi2 & C & L0 & E1 & E2). unfold tb_chk in C. replace (B <? b0)%Z with false in C by lia. replace (b1 <? B)%Z with false in C by lia. cbn [orb] in C. cbv zeta in C. change (B * 2 ^ 5)%Z with (B * 32)%Z in C.
  set (U := (pw_lin tan_m tan_c 10 (B * 32) * 2 ^ 10)%Z) in *. set (V := (slope tan_m 10 5 B * 2 ^ 10)%Z) in *.
  apply andb_prop in C. destruct C as [C C4]. apply andb_prop in C. destruct C as [C C3]. apply andb_prop in C. destruct C as [C1 C2].
  assert (PP : 0 < IZR P30) by (apply (IZR_lt 0); reflexivity).
  apply (up_real (IZR P30) PP _ _ _ _ _ _ _ eq_refl) in C1, C2. apply (dn_real (IZR P30) PP _ _ _ _ _ _ _ _ eq_refl) in C3, C4. cbv zeta in C1, C2, C3, C4.
  assert (Ep : p = IZR U / IZR P30 + IZR V / IZR P30 * IZR s).
  { unfold p, fxval. rewrite EL, plus_IZR, mult_IZR. unfold U, V. rewrite (mult_IZR (pw_lin _ _ _ _)), (mult_IZR (slope _ _ _ _)). rewrite bpow2_opp, bpow2_IZR by lia. unfold P30. change (2 ^ 30)%Z with (2 ^ 10 * 2 ^ 20)%Z. rewrite (mult_IZR (2 ^ 10)). field. split; apply Rgt_not_eq, (IZR_lt 0); lia. }
  set (P := IZR P30) in *. set (a := IZR lo / P) in *. set (h := IZR hi / P) in *. set (g := IZR hi2 / P) in *. set (u := IZR U / P) in *. set (v := IZR V / P) in *. set (e := IZR ea / P) in *. set (ku := IZR Ku / 1000000) in *. set (kd := IZR Kd / 1000000) in *.
  set (b := tan (th B)) in *. set (c := tan (th (B + 2))) in *.
  assert (Ab : a <= b <= h). { unfold a, h. split; apply (Rmult_le_reg_l P); try exact PP; [replace (P * (IZR lo / P)) with (IZR lo) by (field; lra)|replace (P * (IZR hi / P)) with (IZR hi) by (field; lra)]; lra. }
  assert (Cg : c <= g). { unfold g. apply (Rmult_le_reg_l P); [exact PP|]. replace (P * (IZR hi2 / P)) with (IZR hi2) by (field; lra). lra. }
  assert (A0 : 0 <= a) by (unfold a; apply Rle_mult_inv_pos; [apply (IZR_le 0); lia|exact PP]).
  assert (HKuR : 0 <= ku <= 0.4). { destruct HKu as [K1 K2]. apply IZR_le in K1, K2. unfold ku. lra. }
  assert (HKdR : 0 <= kd <= 0.4). { destruct HKd as [K1 K2]. apply IZR_le in K1, K2. unfold kd. lra. }
  destruct HT as [HT0 HT1]. apply IZR_le in HT0 as HT0R. apply IZR_le in HT1 as HT1R. destruct Hs as [Hs0 Hs1]. apply IZR_le in Hs0 as Hs0R. rewrite <- Es in Hm. apply IZR_le in Hm as HmR. assert (SM : IZR sm <= 32) by (apply IZR_le; lia).
  assert (ET : IZR T = 32 * IZR B + IZR s) by (rewrite En, plus_IZR, mult_IZR; ring). assert (TB : th B = 32 * IZR B / 10433) by reflexivity. assert (TB2 : th (B + 2) = th B + 64 / 10433) by (unfold th; rewrite plus_IZR; field).
  pose proof (th_range B ltac:(lia)) as RB. set (sr := IZR s) in *. set (mr := IZR sm) in *. set (x := y / 10433) in *. assert (Hx : 0 <= x <= 0.79) by (unfold x; lra).
  assert (Hxl : th B + (sr - (1 / 50)) / 10433 <= x <= th B + (sr + (51 / 50)) / 10433) by (rewrite TB; unfold x; lra).
  assert (T0 : 0 <= t) by (apply tan_pos0; lra). assert (T1 : t <= 1.1).
  { unfold t. apply tan_ge_of_atan; [lra|]. pose proof (atan_1) as Q1. pose proof (atan_chord 1 2 0.1 ltac:(lra) ltac:(lra) ltac:(lra)) as Q2. replace (1 + 0.1 * (2 - 1)) with 1.1 in Q2 by lra. pose proof PI2_lo. pose proof (atan_mvt 1 2 ltac:(lra)) as (c0 & Ec & Hc).
    assert (/ 5 <= / (1 + c0 ^ 2)) by (apply Rinv_le_contravar; nra). lra. }
  (* chords *)
  assert (Ch : forall l, 0 <= l <= 1 -> tan (th B + l * (64 / 10433)) <= (1 - l) * h + l * g).
  { intros l Hl. pose proof (tan_chord (th B) (th (B + 2)) l ltac:(lra) ltac:(lra) ltac:(lra) Hl) as Q. rewrite TB2 in Q at 1. replace (th B + l * (th B + 64 / 10433 - th B)) with (th B + l * (64 / 10433)) in Q by ring. fold b c in Q. assert ((1 - l) * b <= (1 - l) * h) by (apply Rmult_le_compat_l; lra). assert (l * c <= l * g) by (apply Rmult_le_compat_l; lra). lra. }
  assert (B0 : 0 <= b) by lra. assert (H0 : 0 <= h) by lra. assert (G0 : 0 <= g) by (assert (0 <= c) by (apply tan_pos0; lra); lra).
  assert (Sq : forall l w, 0 <= l <= 1 -> 0 <= w -> w <= (1 - l) * h + l * g -> w * w <= (1 - l) * (h * h) + l * (g * g)).
  { intros l w Hl W0 W1. apply Rle_trans with (((1 - l) * h + l * g) * ((1 - l) * h + l * g)); [apply Rmult_le_compat; lra|].
    assert (0 <= l * (1 - l) * ((h - g) * (h - g))) by (apply Rmult_le_pos; [apply Rmult_le_pos; lra|apply Rle_0_sqr]). replace (((1 - l) * h + l * g) * ((1 - l) * h + l * g)) with ((1 - l) * (h * h) + l * (g * g) - l * (1 - l) * ((h - g) * (h - g))) by ring. lra. }
  split.
  - (* the tangent is not far above the table *)
    assert (Hl : 0 <= (sr + (51 / 50)) / 64 <= 1) by lra. set (l := (sr + (51 / 50)) / 64) in *.
    assert (TL : t <= (1 - l) * h + l * g). { eapply Rle_trans; [|apply (Ch l Hl)]. unfold t. apply tan_incr; unfold l; lra. }
    pose proof (Sq l t Hl T0 TL) as TQ.
    assert (Af : (1 - l) * h + l * g - (u + v * sr) - (e + ku * (1 - ((1 - l) * (h * h) + l * (g * g)))) <= 0).
    { set (al := (1 - (0 + (51 / 50)) / 64) * h + (0 + (51 / 50)) / 64 * g - u - (e + ku * (1 - ((1 - (0 + (51 / 50)) / 64) * (h * h) + (0 + (51 / 50)) / 64 * (g * g))))). set (be := (g - h) / 64 - v + ku * ((g * g - h * h) / 64)).
      replace ((1 - l) * h + l * g - (u + v * sr) - (e + ku * (1 - ((1 - l) * (h * h) + l * (g * g))))) with (al + be * sr) by (unfold al, be, l; field). apply (affine al be mr sr); [lra| |].
      - unfold al. lra.
      - replace (al + be * mr) with ((1 - (mr + (51 / 50)) / 64) * h + (mr + (51 / 50)) / 64 * g - (u + v * mr) - (e + ku * (1 - ((1 - (mr + (51 / 50)) / 64) * (h * h) + (mr + (51 / 50)) / 64 * (g * g))))) by (unfold al, be; field). lra. }
    rewrite Ep. assert (ku * (t * t) <= ku * ((1 - l) * (h * h) + l * (g * g))) by (apply Rmult_le_compat_l; lra). lra.
  - (* nor far below *)
    assert (Hl : 0 <= sr / 64 <= 1) by lra. set (l := sr / 64) in *.
    pose proof (tan_tangent (th B) x ltac:(lra) ltac:(lra)) as TG. fold b t in TG.
    set (v0 := a + sr / 10433 * (1 + a * a) - (1 / 50) / 10433 * (1 + h * h)).
    assert (V0 : v0 <= t). { eapply Rle_trans; [|exact TG]. assert (a * a <= b * b) by (apply Rmult_le_compat; lra). assert (b * b <= h * h) by (apply Rmult_le_compat; lra). assert (Q1 : sr / 10433 * (1 + a * a) <= sr / 10433 * (1 + b * b)) by (apply Rmult_le_compat_l; lra). assert (Q2 : (1 / 50) / 10433 * (1 + b * b) <= (1 / 50) / 10433 * (1 + h * h)) by (apply Rmult_le_compat_l; lra).
      assert (Q3 : (sr - (1 / 50)) / 10433 * (1 + b * b) <= (x - th B) * (1 + b * b)) by (apply Rmult_le_compat_r; [pose proof (Rle_0_sqr b) as SB; unfold Rsqr in SB; lra|lra]). unfold v0. lra. }
    set (w := Rmax v0 0). assert (W0 : 0 <= w) by apply Rmax_r. assert (WT : w <= t) by (apply Rmax_lub; lra).
    assert (W1 : w <= (1 - l) * h + l * g).
    { eapply Rle_trans; [|apply (Ch l Hl)]. replace (l * (64 / 10433)) with (sr / 10433) by (unfold l; field). set (x1 := th B + sr / 10433). assert (Hx1 : 0 <= x1 <= 0.8) by (unfold x1; lra). apply Rmax_lub; [|apply tan_pos0; lra].
      pose proof (tan_tangent (th B) x1 ltac:(lra) ltac:(lra)) as TG1. fold b in TG1. eapply Rle_trans; [|exact TG1]. unfold x1. replace (th B + sr / 10433 - th B) with (sr / 10433) by ring. assert (a * a <= b * b) by (apply Rmult_le_compat; lra). assert (Q1 : sr / 10433 * (1 + a * a) <= sr / 10433 * (1 + b * b)) by (apply Rmult_le_compat_l; lra). unfold v0. assert (0 <= (1 / 50) / 10433 * (1 + h * h)) by (pose proof (Rle_0_sqr h) as SB; unfold Rsqr in SB; apply Rmult_le_pos; lra). lra. }
    pose proof (Sq l w Hl W0 W1) as WQ.
    assert (Af : u + v * sr - v0 - (e + kd * (1 - ((1 - l) * (h * h) + l * (g * g)))) <= 0).
    { set (al := u - a + (1 / 50) / 10433 * (1 + h * h) - (e + kd * (1 - h * h))). set (be := v - / 10433 * (1 + a * a) + kd * ((g * g - h * h) / 64)).
      replace (u + v * sr - v0 - (e + kd * (1 - ((1 - l) * (h * h) + l * (g * g))))) with (al + be * sr) by (unfold al, be, l, v0; field). apply (affine al be mr sr); [lra| |].
      - unfold al. replace (0 / 64) with 0 in C3 by field. replace (0 / 10433) with 0 in C3 by field. lra.
      - replace (al + be * mr) with (u + v * mr - a - mr / 10433 * (1 + a * a) + (1 / 50) / 10433 * (1 + h * h) - (e + kd * (1 - ((1 - mr / 64) * (h * h) + mr / 64 * (g * g))))) by (unfold al, be; field). lra. }
    rewrite Ep. assert (M : w * w * kd - w >= t * t * kd - t). { assert (kd * (t + w) <= 0.4 * 2.2) by (apply Rmult_le_compat; lra). assert (0 <= (t - w) * (1 - kd * (t + w))) by (apply Rmult_le_pos; lra). lra. }
    assert (v0 <= w) by apply Rmax_l. assert (kd * (w * w) <= kd * ((1 - l) * (h * h) + l * (g * g))) by (apply Rmult_le_compat_l; lra). lra.
Qed.

(** ** All the checks, in one pass *)
Definition tb_all (B lo hi hi2 : Z) : bool :=
  (tb_chk 0 255 32 (P30 * 275 / 100000) 0 0 B lo hi hi2 && tb_chk 127 199 32 0 2300 2300 B lo hi hi2 && tb_chk 200 228 32 0 4050 4050 B lo hi hi2 &&
   tb_chk 228 252 32 0 18400 18400 B lo hi hi2 && tb_chk 253 253 24 0 23100 1000 B lo hi hi2)%bool.
Lemma tb_all_ok : tg_all tb_all 256 0 0 0 = true.
Proof. vm_compute. reflexivity. Qed.
Lemma tg_all_imp (P Q : Z -> Z -> Z -> Z -> bool) : (forall B lo hi hi2, P B lo hi hi2 = true -> Q B lo hi hi2 = true) -> forall k B lo hi, tg_all P k B lo hi = true -> tg_all Q k B lo hi = true.
Proof.
  intros I k. induction k as [|k IH]; intros B lo hi H; [reflexivity|]. cbn [tg_all] in *. apply andb_prop in H. destruct H as [H H3]. apply andb_prop in H. destruct H as [H1 H2]. rewrite H1, (I _ _ _ _ H2), (IH _ _ _ H3). reflexivity.
Qed.
Lemma tb_parts : tg_all (tb_chk 0 255 32 (P30 * 275 / 100000) 0 0) 256 0 0 0 = true /\ tg_all (tb_chk 127 199 32 0 2300 2300) 256 0 0 0 = true /\ tg_all (tb_chk 200 228 32 0 4050 4050) 256 0 0 0 = true /\
  tg_all (tb_chk 228 252 32 0 18400 18400) 256 0 0 0 = true /\ tg_all (tb_chk 253 253 24 0 23100 1000) 256 0 0 0 = true.
Proof.
  assert (A : forall Q, (forall B lo hi hi2, tb_all B lo hi hi2 = true -> Q B lo hi hi2 = true) -> tg_all Q 256 0 0 0 = true) by (intros Q H; apply (tg_all_imp tb_all Q H), tb_all_ok).
  refine (conj _ (conj _ (conj _ (conj _ _)))); apply A; unfold tb_all; intros B lo hi hi2 H; repeat (apply andb_prop in H; destruct H as [H ?]); assumption.
Qed.

(** ** The doubling formula *)
Lemma double_near t p r ku kd eta c : 0 < t < 1 -> 0 < p < 1 -> 0 <= ku -> 0 <= kd < 1 / 2 -> 0 <= eta < 1 -> ku * c <= 1 -> / t + p <= c ->
  - (ku * (1 - t * t)) <= p - t <= kd * (1 - t * t) -> Rabs (r * (1 - p * p) - 1) <= eta ->
  (1 - eta) * (1 - ku * c) * (2 * t / (1 - t * t)) <= 2 * p * r <= (1 + eta) * (1 + kd * c / (1 - 2 * kd)) * (2 * t / (1 - t * t)).
Proof.
  intros Ht Hp Hku Hkd He Hc1 Hc Hd Hr. set (q := 1 - t * t) in *. set (q' := 1 - p * p) in *. assert (Q0 : 0 < q) by (unfold q; nra). assert (Q1 : 0 < q') by (unfold q'; nra).
  set (rho := p * q / (t * q')). assert (T0 : 0 < t * q') by (apply Rmult_lt_0_compat; lra).
  assert (E : 2 * p * r = r * q' * rho * (2 * t / q)) by (unfold rho; field; lra).
  set (d := p - t) in *. assert (ER : rho = 1 + d * (/ t + p) / q') by (unfold rho, d, q, q'; field; unfold q' in Q1; lra).
  assert (It : 0 < / t) by (apply Rinv_0_lt_compat; lra). assert (S : 0 < / t + p) by lra.
  assert (Ra : 1 - ku * c <= rho).
  { rewrite ER. destruct (Rle_dec 0 d) as [D|D].
    - assert (0 <= d * (/ t + p) / q') by (apply Rle_mult_inv_pos; [apply Rmult_le_pos; lra|lra]). assert (0 <= ku * c) by (apply Rmult_le_pos; lra). lra.
    - apply Rnot_le_lt in D. assert (Qq : q <= q') by (unfold q, q', d in *; nra). assert (K1 : - d <= ku * q') by (assert (ku * q <= ku * q') by (apply Rmult_le_compat_l; lra); lra).
      assert (K2 : - d * (/ t + p) <= ku * q' * c) by (apply Rmult_le_compat; lra).
      assert (K3 : - (d * (/ t + p) / q') <= ku * c). { apply (Rmult_le_reg_r q'); [exact Q1|]. replace (- (d * (/ t + p) / q') * q') with (- d * (/ t + p)) by (field; lra). lra. } lra. }
  assert (Rb : rho <= 1 + kd * c / (1 - 2 * kd)).
  { rewrite ER. destruct (Rle_dec 0 d) as [D|D].
    - assert (Qq : q * (1 - 2 * kd) <= q') by (unfold d in *; assert (q' = q - (p - t) * (p + t)) as -> by (unfold q, q'; ring); nra). 
      assert (K1 : d * (1 - 2 * kd) <= kd * q') by (apply Rle_trans with (kd * q * (1 - 2 * kd)); [apply Rmult_le_compat_r; lra|]; rewrite Rmult_assoc; apply Rmult_le_compat_l; lra).
      assert (K2 : d * (1 - 2 * kd) * (/ t + p) <= kd * q' * c) by (apply Rmult_le_compat; try lra; apply Rmult_le_pos; lra).
      assert (K3 : d * (/ t + p) / q' <= kd * c / (1 - 2 * kd)). { apply (Rmult_le_reg_r (q' * (1 - 2 * kd))); [apply Rmult_lt_0_compat; lra|]. replace (d * (/ t + p) / q' * (q' * (1 - 2 * kd))) with (d * (1 - 2 * kd) * (/ t + p)) by (field; lra). replace (kd * c / (1 - 2 * kd) * (q' * (1 - 2 * kd))) with (kd * q' * c) by (field; lra). exact K2. } lra.
    - apply Rnot_le_lt in D. assert (K3 : 0 <= - d * (/ t + p) / q') by (apply Rle_mult_inv_pos; [apply Rmult_le_pos; lra|lra]). assert (0 <= kd * c / (1 - 2 * kd)) by (apply Rle_mult_inv_pos; [apply Rmult_le_pos; lra|lra]). replace (d * (/ t + p) / q') with (- (- d * (/ t + p) / q')) by (field; lra). lra. }
  rewrite E. apply Rabs_le_both in Hr. assert (Z0 : 0 <= 2 * t / q) by (apply Rle_mult_inv_pos; lra). assert (R1 : 0 <= 1 - ku * c) by lra.
  split; apply Rmult_le_compat_r; try exact Z0; apply Rmult_le_compat; lra.
Qed.

Lemma tan_double a : 0 <= a <= 0.78 -> 0 < 1 - tan a * tan a /\ tan (2 * a) = 2 * tan a / (1 - tan a * tan a).
Proof. intros H. destruct (tan_add a a ltac:(lra) ltac:(lra) ltac:(lra)) as [P E]. split; [exact P|]. replace (2 * a) with (a + a) by ring. rewrite E. f_equal. ring. Qed.

Lemma tan_eta pQ T r : (4095 <= T <= 8120)%Z -> reciprocal_pwl pQ 16 0 false (Fmt 16 6 false pQ WRAP) (tan_q pQ T) = Some r ->
  let p := fxval (pw_lin tan_m tan_c 10 T) 20 in 0.41395 <= p <= 0.98549 /\ Rabs (fxval r 10 * (1 - p * p) - 1) <= 0.0029.
Proof.
  intros HT E p. destruct (tan_recip pQ T HT) as (r' & V & E' & _ & _ & BV & BR). assert (r' = r) by congruence. subst r'. clear E'. pose proof (tanL_lo T HT) as Lb. pose proof (tan_q_range pQ T HT) as Qb.
  assert (Ep : p = IZR (pw_lin tan_m tan_c 10 T) / 1048576) by (unfold p, fxval; rewrite bpow2_opp, bpow2_IZR by lia; reflexivity).
  set (L := pw_lin tan_m tan_c 10 T) in *. destruct Lb as [L1 L2]. apply IZR_le in L1 as L1R. apply IZR_le in L2 as L2R. assert (Pb : 0.41395 <= p <= 0.98549) by (rewrite Ep; lra). split; [exact Pb|].
  assert (Rq : is_roundR pQ ((1 - p * p) * 65536) (tan_q pQ T)).
  { pose proof (qround_is_round pQ (2 ^ 40 - L * L) (2 ^ 24) ltac:(lia)) as R. fold (tan_q pQ T) in R. apply is_round_R in R; [|lia]. replace ((1 - p * p) * 65536) with (IZR (2 ^ 40 - L * L) / IZR (2 ^ 24)); [exact R|]. rewrite minus_IZR, mult_IZR, Ep. change (IZR (2 ^ 40)) with 1099511627776. change (IZR (2 ^ 24)) with 16777216. field. }
  apply is_roundR_near in Rq. assert (EQ : fxval (tan_q pQ T) 16 = IZR (tan_q pQ T) / 65536) by (unfold fxval; rewrite bpow2_opp, bpow2_IZR by lia; reflexivity). set (Q := fxval (tan_q pQ T) 16) in *. destruct Qb as [Q1 Q2]. apply IZR_le in Q1, Q2. assert (QB : 0.0288 <= Q <= 0.829) by (rewrite EQ; lra).
  set (q' := 1 - p * p) in *. assert (QN : Rabs (q' - Q) <= / 65536) by (apply Rabs_le; rewrite EQ; lra).
  set (R := fxval r 10) in *. assert (IQ : Q * / Q = 1) by (apply Rinv_r; lra). assert (IP : 0 < / Q) by (apply Rinv_0_lt_compat; lra).
  assert (VQ : Rabs (V * Q - 1) <= 0.002). { replace (V * Q - 1) with ((V - / Q) * Q) by (rewrite Rmult_minus_distr_r, (Rmult_comm (/ Q)), IQ; reflexivity). rewrite Rabs_mult, (Rabs_pos_eq Q) by lra. apply (Rmult_le_compat_r Q) in BV; [|lra]. rewrite Rmult_assoc, (Rmult_comm (/ Q)), IQ in BV. lra. }
  assert (V0 : Rabs V <= 1.002 * / Q). { replace V with ((V - / Q) + / Q) by ring. eapply Rle_trans; [apply Rabs_triang|]. rewrite (Rabs_pos_eq (/ Q)) by lra. lra. }
  replace (R * q' - 1) with ((R - V) * q' + (V * Q - 1) + V * (q' - Q)) by ring. eapply Rle_trans; [apply Rabs_triang|]. eapply Rle_trans; [apply Rplus_le_compat_r, Rabs_triang|].
  apply Rabs_le_both in QN as QN'. assert (Q'0 : 0 < q') by lra. rewrite !Rabs_mult, (Rabs_pos_eq q') by lra.
  assert (M1 : Rabs (R - V) * q' <= / 1024 * q') by (apply Rmult_le_compat_r; lra). assert (M2 : Rabs V * Rabs (q' - Q) <= 1.002 * / Q * / 65536) by (apply Rmult_le_compat; try apply Rabs_pos; assumption).
  destruct (Rle_dec Q 0.3) as [D|D].
  - assert (/ Q <= 34.73) by (apply (Rmult_le_reg_r Q); [lra|]; rewrite Rinv_l by lra; lra). lra.
  - assert (/ Q <= 3.34) by (apply (Rmult_le_reg_r Q); [lra|]; rewrite Rinv_l by lra; lra). lra.
Qed.

Section Main.
Variables (pQ : qmode) (W I : Z) (Q : qmode) (O : omode) (f : fmt) (x : Z).
Hypothesis HW : (1 <= W)%Z.
Hypothesis HWi : (1 <= tan_Wi W I)%Z.
Hypothesis Dom : tan_dom W I Q O.
Hypothesis HfW : (1 <= fW f)%Z.
Hypothesis Hx : (0 <= x < 2 ^ W)%Z.
Notation X := (fxval x (W - I)).
Hypothesis HX : X < 1594 / 1024.

Lemma tan_main_v v : tan_value pQ W I Q O x v ->
  (tan_exceeds W I x = false -> Rabs (fxval v 30 - tan X) <= 0.00275) /\
  (tan_exceeds W I x = true -> Rabs (fxval v 30 - tan X) <= (if Rle_dec X 1.4 then 0.012 else 0.05) * tan X).
Proof.
  intros Vv. assert (G : tan_ge W I 1594 x = false). { destruct (tan_ge W I 1594 x) eqn:E; [|reflexivity]. apply tan_ge_real in E. lra. }
  destruct (tan_pos W I Q O HW HWi Dom x Hx G) as (_ & Y & TB). pose proof (tan_half_range W I HW x Hx G) as TH. unfold tan_value in Vv. unfold tan_half in *. cbv zeta in *. set (T := tan_scaled W I Q O x) in *. destruct tb_parts as (C0 & C1 & C2 & C3 & C4).
  assert (Y' : forall z, IZR T - 0.02 <= 10433 * z <= IZR T + 1.02 -> IZR T - 1 / 50 <= 10433 * z <= IZR T + 51 / 50) by (intros; lra).
  assert (DM : (T = 32 * (T / 32) + T mod 32)%Z) by (apply Z.div_mod; lia). pose proof (Z.mod_pos_bound T 32 ltac:(lia)) as MB.
  destruct (tan_exceeds W I x) eqn:EX; (split; intros H; [|]); try discriminate H.
  - destruct Vv as (r & Er & ->). apply Y' in Y. set (a := X / 2) in *. assert (EXa : X = 2 * a) by (unfold a; field). destruct (tan_double a ltac:(lra)) as [PQ D]. rewrite EXa, D.
    destruct (tan_eta pQ T r TB Er) as [Pb Eta]. set (p := fxval (pw_lin tan_m tan_c 10 T) 20) in *. set (t := tan a) in *.
    assert (EV : fxval (2 * pw_lin tan_m tan_c 10 T * r) 30 = 2 * p * fxval r 10). { unfold p, fxval. rewrite !mult_IZR. replace (- (30))%Z with (- (20) + - (10))%Z by lia. rewrite bpow2_add. ring. }
    rewrite EV. set (R := fxval r 10) in *.
    assert (T1 : t < 1). { assert (t <= 0.99); [|lra]. apply tan_ge_of_atan; [lra|]. pose proof (atan_up 0.99 1 ltac:(lra) ltac:(lra)) as U. rewrite atan_1 in U. pose proof PI2_lo. assert (/ (1 + 0.99 ^ 2) <= 0.51) by (apply (Rmult_le_reg_r (1 + 0.99 ^ 2)); [lra|]; rewrite Rinv_l by lra; lra). lra. }
    assert (TG0 : 0 <= 2 * t / (1 - t * t)) by (apply Rle_mult_inv_pos; [assert (0 <= t) by (apply tan_pos0; lra); lra|exact PQ]).
    (* each range of positions *)
    assert (Gen : forall b0 b1 sm Ku Kd tl c eps, (0 < sm <= 32)%Z -> (0 <= Ku <= 400000)%Z -> (0 <= Kd <= 400000)%Z -> tg_all (tb_chk b0 b1 sm 0 Ku Kd) 256 0 0 0 = true ->
      (b0 <= T / 32 <= b1)%Z -> (T mod 32 <= sm)%Z -> 0 < tl <= 1 -> tl <= p - IZR Kd / 1000000 * (1 - tl * tl) -> tl + / tl + IZR Kd / 1000000 <= c -> IZR Ku / 1000000 * c <= 1 ->
      (1 + 0.0029) * (1 + IZR Kd / 1000000 * c / (1 - 2 * (IZR Kd / 1000000))) <= 1 + eps -> 1 - eps <= (1 - 0.0029) * (1 - IZR Ku / 1000000 * c) -> Rabs (2 * p * R - 2 * t / (1 - t * t)) <= eps * (2 * t / (1 - t * t))).
    { intros b0 b1 sm Ku Kd tl c eps S1 S2 S3 S4 S5 S6 S7 S8 S9 S10 S11 S12. pose proof (tb_near b0 b1 sm 0 Ku Kd S1 S2 S3 S4 T (10433 * a) ltac:(lia) S5 S6 ltac:(lra) Y) as N. cbv zeta in N. replace (10433 * a / 10433) with a in N by field. fold t p in N. unfold Rdiv at 1 3 in N. rewrite Rmult_0_l, !Rplus_0_l in N.
      assert (K1 : 0 <= IZR Ku / 1000000). { apply Rle_mult_inv_pos; [apply (IZR_le 0); lia|lra]. } assert (K2 : 0 <= IZR Kd / 1000000 <= 0.4). { destruct S3 as [S3 S3']. apply IZR_le in S3, S3'. lra. }
      set (ku := IZR Ku / 1000000) in *. set (kd := IZR Kd / 1000000) in *. assert (T0 : 0 <= t) by (apply tan_pos0; lra).
      assert (TL : tl <= t). { apply Rnot_lt_le. intros Lt. destruct N as [_ N].
        assert (K3 : kd * (tl + t) <= 0.4 * 2) by (apply Rmult_le_compat; lra). assert (0 < (tl - t) * (1 - kd * (tl + t))) by (apply Rmult_lt_0_compat; lra).
        assert ((tl - t) * (1 - kd * (tl + t)) = tl - t - kd * (tl * tl) + kd * (t * t)) by ring. lra. }
      assert (SQ : / t + p <= c). { assert (I1 : / t + t <= / tl + tl). { assert (0 < t * tl) by (apply Rmult_lt_0_compat; lra). apply (Rmult_le_reg_r (t * tl)); [lra|]. replace ((/ t + t) * (t * tl)) with (tl + t * t * tl) by (field; lra). replace ((/ tl + tl) * (t * tl)) with (t + t * (tl * tl)) by (field; lra).
          assert (t * tl <= 1 * 1) by (apply Rmult_le_compat; lra). assert (0 <= (t - tl) * (1 - t * tl)) by (apply Rmult_le_pos; lra). assert ((t - tl) * (1 - t * tl) = t + t * (tl * tl) - (tl + t * t * tl)) by ring. lra. }
        assert (p - t <= kd). { destruct N as [_ N]. assert (kd * (1 - t * t) <= kd * 1) by (apply Rmult_le_compat_l; [lra|]; pose proof (Rle_0_sqr t) as Q2; unfold Rsqr in Q2; lra). lra. } lra. }
      pose proof (double_near t p R ku kd 0.0029 c ltac:(lra) ltac:(lra) K1 ltac:(lra) ltac:(lra) S10 SQ N Eta) as [A B]. set (g := 2 * t / (1 - t * t)) in *.
      assert ((1 - eps) * g <= (1 - 0.0029) * (1 - ku * c) * g) by (apply Rmult_le_compat_r; lra). assert ((1 + 0.0029) * (1 + kd * c / (1 - 2 * kd)) * g <= (1 + eps) * g) by (apply Rmult_le_compat_r; lra). apply Rabs_le. lra. }
    assert (Low : forall S l, (0 <= S <= T)%Z -> pw_lin tan_m tan_c 10 S = l -> IZR l / 1048576 <= p).
    { intros S l HS El. pose proof (tanL_up S T ltac:(lia) ltac:(lia)) as U. rewrite El in U. apply IZR_le in U. unfold p, fxval. rewrite bpow2_opp, bpow2_IZR by lia. change (IZR (2 ^ 20)) with 1048576. lra. }
    destruct (Rle_dec (2 * a) 1.4) as [DX|DX].
    + assert (TU : (T <= 7304)%Z) by (apply le_IZR; lra). destruct (Z.le_gt_cases T 6399) as [D1|D1].
      * apply (Gen 127%Z 199%Z 32%Z 2300%Z 2300%Z 0.4116 2.85 0.012); try lia; try lra. exact C1.
      * pose proof (Low 6400%Z 739328%Z ltac:(lia) ltac:(vm_compute; reflexivity)) as Lp. apply (Gen 200%Z 228%Z 32%Z 4050%Z 4050%Z 0.703 2.13 0.012); try lia; try lra. exact C2.
    + assert (TL : (7302 < T)%Z) by (apply lt_IZR; lra). destruct (Z.le_gt_cases T 8095) as [D1|D1].
      * pose proof (Low 7296%Z 882560%Z ltac:(lia) ltac:(vm_compute; reflexivity)) as Lp. apply (Gen 228%Z 252%Z 32%Z 18400%Z 18400%Z 0.836 2.06 0.05); try lia; try lra. exact C3.
      * pose proof (Low 8096%Z 1028960%Z ltac:(lia) ltac:(vm_compute; reflexivity)) as Lp. apply (Gen 253%Z 253%Z 24%Z 23100%Z 1000%Z 0.97 2.002 0.05); try lia; try lra. exact C4.
  - subst v. assert (EV : fxval (pw_lin tan_m tan_c 10 T * 2 ^ 10) 30 = fxval (pw_lin tan_m tan_c 10 T) 20) by (change 10%Z with (30 - 20)%Z at 2; apply fxval_up; lia). rewrite EV.
    apply Y' in Y. pose proof (tb_near 0 255 32 (P30 * 275 / 100000) 0 0 ltac:(lia) ltac:(lia) ltac:(lia) C0 T (10433 * X) ltac:(lia) ltac:(split; [apply Z.div_pos; lia|apply Z.lt_succ_r, Z.div_lt_upper_bound; lia]) ltac:(lia) ltac:(lra) Y) as N. cbv zeta in N. replace (10433 * X / 10433) with X in N by field. replace (0 / 1000000) with 0 in N by field. rewrite !Rmult_0_l, !Rplus_0_r in N.
    assert (IZR (P30 * 275 / 100000) / IZR P30 <= 0.00275). { rewrite P30R. change (P30 * 275 / 100000)%Z with 2952790%Z. lra. }
    apply Rabs_le. lra.
Qed.
Lemma tan_main : exists out V, tan_pwl pQ W I Q O f x = Some out /\ convertsR f V out /\
  (tan_exceeds W I x = false -> Rabs (V - tan X) <= 0.00275) /\
  (tan_exceeds W I x = true -> Rabs (V - tan X) <= (if Rle_dec X 1.4 then 0.012 else 0.05) * tan X).
Proof.
  assert (G : tan_ge W I 1594 x = false). { destruct (tan_ge W I 1594 x) eqn:E; [|reflexivity]. apply tan_ge_real in E. lra. }
  destruct (tan_eval pQ W I Q O f x HW HWi Dom Hx G) as (v & Vv & E). exists (conv f v 30), (fxval v 30). split; [exact E|]. split. { unfold fxval. apply converts2_R, conv_conv2. exact HfW. }
  exact (tan_main_v v Vv).
Qed.
End Main.

Lemma tan_cases W I x V : (1 <= W)%Z -> (0 <= x < 2 ^ W)%Z -> let X := fxval x (W - I) in
  (tan_exceeds W I x = false -> Rabs (V - tan X) <= 0.00275) -> (tan_exceeds W I x = true -> Rabs (V - tan X) <= (if Rle_dec X 1.4 then 0.012 else 0.05) * tan X) ->
  Rabs (V - tan X) <= (if Rlt_dec X (804 / 1024) then 0.00275 else (if Rle_dec X 1.4 then 0.012 else 0.05) * tan X).
Proof.
  intros HW Hx X A B.
  destruct (tan_exceeds W I x) eqn:EX.
  - unfold tan_exceeds in EX. apply andb_true_iff in EX. destruct EX as [_ G]. apply tan_ge_real in G. fold X in G. destruct (Rlt_dec X (804 / 1024)); [lra|]. apply B; reflexivity.
  - destruct (Rlt_dec X (804 / 1024)) as [L|L]; [apply A; reflexivity|]. exfalso. apply L. unfold tan_exceeds in EX. apply andb_false_iff in EX. destruct EX as [EX|EX].
    + apply Z.leb_gt in EX. assert (XI : X < bpow2 I). { unfold X, fxval. apply (Rmult_lt_reg_r (bpow2 (W - I))); [apply bpow2_pos|]. rewrite Rmult_assoc, <- !bpow2_add. replace (- (W - I) + (W - I))%Z with 0%Z by lia. replace (I + (W - I))%Z with W by lia. change (bpow2 0) with 1. rewrite Rmult_1_r, (bpow2_IZR W) by lia. apply IZR_lt. lia. }
      assert (bpow2 I <= bpow2 (-1)) by (apply bp_le; lia). assert (bpow2 (-1) = / 2) by (change (-1)%Z with (- (1))%Z; rewrite bpow2_opp, bpow2_1; reflexivity). lra.
    + apply Rnot_le_lt. intros G. assert (tan_ge W I 804 x = true) by (apply tan_ge_real; exact G). congruence.
Qed.
Lemma tan_accuracy pQ W I Q O f x : (1 <= W)%Z -> (1 <= tan_Wi W I)%Z -> tan_dom W I Q O -> (1 <= fW f)%Z -> (0 <= x < 2 ^ W)%Z ->
  let X := fxval x (W - I) in X < 1594 / 1024 ->
  exists out V, tan_pwl pQ W I Q O f x = Some out /\ convertsR f V out /\
    Rabs (V - tan X) <= (if Rlt_dec X (804 / 1024) then 0.00275 else (if Rle_dec X 1.4 then 0.012 else 0.05) * tan X).
Proof.
  intros HW HWi Dom HfW Hx X HX. destruct (tan_main pQ W I Q O f x HW HWi Dom HfW Hx HX) as (out & V & E & C & A & B). exists out, V. split; [exact E|]. split; [exact C|]. fold X in A, B.
  exact (tan_cases W I x V HW Hx A B).
Qed.

Lemma tan_top pQ W I Q O f x : 1594 / 1024 <= fxval x (W - I) -> tan_pwl pQ W I Q O f x = Some (imax (fS f) (fW f)).
Proof. intros H. apply tan_saturates, tan_ge_real, H. Qed.

Lemma tan_lost : exists W I f x, (1 <= W)%Z /\ (1 <= fW f)%Z /\ (0 <= x < 2 ^ W)%Z /\ tan_pwl TRN W I RND WRAP f x = Some 0%Z /\ 0.9 < tan (fxval x (W - I)).
Proof.
  exists 30%Z, 0%Z, (Fmt 32 8 false TRN SAT), (2 ^ 30 - 1)%Z. split; [lia|]. split; [cbn; lia|]. split; [lia|]. split; [vm_compute; reflexivity|].
  assert (E : fxval (2 ^ 30 - 1) (30 - 0) = 1 - / 1073741824). { unfold fxval. rewrite bpow2_opp, bpow2_IZR by lia. change (2 ^ (30 - 0))%Z with 1073741824%Z. change (2 ^ 30 - 1)%Z with 1073741823%Z. field. } rewrite E.
  apply Rlt_le_trans with 0.95; [lra|]. apply tan_le_of_atan; [lra|]. pose proof (atan_up 0 0.95 ltac:(lra) ltac:(lra)) as U. rewrite atan_0 in U. replace (1 + 0 ^ 2) with 1 in U by ring. rewrite Rinv_1 in U. lra.
Qed.
