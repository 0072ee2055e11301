(** The entries of the table of ac_sincos_lut are cosines and sines. *)
From Coq Require Import List Reals Lia Lra Psatz.
From Verif Require Import AcTypes AcFacts Spec SpecR SpecRFacts SoftFacts CordicNum CordicProofs CordicThm SinLutModel.
Import ListNotations.
Local Open Scope R_scope.

(** Sine and cosine of a turn / 4096, in units of 2^-70. *)
Definition theta : R := PI / 2048.
Definition B70 : R := 1180591620717411303424.
Definition sZ : Z := 1811004154274327940.
Definition cZ : Z := 1180590231694349208955.
Definition x0 : R := 1811004864519280711 / B70.

Lemma fact_S n v : INR (fact n) = v -> INR (fact (S n)) = INR (S n) * v.
Proof. intros <-. rewrite fact_simpl, mult_INR. reflexivity. Qed.
Lemma facts : INR (fact 0) = 1 /\ INR (fact 1) = 1 /\ INR (fact 2) = 2 /\ INR (fact 3) = 6 /\ INR (fact 4) = 24 /\ INR (fact 5) = 120 /\ INR (fact 6) = 720 /\ INR (fact 7) = 5040 /\ INR (fact 8) = 40320 /\ INR (fact 9) = 362880.
Proof.
  pose proof (eq_refl : INR (fact 0) = 1) as H0. pose proof (fact_S _ _ H0) as H1. pose proof (fact_S _ _ H1) as H2. pose proof (fact_S _ _ H2) as H3. pose proof (fact_S _ _ H3) as H4. pose proof (fact_S _ _ H4) as H5. pose proof (fact_S _ _ H5) as H6. pose proof (fact_S _ _ H6) as H7. pose proof (fact_S _ _ H7) as H8. pose proof (fact_S _ _ H8) as H9.
  cbn [INR] in H1, H2, H3, H4, H5, H6, H7, H8, H9. repeat match goal with |- _ /\ _ => split end; lra.
Qed.
Lemma sin0 : Rabs (B70 * sin x0 - IZR sZ) <= 1.
Proof.
  pose proof (pre_sin_bound x0 1) as [L H]; [unfold x0, B70; lra|unfold x0, B70; lra|]. unfold sin_approx, sin_term in *. cbn [sum_f_R0 Nat.mul Nat.add] in *.
  destruct facts as (F0 & F1 & F2 & F3 & F4 & F5 & F6 & F7 & F8 & F9). rewrite ?F1, ?F3, ?F5, ?F7, ?F9 in *. cbn [pow] in *.
  unfold x0, B70, sZ in *. apply Rabs_le. lra.
Qed.
Lemma cos0 : Rabs (B70 * cos x0 - IZR cZ) <= 1.
Proof.
  pose proof (pre_cos_bound x0 1) as [L H]; [unfold x0, B70; lra|unfold x0, B70; lra|]. unfold cos_approx, cos_term in *. cbn [sum_f_R0 Nat.mul Nat.add] in *.
  destruct facts as (F0 & F1 & F2 & F3 & F4 & F5 & F6 & F7 & F8 & F9). rewrite ?F0, ?F2, ?F4, ?F6, ?F8 in *. cbn [pow] in *.
  unfold x0, B70, cZ in *. apply Rabs_le. lra.
Qed.
Lemma theta0 : B70 * Rabs (theta - x0) <= 1.
Proof.
  pose proof pi_Z as [L H]. 
  assert (E1 : (3889103333003610706726905000 - 1000000 <=? pi_lo)%Z = true) by (vm_compute; reflexivity).
  assert (E2 : (pi_hi <=? 3889103333003610706726905000 + 1000000)%Z = true) by (vm_compute; reflexivity). apply Z.leb_le in E1, E2. apply IZR_le in E1, E2. rewrite minus_IZR in E1. rewrite plus_IZR in E2.
  unfold B90 in *. change (2 ^ 90)%Z with 1237940039285380274899124224%Z in *. assert (A : Rabs (theta - x0) <= / B70); [|apply Rmult_le_compat_l with (r := B70) in A; [rewrite Rinv_r in A; [exact A|]|]; unfold B70; lra].
  unfold theta, x0, B70 in *. apply Rabs_le. lra.
Qed.
Lemma sinT : Rabs (B70 * sin theta - IZR sZ) <= 2.
Proof.
  pose proof sin0 as A. pose proof theta0 as T. pose proof (sin_lip theta x0) as L. assert (0 < B70) by (unfold B70; lra). apply Rabs_le_both in A. assert (B70 * Rabs (sin theta - sin x0) <= 1) by nra.
  assert (Rabs (B70 * (sin theta - sin x0)) <= 1) as Q by (rewrite Rabs_mult, (Rabs_pos_eq B70) by lra; assumption). apply Rabs_le_both in Q. apply Rabs_le. lra.
Qed.
Lemma cosT : Rabs (B70 * cos theta - IZR cZ) <= 2.
Proof.
  pose proof cos0 as A. pose proof theta0 as T. pose proof (cos_lip theta x0) as L. assert (0 < B70) by (unfold B70; lra). apply Rabs_le_both in A. assert (B70 * Rabs (cos theta - cos x0) <= 1) by nra.
  assert (Rabs (B70 * (cos theta - cos x0)) <= 1) as Q by (rewrite Rabs_mult, (Rabs_pos_eq B70) by lra; assumption). apply Rabs_le_both in Q. apply Rabs_le. lra.
Qed.

(** Rotation by theta, rounded, and the comparison of the table with it. *)
Definition rotc (c s : Z) : Z := ((c * cZ - s * sZ) / 2 ^ 70)%Z.
Definition rots (c s : Z) : Z := ((s * cZ + c * sZ) / 2 ^ 70)%Z.
Fixpoint walk (c s : Z) (tab : list (Z * Z)) : bool :=
  match tab with
  | nil => true
  | e :: r => (Z.abs (256 * fst e - c) <=? 2 ^ 23)%Z && (Z.abs (256 * snd e - s) <=? 2 ^ 23)%Z && walk (rotc c s) (rots c s) r
  end.
Lemma walk_all : walk (2 ^ 70) 0 lut_tab = true.
Proof. vm_compute. reflexivity. Qed.

Lemma norm_comp a b E : 0 <= E -> a * a + b * b <= E * E -> - E <= a <= E.
Proof. intros HE H. pose proof (Rle_0_sqr b) as B. unfold Rsqr in B. split; [|apply sq_le; lra]. assert (- a <= E) by (apply sq_le; lra). lra. Qed.
Lemma div70 m : - 1 < IZR (m / 2 ^ 70) - IZR m / B70 <= 0.
Proof.
  pose proof (Z.div_mod m (2 ^ 70) ltac:(discriminate)) as D. pose proof (Z.mod_pos_bound m (2 ^ 70) ltac:(reflexivity)) as [L H]. set (q := (m / 2 ^ 70)%Z) in *. set (r := (m mod 2 ^ 70)%Z) in *. clearbody q r.
  apply (f_equal IZR) in D. rewrite plus_IZR, mult_IZR in D. apply IZR_le in L. apply IZR_lt in H. change (2 ^ 70)%Z with 1180591620717411303424%Z in *. fold B70 in *. assert (0 < B70) by (unfold B70; lra). rewrite D.
  replace (IZR q - (B70 * IZR q + IZR r) / B70) with (- (IZR r / B70)) by (field; lra). assert (0 <= IZR r / B70) by (apply Rmult_le_pos; [assumption|left; apply Rinv_0_lt_compat; assumption]). assert (IZR r / B70 < 1) by (apply Rmult_lt_reg_r with B70; [assumption|]; unfold Rdiv; rewrite Rmult_assoc, Rinv_l; lra). lra.
Qed.
Lemma rot_near c s phi E : 0 <= E <= 10000 -> (IZR c - B70 * cos phi) * (IZR c - B70 * cos phi) + (IZR s - B70 * sin phi) * (IZR s - B70 * sin phi) <= E * E ->
  (IZR (rotc c s) - B70 * cos (phi + theta)) * (IZR (rotc c s) - B70 * cos (phi + theta)) + (IZR (rots c s) - B70 * sin (phi + theta)) * (IZR (rots c s) - B70 * sin (phi + theta)) <= (E + 9) * (E + 9).
Proof.
  intros HE H. pose proof sinT as ST. pose proof cosT as CT. apply Rabs_le_both in ST, CT. set (C := IZR cZ) in *. set (S := IZR sZ) in *.
  rewrite cos_plus, sin_plus. pose proof (COS_bound theta) as Bc. pose proof (SIN_bound theta) as Bs. pose proof (sin2_cos2 theta) as SC. unfold Rsqr in SC. pose proof (COS_bound phi) as Pc. pose proof (SIN_bound phi) as Ps.
  set (ct := cos theta) in *. set (st := sin theta) in *. set (cp := cos phi) in *. set (sp := sin phi) in *. clearbody ct st cp sp.
  assert (FC : - 1 < IZR (rotc c s) - (IZR c * C - IZR s * S) / B70 <= 0). { unfold rotc. pose proof (div70 (c * cZ - s * sZ)) as D. rewrite minus_IZR, !mult_IZR in D. exact D. }
  assert (FS : - 1 < IZR (rots c s) - (IZR s * C + IZR c * S) / B70 <= 0). { unfold rots. pose proof (div70 (s * cZ + c * sZ)) as D. rewrite plus_IZR, !mult_IZR in D. exact D. }
  clearbody C S. set (c' := IZR (rotc c s)) in *. set (s' := IZR (rots c s)) in *. clearbody c' s'. set (cr := IZR c) in *. set (sr := IZR s) in *. clearbody cr sr.
  assert (HB : B70 = 1180591620717411303424) by reflexivity. set (B := B70) in *. clearbody B.
  (* components *)
  assert (D1 := norm_comp _ _ _ (proj1 HE) H). assert (D2 : - E <= sr - B * sp <= E) by (apply (norm_comp _ (cr - B * cp)); lra).
  assert (U1 : - (101 / 100) <= cr / B <= 101 / 100) by (split; [apply Rmult_le_reg_r with B; [lra|]; unfold Rdiv at 2; rewrite Rmult_assoc, Rinv_l by lra; nra|apply Rmult_le_reg_r with B; [lra|]; unfold Rdiv at 1; rewrite Rmult_assoc, Rinv_l by lra; nra]).
  assert (U2 : - (101 / 100) <= sr / B <= 101 / 100) by (split; [apply Rmult_le_reg_r with B; [lra|]; unfold Rdiv at 2; rewrite Rmult_assoc, Rinv_l by lra; nra|apply Rmult_le_reg_r with B; [lra|]; unfold Rdiv at 1; rewrite Rmult_assoc, Rinv_l by lra; nra]).
  assert (X1 : c' - B * (cp * ct - sp * st) = ((cr - B * cp) * ct - (sr - B * sp) * st) + ((c' - (cr * C - sr * S) / B) + (cr / B * (C - B * ct) - sr / B * (S - B * st)))) by (field; lra).
  assert (X2 : s' - B * (sp * ct + cp * st) = ((sr - B * sp) * ct + (cr - B * cp) * st) + ((s' - (sr * C + cr * S) / B) + (sr / B * (C - B * ct) + cr / B * (S - B * st)))) by (field; lra).
  rewrite X1, X2. set (e1 := cr - B * cp) in *. set (e2 := sr - B * sp) in *. set (u1 := cr / B) in *. set (u2 := sr / B) in *. set (g1 := C - B * ct) in *. set (g2 := S - B * st) in *. set (f1 := c' - (cr * C - sr * S) / B) in *. set (f2 := s' - (sr * C + cr * S) / B) in *.
  assert (G1 : -2 <= g1 <= 2) by (unfold g1; lra). assert (G2 : -2 <= g2 <= 2) by (unfold g2; lra). clearbody e1 e2 u1 u2 g1 g2 f1 f2.
  apply norm_tri; [lra|lra| |].
  - replace ((e1 * ct - e2 * st) * (e1 * ct - e2 * st) + (e2 * ct + e1 * st) * (e2 * ct + e1 * st)) with ((e1 * e1 + e2 * e2) * (st * st + ct * ct)) by ring. rewrite SC. lra.
  - assert (M1 : -(202 / 100) <= u1 * g1 <= 202 / 100) by nra. assert (M2 : -(202 / 100) <= u2 * g2 <= 202 / 100) by nra. assert (M3 : -(202 / 100) <= u1 * g2 <= 202 / 100) by nra. assert (M4 : -(202 / 100) <= u2 * g1 <= 202 / 100) by nra.
    set (m1 := f1 + (u1 * g1 - u2 * g2)). set (m2 := f2 + (u2 * g1 + u1 * g2)). assert (- 6 <= m1 <= 6) by (unfold m1; lra). assert (- 6 <= m2 <= 6) by (unfold m2; lra). nra.
Qed.

Lemma walk_near tab : forall n c s, (n + length tab <= 1000)%nat -> walk c s tab = true ->
  (IZR c - B70 * cos (INR n * theta)) * (IZR c - B70 * cos (INR n * theta)) + (IZR s - B70 * sin (INR n * theta)) * (IZR s - B70 * sin (INR n * theta)) <= (9 * INR n) * (9 * INR n) ->
  forall i, (i < length tab)%nat -> Rabs (256 * IZR (fst (nth i tab (0, 0)%Z)) - B70 * cos (INR (n + i) * theta)) <= 2 ^ 23 + 9000 /\
    Rabs (256 * IZR (snd (nth i tab (0, 0)%Z)) - B70 * sin (INR (n + i) * theta)) <= 2 ^ 23 + 9000.
Proof.
  induction tab as [|e r IH]; intros n c s HL HW H i Hi; [cbn in Hi; lia|]. cbn [length] in *. cbn [walk] in HW. apply Bool.andb_true_iff in HW as [HW1 HW2]. apply Bool.andb_true_iff in HW1 as [W1 W2].
  assert (HN : INR n <= 1000) by (change 1000 with (IZR (Z.of_nat 1000)); rewrite INR_IZR_INZ; apply IZR_le; lia). pose proof (pos_INR n) as HN0.
  destruct i as [|i].
  - cbn [nth]. rewrite Nat.add_0_r. apply Z.leb_le in W1, W2. apply IZR_le in W1, W2. rewrite abs_IZR, minus_IZR, mult_IZR in W1, W2. change (IZR (2 ^ 23)) with 8388608 in W1, W2.
    pose proof (norm_comp _ _ (9 * INR n) ltac:(lra) H) as N1. rewrite Rplus_comm in H. pose proof (norm_comp _ _ (9 * INR n) ltac:(lra) H) as N2. apply Rabs_le_both in W1, W2. split; apply Rabs_le; lra.
  - cbn [nth]. replace (n + S i)%nat with (S n + i)%nat by lia. apply (IH (S n) (rotc c s) (rots c s)); [lia|exact HW2| |lia].
    rewrite S_INR. replace ((INR n + 1) * theta) with (INR n * theta + theta) by ring. replace (9 * (INR n + 1)) with (9 * INR n + 9) by ring. apply rot_near; [lra|exact H].
Qed.
Lemma lut_near k : (k < 512)%nat -> Rabs (fxval (fst (nth k lut_tab (0, 0)%Z)) 62 - cos (INR k * theta)) <= bpow2 (-46) /\ Rabs (fxval (snd (nth k lut_tab (0, 0)%Z)) 62 - sin (INR k * theta)) <= bpow2 (-46).
Proof.
  intros Hk. destruct (walk_near lut_tab 0 (2 ^ 70) 0 ltac:(cbv [lut_tab length]; lia) walk_all) with (i := k) as [A B].
  - cbn [INR]. rewrite Rmult_0_l, cos_0, sin_0. change (IZR (2 ^ 70)) with B70. right. ring.
  - exact Hk.
  - rewrite Nat.add_0_l in A, B. assert (E : bpow2 (- (62)) = 256 * / B70) by (rewrite bpow2_opp, bpow2_IZR by lia; change (IZR (2 ^ 62)) with 4611686018427387904; unfold B70; lra).
    assert (E2 : bpow2 (-46) = 16777216 * / B70) by (change (-46)%Z with (- (46))%Z; rewrite bpow2_opp, bpow2_IZR by lia; change (IZR (2 ^ 46)) with 70368744177664; unfold B70; lra).
    unfold fxval. rewrite E, E2. assert (P : 0 < / B70) by (apply Rinv_0_lt_compat; unfold B70; lra). assert (Q : B70 * / B70 = 1) by (apply Rinv_r; unfold B70; lra).
    set (tc := fst (nth k lut_tab (0, 0)%Z)) in *. set (ts := snd (nth k lut_tab (0, 0)%Z)) in *. clearbody tc ts. replace (2 ^ 23 + 9000) with 8397608 in A, B by lra. apply Rabs_le_both in A, B.
    set (C := cos (INR k * theta)) in *. set (S := sin (INR k * theta)) in *. clearbody C S. set (b := B70) in *. set (ib := / b) in *. clearbody b ib.
    assert (X1 : IZR tc * (256 * ib) - C = (256 * IZR tc - b * C) * ib) by (replace C with (b * ib * C) at 1 by (rewrite Q; ring); ring).
    assert (X2 : IZR ts * (256 * ib) - S = (256 * IZR ts - b * S) * ib) by (replace S with (b * ib * S) at 1 by (rewrite Q; ring); ring).
    rewrite X1, X2. split; apply Rabs_le; split; nra.
Qed.
(** The entry 0 is exact, and 0.7071... is sqrt(1/2). *)
Lemma lut_half_near : Rabs (fxval lut_half 62 - cos (512 * theta)) <= bpow2 (-46) /\ Rabs (fxval lut_half 62 - sin (512 * theta)) <= bpow2 (-46).
Proof.
  unfold theta. replace (512 * (PI / 2048)) with (PI / 4) by field. rewrite cos_PI4, sin_PI4. assert (H : Rabs (fxval lut_half 62 - 1 / sqrt 2) <= bpow2 (-46)); [|split; exact H].
  assert (E : 1 / sqrt 2 = sqrt 2 / 2). { pose proof (sqrt_sqrt 2 ltac:(lra)) as Q. assert (0 < sqrt 2) by (apply sqrt_lt_R0; lra). apply Rmult_eq_reg_r with (sqrt 2); [|lra]. unfold Rdiv. rewrite Rmult_assoc, Rinv_l by lra. lra. } rewrite E.
  unfold fxval, lut_half. assert (E1 : bpow2 (- (62)) = / 4611686018427387904) by (rewrite bpow2_opp, bpow2_IZR by lia; reflexivity). assert (E2 : bpow2 (-46) = / 70368744177664) by (change (-46)%Z with (- (46))%Z; rewrite bpow2_opp, bpow2_IZR by lia; reflexivity). rewrite E1, E2.
  pose proof (sqrt_sqrt 2 ltac:(lra)) as Q. assert (P : 0 < sqrt 2) by (apply sqrt_lt_R0; lra). set (s := sqrt 2) in *. clearbody s. apply Rabs_le. split.
  - assert (s <= 2 * (3260954456333195776 * / 4611686018427387904 + / 70368744177664)); [|lra]. apply sq_le; [lra|]. lra.
  - assert (2 * (3260954456333195776 * / 4611686018427387904 - / 70368744177664) <= s); [|lra]. apply sq_le; [lra|]. lra.
Qed.
