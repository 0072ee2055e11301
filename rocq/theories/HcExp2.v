(** The hyperbolic CORDIC power of two of a fraction: error bounds and absence of overflow. *)
From Coq Require Import Reals Lia Lra Psatz ZifyBool.
From Verif Require Import AcTypes AcFacts Spec SpecR SpecRFacts SoftFacts QrdThm MatrixProofs ShiftFacts Atan2Proofs PwlExpReal ActReal DetProofs HcModel HcNum HcIter HcExp.
Local Open Scope R_scope.

(** ac_exp2_rr up to the conversion to the result type. *)
Definition exp2_v (AW EW x : Z) : Z :=
  let fx := dfmt (EW + 3) 3 true in
  let one := conv fx 1 0 in
  let ln2 := conv fx (conv (dfmt EW 0 false) hc_ln2 159) EW in
  let zc := conv fx (x * ln2) (AW + EW) in
  let '(_, y, _) := hc_loop ROT_Z hc_tab 3 EW (hc_start 3 EW one one EW zc) in
  let yc := conv fx y (fF (hc_dp 3 EW)) in
  let k := conv fx (conv (dfmt (EW + 1) 1 false) hc_inv_K 158) EW in
  conv fx (yc * k) (EW + EW).
Lemma exp2_rr_v AW fz x : exp2_rr AW fz x = conv fz (exp2_v AW (Z.max AW (fW fz)) x) (Z.max AW (fW fz)).
Proof. unfold exp2_rr, exp2_v. set (st := hc_loop _ _ _ _ _). destruct st as [[a b] c]. reflexivity. Qed.
Lemma exp2_v_rescale AW EW x : (AW <= EW)%Z -> exp2_v AW EW x = exp2_v EW EW (x * 2 ^ (EW - AW)).
Proof.
  intros H. unfold exp2_v. set (l := conv _ (conv (dfmt EW 0 false) _ _) _). assert (E : conv (dfmt (EW + 3) 3 true) (x * l) (AW + EW) = conv (dfmt (EW + 3) 3 true) (x * 2 ^ (EW - AW) * l) (EW + EW)).
  { replace (x * 2 ^ (EW - AW) * l)%Z with (x * l * 2 ^ ((EW + EW) - (AW + EW)))%Z; [symmetry; apply conv_rescale; lia|]. replace (EW + EW - (AW + EW))%Z with (EW - AW)%Z by lia. ring. }
  rewrite E. reflexivity.
Qed.

(** ** The budget at the end of the loop *)
Definition eb_final (EW : Z) : bool :=
  let f := (hc_LW EW - 3 - 1)%Z in
  let '(zb, se, cs, ok) := eb f (Z.to_nat (hc_L EW)) in
  let u := (2 ^ (63 - EW))%Z in
  let eta := (zb + se)%Z in
  let e1 := (eta + (eta * eta / 2 ^ 63 + 1))%Z in
  let kap := (u / 64)%Z in
  let A := (e1 + kap + (e1 * kap / 2 ^ 63 + 1))%Z in
  let d := (cs * 10000 / (8279 * 2 ^ f) + 2)%Z in
  let c4 := if (EW <=? 13)%Z then 36%Z else 5%Z in
  ok && (eta <=? 2 ^ 63)%Z && (0 <=? cs)%Z && (4 * (2 * A + d + (A * d / 2 ^ 63 + 1)) <=? c4 * u)%Z && (4 * (2 * (kap + eta + 1) + d) <=? c4 * u)%Z.
Lemma eb_finals : forallb (fun e => eb_final (Z.of_nat e)) (seq 4 42) = true.
Proof. vm_compute. reflexivity. Qed.
Lemma eb_final_ok EW : (4 <= EW <= 45)%Z -> eb_final EW = true.
Proof. intros H. pose proof eb_finals as A. rewrite forallb_forall in A. specialize (A (Z.to_nat EW) ltac:(apply in_seq; lia)). rewrite Z2Nat.id in A by lia. exact A. Qed.
Definition up4 (EW : Z) : R := if (EW <=? 13)%Z then 9 else 5 / 4.
Definition dn4 (EW : Z) : R := if (EW <=? 13)%Z then 18 else 10.

Lemma mul63 a b : (0 <= a)%Z -> (0 <= b)%Z -> fxval a 63 * fxval b 63 <= fxval (a * b / 2 ^ 63 + 1) 63.
Proof.
  intros Ha Hb. pose proof (div_R (a * b) (2 ^ 63) ltac:(lia)) as [_ D]. rewrite mult_IZR in D. unfold fxval. rewrite plus_IZR. pose proof (bpow2_pos (- (63))) as P. rewrite <- bpow2_IZR in D by lia. unfold Rdiv in D. rewrite <- bpow2_opp in D.
  replace (IZR a * bpow2 (- (63)) * (IZR b * bpow2 (- (63)))) with (IZR a * IZR b * bpow2 (- (63)) * bpow2 (- (63))) by ring. apply Rmult_le_compat_r; lra.
Qed.

(** ** The end of the computation over the reals *)
Lemma exp_final (u kap eta e1 A d tau P Ez D kK vk : R) : 0 < u -> 0 <= kap <= / 64 -> 0 <= eta <= 1 -> eta + eta * eta <= e1 -> e1 + kap + e1 * kap <= A -> 0 <= tau -> 1 <= P <= 2 ->
  Rabs (kK - 1) <= kap -> 1 - eta <= D <= 1 + eta + eta * eta -> P * (1 - 2 * u - tau) <= Ez <= P + tau -> 0 <= d -> d <= Ez ->
  kK * D * (Ez - d) <= vk <= kK * D * (Ez + d) ->
  vk - P <= 2 * A + (1 + A) * (d + tau) /\ P - vk <= 2 * (kap + eta + tau) + 4 * u + d.
Proof.
  intros Hu Hk Hn He HA Ht HP HK HD HE Hd HdE Hv. apply Rabs_le_both in HK. assert (0 <= eta * eta) by nra. assert (0 <= e1 * kap) by (apply Rmult_le_pos; lra). split.
  - assert (K1 : kK * D <= 1 + A). { apply Rle_trans with ((1 + kap) * (1 + e1)); [|lra]. apply Rmult_le_compat; lra. }
    assert (K0 : 0 <= kK * D) by (apply Rmult_le_pos; lra). assert (kK * D * (Ez + d) <= (1 + A) * (P + (d + tau))). { apply Rmult_le_compat; lra. }
    assert (A * P <= A * 2) by (apply Rmult_le_compat_l; lra). lra.
  - assert (K1 : 1 - kap - eta <= kK * D). { apply Rle_trans with ((1 - kap) * (1 - eta)); [assert (0 <= kap * eta) by (apply Rmult_le_pos; lra); lra|]. apply Rmult_le_compat; lra. }
    destruct (Rle_dec 1 (kK * D)) as [G|G].
    + assert (1 * (Ez - d) <= kK * D * (Ez - d)) by (apply Rmult_le_compat_r; lra). assert (P * (2 * u + tau) <= 2 * (2 * u + tau)) by (apply Rmult_le_compat_r; lra). lra.
    + apply Rnot_le_lt in G. set (q := kK * D) in *. assert (Q : q * (Ez - d) = (Ez - d) - (1 - q) * (Ez - d)) by ring. 
      assert (P * (2 * u + tau) <= 2 * (2 * u + tau)) by (apply Rmult_le_compat_r; lra).
      (* bound Ez - d above by 2 + tau - d; use P (1 - ..) below *)
      assert (Q2 : q * (P * (1 - 2 * u - tau)) - q * d <= vk). { assert (0 <= q) by (unfold q; apply Rmult_le_pos; lra). assert (q * (P * (1 - 2 * u - tau)) <= q * Ez) by (apply Rmult_le_compat_l; lra). lra. }
      assert (0 <= q) by (unfold q; apply Rmult_le_pos; lra).
      assert (q * d <= 1 * d) by (apply Rmult_le_compat_r; lra). assert (q * (P * (2 * u + tau)) <= 1 * (P * (2 * u + tau))). { apply Rmult_le_compat_r; [apply Rmult_le_pos; lra|lra]. }
      assert ((1 - q) * P <= (kap + eta) * 2). { apply Rmult_le_compat; lra. } lra.
Qed.

Lemma inv_K_bnd : 1.2 <= fxval hc_inv_K 158 <= 1.21.
Proof.
  assert (E : fxval hc_inv_K 158 * IZR (2 ^ 158) = IZR hc_inv_K) by (rewrite <- bpow2_IZR by lia; apply fxval_scale). assert (P : 0 < IZR (2 ^ 158)) by (apply (IZR_lt 0); reflexivity).
  assert (L : (120 * 2 ^ 158 <= 100 * hc_inv_K <= 121 * 2 ^ 158)%Z) by (vm_compute; split; discriminate). destruct L as [L H]. apply IZR_le in L, H. rewrite !mult_IZR in L, H.
  split; apply (Rmult_le_reg_r (IZR (2 ^ 158))); try exact P; lra.
Qed.
Lemma ln2_hi : ln 2 <= 0.6932.
Proof.
  pose proof ln2_near as N. apply Rabs_le_both in N. assert (E : fxval hc_ln2 159 * IZR (2 ^ 159) = IZR hc_ln2) by (rewrite <- bpow2_IZR by lia; apply fxval_scale). assert (P : 0 < IZR (2 ^ 159)) by (apply (IZR_lt 0); reflexivity).
  assert (L : (100000 * hc_ln2 <= 69315 * 2 ^ 159)%Z) by (vm_compute; discriminate). apply IZR_le in L. rewrite !mult_IZR in L.
  assert (fxval hc_ln2 159 <= 0.69315). { apply (Rmult_le_reg_r (IZR (2 ^ 159))); [exact P|]. lra. }
  assert (bpow2 (-72) <= / 1048576) by (rewrite <- bpow2_m20; apply bpow2_le; lia). lra.
Qed.
Definition Up (EW : Z) : R := up4 EW * bpow2 (- EW).

Section Final.
Variables AW EW x : Z.
Hypothesis HA : (1 <= AW <= EW)%Z.
Hypothesis HE : (4 <= EW <= 45)%Z.
Hypothesis Hx : (0 <= x < 2 ^ AW)%Z.
Let u : R := bpow2 (- EW).
Let X : R := fxval x AW.
Let fx := dfmt (EW + 3) 3 true.
Lemma u_rng : bpow2 (-45) <= u <= / 16.
Proof. unfold u. split; [apply bpow2_le; lia|]. replace (/ 16) with (bpow2 (- (4))) by (rewrite bpow2_opp, bpow2_IZR by lia; reflexivity). apply bpow2_le. lia. Qed.
Lemma X_rng : 0 <= X <= 1 - u.
Proof.
  unfold X. split; [rewrite <- (fxval_0 AW); apply fxval_le; lia|]. assert (fxval x AW <= fxval (2 ^ AW - 1) AW) by (apply fxval_le; lia). rewrite fx_sub, fxval_one in H by lia.
  assert (u <= fxval 1 AW). { unfold fxval, u. rewrite Rmult_1_l. apply bpow2_le. lia. } lra.
Qed.
(** A conversion to the working type. *)
Lemma fx_conv m F : -4 <= fxval m F < 4 -> in_range true (EW + 3) (conv fx m F) /\ fxval (conv fx m F) EW <= fxval m F < fxval (conv fx m F) EW + u.
Proof.
  intros B. pose proof (conv_R fx m F ltac:(unfold fx; cbn [dfmt fW]; lia)) as C. destruct (convR_dfmt (EW + 3) 3 true _ _ ltac:(lia) C) as [R V]. { change (bpow2 (3 - 1)) with (bpow2 2). rewrite bpow2_IZR by lia. change (IZR (2 ^ 2)) with 4. lra. }
  replace (EW + 3 - 3)%Z with EW in V by lia. split; [exact R|exact V].
Qed.
Lemma fx_same m : -4 <= fxval m EW < 4 -> conv fx m EW = m.
Proof.
  intros B. unfold fx. rewrite conv_dfmt_same by lia. cbn [wrap]. apply wraps_id; [lia|]. replace (EW + 3 - 1)%Z with (2 + EW)%Z by lia.
  assert (E : fxval (2 ^ (2 + EW)) EW = 4). { rewrite fxval_pow by lia. replace (2 + EW - EW)%Z with 2%Z by lia. rewrite bpow2_IZR by lia. reflexivity. }
  split; [apply (fxval_le _ _ EW); rewrite fxval_opp, E; lra|apply (fxval_lt _ _ EW); rewrite E; lra].
Qed.
Lemma one_fx : conv fx 1 0 = (2 ^ EW)%Z.
Proof.
  assert (P : (0 < 2 ^ EW)%Z) by (apply Z.pow_pos_nonneg; lia). unfold fx. rewrite conv_dfmt_up by lia. replace (EW + 3 - 3 - 0)%Z with EW by lia. cbn [wrap]. rewrite Z.mul_1_l. apply wraps_id; [lia|]. replace (EW + 3 - 1)%Z with (EW + 2)%Z by lia. rewrite Z.pow_add_r by lia. lia.
Qed.
Lemma ln2_fx : let l := conv fx (conv (dfmt EW 0 false) hc_ln2 159) EW in 0 <= fxval l EW /\ ln 2 - u - bpow2 (-72) <= fxval l EW <= ln 2 + bpow2 (-72).
Proof.
  intros l. pose proof ln2_near as N. apply Rabs_le_both in N. pose proof ln2_low as L1. pose proof ln2_hi as L2. assert (T : bpow2 (-72) <= / 1048576) by (rewrite <- bpow2_m20; apply bpow2_le; lia). pose proof u_rng as Hu.
  pose proof (conv_R (dfmt EW 0 false) hc_ln2 159 ltac:(cbn [dfmt fW]; lia)) as C. destruct (convR_dfmt EW 0 false _ _ ltac:(lia) C) as [_ V]. { rewrite bpow2_0. pose proof (bpow2_pos (-72)). lra. }
  replace (EW - 0)%Z with EW in V by lia. fold u in V. unfold l. rewrite fx_same; lra.
Qed.
Lemma k_fx : let k := conv fx (conv (dfmt (EW + 1) 1 false) hc_inv_K 158) EW in fxval hc_inv_K 158 - u <= fxval k EW <= fxval hc_inv_K 158.
Proof.
  intros k. pose proof inv_K_bnd as B. pose proof u_rng as Hu. pose proof (conv_R (dfmt (EW + 1) 1 false) hc_inv_K 158 ltac:(cbn [dfmt fW]; lia)) as C. destruct (convR_dfmt (EW + 1) 1 false _ _ ltac:(lia) C) as [_ V]. { rewrite bpow2_1. lra. }
  replace (EW + 1 - 1)%Z with EW in V by lia. fold u in V. unfold k. rewrite fx_same; lra.
Qed.
Lemma start_id m : in_range true (EW + 3) m -> Rabs (fxval m EW) <= 1 -> exists m', conv (hc_dp 3 EW) m EW = m' /\ in_range true (hc_LW EW) m' /\ fxval m' (hc_LW EW - 3 - 1) = fxval m EW.
Proof.
  intros R B. pose proof (size_4 EW HE) as HW. set (f := (hc_LW EW - 3 - 1)%Z) in *. exists (m * 2 ^ (f - EW))%Z.
  assert (Ev : fxval (m * 2 ^ (f - EW)) f = fxval m EW). { pose proof (fxval_shift m EW (f - EW) ltac:(lia)) as E. replace (EW + (f - EW))%Z with f in E by lia. exact E. }
  assert (Rg : in_range true (hc_LW EW) (m * 2 ^ (f - EW))). { apply (dp_range 3); [lia|]. fold f. rewrite Ev. replace (bpow2 3) with 8 by (rewrite bpow2_IZR by lia; reflexivity). assert (bpow2 (- f) <= 1) by (rewrite <- bpow2_0; apply bpow2_le; lia). lra. }
  split; [|split; [exact Rg|exact Ev]]. apply conv_exact; [unfold hc_dp; cbn [dfmt fW]; lia|discriminate| |exact Rg]. unfold hc_dp, fF. cbn [dfmt fW fI]. replace (hc_LW EW - (3 + 1))%Z with f by lia. symmetry. exact Ev.
Qed.
Lemma exp2_v_near : let V := fxval (exp2_v AW EW x) EW in - (dn4 EW * u) <= V - Rpower 2 X <= up4 EW * u /\ 0 <= V.
Proof.
  intros V. pose proof u_rng as Hu. pose proof X_rng as HX. pose proof ln2_low as L1. pose proof ln2_hi as L2. pose proof (bpow2_pos (-72)) as Pt. assert (Tt : bpow2 (-72) <= bpow2 (-45) * / 1048576) by (rewrite <- bpow2_m20, <- bpow2_add; apply bpow2_le; lia).
  pose proof (size_4 EW HE) as HW. unfold V, exp2_v. fold fx. rewrite one_fx.
  pose proof ln2_fx as Hl. pose proof k_fx as Hk. cbv zeta in Hl, Hk. set (l := conv fx (conv (dfmt EW 0 false) hc_ln2 159) EW) in *. set (k := conv fx (conv (dfmt (EW + 1) 1 false) hc_inv_K 158) EW) in *.
  assert (Exl : fxval (x * l) (AW + EW) = X * fxval l EW) by apply fxval_mul.
  assert (Bxl : 0 <= X * fxval l EW <= ln 2). { split; [apply Rmult_le_pos; lra|]. apply Rle_trans with ((1 - u) * (ln 2 + bpow2 (-72))); [apply Rmult_le_compat; lra|]. assert (bpow2 (-45) * ln 2 <= u * ln 2) by (apply Rmult_le_compat_r; lra). assert (bpow2 (-45) * 0.6931 <= bpow2 (-45) * ln 2) by (apply Rmult_le_compat_l; lra). assert (0 <= u * bpow2 (-72)) by (apply Rmult_le_pos; lra). lra. }
  destruct (fx_conv (x * l) (AW + EW)) as [Rz Vz]; [rewrite Exl; lra|]. set (zc := conv fx (x * l) (AW + EW)) in *. rewrite Exl in Vz.
  assert (Z0n : (0 <= zc)%Z). { apply (fxval_le 0 zc EW). rewrite fxval_0. assert (- u < fxval zc EW) by lra. assert (-1 < zc)%Z; [|apply (fxval_le 0 zc EW) in H0 || (rewrite <- (fxval_0 EW); apply fxval_le; lia)].
    apply (fxval_lt (-1) zc EW). replace (fxval (-1) EW) with (- u) by (unfold fxval, u; ring). exact H. }
  set (z0 := fxval zc EW) in *. assert (Bz0 : 0 <= z0 <= ln 2). { split; [unfold z0; rewrite <- (fxval_0 EW); apply fxval_le; exact Z0n|lra]. }
  assert (Lz : X * ln 2 - 2 * u - bpow2 (-72) <= z0 <= X * ln 2 + bpow2 (-72)).
  { assert (M1 : X * (ln 2 - u - bpow2 (-72)) <= X * fxval l EW) by (apply Rmult_le_compat_l; lra). assert (M2 : X * fxval l EW <= X * (ln 2 + bpow2 (-72))) by (apply Rmult_le_compat_l; lra).
    assert (M3 : X * u <= 1 * u) by (apply Rmult_le_compat_r; lra). assert (M4 : X * bpow2 (-72) <= 1 * bpow2 (-72)) by (apply Rmult_le_compat_r; lra). lra. }
  unfold hc_start. destruct (start_id (2 ^ EW)) as (m1 & E1 & R1 & V1); [unfold in_range, imin, imax; replace (EW + 3 - 1)%Z with (EW + 2)%Z by lia; assert (0 < 2 ^ EW)%Z by (apply Z.pow_pos_nonneg; lia); rewrite Z.pow_add_r by lia; lia|rewrite fxval_one by lia; rewrite Rabs_R1; lra|].
  destruct (start_id zc Rz) as (m0 & E0 & R0 & V0); [fold z0; apply Rabs_le; lra|]. rewrite E1, E0. rewrite fxval_one in V1 by lia. fold z0 in V0.
  set (f := (hc_LW EW - 3 - 1)%Z) in *. assert (I0 : InvE EW z0 0 (m1, m1, m0)).
  { unfold InvE. fold f. cbn [eb]. exists m1, m0, 0. rewrite V0, V1. refine (conj eq_refl (conj R1 (conj R0 (conj _ (conj _ _))))).
    - apply Rabs_le. assert (ln 2 <= fxval (hc_ln2 / 2 ^ 96 + 1) 63); [|lra]. pose proof ln2_near as N. apply Rabs_le_both in N.
      assert (G : (hc_ln2 * 1024 + 2 ^ 97 <= (hc_ln2 / 2 ^ 96 + 1) * 2 ^ 106)%Z) by (vm_compute; discriminate). apply fxval_le with (F := 169%Z) in G. replace 169%Z with (63 + 106)%Z in G at 2 by reflexivity. rewrite fxval_shift in G by lia.
      rewrite fxval_add in G. change 1024%Z with (2 ^ 10)%Z in G. replace 169%Z with (159 + 10)%Z in G at 1 by reflexivity. rewrite fxval_shift, fxval_pow in G by lia. change (97 - 169)%Z with (-72)%Z in G. lra.
    - rewrite fxval_0. replace (0 - (z0 - z0)) with 0 by ring. rewrite Rabs_R0. lra.
    - cbn [hgain]. rewrite sqrt_1, exp_0, fxval_0. replace (1 - 1 * 1) with 0 by ring. rewrite Rabs_R0. unfold Rdiv. lra. }
  pose proof (eb_final_ok EW HE) as F. unfold eb_final in F. fold f in F. pose proof (InvE_all EW HE z0 Bz0 (m1, m1, m0) (Z.to_nat (hc_L EW)) I0 ltac:(lia)) as I1. fold f in I1. unfold InvE in I1. fold f in I1.
  unfold hc_loop. fold (hc_at ROT_Z hc_tab 3 EW (m1, m1, m0) (Z.to_nat (hc_L EW))). destruct (eb f (Z.to_nat (hc_L EW))) as [[[zb se] cs] ok]. cbv zeta in F.
  set (n := Z.to_nat (hc_L EW)) in *. set (uZ := (2 ^ (63 - EW))%Z) in *. set (kapZ := (uZ / 64)%Z) in *. set (etaZ := (zb + se)%Z) in *. set (e1Z := (etaZ + (etaZ * etaZ / 2 ^ 63 + 1))%Z) in *.
  set (AZ := (e1Z + kapZ + (e1Z * kapZ / 2 ^ 63 + 1))%Z) in *. set (dZ := (cs * 10000 / (8279 * 2 ^ f) + 2)%Z) in *.
  apply andb_prop in F. destruct F as [F F5]. apply andb_prop in F. destruct F as [F F4]. apply andb_prop in F. destruct F as [F F3]. apply andb_prop in F. destruct F as [F1 F2].
  destruct (I1 F1) as (v & z & S & -> & Rv & _ & Bz & BS & Bv). clear I1 I0 F1. apply Z.leb_le in F2, F3, F4, F5.
  (* real budget *)
  assert (EuZ : fxval uZ 63 = u). { unfold uZ. rewrite fxval_pow by lia. unfold u. f_equal. lia. }
  assert (Ekap : fxval kapZ 63 = bpow2 (- (EW + 6))). { unfold kapZ, uZ. change 64%Z with (2 ^ 6)%Z. rewrite <- Z.pow_sub_r by lia. rewrite fxval_pow by lia. f_equal. lia. }
  assert (B0 : 0 <= fxval zb 63) by (eapply Rle_trans; [apply Rabs_pos|exact Bz]). assert (B1 : 0 <= fxval se 63) by (eapply Rle_trans; [apply Rabs_pos|exact BS]).
  assert (Eeta : fxval etaZ 63 = fxval zb 63 + fxval se 63) by apply fxval_add. set (eta := fxval etaZ 63) in *. assert (Beta : 0 <= eta <= 1). { split; [lra|]. unfold eta. rewrite <- (fxval_one 63) by lia. apply fxval_le. exact F2. }
  assert (HSz : - eta <= S - z0 <= eta). { apply Rabs_le_both in BS, Bz. lra. }
  assert (etaN : (0 <= etaZ)%Z). { apply (fxval_le 0 etaZ 63). rewrite fxval_0. fold eta. lra. }
  set (kap := bpow2 (- (EW + 6))) in *. assert (Bkap : 0 < kap <= / 64). { unfold kap. split; [apply bpow2_pos|]. replace (/ 64) with (bpow2 (- (6))) by (rewrite bpow2_opp, bpow2_IZR by lia; reflexivity). apply bpow2_le. lia. }
  assert (kapN : (0 <= kapZ)%Z). { apply (fxval_le 0 kapZ 63). rewrite fxval_0, Ekap. lra. }
  assert (He1 : eta + eta * eta <= fxval e1Z 63). { unfold e1Z. rewrite fxval_add. fold eta. pose proof (mul63 etaZ etaZ etaN etaN) as M. fold eta in M. lra. } set (e1 := fxval e1Z 63) in *.
  assert (e1N : (0 <= e1Z)%Z). { apply (fxval_le 0 e1Z 63). rewrite fxval_0. fold e1. nra. }
  assert (HAA : e1 + kap + e1 * kap <= fxval AZ 63). { unfold AZ. rewrite !(fxval_add (e1Z + kapZ)), (fxval_add e1Z). fold e1. rewrite Ekap. pose proof (mul63 e1Z kapZ e1N kapN) as M. fold e1 in M. rewrite Ekap in M. lra. } set (A := fxval AZ 63) in *.
  assert (AN : (0 <= AZ)%Z). { apply (fxval_le 0 AZ 63). rewrite fxval_0. fold A. assert (0 <= e1 * kap) by (apply Rmult_le_pos; nra). nra. }
  assert (Pk : 0 < km) by (unfold km; lra). set (C := fxval cs 63) in *. assert (PC : 0 <= C). { unfold C. rewrite <- (fxval_0 63). apply fxval_le. exact F3. }
  set (e := bpow2 (- f)) in *. assert (Pe : 0 < e) by apply bpow2_pos. set (d := e * C / km). assert (Pd : 0 <= d). { unfold d. apply Rmult_le_pos; [apply Rmult_le_pos; lra|apply Rlt_le, Rinv_0_lt_compat, Pk]. }
  assert (Hd : d + fxval 1 63 <= fxval dZ 63).
  { unfold dZ. replace (cs * 10000 / (8279 * 2 ^ f) + 2)%Z with (cs * 10000 / (8279 * 2 ^ f) + 1 + 1)%Z by lia. rewrite (fxval_add (_ + 1) 1). apply Rplus_le_compat_r.
    assert (PP : (0 < 8279 * 2 ^ f)%Z) by (assert (0 < 2 ^ f)%Z by (apply Z.pow_pos_nonneg; lia); lia). pose proof (div_R (cs * 10000) (8279 * 2 ^ f) PP) as [_ D]. rewrite !mult_IZR, <- bpow2_IZR in D by lia.
    unfold d, C, e, fxval. rewrite plus_IZR. set (q := IZR (cs * 10000 / (8279 * 2 ^ f))) in *. rewrite (bpow2_opp f). pose proof (bpow2_pos f). pose proof (bpow2_pos (- (63))) as P63.
    replace (/ bpow2 f * (IZR cs * bpow2 (- (63))) / km) with (IZR cs * 10000 / (8279 * bpow2 f) * bpow2 (- (63))) by (unfold km; field; lra). apply Rmult_le_compat_r; lra. }
  set (tau := bpow2 (-70)). assert (Ptau : 0 < tau) by apply bpow2_pos. assert (Htau : tau <= fxval 1 63). { unfold tau, fxval. rewrite Rmult_1_l. apply bpow2_le. lia. }
  assert (E70 : tau = 4 * bpow2 (-72)). { unfold tau. replace (-70)%Z with (2 + -72)%Z by lia. rewrite bpow2_add, (bpow2_IZR 2) by lia. reflexivity. }
  assert (UPb : 2 * A + (1 + A) * (d + tau) <= up4 EW * u).
  { apply fxval_le with (F := 63%Z) in F4. rewrite <- EuZ. unfold fxval in F4. rewrite !mult_IZR, !plus_IZR, mult_IZR in F4.
    assert (M : A * fxval dZ 63 <= fxval (AZ * dZ / 2 ^ 63 + 1) 63). { apply mul63; [exact AN|]. apply (fxval_le 0 dZ 63). rewrite fxval_0. lra. }
    assert (A0 : 0 <= A) by (unfold A; rewrite <- (fxval_0 63); apply fxval_le; exact AN). assert (M2 : (1 + A) * (d + tau) <= (1 + A) * fxval dZ 63) by (apply Rmult_le_compat_l; lra).
    unfold A, fxval in *. rewrite plus_IZR in M. unfold up4. destruct (EW <=? 13)%Z; lra. }
  assert (DNb : 2 * (kap + eta + tau) + d <= up4 EW * u).
  { apply fxval_le with (F := 63%Z) in F5. rewrite <- EuZ. unfold fxval in F5. rewrite !mult_IZR, !plus_IZR, mult_IZR, !plus_IZR in F5. rewrite <- Ekap. unfold eta, fxval in *. unfold up4. pose proof (bpow2_pos (- (63))). destruct (EW <=? 13)%Z; lra. }
  assert (BU : up4 EW * u <= 9 / 16 /\ up4 EW <= 9 /\ ((13 < EW)%Z -> up4 EW * u <= 1 / 1000)).
  { unfold up4. destruct (Z.leb_spec EW 13) as [G|G]; (split; [lra|split; [lra|]]); intros G'; [lia|]. assert (u <= / 16384); [|lra]. unfold u. rewrite <- bpow2_m14. apply bpow2_le. lia. }
  (* the exponentials *)
  set (P := Rpower 2 X). assert (HP : 1 <= P <= 2). { unfold P. split; [rewrite <- (Rpower_O 2) by lra; apply Rpower2_le; lra|]. rewrite <- (Rpower_1 2) at 2 by lra. apply Rpower2_le. lra. }
  assert (HEz : P * (1 - 2 * u - tau) <= exp z0 <= P + tau).
  { unfold P, Rpower. pose proof (exp_pos (X * ln 2)) as PX. split.
    - apply Rle_trans with (exp (X * ln 2) * exp (- 2 * u - bpow2 (-72))); [apply Rmult_le_compat_l; [lra|]; pose proof (exp_ge (- 2 * u - bpow2 (-72))); lra|]. rewrite <- exp_plus. apply exp_le_mono. lra.
    - apply Rle_trans with (exp (X * ln 2) * exp (bpow2 (-72))); [rewrite <- exp_plus; apply exp_le_mono; lra|]. assert (B72 : bpow2 (-72) <= / 16) by (apply Rle_trans with (bpow2 (-45) * / 1048576); [exact Tt|]; lra). pose proof (exp_quad (bpow2 (-72)) ltac:(lra)) as Q.
      fold P in HP. unfold P, Rpower in HP. assert (exp (bpow2 (-72)) <= 1 + 2 * bpow2 (-72)) by nra. assert (exp (X * ln 2) * exp (bpow2 (-72)) <= exp (X * ln 2) * (1 + 2 * bpow2 (-72))) by (apply Rmult_le_compat_l; lra). assert (exp (X * ln 2) * bpow2 (-72) <= 2 * bpow2 (-72)) by (apply Rmult_le_compat_r; lra). lra. }
  set (D := exp (S - z0)). assert (HD : 1 - eta <= D <= 1 + eta + eta * eta). { unfold D. split; [pose proof (exp_ge (S - z0)); lra|]. eapply Rle_trans; [apply exp_le_mono; apply HSz|]. apply exp_quad. exact Beta. }
  pose proof (inv_K_near EW HE) as HK. fold n kap in HK. pose proof inv_K_bnd as BK. set (kr := fxval hc_inv_K 158) in *. unfold kK in HK. fold kr in HK. set (g := sqrt (hgain n)) in *. set (vr := fxval v f) in *.
  assert (ES : exp S = exp z0 * D) by (unfold D; rewrite <- exp_plus; f_equal; ring). rewrite ES in Bv.
  assert (EB : e * (g * D) * C / km = g * D * d) by (unfold d; field; lra). fold D in Bv. rewrite EB in Bv. apply Rabs_le_both in Bv.
  assert (Hvk : kr * g * D * (exp z0 - d) <= vr * kr <= kr * g * D * (exp z0 + d)). { split; [apply Rle_trans with (kr * (g * (exp z0 * D) - g * D * d)); [right; ring|]|apply Rle_trans with (kr * (g * (exp z0 * D) + g * D * d)); [|right; ring]]; rewrite (Rmult_comm vr); apply Rmult_le_compat_l; lra. }
  assert (HdE : d <= exp z0). { assert (1 <= exp z0) by (pose proof (exp_ge z0); lra). assert (d <= 9 / 16) by lra. lra. }
  destruct (exp_final u kap eta e1 A d tau P (exp z0) D (kr * g) (vr * kr)) as [UP DN]; try assumption; try lra.
  (* truncations *)
  assert (UP' : vr * kr - P <= up4 EW * u) by lra. assert (DN' : P - vr * kr <= up4 EW * u + 4 * u) by lra.
  assert (Ef : fF (hc_dp 3 EW) = f) by (unfold hc_dp, fF; cbn [dfmt fW fI]; lia). rewrite Ef.
  clear - HA HE Hu Hk BK BU HP UP' DN'.
  assert (Bvk : 1 - 13 / 16 <= vr * kr <= 2 + 9 / 16) by lra. assert (Bvr : 0.15 <= vr <= 2.14). { split; [apply (Rmult_le_reg_r kr); [lra|]; lra|]. apply (Rmult_le_reg_r kr); [lra|]. nra. }
  destruct (fx_conv v f) as [_ Vy]; [fold vr; lra|]. set (yc := conv fx v f) in *. fold vr in Vy. set (y := fxval yc EW) in *. set (kf := fxval k EW) in *.
  assert (Eyk : fxval (yc * k) (EW + EW) = y * kf) by apply fxval_mul.
  assert (Y1 : y * kf <= vr * kr) by (apply Rmult_le_compat; lra). assert (Y2 : (vr - u) * (kr - u) <= y * kf) by (apply Rmult_le_compat; lra).
  assert (Y3 : 0 <= y * kf) by (apply Rmult_le_pos; lra).
  destruct (fx_conv (yc * k) (EW + EW)) as [_ VV]; [rewrite Eyk; lra|]. rewrite Eyk in VV. set (VR := fxval (conv fx (yc * k) (EW + EW)) EW) in *.
  refine (conj (conj _ _) _); [|lra|].
  2: { unfold VR in *. rewrite <- (fxval_0 EW). apply fxval_le. set (q := conv fx (yc * k) (EW + EW)) in *. assert (-1 < q)%Z; [|lia]. apply (fxval_lt (-1) q EW). replace (fxval (-1) EW) with (- u) by (unfold fxval, u; ring). lra. }
  assert (0 <= u * u) by nra.
  unfold dn4. unfold up4 in *. destruct (Z.leb_spec EW 13) as [G|G].
  - assert (u * (vr + kr + 1) <= u * 4.36) by (apply Rmult_le_compat_l; lra). lra.
  - destruct BU as (_ & _ & BU). specialize (BU G). assert (vr <= 1.67). { apply (Rmult_le_reg_r kr); [lra|]. nra. } assert (u * (vr + kr + 1) <= u * 3.9) by (apply Rmult_le_compat_l; lra). lra.
Qed.
End Final.
