(** Accuracy of the piecewise-linear arctangents, over the reals. *)
From Coq Require Import Reals Lra Lia Psatz ZifyBool List.
From Verif Require Import AcTypes AcFacts Spec SpecFacts SpecR SpecRFacts CordicNum AtanNum PwlModel PwlFacts PwlProofs PwlSqrt PwlReal PwlHaModel PwlHaProofs PwlHaReal AtanPwlProofs.
Local Open Scope R_scope.
Ltac Zify.zify_post_hook ::= idtac.

Lemma is_roundR_near q y z : is_roundR q y z -> y - 1 < IZR z < y + 1.
Proof.
  unfold is_roundR. destruct q; cbv zeta; intros H.
  all: try (destruct H as [H _]; apply Rabs_le_both in H; lra).
  - lra.
  - destruct H as [H1 H2]. destruct (Rlt_le_dec y 0) as [D|D]; [specialize (H2 D)|specialize (H1 D)]; lra.
Qed.

Lemma conv_conv2 f x F : (1 <= fW f)%Z -> converts2 f x (- F) (conv f x F).
Proof. intros H. pose proof (conv_converts2 f x (- F) H) as C. rewrite Z.opp_involutive in C. exact C. Qed.

(** Converting a value near a number of [0, 1] into the saturating fraction format. *)
Lemma clamp_near nb q V u n : (1 <= nb)%Z -> 0 <= V -> 0 <= u <= 1 -> convertsR (Fmt nb 0 false q SAT) V n -> Rabs (fxval n nb - u) <= Rabs (V - u) + bpow2 (- nb) /\ (0 <= n < 2 ^ nb)%Z.
Proof.
  intros Hnb HV Hu (z & Rz & Lz). cbn [fQ fO fS fW is_limited] in *. unfold lowest, highest in Lz. replace (fF (Fmt nb 0 false q SAT)) with nb in Rz by (unfold fF; cbn [fW fI]; lia).
  apply is_roundR_near in Rz. pose proof (pow2_pos nb ltac:(lia)) as PZ. split; [|cbn [andb] in Lz; lia].
  pose proof (bpow2_pos nb) as P. pose proof (bpow2_IZR nb ltac:(lia)) as E. assert (Z0 : (0 <= z)%Z). { apply Z.lt_succ_r. apply (lt_IZR 0 (Z.succ z)). rewrite succ_IZR. nra. }
  assert (En : n = Z.min (2 ^ nb - 1) z) by (cbn [andb] in Lz; lia). clear Lz.
  assert (K : Rabs (IZR n - u * bpow2 nb) <= Rabs (V - u) * bpow2 nb + 1).
  { assert (Ea : Rabs (V - u) * bpow2 nb = Rabs (V * bpow2 nb - u * bpow2 nb)) by (rewrite <- Rmult_minus_distr_r, Rabs_mult, (Rabs_pos_eq (bpow2 nb)) by lra; reflexivity).
    rewrite Ea. assert (U : 0 <= u * bpow2 nb <= bpow2 nb) by nra. set (v := V * bpow2 nb) in *. set (w := u * bpow2 nb) in *.
    destruct (Z.le_gt_cases z (2 ^ nb - 1)) as [Hz|Hz].
    - rewrite Z.min_r in En by lia. subst n. replace (IZR z - w) with ((IZR z - v) + (v - w)) by ring. eapply Rle_trans; [apply Rabs_triang|]. assert (Rabs (IZR z - v) <= 1) by (apply Rabs_le; lra). lra.
    - rewrite Z.min_l in En by lia. assert (IZR (2 ^ nb) <= IZR z) by (apply IZR_le; lia). subst n. rewrite minus_IZR, <- E in *. apply Rabs_le. split; [pose proof (Rabs_pos (v - w)); lra|]. pose proof (Rle_abs (v - w)). lra. }
  unfold fxval. pose proof (bpow2_opp nb) as EI. assert (PI : 0 < bpow2 (- nb)) by apply bpow2_pos. assert (E1 : bpow2 nb * bpow2 (- nb) = 1) by (rewrite EI; apply Rinv_r; lra).
  replace (IZR n * bpow2 (- nb) - u) with ((IZR n - u * bpow2 nb) * bpow2 (- nb)) by (rewrite Rmult_minus_distr_r, Rmult_assoc, E1; ring). rewrite Rabs_mult, (Rabs_pos_eq (bpow2 (- nb))) by lra.
  apply (Rmult_le_compat_r (bpow2 (- nb))) in K; [|lra]. rewrite Rmult_plus_distr_r, Rmult_assoc, E1 in K. lra.
Qed.

(** ** The table against the arctangent *)
Section Table.
Variables (ms cs : list Z) (nb ib nf E : Z).
Notation fb := (nb - ib)%Z.
Notation F := (fb + nf)%Z.
Notation L := (pw_lin ms cs fb).
Definition at_chk (j lo hi lo' : Z) : bool :=
  (let U := L (j * 2 ^ (nb - 8)) * 2 ^ (60 - F) in let U2 := U + slope ms fb (nb - 8) j * 2 ^ (nb - 8) * 2 ^ (60 - F) in
   (U - lo <=? E) && (U2 - lo' <=? E) && (hi - U <=? E) && ((hi - U2) * (65536 + j * j) + E60 * 256 <=? E * (65536 + j * j)))%Z.
Hypothesis Hib : (0 <= ib <= 8)%Z.
Hypothesis Hnb : (8 <= nb)%Z.
Hypothesis Hnf : (0 <= nf)%Z.
Hypothesis HF : (F <= 60)%Z.
Hypothesis chk : at_all at_chk 256 0 0 0 = true.
Lemma table_near n : (0 <= n < 2 ^ nb)%Z -> Rabs (fxval (L n) F - atan (fxval n nb)) <= IZR E / IZR E60.
Proof.
  intros Hn. destruct (pw_block ms cs fb (nb - 8) n ltac:(lia) ltac:(lia)) as (B & s & En & Hs & EB & EL). pose proof (pow2_pos (nb - 8) ltac:(lia)) as Pk.
  assert (HB : (0 <= B < 256)%Z). { rewrite EB. split; [apply Z.div_pos; lia|apply Z.div_lt_upper_bound; [lia|]]. rewrite Z.mul_comm. change 256%Z with (2 ^ 8)%Z. rewrite <- pow2_add by lia. replace (8 + (nb - 8))%Z with nb by lia. lia. }
  destruct (at_all_256 _ chk B HB) as (lo & hi & lo' & C & A1 & A2). unfold at_chk in C. cbv zeta in C. apply andb_prop in C. destruct C as [C C4]. apply andb_prop in C. destruct C as [C C3]. apply andb_prop in C. destruct C as [C1 C2]. apply Z.leb_le in C1, C2, C3, C4.
  set (U := L (B * 2 ^ (nb - 8))%Z) in *. set (V := slope ms fb (nb - 8) B) in *. set (G := (2 ^ (60 - F))%Z) in *. assert (PG : (0 < G)%Z) by (apply pow2_pos; lia).
  set (l := IZR s / IZR (2 ^ (nb - 8))). apply IZR_lt in Pk as PkR. destruct Hs as [Hs0 Hs1]. apply IZR_le in Hs0 as Hs0R. apply IZR_le in Hs1 as Hs1R.
  assert (Hl : 0 <= l <= 1). { unfold l. split; [apply Rle_mult_inv_pos; assumption|]. apply (Rmult_le_reg_r (IZR (2 ^ (nb - 8)))); [exact PkR|]. unfold Rdiv. rewrite Rmult_assoc, Rinv_l by lra. lra. }
  assert (El : IZR s = l * IZR (2 ^ (nb - 8))) by (unfold l; field; lra).
  (* the value of the table *)
  assert (EE : IZR E60 = bpow2 60) by (rewrite bpow2_IZR by lia; reflexivity). assert (PE : 0 < IZR E60) by (rewrite EE; apply bpow2_pos).
  assert (EV : IZR E60 * fxval (L n) F = IZR (U * G) + l * IZR (V * 2 ^ (nb - 8) * G)).
  { rewrite EL. unfold fxval. rewrite EE. replace (bpow2 60 * (IZR (U + V * s) * bpow2 (- F))) with (IZR (U + V * s) * (bpow2 60 * bpow2 (- F))) by ring. rewrite <- bpow2_add. replace (60 + - F)%Z with (60 - F)%Z by lia. rewrite bpow2_IZR by lia. fold G. rewrite plus_IZR, !mult_IZR, El. ring. }
  assert (EX : fxval n nb = IZR B / 256 + l * (IZR (B + 1) / 256 - IZR B / 256)).
  { unfold fxval. rewrite En, plus_IZR, mult_IZR, El. replace (- nb)%Z with (- (nb - 8) + -8)%Z by lia. rewrite bpow2_add, bpow2_opp. rewrite (bpow2_IZR (nb - 8)) by lia. replace (bpow2 (-8)) with (/ 256) by (change (-8)%Z with (- (8))%Z; rewrite bpow2_opp, bpow2_IZR by lia; reflexivity). rewrite plus_IZR. field. lra. }
  set (a := IZR B / 256) in *. set (b := IZR (B + 1) / 256) in *. destruct HB as [HB0 HB1]. apply IZR_le in HB0 as HB0R. assert (Ha : 0 <= a) by (unfold a; lra). assert (Eab : b = a + / 256) by (unfold b, a; rewrite plus_IZR; field).
  pose proof (atan_chord a b l Ha ltac:(lra) Hl) as Lo. pose proof (atan_up a (a + l * (b - a)) Ha ltac:(nra)) as Hi.
  assert (Slope : / (1 + a ^ 2) * (a + l * (b - a) - a) = l * (256 / IZR (65536 + B * B))). { rewrite Eab, plus_IZR, mult_IZR. unfold a. field. nra. }
  rewrite Slope in Hi. rewrite <- EX in Lo, Hi. set (T := atan (fxval n nb)) in *. apply IZR_le in C1, C2, C3, C4. rewrite minus_IZR in C1, C2, C3. rewrite plus_IZR, !mult_IZR, minus_IZR in C4. rewrite plus_IZR in C2, C4.
  set (u := IZR (U * G)) in *. set (v := IZR (V * 2 ^ (nb - 8) * G)) in *. set (d := IZR (65536 + B * B)) in *. assert (Pd : 0 < d) by (apply (IZR_lt 0); nia).
  assert (C4' : IZR hi - (u + v) + IZR E60 * (256 / d) <= IZR E). { apply (Rmult_le_reg_r d); [exact Pd|]. replace ((IZR hi - (u + v) + IZR E60 * (256 / d)) * d) with ((IZR hi - (u + v)) * d + IZR E60 * 256) by (field; lra). exact C4. }
  apply (Rmult_le_reg_l (IZR E60)); [exact PE|]. replace (IZR E60 * (IZR E / IZR E60)) with (IZR E) by (field; lra). rewrite <- (Rabs_pos_eq (IZR E60)) at 1 by lra. rewrite <- Rabs_mult, Rmult_minus_distr_l, EV.
  apply (Rmult_le_compat_l (IZR E60)) in Lo; [|lra]. apply (Rmult_le_compat_l (IZR E60)) in Hi; [|lra]. set (ta := IZR E60 * atan a) in *. set (tb := IZR E60 * atan b) in *. set (s60 := IZR E60 * (256 / d)) in *.
  assert (Lo' : (1 - l) * ta + l * tb <= IZR E60 * T) by (unfold ta, tb; lra). assert (Hi' : IZR E60 * T <= ta + l * s60) by (unfold ta, s60; lra). clear Lo Hi. destruct A1 as [A0 A1]. set (t := IZR E60 * T) in *. clearbody ta tb s60 t u v.
  assert (Q1 : (1 - l) * (u - ta) <= (1 - l) * IZR E) by (apply Rmult_le_compat_l; lra). assert (Q2 : l * (u + v - tb) <= l * IZR E) by (apply Rmult_le_compat_l; lra).
  assert (Q3 : (1 - l) * (ta - u) <= (1 - l) * IZR E) by (apply Rmult_le_compat_l; lra). assert (Q4 : l * (ta - (u + v) + s60) <= l * IZR E) by (apply Rmult_le_compat_l; lra).
  apply Rabs_le. split; lra.
Qed.
End Table.

(** ** The input above 1 *)
Lemma exceeds_real W I x : (1 <= W)%Z -> (0 <= x < 2 ^ W)%Z -> at_exceeds W I x = true <-> 1 < fxval x (W - I).
Proof.
  intros HW Hx. pose proof (bpow2_split (- (W - I))) as S. rewrite Z.opp_involutive in S. unfold at_exceeds, fxval. rewrite S. pose proof (pw_pos (W - I)) as P1. pose proof (pw_pos (- (W - I))) as P2. apply IZR_lt in P1 as Q1. apply IZR_lt in P2 as Q2.
  assert (K : (pw (W - I) < x * pw (- (W - I)))%Z <-> 1 < IZR x * (IZR (pw (- (W - I))) / IZR (pw (W - I)))).
  { replace (IZR x * (IZR (pw (- (W - I))) / IZR (pw (W - I)))) with (IZR (x * pw (- (W - I))) / IZR (pw (W - I))) by (rewrite mult_IZR; field; lra). split; intros H.
    - apply IZR_lt in H. apply (Rmult_lt_reg_r (IZR (pw (W - I)))); [exact Q1|]. unfold Rdiv. rewrite Rmult_assoc, Rinv_l by lra. lra.
    - apply lt_IZR. apply (Rmult_lt_compat_r (IZR (pw (W - I)))) in H; [|exact Q1]. unfold Rdiv in H. rewrite Rmult_assoc, Rinv_l in H by lra. lra. }
  rewrite <- K. destruct (Z.leb_spec 1 I) as [Hi|Hi]; cbn [andb]; [apply Z.ltb_lt|]. split; [discriminate|]. intros H. exfalso.
  rewrite (pw_nonneg_eq (W - I)) in H by lia. rewrite (pw_nonpos_eq (- (W - I))) in H by lia. assert (2 ^ W <= 2 ^ (W - I))%Z by (apply pow2_le; lia). lia.
Qed.

Lemma inv_atan_near u a er q : 0 <= u <= 1 -> 0 <= a -> 0 <= er -> 0 <= q -> er + q < / 2 -> Rabs (a - u) <= er * u + q -> Rabs (atan a - atan u) <= er / (2 * (1 - er - q)) + q.
Proof.
  intros Hu Ha He Hq Hd H. set (m := Rmin a u). set (M := Rmax a u). assert (Hm : 0 <= m) by (apply Rmin_glb; lra). assert (mM : m <= M) by (apply Rle_trans with a; [apply Rmin_l|apply Rmax_l]).
  assert (EM : M - m = Rabs (a - u)) by (unfold M, m, Rmin, Rmax; destruct (Rle_dec a u); [rewrite Rabs_left1|rewrite Rabs_pos_eq]; lra).
  assert (EA : Rabs (atan a - atan u) = atan M - atan m). { unfold M, m, Rmin, Rmax. destruct (Rle_dec a u) as [D|D]; [pose proof (atan_incr a u D); rewrite Rabs_left1; lra|pose proof (atan_incr u a ltac:(lra)); rewrite Rabs_pos_eq; lra]. }
  rewrite EA. pose proof (atan_up m M Hm mM) as U. rewrite EM in U. set (w := 1 + m ^ 2) in *. assert (W1 : 1 <= w) by (unfold w; nra). assert (Iw : 0 < / w <= 1) by (split; [apply Rinv_0_lt_compat; lra|rewrite <- Rinv_1; apply Rinv_le_contravar; lra]).
  assert (mu : u - er - q <= m). { apply Rabs_le_both in H. unfold m, Rmin. destruct (Rle_dec a u); nra. }
  assert (W2 : 2 * u * (1 - er - q) <= w). { unfold w. destruct (Rle_dec u (er + q)) as [D|D]; [nra|]. assert ((u - (er + q)) * (u - (er + q)) <= m * m) by (apply Rmult_le_compat; lra). nra. }
  assert (T : / w * Rabs (a - u) <= er * (u * / w) + q). { apply Rle_trans with (/ w * (er * u + q)); [apply Rmult_le_compat_l; lra|]. nra. }
  assert (T2 : u * / w <= / (2 * (1 - er - q))). { apply (Rmult_le_reg_r w); [lra|]. rewrite Rmult_assoc, Rinv_l by lra. apply (Rmult_le_reg_l (2 * (1 - er - q))); [lra|]. replace (2 * (1 - er - q) * (/ (2 * (1 - er - q)) * w)) with w by (field; lra). lra. }
  apply (Rmult_le_compat_l er) in T2; [|exact He]. unfold Rdiv. lra.
Qed.
Lemma atan_recip u : 0 < u -> atan (/ u) = PI / 2 - atan u.
Proof. intros H. apply atan_inv. exact H. Qed.

Section Real.
Variables (recip : fmt -> Z -> option Z) (ms cs : list Z) (nb ib nf p pf : Z).
Notation fb := (nb - ib)%Z.
Notation F := (fb + nf)%Z.
Notation L := (pw_lin ms cs fb).
Variables (et er epi eps : R).
Hypothesis Hib : (0 <= ib <= nb)%Z.
Hypothesis Hnb : (1 <= nb)%Z.
Hypothesis Hnf : (0 <= nf)%Z.
Hypothesis Hm : Z.of_nat (length ms) = (2 ^ ib)%Z.
Hypothesis Hc : length cs = length ms.
Hypothesis Lup : forall a b, (0 <= a)%Z -> (a <= b)%Z -> (b < 2 ^ nb)%Z -> (L a <= L b)%Z.
Hypothesis L0 : (0 <= L 0)%Z.
Hypothesis LP : (2 * L (2 ^ nb - 1) <= p * 2 ^ (F - pf))%Z.
Hypothesis HP : (p * 2 ^ (F - pf) < 2 ^ (F + 1))%Z.
Hypothesis Hpf : (0 <= pf <= F)%Z.
Hypothesis Tab : forall n, (0 <= n < 2 ^ nb)%Z -> Rabs (fxval (L n) F - atan (fxval n nb)) <= et.
Hypothesis Pi : Rabs (fxval p pf - PI / 2) <= epi.
Hypothesis Er : 0 <= er.
Hypothesis Small : er + bpow2 (- nb) < / 2.
Hypothesis Eps : et + bpow2 (- nb) + er / (2 * (1 - er - bpow2 (- nb))) + epi <= eps.
Variables (pQ : qmode) (W I : Z).
Hypothesis HW : (1 <= W)%Z.
Notation nt := (Fmt nb 0 false pQ SAT).
Hypothesis Rok : forall x, (0 < x < 2 ^ W)%Z -> exists n V, recip nt x = Some n /\ convertsR nt V n /\ Rabs (V - / fxval x (W - I)) <= er * / fxval x (W - I).

Lemma at_real f x : (1 <= fW f)%Z -> (0 <= x < 2 ^ W)%Z ->
  exists out V, atan_steps recip ms cs nb ib nf p pf pQ W I f x = Some out /\ convertsR f V out /\ 0 <= V /\ Rabs (V - atan (fxval x (W - I))) <= eps.
Proof.
  intros HfW Hx. set (X := fxval x (W - I)). assert (HX : 0 <= X) by (unfold X, fxval; apply Rmult_le_pos; [apply (IZR_le 0); lia|apply Rlt_le, bpow2_pos]).
  assert (Rn : forall x, (0 < x < 2 ^ W)%Z -> exists n, recip nt x = Some n /\ (0 <= n < 2 ^ nb)%Z).
  { intros y Hy. destruct (Rok y Hy) as (n & V & E & C & B). exists n. split; [exact E|]. destruct C as (z & _ & Lz). cbn [fO fS fW is_limited] in Lz. unfold lowest, highest in Lz. cbn [andb] in Lz. pose proof (pow2_pos nb ltac:(lia)). lia. }
  destruct (at_eval recip ms cs nb ib nf p pf Hib Hnb Hnf Hm Hc Lup L0 LP HP pQ W I HW Rn f x Hx) as (n & En & Hn & E).
  exists (conv f (if at_exceeds W I x then (p * 2 ^ (F - pf) - L n)%Z else L n) F), (fxval (if at_exceeds W I x then (p * 2 ^ (F - pf) - L n)%Z else L n) F). split; [exact E|].
  split. { unfold fxval. apply converts2_R, conv_conv2. exact HfW. }
  split. { unfold fxval. apply Rmult_le_pos; [|apply Rlt_le, bpow2_pos]. apply (IZR_le 0). destruct (at_L ms cs nb ib nf p pf Hib Hnb Hnf Hc Lup L0 LP n Hn). destruct (at_exceeds W I x); lia. }
  pose proof (Tab n Hn) as TN. pose proof (bpow2_pos (- nb)) as Pq. set (q := bpow2 (- nb)) in *. set (h := er / (2 * (1 - er - q))) in *. assert (Hh : 0 <= h) by (unfold h, Rdiv; apply Rmult_le_pos; [exact Er|apply Rlt_le, Rinv_0_lt_compat; lra]).
  assert (Pe : 0 <= epi) by (eapply Rle_trans; [apply Rabs_pos|exact Pi]). assert (Xe : at_exceeds W I x = true <-> 1 < X) by (apply exceeds_real; assumption). unfold at_norm in En.
  destruct (at_exceeds W I x) eqn:EX.
  - assert (X1 : 1 < X) by (apply Xe; reflexivity). assert (Hx1 : (0 < x < 2 ^ W)%Z) by (split; [apply (at_exceeds_pos W I); exact EX|lia]). destruct (Rok x Hx1) as (n' & V & E' & C & B). fold X in B. assert (n' = n) by congruence. subst n'.
    set (u := / X) in *. assert (Hu : 0 < u <= 1) by (unfold u; split; [apply Rinv_0_lt_compat; lra|rewrite <- Rinv_1; apply Rinv_le_contravar; lra]).
    assert (HV : 0 <= V) by (apply Rabs_le_both in B; nra). destruct (clamp_near nb pQ V u n Hnb HV ltac:(lra) C) as [N _]. fold q in N.
    assert (Ha : 0 <= fxval n nb) by (unfold fxval; apply Rmult_le_pos; [apply (IZR_le 0); lia|apply Rlt_le, bpow2_pos]).
    pose proof (inv_atan_near u (fxval n nb) er q ltac:(lra) Ha Er (Rlt_le _ _ Pq) Small ltac:(lra)) as A. fold h in A.
    assert (AX : atan X = PI / 2 - atan u) by (rewrite <- (Rinv_inv X); apply atan_recip; exact (proj1 Hu)). rewrite AX.
    assert (EP : fxval (p * 2 ^ (F - pf) - L n) F = fxval p pf - fxval (L n) F). { unfold fxval. rewrite minus_IZR, mult_IZR, Rmult_minus_distr_r. f_equal. rewrite <- bpow2_IZR by lia. rewrite Rmult_assoc, <- bpow2_add. do 2 f_equal. lia. }
    rewrite EP. replace (fxval p pf - fxval (L n) F - (PI / 2 - atan u)) with ((fxval p pf - PI / 2) + - (fxval (L n) F - atan (fxval n nb)) + - (atan (fxval n nb) - atan u)) by ring.
    eapply Rle_trans; [apply Rabs_triang|]. eapply Rle_trans; [apply Rplus_le_compat_r, Rabs_triang|]. rewrite !Rabs_Ropp. lra.
  - assert (X1 : X <= 1) by (apply Rnot_lt_le; intros D; apply Xe in D; discriminate). injection En as En.
    assert (C : convertsR nt X n). { rewrite <- En. unfold X, fxval. apply converts2_R, conv_conv2. cbn [fW]. lia. }
    destruct (clamp_near nb pQ X X n Hnb HX ltac:(lra) C) as [N _]. rewrite Rminus_eq_0, Rabs_R0, Rplus_0_l in N. fold q in N. pose proof (atan_lip X (fxval n nb)) as A.
    replace (fxval (L n) F - atan X) with ((fxval (L n) F - atan (fxval n nb)) + (atan (fxval n nb) - atan X)) by ring. eapply Rle_trans; [apply Rabs_triang|]. lra.
Qed.
End Real.
