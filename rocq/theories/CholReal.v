(** Backward error of ac_chol_d. *)
From Coq Require Import Reals Lra Psatz.
From Verif Require Import AcTypes AcFacts Spec SpecFacts SpecR SpecRFacts SpecLin RtTypes DivModel DivProofs DivSpecs SqrtModel SqrtProofs MatrixModel MatrixProofs SoftFacts CholModel CholProofs.
Local Open Scope R_scope.

(** ** Saturating conversions *)
Lemma imax_R f : fxval (imax (fS f) (fW f)) (fF f) = (if fS f then bpow2 (fW f - 1 - fF f) else bpow2 (fW f - fF f)) - bpow2 (- fF f) \/ (fW f < 1)%Z.
Proof.
  destruct (Z.lt_ge_cases (fW f) 1) as [|HW]; [right; assumption|left]. unfold imax. destruct (fS f); unfold fxval; rewrite minus_IZR, <- bpow2_IZR by lia;
    rewrite Rmult_minus_distr_r, <- bpow2_add, Rmult_1_l; repeat f_equal.
Qed.
Lemma imin_R f : fS f = true -> (1 <= fW f)%Z -> fxval (imin (fS f) (fW f)) (fF f) = - bpow2 (fW f - 1 - fF f).
Proof. intros HS HW. rewrite HS. unfold imin, fxval. rewrite opp_IZR, <- bpow2_IZR by lia. rewrite Ropp_mult_distr_l_reverse, <- bpow2_add. do 2 f_equal. Qed.

Lemma to_scaled V m F : fxval m F <= V -> IZR m <= V * bpow2 F.
Proof. intros H. rewrite <- (fxval_scale m F). apply Rmult_le_compat_r; [left; apply bpow2_pos|exact H]. Qed.
Lemma to_scaled' V m F : V <= fxval m F -> V * bpow2 F <= IZR m.
Proof. intros H. rewrite <- (fxval_scale m F). apply Rmult_le_compat_r; [left; apply bpow2_pos|exact H]. Qed.

Lemma sat_near f V m : (1 <= fW f)%Z -> fO f <> SAT_SYM -> convertsR f V m -> fxval (imin (fS f) (fW f)) (fF f) <= V <= fxval (imax (fS f) (fW f)) (fF f) ->
  in_range (fS f) (fW f) m /\ Rabs (fxval m (fF f) - V) <= bpow2 (- fF f).
Proof. intros HW HO HC [A B]. apply convR_near; try assumption. split; [apply to_scaled|apply to_scaled']; assumption. Qed.

Lemma sat_low f V m : (1 <= fW f)%Z -> fO f = SAT -> convertsR f V m -> V <= fxval (imin (fS f) (fW f)) (fF f) -> m = imin (fS f) (fW f).
Proof.
  intros HW HO (z & Hr & Hl) H. apply to_scaled' in H. pose proof (round_le _ _ _ _ Hr H). apply is_limited_unique in Hl; [|exact HW]. rewrite HO in Hl. cbn [overflow] in Hl. subst m.
  assert (imin (fS f) (fW f) <= imax (fS f) (fW f))%Z by (unfold imin, imax; destruct (fS f); pose proof (pow2_pos (fW f - 1)); pose proof (pow2_pos (fW f)); lia).
  repeat match goal with |- context [(?a <? ?b)%Z] => destruct (Z.ltb_spec a b) end; lia.
Qed.
Lemma sat_high f V m : (1 <= fW f)%Z -> fO f = SAT -> convertsR f V m -> fxval (imax (fS f) (fW f)) (fF f) <= V -> m = imax (fS f) (fW f).
Proof.
  intros HW HO (z & Hr & Hl) H. apply to_scaled in H. pose proof (round_ge _ _ _ _ Hr H). apply is_limited_unique in Hl; [|exact HW]. rewrite HO in Hl. cbn [overflow] in Hl. subst m.
  assert (imin (fS f) (fW f) <= imax (fS f) (fW f))%Z by (unfold imin, imax; destruct (fS f); pose proof (pow2_pos (fW f - 1)); pose proof (pow2_pos (fW f)); lia).
  repeat match goal with |- context [(?a <? ?b)%Z] => destruct (Z.ltb_spec a b) end; lia.
Qed.
Lemma sat_nonpos f V m : (1 <= fW f)%Z -> fS f = true -> fO f = SAT -> convertsR f V m -> V <= 0 -> (m <= 0)%Z.
Proof.
  intros HW HS HO (z & Hr & Hl) H. assert (V * bpow2 (fF f) <= IZR 0) as H' by (pose proof (bpow2_pos (fF f)); nra).
  pose proof (round_le _ _ _ _ Hr H'). apply is_limited_unique in Hl; [|exact HW]. rewrite HO, HS in Hl. cbn [overflow] in Hl. subst m.
  unfold imin, imax. pose proof (pow2_pos (fW f - 1)). repeat match goal with |- context [(?a <? ?b)%Z] => destruct (Z.ltb_spec a b) end; lia.
Qed.

(** ** The inner loops *)
Lemma acc_sub_R f s p Fp : (1 <= fW f)%Z -> convertsR f (fxval s (fF f) - fxval p Fp) (acc_sub f s p Fp).
Proof.
  intros HW. unfold acc_sub. set (F := Z.max (fF f) Fp). pose proof (conv_R f (s * 2 ^ (F - fF f) - p * 2 ^ (F - Fp)) F HW) as H.
  replace (fxval (s * 2 ^ (F - fF f) - p * 2 ^ (F - Fp)) F) with (fxval s (fF f) - fxval p Fp) in H; [exact H|].
  rewrite <- (fxval_shift s (fF f) (F - fF f)), <- (fxval_shift p Fp (F - Fp)) by lia.
  replace (fF f + (F - fF f))%Z with F by lia. replace (Fp + (F - Fp))%Z with F by lia. unfold fxval. rewrite minus_IZR. ring.
Qed.

Lemma acc_sub_range f s p Fp : (1 <= fW f)%Z -> in_range (fS f) (fW f) (acc_sub f s p Fp).
Proof. intros HW. unfold acc_sub. apply conv_range; assumption. Qed.

Lemma range_fx f m : in_range (fS f) (fW f) m -> fxval (imin (fS f) (fW f)) (fF f) <= fxval m (fF f) <= fxval (imax (fS f) (fW f)) (fF f).
Proof. intros [A B]. split; apply fxval_le; assumption. Qed.

Section Chain.
Variables (fo fi : fmt).
Hypothesis HW : (1 <= fW fi)%Z.
Hypothesis HS : fS fi = true.
Hypothesis HO : fO fi = SAT.
Local Notation u := (bpow2 (- fF fi)).
Local Notation vi m := (fxval m (fF fi)).
Local Notation vo m := (fxval m (fF fo)).

Lemma chain_step x y j a : convertsR fi (vi (chain fo fi x y j a) - vo (x j) * vo (y j)) (chain fo fi x y (S j) a).
Proof. rewrite chain_S. rewrite <- fxval_mul. replace (fF fo + fF fo)%Z with (2 * fF fo)%Z by lia. apply acc_sub_R, HW. Qed.

Lemma chain_range x y j a : in_range true (fW fi) a -> in_range true (fW fi) (chain fo fi x y j a).
Proof. intros Ha. destruct j; [exact Ha|]. rewrite chain_S. rewrite <- HS. apply acc_sub_range, HW. Qed.

Lemma fx_pos m F : (0 < m)%Z <-> 0 < fxval m F.
Proof. rewrite (fxval_lt 0 m F), fxval_0. reflexivity. Qed.

(** A positive pivot was never limited, and neither were the sums before it. *)
Lemma pivot_chain x a : in_range true (fW fi) a -> forall j, (0 < chain fo fi x x j a)%Z -> forall k, (k <= j)%nat ->
  (0 < chain fo fi x x k a)%Z /\ Rabs (vi (chain fo fi x x k a) - (vi a - sumR (fun c => vo (x c) * vo (x c)) k)) <= INR k * u.
Proof.
  intros Ha. assert (P0 := bpow2_pos (- fF fi)). induction j as [|j IH]; intros P k Hk.
  - replace k with 0%nat by lia. split; [exact P|]. cbn [sumR INR]. change (chain fo fi x x 0 a) with a. replace (vi a - (vi a - 0)) with 0 by ring. rewrite Rabs_R0. lra.
  - assert (St := chain_step x x j a). assert (R := chain_range x x j a Ha). rewrite <- HS in R. destruct (range_fx fi _ R) as [R1 R2].
    set (V := vi (chain fo fi x x j a) - vo (x j) * vo (x j)) in *. assert (Q : 0 <= vo (x j) * vo (x j)) by nra.
    assert (PV : 0 < V). { destruct (Rlt_le_dec 0 V) as [|Hle]; [assumption|]. pose proof (sat_nonpos _ _ _ HW HS HO St Hle). lia. }
    assert (PJ : (0 < chain fo fi x x j a)%Z) by (apply (fx_pos _ (fF fi)); unfold V in PV; lra).
    destruct (sat_near fi V _ HW ltac:(rewrite HO; discriminate) St) as [_ N].
    { split; [|unfold V; lra]. rewrite imin_R by assumption. pose proof (bpow2_pos (fW fi - 1 - fF fi)). lra. }
    destruct (Nat.eq_dec k (S j)) as [->|]; [|apply IH; [exact PJ|lia]]. split; [exact P|].
    destruct (IH PJ j ltac:(lia)) as [_ N']. cbn [sumR]. rewrite S_INR. apply Rabs_le_both in N, N'. unfold V in N. apply Rabs_le. lra.
Qed.

Lemma off_chain x y a T : in_range true (fW fi) a -> forall j, (forall k, (k <= j)%nat -> Rabs (vi a - sumR (fun c => vo (x c) * vo (y c)) k) <= T) ->
  T + INR j * u <= bpow2 (fW fi - 1 - fF fi) - u ->
  Rabs (vi (chain fo fi x y j a) - (vi a - sumR (fun c => vo (x c) * vo (y c)) j)) <= INR j * u.
Proof.
  intros Ha. assert (P0 := bpow2_pos (- fF fi)). induction j as [|j IH]; intros HT HB.
  - cbn [sumR INR]. change (chain fo fi x y 0 a) with a. replace (vi a - (vi a - 0)) with 0 by ring. rewrite Rabs_R0. lra.
  - assert (N' := IH ltac:(intros; apply HT; lia) ltac:(rewrite S_INR in HB; lra)). assert (St := chain_step x y j a).
    assert (HT' := HT (S j) ltac:(lia)). cbn [sumR] in HT' |- *. rewrite S_INR in *. apply Rabs_le_both in N', HT'.
    destruct (sat_near fi _ _ HW ltac:(rewrite HO; discriminate) St) as [_ N].
    { rewrite imin_R by assumption. destruct (imax_R fi) as [->|]; [|lia]. rewrite HS. lra. }
    apply Rabs_le_both in N. apply Rabs_le. lra.
Qed.
End Chain.

(** ** The square root of a pivot and its reciprocal *)
Lemma conv_own f x : (1 <= fW f)%Z -> fO f <> SAT_SYM -> in_range (fS f) (fW f) x -> conv f x (fF f) = x.
Proof. intros HW HO HR. rewrite conv_same_f. apply overflow_id; [assumption|assumption|]. intros; contradiction. Qed.

(** What is used of d and r, for a pivot of value p: bounds on the errors. *)
Definition root_spec (fo fi : fmt) (B X D kap del p : R) (d r : Z) : Prop :=
  let vd := fxval d (fF fo) in let vr := fxval r (fF fi) in
  in_range true (fW fo) d /\ 0 < vd <= D /\ Rabs (vd * vd - p) <= kap /\
  forall s l, Rabs s <= 2 * B -> Rabs l <= X -> Rabs (l - vr * s) <= bpow2 (- fF fo) -> Rabs (vd * l - s) <= del.

Section Root.
Variables (fo fi : fmt) (B : R).
Hypothesis TK : chol_types fo fi.
Hypothesis HB : B <= bpow2 (fI fi - 2).
Local Notation u := (bpow2 (- fF fo)).
Local Notation ui := (bpow2 (- fF fi)).

Lemma sqrt_bpow2 e : sqrt (bpow2 (2 * e)) = bpow2 e.
Proof. replace (2 * e)%Z with (e + e)%Z by lia. rewrite bpow2_add. apply sqrt_square. left. apply bpow2_pos. Qed.
Lemma sqrtB_le : sqrt B <= bpow2 (fI fo - 2).
Proof.
  rewrite <- sqrt_bpow2. apply sqrt_le_1_alt. eapply Rle_trans; [exact HB|]. apply bpow2_le. pose proof (tk_int _ _ TK). lia.
Qed.
Lemma u_small : 2 * u <= bpow2 (fI fo - 2).
Proof. replace (2 * u) with (bpow2 (1 - fF fo)) by (unfold Z.sub; rewrite bpow2_add, bpow2_1; ring). apply bpow2_le. pose proof (tk_wo _ _ TK). unfold fF. lia. Qed.
Lemma Io_half : bpow2 (fW fo - 1 - fF fo) = 2 * bpow2 (fI fo - 2).
Proof. replace (fW fo - 1 - fF fo)%Z with (1 + (fI fo - 2))%Z by (unfold fF; lia). rewrite bpow2_add, bpow2_1. reflexivity. Qed.

Lemma sqrt_near p : (0 < p)%Z -> in_range true (fW fi) p -> fxval p (fF fi) <= B ->
  let d := sqrt_fx (fW fi) (fI fi) (unsig fo) (conv (unsig fi) p (fF fi)) in
  in_range true (fW fo) d /\ in_range false (fW fo) d /\ Rabs (fxval d (fF fo) - sqrt (fxval p (fF fi))) <= u.
Proof.
  intros P R HpB d. pose proof (tk_wo _ _ TK) as Wo. pose proof (tk_wi _ _ TK) as Wi.
  assert (Ep : conv (unsig fi) p (fF fi) = p).
  { apply (conv_own (unsig fi)); cbn [unsig fW fO fS]; [lia|rewrite (tk_oi _ _ TK); discriminate|]. unfold in_range, imin, imax in *. pose proof (pow2_succ (fW fi - 1)).
    replace (fW fi - 1 + 1)%Z with (fW fi) in * by lia. pose proof (pow2_pos (fW fi - 1)). lia. }
  assert (C := sqrt_fx_ok (fW fi) (fI fi) (unsig fo) p ltac:(lia) ltac:(cbn; lia) eq_refl).
  change (fW fi - fI fi)%Z with (fF fi) in C.
  assert (Ed : d = sqrt_fx (fW fi) (fI fi) (unsig fo) p) by (unfold d; rewrite Ep; reflexivity). clearbody d. rewrite <- Ed in C.
  assert (Rp : (0 <= p < 2 ^ fW fi)%Z). { unfold in_range, imin, imax in R. pose proof (pow2_le (fW fi - 1) (fW fi)). lia. }
  specialize (C Rp). assert (S0 := sqrt_pos (fxval p (fF fi))). assert (S1 : sqrt (fxval p (fF fi)) <= sqrt B) by (apply sqrt_le_1_alt; exact HpB).
  pose proof sqrtB_le as S2. pose proof u_small as U. pose proof Io_half as Io2. pose proof (bpow2_pos (- fF fo)) as U0.
  destruct (sat_near (unsig fo) _ _ ltac:(cbn; lia) ltac:(cbn; rewrite (tk_oo _ _ TK); discriminate) C) as [R1 N].
  { cbn [unsig fS fW]. split; [unfold imin; rewrite fxval_0; exact S0|]. destruct (imax_R (unsig fo)) as [E|]; [|cbn in *; lia].
    cbn [unsig fS fW] in E. rewrite E. change (fF (unsig fo)) with (fF fo). replace (fW fo - fF fo)%Z with (2 + (fI fo - 2))%Z by (unfold fF; lia).
    rewrite bpow2_add. change (bpow2 2) with (2 * (2 * 1)). lra. }
  change (fF (unsig fo)) with (fF fo) in N. cbn [unsig fS fW] in R1. split; [|split; [exact R1|exact N]].
  assert (fxval d (fF fo) <= fxval (imax (fS fo) (fW fo)) (fF fo)).
  { destruct (imax_R fo) as [->|]; [|lia]. rewrite (tk_so _ _ TK). apply Rabs_le_both in N. lra. }
  apply fxval_le in H. rewrite (tk_so _ _ TK) in H. destruct R1 as [R1 _]. split; [|exact H]. unfold imin in *. pose proof (pow2_pos (fW fo - 1)). lia.
Qed.

Lemma least_pivot p : (0 < p)%Z -> ui <= fxval p (fF fi).
Proof. intros P. unfold fxval. pose proof (bpow2_pos (- fF fi)). apply IZR_le in P || idtac. assert (1 <= IZR p) by (apply IZR_le; lia). nra. Qed.

Lemma root_exact junk p d r X : (0 < p)%Z -> in_range true (fW fi) p -> fxval p (fF fi) <= B -> chol_root false fo fi junk p = Some (d, r) ->
  root_spec fo fi B X (sqrt B + u) (2 * (sqrt B + u) * u) ((sqrt B + u) * (u + 2 * B * ui)) (fxval p (fF fi)) d r /\
  Rabs (fxval r (fF fi) - / fxval d (fF fo)) <= ui.
Proof.
  intros P R HpB E. pose proof (sqrt_near p P R HpB) as Hd. unfold chol_root in E. set (d0 := sqrt_fx _ _ _ _) in *. cbv zeta in Hd, E. apply (f_equal (fun o => match o with Some x => x | None => (0, 0)%Z end)) in E.
  assert (Ed := f_equal fst E). assert (Er := f_equal snd E). cbn [fst snd] in Ed, Er. clear E. rewrite Ed in *. clearbody d0. clear Ed. destruct Hd as (R1 & R2 & N).
  pose proof (least_pivot p P) as LP. set (vp := fxval p (fF fi)) in *. set (vd := fxval d (fF fo)) in *. pose proof (bpow2_pos (- fF fo)) as U0. pose proof (bpow2_pos (- fF fi)) as U1.
  assert (S1 : sqrt vp <= sqrt B) by (apply sqrt_le_1_alt; exact HpB). assert (Sv : sqrt vp * sqrt vp = vp) by (apply sqrt_sqrt; lra).
  set (w := sqrt ui). assert (W2 : w * w = ui) by (apply sqrt_sqrt; lra). assert (Sw : w <= sqrt vp) by (apply sqrt_le_1_alt; exact LP). assert (W0 : 0 < w) by (apply sqrt_lt_R0; lra).
  assert (Wu : 2 * u <= w).
  { replace (2 * u) with (sqrt (bpow2 (2 * (1 - fF fo)))) by (rewrite sqrt_bpow2; unfold Z.sub; rewrite bpow2_add, bpow2_1; ring). apply sqrt_le_1_alt, bpow2_le. pose proof (tk_fra _ _ TK). lia. }
  assert (Wi : bpow2 (2 - fI fi) <= w). { rewrite <- sqrt_bpow2. apply sqrt_le_1_alt, bpow2_le. pose proof (tk_rec _ _ TK). lia. }
  assert (Nd := N). apply Rabs_le_both in Nd. assert (D0 : w / 2 <= vd) by lra. assert (D1 : vd <= sqrt B + u) by lra.
  assert (Dp : (0 < d)%Z) by (apply (fx_pos d (fF fo)); fold vd; lra).
  (* the reciprocal *)
  assert (C : convertsR (unsig fi) (/ vd) r).
  { assert (C := div_ufx_converts 1 1 (fW fo) (fI fo) (unsig fi) 1 d junk ltac:(lia) ltac:(pose proof (tk_wo _ _ TK); lia) ltac:(pose proof (tk_wi _ _ TK); cbn; lia) eq_refl ltac:(lia)).
    cbv zeta in C. rewrite Er in C. assert (G : (0 <= guard (fQ (unsig fi)))%Z) by (destruct (fQ (unsig fi)); cbn; lia).
    change (fF (unsig fi)) with (fF fi) in C. pose proof (tk_fra _ _ TK).
    specialize (C ltac:(unfold in_range, imin, imax in R2; lia) ltac:(unfold fF in *; lia)).
    replace (fW fo - fI fo - (1 - 1))%Z with (fF fo) in C by (unfold fF; lia). rewrite Z.max_r in C by lia. rewrite Z.max_l in C by lia. rewrite Z.pow_0_r, Z.mul_1_l, Z.mul_1_r in C.
    apply converts_R in C; [|lia]. replace (/ vd) with (IZR (2 ^ fF fo) / IZR d); [exact C|]. unfold vd, fxval. rewrite <- bpow2_IZR by lia. rewrite bpow2_opp. assert (0 < IZR d) by (apply (IZR_lt 0); lia). pose proof (bpow2_pos (fF fo)). field. lra. }
  assert (I0 : 0 < / vd) by (apply Rinv_0_lt_compat; lra). assert (I1 : vd * / vd = 1) by (apply Rinv_r; lra).
  assert (I2 : / vd <= bpow2 (fI fi - 1)).
  { assert (E : bpow2 (2 - fI fi) * bpow2 (fI fi - 1) = 2) by (rewrite <- bpow2_add; replace (2 - fI fi + (fI fi - 1))%Z with 1%Z by lia; apply bpow2_1).
    pose proof (bpow2_pos (fI fi - 1)) as Pb. assert (1 <= vd * bpow2 (fI fi - 1)) by nra.
    apply (Rmult_le_reg_l vd); lra. }
  destruct (sat_near (unsig fi) _ _ ltac:(pose proof (tk_wi _ _ TK); cbn; lia) ltac:(cbn; rewrite (tk_oi _ _ TK); discriminate) C) as [_ Nr].
  { cbn [unsig fS fW]. split; [unfold imin; rewrite fxval_0; lra|]. destruct (imax_R (unsig fi)) as [E|]; [|pose proof (tk_wi _ _ TK); cbn in *; lia].
    cbn [unsig fS fW] in E. rewrite E. change (fF (unsig fi)) with (fF fi). replace (fW fi - fF fi)%Z with (1 + (fI fi - 1))%Z by (unfold fF; lia).
    rewrite bpow2_add, bpow2_1. assert (ui <= bpow2 (fI fi - 1)) by (apply bpow2_le; pose proof (tk_wi _ _ TK); unfold fF; lia). lra. }
  change (fF (unsig fi)) with (fF fi) in Nr. split; [|exact Nr]. unfold root_spec. cbv zeta. fold vd. split; [exact R1|]. split; [lra|]. split.
  - rewrite <- Sv. replace (vd * vd - sqrt vp * sqrt vp) with ((vd - sqrt vp) * (vd + sqrt vp)) by ring. rewrite Rabs_mult.
    rewrite (Rabs_pos_eq (vd + sqrt vp)) by lra. pose proof (Rabs_pos (vd - sqrt vp)). nra.
  - intros s l Hs _ Hl. set (vr := fxval r (fF fi)) in *. replace (vd * l - s) with (vd * (l - vr * s) + vd * (vr - / vd) * s) by (replace (vd * (vr - / vd) * s) with (vd * vr * s - (vd * / vd) * s) by ring; rewrite I1; ring).
    eapply Rle_trans; [apply Rabs_triang|]. rewrite !Rabs_mult, (Rabs_pos_eq vd) by lra. pose proof (Rabs_pos s). pose proof (Rabs_pos (vr - / vd)). pose proof (Rabs_pos (l - vr * s)).
    assert (Rabs (vr - / vd) * Rabs s <= ui * (2 * B)) by (apply Rmult_le_compat; assumption).
    replace ((sqrt B + u) * (u + 2 * B * ui)) with ((sqrt B + u) * u + (sqrt B + u) * (ui * (2 * B))) by ring.
    rewrite Rmult_assoc. apply Rplus_le_compat; apply Rmult_le_compat; try lra. apply Rmult_le_pos; lra.
Qed.
End Root.
