(** Proofs about ac_softmax_pwl and ac_softmax_pwl_new. *)
From Coq Require Import Reals Lra Lia ZifyBool List.
From Verif Require Import AcTypes AcFacts Spec SpecFacts SpecR SpecRFacts PwlModel PwlFacts PwlProofs PwlSqrt PwlReal PwlExp PwlExpReal SoftModel SoftFacts SoftReal SoftAct.
Local Open Scope R_scope.

(** ** Sums *)
Definition zsum (l : list Z) : Z := fold_right Z.add 0%Z l.
Definition rsum (l : list R) : R := fold_right Rplus 0 l.

Lemma zsum_nonneg l : (forall e, In e l -> 0 <= e)%Z -> (0 <= zsum l)%Z.
Proof. induction l as [|a l IH]; intros H; cbn; [lia|]. pose proof (H a (or_introl eq_refl)). specialize (IH (fun e He => H e (or_intror He))). unfold zsum in IH. lia. Qed.
Lemma zsum_bound l B : (forall e, In e l -> e <= B)%Z -> (zsum l <= Z.of_nat (length l) * B)%Z.
Proof. induction l as [|a l IH]; intros H; cbn [zsum fold_right length]; [lia|]. pose proof (H a (or_introl eq_refl)). specialize (IH (fun e He => H e (or_intror He))). unfold zsum in IH. lia. Qed.
Lemma zsum_in l e : (forall e, In e l -> 0 <= e)%Z -> In e l -> (e <= zsum l)%Z.
Proof.
  induction l as [|a l IH]; intros H He; [destruct He|]. cbn. pose proof (zsum_nonneg l (fun e He => H e (or_intror He))) as P. unfold zsum in P.
  destruct He as [->|He]; [lia|]. specialize (IH (fun e He => H e (or_intror He)) He). unfold zsum in IH. pose proof (H a (or_introl eq_refl)). lia.
Qed.
Lemma fold_sum N l : (0 <= N)%Z -> forall s, (0 <= s)%Z -> (forall e, In e l -> 0 <= e)%Z -> (s + zsum l < 2 ^ N)%Z -> fold_left (fun s e => wrapu N (s + e)) l s = (s + zsum l)%Z.
Proof.
  intros HN. induction l as [|a l IH]; intros s Hs H B; cbn [fold_left zsum fold_right] in *; [lia|].
  pose proof (zsum_nonneg l (fun e He => H e (or_intror He))) as P. pose proof (H a (or_introl eq_refl)). unfold zsum in *.
  rewrite wrapu_id by lia. rewrite IH; [unfold zsum; lia|lia|intros e He; apply H; right; exact He|unfold zsum; lia].
Qed.
Lemma rsum_fxval F l : rsum (map (fun e => fxval e F) l) = fxval (zsum l) F.
Proof. induction l as [|a l IH]; cbn; [unfold fxval; ring|]. unfold rsum, zsum in *. rewrite IH. rewrite <- fxval_add. reflexivity. Qed.
Lemma rsum_scale r (g : Z -> R) l : rsum (map (fun e => r * g e) l) = r * rsum (map g l).
Proof. induction l as [|a l IH]; cbn; [ring|]. unfold rsum in *. rewrite IH. ring. Qed.
Lemma rsum_nonneg (g : Z -> R) l : (forall x, In x l -> 0 <= g x) -> 0 <= rsum (map g l).
Proof. induction l as [|a l IH]; intros H; cbn; [lra|]. pose proof (H a (or_introl eq_refl)). specialize (IH (fun x Hx => H x (or_intror Hx))). unfold rsum in IH. lra. Qed.
Lemma rsum_in (g : Z -> R) l x : (forall x, In x l -> 0 <= g x) -> In x l -> g x <= rsum (map g l).
Proof.
  induction l as [|a l IH]; intros H Hx; [destruct Hx|]. cbn. pose proof (rsum_nonneg g l (fun x Hx => H x (or_intror Hx))) as P. unfold rsum in *. pose proof (H a (or_introl eq_refl)).
  destruct Hx as [->|Hx]; [lra|]. specialize (IH (fun x Hx => H x (or_intror Hx)) Hx). lra.
Qed.
Lemma rsum_close (g h : Z -> R) l e d : 0 <= e -> (forall x, In x l -> Rabs (g x - h x) <= e * h x + d) ->
  Rabs (rsum (map g l) - rsum (map h l)) <= e * rsum (map h l) + INR (length l) * d.
Proof.
  intros He. induction l as [|a l IH]; intros H.
  - cbn. rewrite Rminus_0_r, Rabs_R0. lra.
  - cbn [map length]. rewrite S_INR. pose proof (H a (or_introl eq_refl)) as A. specialize (IH (fun x Hx => H x (or_intror Hx))). unfold rsum in *. cbn [fold_right].
    set (p := fold_right Rplus 0 (map g l)) in *. set (q := fold_right Rplus 0 (map h l)) in *. apply Rabs_le_both in A. apply Rabs_le_both in IH. apply Rabs_le. lra.
Qed.

Lemma map_opt_map {A B : Type} (g : A -> option B) (h : A -> B) l : (forall x, In x l -> g x = Some (h x)) -> map_opt g l = Some (map h l).
Proof. induction l as [|a l IH]; intros H; cbn [map_opt map]; [reflexivity|]. rewrite (H a (or_introl eq_refl)), (IH (fun x Hx => H x (or_intror Hx))). reflexivity. Qed.
Lemma Forall2_maps {A C : Type} (P : A -> C -> Prop) (h : A -> C) (l : list A) : (forall x, In x l -> P x (h x)) -> Forall2 P l (map h l).
Proof. induction l as [|a l IH]; intros H; cbn [map]; constructor; [apply H; left; reflexivity|apply IH; intros x Hx; apply H; right; exact Hx]. Qed.

(** ** Normalising by the reciprocal of the sum *)
Lemma norm_recip pQ eF sI s : (0 <= eF)%Z -> (0 <= sI)%Z -> (1 <= eF + sI)%Z -> (0 < s < 2 ^ (eF + sI))%Z -> let S := fxval s eF in
  exists r, reciprocal_pwl pQ (eF + sI) sI false (dfmt (eF + sI + 20) (eF + 1) false) s = Some r /\ (0 <= r)%Z /\
    Rabs (fxval r (sI + 19) - / S) <= 0.002 * / S + bpow2 (- (sI + 19)).
Proof.
  intros HF HI HW Hs S. destruct (recip_u pQ (eF + sI) sI (dfmt (eF + sI + 20) (eF + 1) false) s HW ltac:(unfold dfmt; cbn [fW]; lia) Hs) as (r & V & E & C & P & A & _).
  replace (eF + sI - sI)%Z with eF in A by lia. fold S in A. exists r. split; [exact E|].
  assert (PS : 0 < S) by (unfold S, fxval; apply Rmult_lt_0_compat; [apply (IZR_lt 0); lia|apply bpow2_pos]).
  assert (LS : / S <= bpow2 eF).
  { replace (bpow2 eF) with (/ bpow2 (- eF)) by (rewrite bpow2_opp, Rinv_inv; reflexivity). apply Rinv_le_contravar; [apply bpow2_pos|].
    unfold S, fxval. pose proof (bpow2_pos (- eF)). assert (1 <= IZR s) by (apply IZR_le; lia). nra. }
  apply convR_dfmt in C; [|lia|].
  2:{ cbv iota. split; [lra|]. rewrite bpow2_add, bpow2_1. apply Rabs_le_both in A. pose proof (bpow2_pos eF). lra. }
  replace (eF + sI + 20 - (eF + 1))%Z with (sI + 19)%Z in C by lia. destruct C as [R C]. split; [unfold in_range, imin in R; cbv iota in R; lia|].
  apply Rabs_le_both in A. apply Rabs_le. lra.
Qed.

Lemma sum_one R S sI : 0 < S -> S < bpow2 sI -> Rabs (R - / S) <= 0.002 * / S + bpow2 (- (sI + 19)) -> Rabs (R * S - 1) <= 0.0021.
Proof.
  intros PS LS H. replace (R * S - 1) with ((R - / S) * S) by (field; lra). rewrite Rabs_mult, (Rabs_pos_eq S) by lra.
  apply Rle_trans with ((0.002 * / S + bpow2 (- (sI + 19))) * S); [apply Rmult_le_compat_r; lra|].
  replace ((0.002 * / S + bpow2 (- (sI + 19))) * S) with (0.002 + bpow2 (- (sI + 19)) * S) by (field; lra).
  assert (bpow2 (- (sI + 19)) * S <= bpow2 (- (sI + 19)) * bpow2 sI) by (apply Rmult_le_compat_l; [apply Rlt_le, bpow2_pos|lra]).
  rewrite <- bpow2_add in H0. replace (- (sI + 19) + sI)%Z with (-19)%Z in H0 by lia.
  replace (bpow2 (-19)) with (/ 524288) in H0; [lra|]. symmetry. transitivity (/ bpow2 19); [exact (bpow2_opp 19)|rewrite bpow2_IZR by lia; reflexivity].
Qed.

(** A quotient of nearly right numbers. *)
Lemma ratio_close (g h : Z -> R) l e d R sI x : 0 <= e <= 0.004 -> 0 <= d -> (forall x, In x l -> 0 <= g x) -> (forall x, In x l -> 0 < h x) ->
  (forall x, In x l -> Rabs (g x - h x) <= e * h x + d) -> 0.98 <= rsum (map g l) < bpow2 sI -> In x l ->
  Rabs (R - / rsum (map g l)) <= 0.002 * / rsum (map g l) + bpow2 (- (sI + 19)) ->
  Rabs (R * g x - h x / rsum (map h l)) <= 0.0021 + 2.01 * e + 1.05 * (INR (length l) + 1) * d.
Proof.
  intros He Hd Hg Hh Hc [S1 S2] Hx HR. pose proof (rsum_close g h l e d ltac:(lra) Hc) as HS. pose proof (rsum_in g l x Hg Hx) as Gx.
  pose proof (rsum_in h l x (fun x Hx => Rlt_le _ _ (Hh x Hx)) Hx) as Tx. pose proof (Hh x Hx) as T0. pose proof (Hg x Hx) as G0. pose proof (Hc x Hx) as C.
  set (S := rsum (map g l)) in *. set (T := rsum (map h l)) in *. set (K := INR (length l)) in *. assert (HK : 0 <= K) by apply pos_INR.
  pose proof (sum_one R S sI ltac:(lra) S2 HR) as Q. set (a := g x) in *. set (t := h x) in *. clearbody S T K a t. clear Hg Hh Hc HR.
  assert (PT : 0 < T) by lra.
  assert (D1 : Rabs (R * a - a / S) <= 0.0021).
  { replace (R * a - a / S) with ((R * S - 1) * (a / S)) by (field; lra). rewrite Rabs_mult.
    assert (0 <= a / S <= 1) by (split; [apply Rmult_le_pos; [lra|apply Rlt_le, Rinv_0_lt_compat; lra]|apply Rmult_le_reg_r with S; [lra|]; unfold Rdiv; rewrite Rmult_assoc, Rinv_l by lra; lra]).
    rewrite (Rabs_pos_eq (a / S)) by lra. pose proof (Rabs_pos (R * S - 1)). nra. }
  assert (D2 : Rabs (a / S - t / T) <= 2.01 * e + 1.05 * (K + 1) * d).
  { replace (a / S - t / T) with ((a * T - t * S) * / (S * T)) by (field; lra). assert (PST : 0 < S * T) by nra. rewrite Rabs_mult, (Rabs_pos_eq (/ (S * T))) by (apply Rlt_le, Rinv_0_lt_compat; lra).
    apply Rmult_le_reg_r with (S * T); [lra|]. rewrite Rmult_assoc, Rinv_l by lra. rewrite Rmult_1_r.
    assert (N : Rabs (a * T - t * S) <= T * (e * t + d) + t * (e * T + K * d)).
    { replace (a * T - t * S) with (T * (a - t) - t * (S - T)) by ring. eapply Rle_trans; [apply Rabs_triang|]. rewrite Rabs_Ropp, !Rabs_mult, (Rabs_pos_eq T), (Rabs_pos_eq t) by lra.
      apply Rplus_le_compat; apply Rmult_le_compat_l; lra. }
    eapply Rle_trans; [exact N|]. assert (T * (e * t + d) + t * (e * T + K * d) <= T * (2 * e * T + (K + 1) * d)).
    { assert (t * (K * d) <= T * (K * d)) by (apply Rmult_le_compat_r; [apply Rmult_le_pos; lra|lra]). assert (e * t <= e * T) by (apply Rmult_le_compat_l; lra). nra. }
    eapply Rle_trans; [exact H|]. replace ((2.01 * e + 1.05 * (K + 1) * d) * (S * T)) with (T * ((2.01 * e + 1.05 * (K + 1) * d) * S)) by ring.
    apply Rmult_le_compat_l; [lra|]. apply Rabs_le_both in HS.
    (* T <= (S + K d) / (1 - e) *)
    assert (HT : T * (1 - e) <= S + K * d) by lra. assert (KD : 0 <= K * d) by (apply Rmult_le_pos; lra).
    assert (HT2 : T <= 1.0041 * (S + K * d)) by nra. assert (e * T <= e * (1.0041 * (S + K * d))) by (apply Rmult_le_compat_l; lra).
    assert (e * (K * d) <= 0.004 * (K * d)) by (apply Rmult_le_compat_r; lra).
    assert (0.98 * ((K + 1) * d) <= S * ((K + 1) * d)) by (apply Rmult_le_compat_r; [apply Rmult_le_pos; lra|lra]). nra. }
  replace (R * a - t / T) with ((R * a - a / S) + (a / S - t / T)) by ring. eapply Rle_trans; [apply Rabs_triang|]. lra.
Qed.

(** ** ac_softmax_pwl *)
Lemma log2_up_pow K : (1 <= K)%Z -> (K <= 2 ^ Z.log2_up K)%Z.
Proof.
  intros H. destruct (Z.eq_dec K 1) as [->|]; [cbn; lia|]. pose proof (Z.log2_up_spec K ltac:(lia)) as [_ U]. exact U.
Qed.
Lemma exp6 : 0.00137 <= exp (-6).
Proof.
  pose proof exp_le_3 as H. assert (E : exp 6 <= 729).
  { replace 6 with (1 + (1 + (1 + (1 + (1 + 1))))) by ring. rewrite !exp_plus. pose proof (exp_pos 1). set (e := exp 1) in *.
    assert (e * e <= 9) by nra. assert (e * (e * (e * e)) <= 81) by nra. nra. }
  replace (-6) with (- (6)) by ring. rewrite exp_Ropp. pose proof (exp_pos 6). apply Rle_trans with (/ 729); [lra|]. apply Rinv_le_contravar; lra.
Qed.
Lemma fxval_ge0 x F : (0 <= x)%Z <-> 0 <= fxval x F.
Proof. rewrite <- (fxval_0 F). apply fxval_le. Qed.

Section Old.
Variables (pQ : qmode) (W I : Z) (S : bool) (f : fmt).
Hypotheses (HW : (1 <= W)%Z) (HfW : (1 <= fW f)%Z) (Hk : (0 <= I - b2z S <= 5)%Z).
Let eF := (Z.max 1 (Z.min 10 (W - I - 2)) + 10)%Z.
Let eI := (1443 * 2 ^ (I - b2z S) / 1000 + 1)%Z.
Let g (x : Z) : Z := match exp_pwl pQ W I S (dfmt (eF + eI) eI false) x with Some e => e | None => 0%Z end.

Lemma old_eI : (1 <= eI)%Z /\ forall x, in_range S W x -> Rabs (fxval x (W - I)) <= 32 /\ fxval x (W - I) * (23637 / 16384) < IZR eI.
Proof.
  pose proof (pow2_pos (I - b2z S) ltac:(lia)) as P. set (k := (I - b2z S)%Z) in *.
  assert (D : (1443 * 2 ^ k < 1000 * eI)%Z).
  { unfold eI. pose proof (Z.div_mod (1443 * 2 ^ k) 1000 ltac:(lia)). pose proof (Z.mod_pos_bound (1443 * 2 ^ k) 1000 ltac:(lia)). lia. }
  split; [unfold eI; pose proof (Z.div_pos (1443 * 2 ^ k) 1000 ltac:(lia) ltac:(lia)); lia|]. intros x Hx.
  pose proof (range_R S W I x HW Hx) as B.
  assert (B' : Rabs (fxval x (W - I)) <= bpow2 k /\ fxval x (W - I) < bpow2 k).
  { pose proof (bpow2_pos k). unfold k in *. destruct S; cbn [b2z] in *; cbv iota in B; [|rewrite Z.sub_0_r in *]; split; try apply Rabs_le; lra. }
  destruct B' as [B1 B2]. apply IZR_lt in D. rewrite !mult_IZR in D. rewrite <- bpow2_IZR in D by lia. split; [|pose proof (bpow2_pos k); lra].
  eapply Rle_trans; [exact B1|]. change 32 with (IZR (2 ^ 5)). rewrite <- bpow2_IZR by lia. apply bpow2_le. lia.
Qed.
Lemma old_eF : (11 <= eF <= 20)%Z. Proof. unfold eF. lia. Qed.

Lemma old_exp x : in_range S W x -> exp_pwl pQ W I S (dfmt (eF + eI) eI false) x = Some (g x) /\ (0 <= g x < 2 ^ (eF + eI))%Z /\
  fxval (g x) eF <= exp_val W I S x < fxval (g x) eF + bpow2 (- eF).
Proof.
  intros Hx. destruct old_eI as [H1 HB]. destruct (HB x Hx) as [B1 B2]. pose proof old_eF as HF.
  destruct (exp_evalR pQ W I S (dfmt (eF + eI) eI false) x HW ltac:(unfold dfmt; cbn [fW]; lia) eq_refl Hx ltac:(lra)) as (e & E & C).
  unfold g. rewrite E. split; [reflexivity|]. pose proof (exp_val_lt W I S x eI HW Hx B2) as L. pose proof (pow2_val_pos (pit_frac W I) (exp_inter W I S x)) as P. fold (exp_val W I S x) in P.
  apply convR_dfmt in C; [|lia|cbv iota; lra]. replace (eF + eI - eI)%Z with eF in C by lia. destruct C as [R C]. split; [|exact C].
  unfold in_range, imin, imax in R. cbv iota in R. lia.
Qed.
Lemma old_mono x y : in_range S W x -> in_range S W y -> (x <= y)%Z -> (g x <= g y)%Z.
Proof.
  intros Hx Hy H. destruct (old_exp x Hx) as (_ & _ & C1). destruct (old_exp y Hy) as (_ & _ & C2). pose proof (exp_val_mono W I S x y HW Hx Hy H) as M.
  assert (g x < g y + 1)%Z; [|lia]. apply (fxval_lt _ _ eF). rewrite fxval_add. replace (fxval 1 eF) with (bpow2 (- eF)) by (unfold fxval; ring). lra.
Qed.
Lemma old_close x : in_range S W x -> let X := fxval x (W - I) in Rabs (fxval (g x) eF - exp X) <= 0.003 * exp X + bpow2 (- eF).
Proof.
  intros Hx X. destruct (old_exp x Hx) as (_ & _ & C). destruct old_eI as [_ HB]. destruct (HB x Hx) as [B1 _]. fold X in B1.
  pose proof (exp_val_close W I S x HW Hx) as Q. cbv zeta in Q. fold X in Q. specialize (Q ltac:(lra)). pose proof (exp_pos X).
  assert ((0.0025 + 0.00001 * Rabs X) * exp X <= 0.003 * exp X) by (apply Rmult_le_compat_r; lra). apply Rabs_le_both in Q. apply Rabs_le. lra.
Qed.

Lemma softmax_old xs : xs <> [] -> (forall x, In x xs -> in_range S W x) ->
  exists outs (v : Z -> R), softmax_pwl pQ W I S f xs = Some outs /\ Forall2 (fun x out => convertsR f (v x) out) xs outs /\
    (forall x, In x xs -> 0 <= v x) /\ (forall x y, In x xs -> In y xs -> (x <= y)%Z -> v x <= v y) /\
    ((forall x, In x xs -> v x = 0) \/ Rabs (rsum (map v xs) - 1) <= 0.0021) /\
    ((exists x, In x xs /\ -6 <= fxval x (W - I)) -> Rabs (rsum (map v xs) - 1) <= 0.0021) /\
    ((exists x, In x xs /\ (0 <= x)%Z) -> forall x, In x xs ->
       Rabs (v x - exp (fxval x (W - I)) / rsum (map (fun x => exp (fxval x (W - I))) xs)) <= 0.0085 + 1.05 * (INR (length xs) + 1) * bpow2 (- eF)).
Proof.
  intros Hne Hr. pose proof old_eF as HF. destruct old_eI as [HI _]. set (K := Z.of_nat (length xs)). assert (HK : (1 <= K)%Z) by (destruct xs; [contradiction|unfold K; cbn [length]; lia]).
  pose proof (Z.log2_up_nonneg K) as HL. pose proof (log2_up_pow K HK) as HL2. set (sI := (eI + Z.log2_up K)%Z).
  assert (EM : map_opt (exp_pwl pQ W I S (dfmt (eF + eI) eI false)) xs = Some (map g xs)) by (apply map_opt_map; intros x Hx; apply old_exp, Hr, Hx).
  assert (Gn : forall e, In e (map g xs) -> (0 <= e <= 2 ^ (eF + eI) - 1)%Z) by (intros e He; apply in_map_iff in He as (x & <- & Hx); destruct (old_exp x (Hr x Hx)) as (_ & B & _); lia).
  pose proof (zsum_nonneg (map g xs) (fun e He => proj1 (Gn e He))) as Z0. pose proof (zsum_bound (map g xs) _ (fun e He => proj2 (Gn e He))) as ZB. rewrite map_length in ZB. fold K in ZB.
  set (s := zsum (map g xs)) in *.
  assert (Sb : (s < 2 ^ (eF + sI))%Z).
  { unfold sI. rewrite Z.add_assoc, pow2_add by lia. pose proof (pow2_pos (eF + eI) ltac:(lia)). nia. }
  unfold softmax_pwl. fold eF eI K. fold sI. rewrite EM. rewrite (fold_sum (eF + sI) (map g xs)); [|lia|lia|intros e He; apply Gn, He|fold s; lia]. fold s. rewrite Z.add_0_l.
  assert (ES : fxval s eF = rsum (map (fun x => fxval (g x) eF) xs)) by (unfold s; rewrite <- rsum_fxval, map_map; reflexivity).
  assert (NN : forall x, In x xs -> 0 <= fxval (g x) eF) by (intros x Hx; apply fxval_ge0; apply (Gn (g x)); apply in_map; exact Hx).
  assert (EFr : fF (dfmt (eF + sI + 20) (eF + 1) false) = (sI + 19)%Z) by (unfold fF, dfmt; cbn [fW fI]; lia).
  destruct (Z.eq_dec s 0) as [s0|sn0].
  - rewrite s0, recip_zero by lia. set (r := imax _ _). do 2 eexists. split; [reflexivity|].
    assert (G0 : forall x, In x xs -> g x = 0%Z).
    { intros x Hx. pose proof (zsum_in (map g xs) (g x) (fun e He => proj1 (Gn e He)) (in_map g xs x Hx)) as L. fold s in L. pose proof (Gn (g x) (in_map g xs x Hx)). lia. }
    split; [rewrite map_map; apply (Forall2_maps (fun x out => convertsR f ((fun _ => 0) x) out)); intros x Hx; rewrite (G0 x Hx), Z.mul_0_r; cbv beta; rewrite <- (fxval_0 (fF (dfmt (eF + sI + 20) (eF + 1) false) + eF)); apply conv_R, HfW|].
    assert (NO : ~ exists x, In x xs /\ -6 <= fxval x (W - I)).
    { intros (x & Hx & L). pose proof (old_close x (Hr x Hx)) as C. cbv zeta in C. rewrite (G0 x Hx), fxval_0 in C. pose proof exp6 as E6.
      assert (E7 : exp (-6) <= exp (fxval x (W - I))) by (destruct L as [L|L]; [left; apply exp_increasing; exact L|rewrite L; right; reflexivity]).
      assert (bpow2 (- eF) <= / 2048). { apply Rle_trans with (bpow2 (-11)); [apply bpow2_le; lia|]. right. transitivity (/ bpow2 11); [exact (bpow2_opp 11)|rewrite bpow2_IZR by lia; reflexivity]. }
      apply Rabs_le_both in C. lra. }
    cbv beta. repeat split; intros; try lra; [left; intros; reflexivity|contradiction|].
    exfalso. apply NO. destruct H as (y & Hy & L). exists y. split; [exact Hy|]. apply (fxval_ge0 _ (W - I)) in L. lra.
  - destruct (norm_recip pQ eF sI s ltac:(lia) ltac:(unfold sI; lia) ltac:(unfold sI; lia) ltac:(lia)) as (r & -> & R0 & RC). set (R := fxval r (sI + 19)) in *.
    assert (PS : 0 < fxval s eF) by (rewrite <- (fxval_0 eF); apply fxval_lt; lia).
    assert (LS : fxval s eF < bpow2 sI). { replace sI with (eF + sI - eF)%Z by lia. rewrite <- (fxval_pow (eF + sI) eF) by (unfold sI; lia). apply fxval_lt. exact Sb. }
    exists (map (fun e => conv f (r * e) (fF (dfmt (eF + sI + 20) (eF + 1) false) + eF)) (map g xs)), (fun x => R * fxval (g x) eF). split; [reflexivity|].
    assert (PR : 0 <= R) by (apply fxval_ge0; exact R0).
    split. { rewrite map_map. apply (Forall2_maps (fun x out => convertsR f ((fun x => R * fxval (g x) eF) x) out)). intros x Hx. cbv beta. unfold R. rewrite <- fxval_mul, EFr. apply conv_R, HfW. }
    split; [intros x Hx; apply Rmult_le_pos; [exact PR|apply NN, Hx]|].
    split. { intros x y Hx Hy H. apply Rmult_le_compat_l; [exact PR|]. apply fxval_le. apply old_mono; [apply Hr, Hx|apply Hr, Hy|exact H]. }
    assert (SO : Rabs (rsum (map (fun x => R * fxval (g x) eF) xs) - 1) <= 0.0021). { rewrite rsum_scale, <- ES. apply (sum_one R (fxval s eF) sI); assumption. }
    split; [right; exact SO|]. split; [intros _; exact SO|]. intros (y & Hy & L) x Hx.
    assert (S98 : 0.98 <= rsum (map (fun x => fxval (g x) eF) xs)).
    { pose proof (rsum_in (fun x => fxval (g x) eF) xs y NN Hy) as L2. cbv beta in L2. pose proof (old_close y (Hr y Hy)) as C. cbv zeta in C.
      apply (fxval_ge0 _ (W - I)) in L. assert (1 <= exp (fxval y (W - I))) by (pose proof (exp_ineq1_le (fxval y (W - I))); lra).
      assert (bpow2 (- eF) <= / 2048). { apply Rle_trans with (bpow2 (-11)); [apply bpow2_le; lia|]. right. transitivity (/ bpow2 11); [exact (bpow2_opp 11)|rewrite bpow2_IZR by lia; reflexivity]. }
      apply Rabs_le_both in C. lra. }
    rewrite ES in RC, LS.
    pose proof (ratio_close (fun x => fxval (g x) eF) (fun x => exp (fxval x (W - I))) xs 0.003 (bpow2 (- eF)) R sI x ltac:(lra) ltac:(apply Rlt_le, bpow2_pos) NN (fun x _ => exp_pos _)
      (fun x Hx => old_close x (Hr x Hx)) (conj S98 LS) Hx RC) as Q. cbv beta in Q. lra.
Qed.
End Old.

(** ** ac_softmax_pwl_new *)
Lemma l2e_ok l : (1 <= l <= 32)%Z -> fxval (log2e_bits l) l <= 6196328018 / 4294967296 < fxval (log2e_bits l) l + bpow2 (- l).
Proof.
  intros Hl. unfold log2e_bits. rewrite Z.shiftr_div_pow2 by lia. pose proof (Z.div_mod 6196328018 (2 ^ (32 - l)) ltac:(pose proof (pow2_pos (32 - l) ltac:(lia)); lia)) as D.
  pose proof (Z.mod_pos_bound 6196328018 (2 ^ (32 - l)) ltac:(apply pow2_pos; lia)) as M. set (q := (6196328018 / 2 ^ (32 - l))%Z) in *.
  assert (E : 6196328018 / 4294967296 = fxval 6196328018 32) by (unfold fxval; replace (bpow2 (- (32))) with (/ 4294967296); [lra|symmetry; rewrite (bpow2_opp 32), bpow2_IZR by lia; reflexivity]).
  rewrite E. clear E. replace (fxval 6196328018 32) with (fxval 6196328018 (l + (32 - l))) by (f_equal; lia).
  rewrite <- (fxval_shift q l (32 - l)) by lia. replace (bpow2 (- l)) with (fxval (1 * 2 ^ (32 - l)) (l + (32 - l))) by (rewrite fxval_shift by lia; unfold fxval; ring).
  rewrite <- fxval_add. split; [apply fxval_le|apply fxval_lt]; lia.
Qed.

Lemma max_fold (ps : list (Z * Z)) : forall i, let m := fold_left (fun m p => Z.max (fst p) m) ps i in
  (i <= m)%Z /\ (forall p, In p ps -> fst p <= m)%Z /\ (m = i \/ exists p, In p ps /\ fst p = m).
Proof.
  induction ps as [|a ps IH]; intros i m.
  - subst m. cbn. split; [lia|]. split; [intros p []|left; reflexivity].
  - subst m. cbn [fold_left]. destruct (IH (Z.max (fst a) i)) as (A & B & C). set (m := fold_left _ ps (Z.max (fst a) i)) in *. split; [lia|]. split.
    + intros p [->|Hp]; [lia|apply B, Hp].
    + destruct C as [C|(p & Hp & C)]; [|right; exists p; split; [right; exact Hp|exact C]].
      destruct (Z.max_spec (fst a) i) as [[_ M]|[_ M]]; rewrite M in C; [left; exact C|right; exists a; split; [left; reflexivity|symmetry; exact C]].
Qed.

Section New.
Variables (pQ : qmode) (l fw W I : Z) (S : bool) (f : fmt).
Hypotheses (HW : (1 <= W)%Z) (HfW : (1 <= fW f)%Z) (HI : (0 <= I)%Z) (Hl : (1 <= l <= 32)%Z) (Hfw : (1 <= fw)%Z) (HF : (0 < W - I + l)%Z).
Let F := (W - I + l)%Z.
Let P (x : Z) : Z := (x * log2e_bits l)%Z.
Let ei (x : Z) : Z := ipart F (P x).
Let e (x : Z) : Z := match pow2_pwl pQ F 0 false (dfmt (fw + 1) 1 false) (slc F 0 (P x)) with Some e => e | None => 0%Z end.

Lemma new_Y x : fxval (P x) F = fxval x (W - I) * fxval (log2e_bits l) l.
Proof. unfold P, F. apply fxval_mul. Qed.
Lemma new_L : 0 <= fxval (log2e_bits l) l <= 1.4427.
Proof.
  destruct (l2e_ok l Hl) as [A _]. split; [|lra]. apply fxval_ge0. unfold log2e_bits. apply Z.shiftr_nonneg. lia.
Qed.
Lemma new_ei x : in_range S W x -> in_range S (I + 1) (ei x).
Proof.
  intros Hx. pose proof (range_R S W I x HW Hx) as B. pose proof (ipart_bounds F (P x)) as B2. rewrite new_Y in B2. fold (ei x) in B2. destruct new_L as [L0 L1].
  set (X := fxval x (W - I)) in *. set (L := fxval (log2e_bits l) l) in *. pose proof (bpow2_pos (I - 1)) as PI.
  assert (E2 : bpow2 I = 2 * bpow2 (I - 1)) by (replace I with (1 + (I - 1))%Z at 1 by lia; rewrite bpow2_add, bpow2_1; reflexivity).
  assert (EI : bpow2 I = IZR (2 ^ I)) by (apply bpow2_IZR; lia).
  assert (E3 : (2 ^ (I + 1) = 2 * 2 ^ I)%Z) by (rewrite pow2_succ by lia; reflexivity).
  unfold in_range, imin, imax. replace (I + 1 - 1)%Z with I by lia. destruct S; cbv iota in B |- *.
  - assert (- bpow2 I < X * L < bpow2 I) by (split; nra).
    assert (A1 : - IZR (2 ^ I) < IZR (ei x) + 1) by lra. assert (A2 : IZR (ei x) < IZR (2 ^ I)) by lra.
    rewrite <- opp_IZR in A1. rewrite <- (plus_IZR _ 1) in A1. apply lt_IZR in A1, A2. lia.
  - assert (0 <= X * L < 2 * bpow2 I) by (split; nra).
    assert (A1 : 0 < IZR (ei x) + 1) by lra. assert (A2 : IZR (ei x) < 2 * IZR (2 ^ I)) by lra.
    rewrite <- (plus_IZR _ 1) in A1. rewrite <- mult_IZR in A2. apply lt_IZR in A1, A2. lia.
Qed.
Lemma new_split x : in_range S W x -> soft_split pQ l fw W I S x = Some (ei x, e x) /\ (0 <= e x < 2 ^ (fw + 1))%Z /\
  fxval (e x) fw <= IZR (powY (fpart F (P x))) * bpow2 (-20) < fxval (e x) fw + bpow2 (- fw).
Proof.
  intros Hx. unfold soft_split. fold (P x). change (W - I + l)%Z with F. replace (0 <? F)%Z with true by (unfold F; lia).
  assert (PF : (0 < 2 ^ F)%Z) by (apply pow2_pos; lia).
  assert (Ei : wrap S (I + 1) (Z.shiftl (P x) (- F)) = ei x).
  { assert (E1 : Z.shiftl (P x) (- F) = ei x).
    { rewrite Z.shiftl_div_pow2 by lia. rewrite Z.opp_involutive. unfold ei, ipart. rewrite pw_nonpos_eq, pw_nonneg_eq by lia. rewrite Z.mul_1_r. reflexivity. }
    rewrite E1. apply wrap_id; [lia|]. apply new_ei, Hx. }
  rewrite Ei. set (y := slc F 0 (P x)). assert (Ey : y = (P x mod 2 ^ F)%Z) by (unfold y, slc; rewrite Z.shiftr_0_r; reflexivity).
  pose proof (Z.mod_pos_bound (P x) (2 ^ F) PF) as My. rewrite <- Ey in My.
  assert (Ip : ipart (F - 0) y = 0%Z) by (rewrite Z.sub_0_r; unfold ipart; rewrite pw_nonpos_eq, pw_nonneg_eq by lia; rewrite Z.mul_1_r; apply Z.div_small; lia).
  assert (Fp : fpart (F - 0) y = fpart F (P x)) by (rewrite Z.sub_0_r; unfold fpart; rewrite pw_nonpos_eq, pw_nonneg_eq by lia; rewrite !Z.mul_1_r, Ey, Z.mod_mod by lia; reflexivity).
  destruct (pow2_eval pQ F 0 false (dfmt (fw + 1) 1 false) y ltac:(lia) ltac:(unfold dfmt; cbn [fW]; lia) eq_refl ltac:(unfold in_range, imin, imax; lia) ltac:(rewrite Ip; lia)) as (o & E & C).
  unfold e. fold y. rewrite E. split; [reflexivity|]. rewrite Ip, Fp in C. apply converts2_R in C. change (0 - 20)%Z with (-20)%Z in C.
  pose proof (powY_range (fpart F (P x)) (fpart_range F (P x))) as [R1 R2]. set (w := powY (fpart F (P x))) in *. apply IZR_le in R1, R2.
  apply convR_dfmt in C; [|lia|cbv iota; rewrite bpow2_1, bpow2_m20; lra]. replace (fw + 1 - 1)%Z with fw in C by lia. destruct C as [R C]. split; [|exact C].
  unfold in_range, imin, imax in R. cbv iota in R. lia.
Qed.

Let prod (im x : Z) : Z := wrapu (fw + 1) (Z.shiftr (e x) (wrapu (I + 1) (im - ei x))).
Lemma new_prod im x : in_range S W x -> in_range S (I + 1) im -> (ei x <= im)%Z ->
  (0 <= prod im x <= 2 ^ (fw + 1) - 1)%Z /\ fxval (prod im x) fw <= pow2_val F (P x) * bpow2 (- im) < fxval (prod im x) fw + bpow2 (- fw).
Proof.
  intros Hx Hm L. destruct (new_split x Hx) as (_ & Re & Ce). pose proof (new_ei x Hx) as Hi. unfold prod.
  assert (Es : wrapu (I + 1) (im - ei x) = (im - ei x)%Z).
  { apply wrapu_id. unfold in_range, imin, imax in Hi, Hm. rewrite (pow2_succ I) in * by lia. replace (I + 1 - 1)%Z with I in * by lia. destruct S; lia. }
  rewrite Es. set (s := (im - ei x)%Z) in *. rewrite Z.shiftr_div_pow2 by lia. pose proof (pow2_pos s ltac:(lia)) as Ps.
  set (q := (e x / 2 ^ s)%Z). assert (Rq : (q * 2 ^ s <= e x /\ e x + 1 <= (q + 1) * 2 ^ s /\ 0 <= q <= e x)%Z).
  { pose proof (Z.div_mod (e x) (2 ^ s) ltac:(lia)) as D. fold q in D. pose proof (Z.mod_pos_bound (e x) (2 ^ s) Ps). assert (0 <= q)%Z by (apply Z.div_pos; lia). split; [nia|]. split; [nia|]. split; [lia|]. nia. }
  rewrite (wrapu_id (fw + 1) q) by lia. split; [lia|]. destruct Rq as (Q1 & Q2 & _). apply (fxval_le _ _ fw) in Q1, Q2. rewrite fxval_add in Q2.
  replace (fxval 1 fw) with (bpow2 (- fw)) in Q2 by (unfold fxval; ring).
  assert (T : forall z, fxval (z * 2 ^ s) fw = fxval z fw * bpow2 s) by (intros z; unfold fxval; rewrite mult_IZR, <- bpow2_IZR by lia; ring). rewrite !T in *. rewrite fxval_add in Q2.
  replace (fxval 1 fw) with (bpow2 (- fw)) in Q2 by (unfold fxval; ring).
  assert (EV : pow2_val F (P x) * bpow2 (- im) = IZR (powY (fpart F (P x))) * bpow2 (-20) * bpow2 (- s)).
  { unfold pow2_val. fold (ei x). replace (- s)%Z with (ei x + - im)%Z by (unfold s; lia). replace (ei x - 20)%Z with (ei x + -20)%Z by lia. rewrite !bpow2_add. ring. }
  rewrite EV. set (w := IZR (powY (fpart F (P x))) * bpow2 (-20)) in *. pose proof (bpow2_pos s) as PS. rewrite bpow2_opp.
  split; [apply Rmult_le_reg_r with (bpow2 s)|apply Rmult_lt_reg_r with (bpow2 s)]; try exact PS; rewrite Rmult_assoc, Rinv_l by lra; lra.
Qed.
Lemma new_mono im x y : in_range S W x -> in_range S W y -> in_range S (I + 1) im -> (ei x <= im)%Z -> (ei y <= im)%Z -> (x <= y)%Z -> (prod im x <= prod im y)%Z.
Proof.
  intros Hx Hy Hm Lx Ly H. destruct (new_prod im x Hx Hm Lx) as [_ C1]. destruct (new_prod im y Hy Hm Ly) as [_ C2].
  assert (M : pow2_val F (P x) <= pow2_val F (P y)). { apply pow2_val_mono. unfold P. apply Z.mul_le_mono_nonneg_r; [|exact H]. unfold log2e_bits. apply Z.shiftr_nonneg. lia. }
  apply (Rmult_le_compat_r (bpow2 (- im))) in M; [|apply Rlt_le, bpow2_pos].
  assert (prod im x < prod im y + 1)%Z; [|lia]. apply (fxval_lt _ _ fw). rewrite fxval_add. replace (fxval 1 fw) with (bpow2 (- fw)) by (unfold fxval; ring). lra.
Qed.
Lemma new_close im x : in_range S W x -> in_range S (I + 1) im -> (ei x <= im)%Z -> (16 <= l)%Z -> (I - b2z S <= 6)%Z -> let X := fxval x (W - I) in
  Rabs (fxval (prod im x) fw - exp X * bpow2 (- im)) <= 0.0034 * (exp X * bpow2 (- im)) + bpow2 (- fw).
Proof.
  intros Hx Hm L H16 HI6 X. destruct (new_prod im x Hx Hm L) as [_ C]. pose proof (pow2_val_close F (P x)) as Q. rewrite new_Y in Q. fold X in Q.
  pose proof (l2e_ok l Hl) as LB. pose proof new_L as L0. set (LL := fxval (log2e_bits l) l) in *.
  assert (B64 : Rabs X <= 64).
  { pose proof (range_R S W I x HW Hx) as B. fold X in B. assert (T : bpow2 (I - b2z S) <= 64) by (change 64 with (IZR (2 ^ 6)); rewrite <- bpow2_IZR by lia; apply bpow2_le; lia).
    pose proof (bpow2_pos (I - b2z S)). destruct S; cbn [b2z] in *; cbv iota in B; [|rewrite Z.sub_0_r in *]; apply Rabs_le; lra. }
  assert (B16 : bpow2 (- l) <= / 65536). { apply Rle_trans with (bpow2 (-16)); [apply bpow2_le; lia|]. right. transitivity (/ bpow2 16); [exact (bpow2_opp 16)|rewrite bpow2_IZR by lia; reflexivity]. }
  pose proof ln2_dec as N2. assert (D : Rabs (1 - LL * ln 2) <= 0.0000139) by (apply Rabs_le; nra).
  set (d := X * (1 - LL * ln 2)). assert (Hd : Rabs d <= 0.0009).
  { unfold d. rewrite Rabs_mult. pose proof (Rabs_pos X). pose proof (Rabs_pos (1 - LL * ln 2)). nra. }
  assert (ER : Rpower 2 (X * LL) = exp X * exp (- d)). { unfold Rpower. rewrite <- exp_plus. f_equal. unfold d. ring. }
  pose proof (exp_near d ltac:(lra)) as NN. assert (N3 : Rabs (exp (- d) - 1) <= 0.00091) by lra. rewrite ER in Q.
  pose proof (exp_pos X) as PX. set (v := pow2_val F (P x)) in *. set (E := exp X) in *. set (D' := exp (- d)) in *.
  assert (QQ : Rabs (v - E) <= 0.0034 * E).
  { apply Rabs_le_both in N3. apply Rabs_le_both in Q. assert (E * D' <= E * 1.00091) by (apply Rmult_le_compat_l; lra). assert (E * 0.99909 <= E * D') by (apply Rmult_le_compat_l; lra). apply Rabs_le. lra. }
  pose proof (bpow2_pos (- im)) as Pm. assert (Q3 : Rabs (v * bpow2 (- im) - E * bpow2 (- im)) <= 0.0034 * (E * bpow2 (- im))).
  { replace (v * bpow2 (- im) - E * bpow2 (- im)) with ((v - E) * bpow2 (- im)) by ring. rewrite Rabs_mult, (Rabs_pos_eq (bpow2 (- im))) by lra.
    replace (0.0034 * (E * bpow2 (- im))) with (0.0034 * E * bpow2 (- im)) by ring. apply Rmult_le_compat_r; lra. }
  apply Rabs_le_both in Q3. apply Rabs_le. lra.
Qed.

Lemma softmax_new_ok xs : xs <> [] -> (forall x, In x xs -> in_range S W x) ->
  exists outs (v : Z -> R), softmax_new pQ l fw W I S f xs = Some outs /\ Forall2 (fun x out => convertsR f (v x) out) xs outs /\
    (forall x, In x xs -> 0 <= v x) /\ (forall x y, In x xs -> In y xs -> (x <= y)%Z -> v x <= v y) /\
    Rabs (rsum (map v xs) - 1) <= 0.0021 /\
    ((16 <= l)%Z -> (7 <= fw)%Z -> (I - b2z S <= 6)%Z -> forall x, In x xs ->
       Rabs (v x - exp (fxval x (W - I)) / rsum (map (fun x => exp (fxval x (W - I))) xs)) <= 0.009 + 1.05 * (INR (length xs) + 1) * bpow2 (- fw)).
Proof.
  intros Hne Hr. set (K := Z.of_nat (length xs)). assert (HK : (1 <= K)%Z) by (destruct xs; [contradiction|unfold K; cbn [length]; lia]).
  assert (EM : map_opt (soft_split pQ l fw W I S) xs = Some (map (fun x => (ei x, e x)) xs)) by (apply map_opt_map; intros x Hx; apply new_split, Hr, Hx).
  unfold softmax_new. fold K. rewrite EM. destruct xs as [|x0 xs']; [contradiction|]. cbn [map].
  set (im := fold_left _ (map _ xs') (ei x0)). pose proof (max_fold (map (fun x => (ei x, e x)) xs') (ei x0)) as MF. cbv zeta in MF. fold im in MF. destruct MF as (M1 & M2 & M3).
  set (xs := x0 :: xs') in *.
  assert (Mle : forall x, In x xs -> (ei x <= im)%Z). { intros x [<-|Hx]; [exact M1|]. apply (M2 (ei x, e x)). apply (in_map (fun x => (ei x, e x))), Hx. }
  assert (Mex : exists x, In x xs /\ ei x = im).
  { destruct M3 as [M3|(p & Hp & M3)]; [exists x0; split; [left; reflexivity|symmetry; exact M3]|]. apply in_map_iff in Hp as (x & <- & Hx). exists x. split; [right; exact Hx|exact M3]. }
  destruct Mex as (xm & Hxm & Exm). assert (Hm : in_range S (I + 1) im) by (rewrite <- Exm; apply new_ei, Hr, Hxm).
  match goal with |- context [fold_left _ (?a :: ?b) 0%Z] => change (a :: b) with (prod im x0 :: b) end.
  assert (Ep : prod im x0 :: map (fun p => wrapu (fw + 1) (Z.shiftr (snd p) (wrapu (I + 1) (im - fst p)))) (map (fun x => (ei x, e x)) xs') = map (prod im) xs).
  { unfold xs. cbn [map]. f_equal. rewrite map_map. reflexivity. }
  change (wrapu (fw + 1) (Z.shiftr (snd (ei x0, e x0)) (wrapu (I + 1) (im - fst (ei x0, e x0))))) with (prod im x0).
  set (sI := nbits (2 * K - 1)).
  cut (exists outs (v : Z -> R), match reciprocal_pwl pQ (fw + sI) sI false (dfmt (fw + sI + 20) (fw + 1) false) (fold_left (fun s e => wrapu (fw + sI) (s + e)) (map (prod im) xs) 0%Z) with
      | Some r => Some (map (fun e => conv f (e * r) (fw + fF (dfmt (fw + sI + 20) (fw + 1) false))) (map (prod im) xs)) | None => None end = Some outs /\ Forall2 (fun x out => convertsR f (v x) out) xs outs /\
    (forall x, In x xs -> 0 <= v x) /\ (forall x y, In x xs -> In y xs -> (x <= y)%Z -> v x <= v y) /\ Rabs (rsum (map v xs) - 1) <= 0.0021 /\
    ((16 <= l)%Z -> (7 <= fw)%Z -> (I - b2z S <= 6)%Z -> forall x, In x xs ->
       Rabs (v x - exp (fxval x (W - I)) / rsum (map (fun x => exp (fxval x (W - I))) xs)) <= 0.009 + 1.05 * (INR (length xs) + 1) * bpow2 (- fw))).
  { intros (outs & v & A & B). exists outs, v. split; [|exact B]. rewrite <- Ep in A. exact A. }
  assert (HsI : (1 <= sI /\ 2 * K <= 2 ^ sI)%Z).
  { pose proof (nbits_gt (2 * K - 1) ltac:(lia)) as G. fold sI in G. split; [|lia]. unfold sI, nbits. replace (2 * K - 1 <=? 0)%Z with false by lia. pose proof (Z.log2_nonneg (2 * K - 1)). lia. }
  assert (Gn : forall z, In z (map (prod im) xs) -> (0 <= z <= 2 ^ (fw + 1) - 1)%Z) by (intros z Hz; apply in_map_iff in Hz as (x & <- & Hx); apply (new_prod im x (Hr x Hx) Hm (Mle x Hx))).
  pose proof (zsum_nonneg (map (prod im) xs) (fun z Hz => proj1 (Gn z Hz))) as Z0. pose proof (zsum_bound (map (prod im) xs) _ (fun z Hz => proj2 (Gn z Hz))) as ZB. rewrite map_length in ZB. fold K in ZB.
  pose proof (zsum_in (map (prod im) xs) (prod im xm) (fun z Hz => proj1 (Gn z Hz)) (in_map (prod im) xs xm Hxm)) as ZI.
  set (s := zsum (map (prod im) xs)) in *.
  assert (Sb : (s < 2 ^ (fw + sI))%Z). { rewrite pow2_add by lia. rewrite pow2_succ in ZB by lia. pose proof (pow2_pos fw ltac:(lia)). nia. }
  (* the largest element is nearly one *)
  assert (Pm : 0.998 - bpow2 (- fw) < fxval (prod im xm) fw).
  { destruct (new_prod im xm (Hr xm Hxm) Hm ltac:(lia)) as [_ [_ C]]. unfold pow2_val in C. fold (ei xm) in C. rewrite Exm in C.
    rewrite Rmult_assoc, <- bpow2_add in C. replace (im - 20 + - im)%Z with (-20)%Z in C by lia. rewrite bpow2_m20 in C.
    pose proof (powY_range (fpart F (P xm)) (fpart_range F (P xm))) as [R1 _]. set (w := powY (fpart F (P xm))) in *. apply IZR_le in R1. lra. }
  assert (Bh : bpow2 (- fw) <= / 2). { apply Rle_trans with (bpow2 (-1)); [apply bpow2_le; lia|]. right. transitivity (/ bpow2 1); [exact (bpow2_opp 1)|rewrite bpow2_1; reflexivity]. }
  assert (PS : 0 < fxval s fw). { apply (fxval_le _ _ fw) in ZI. lra. }
  assert (s0 : (0 < s)%Z) by (apply (fxval_lt _ _ fw); rewrite fxval_0; exact PS).
  rewrite (fold_sum (fw + sI) (map (prod im) xs)); [|lia|lia|intros z Hz; apply Gn, Hz|fold s; lia]. fold s. rewrite Z.add_0_l.
  assert (ES : fxval s fw = rsum (map (fun x => fxval (prod im x) fw) xs)) by (unfold s; rewrite <- rsum_fxval, map_map; reflexivity).
  assert (NN : forall x, In x xs -> 0 <= fxval (prod im x) fw) by (intros x Hx; apply fxval_ge0; apply (Gn (prod im x)); apply in_map; exact Hx).
  assert (EFr : fF (dfmt (fw + sI + 20) (fw + 1) false) = (sI + 19)%Z) by (unfold fF, dfmt; cbn [fW fI]; lia).
  destruct (norm_recip pQ fw sI s ltac:(lia) ltac:(lia) ltac:(lia) ltac:(lia)) as (r & -> & R0 & RC). set (R := fxval r (sI + 19)) in *.
  assert (LS : fxval s fw < bpow2 sI). { replace sI with (fw + sI - fw)%Z by lia. rewrite <- (fxval_pow (fw + sI) fw) by lia. apply fxval_lt. exact Sb. }
  do 2 eexists. split; [reflexivity|]. assert (PR : 0 <= R) by (apply fxval_ge0; exact R0).
  split. { rewrite map_map. apply (Forall2_maps (fun x out => convertsR f ((fun x => R * fxval (prod im x) fw) x) out)). intros x Hx. cbv beta. unfold R. rewrite <- fxval_mul, EFr. rewrite (Z.mul_comm (prod im x)), (Z.add_comm fw). apply conv_R, HfW. }
  cbv beta. split; [intros x Hx; apply Rmult_le_pos; [exact PR|apply NN, Hx]|].
  split. { intros x y Hx Hy H. apply Rmult_le_compat_l; [exact PR|]. apply fxval_le. apply new_mono; [apply Hr, Hx|apply Hr, Hy|exact Hm|apply Mle, Hx|apply Mle, Hy|exact H]. }
  assert (SO : Rabs (rsum (map (fun x => R * fxval (prod im x) fw) xs) - 1) <= 0.0021). { rewrite rsum_scale, <- ES. apply (sum_one R (fxval s fw) sI); assumption. }
  split; [exact SO|]. intros H16 H7 H6 x Hx.
  assert (S98 : 0.98 <= rsum (map (fun x => fxval (prod im x) fw) xs)).
  { rewrite <- ES. apply (fxval_le _ _ fw) in ZI. assert (bpow2 (- fw) <= / 128). { apply Rle_trans with (bpow2 (-7)); [apply bpow2_le; lia|]. right. transitivity (/ bpow2 7); [exact (bpow2_opp 7)|rewrite bpow2_IZR by lia; reflexivity]. } lra. }
  rewrite ES in RC, LS.
  pose proof (ratio_close (fun x => fxval (prod im x) fw) (fun x => bpow2 (- im) * exp (fxval x (W - I))) xs 0.0034 (bpow2 (- fw)) R sI x ltac:(lra) ltac:(apply Rlt_le, bpow2_pos) NN
    (fun x _ => Rmult_lt_0_compat _ _ (bpow2_pos _) (exp_pos _))) as Q. cbv beta in Q. specialize (Q ltac:(intros y Hy; rewrite (Rmult_comm (bpow2 (- im))); apply new_close; [apply Hr, Hy|exact Hm|apply Mle, Hy|exact H16|exact H6]) (conj S98 LS) Hx RC).
  rewrite (rsum_scale (bpow2 (- im)) (fun x => exp (fxval x (W - I)))) in Q.
  pose proof (rsum_in (fun x => exp (fxval x (W - I))) xs x (fun x _ => Rlt_le _ _ (exp_pos _)) Hx) as PT. cbv beta in PT. pose proof (exp_pos (fxval x (W - I))). pose proof (bpow2_pos (- im)).
  set (T := rsum (map (fun x => exp (fxval x (W - I))) xs)) in *. replace (bpow2 (- im) * exp (fxval x (W - I)) / (bpow2 (- im) * T)) with (exp (fxval x (W - I)) / T) in Q by (field; lra). lra.
Qed.
End New.

(** All inputs very negative: the exponentials are cut to zero and so is every output. *)
Lemma softmax_old_false : ~ (forall pQ W I S f xs, (1 <= W)%Z -> (1 <= fW f)%Z -> (0 <= I - b2z S <= 5)%Z -> xs <> [] -> (forall x, In x xs -> in_range S W x) ->
  exists outs (v : Z -> R), softmax_pwl pQ W I S f xs = Some outs /\ Forall2 (fun x out => convertsR f (v x) out) xs outs /\ Rabs (rsum (map v xs) - 1) <= 0.5).
Proof.
  intros H. set (f := Fmt 20 4 false TRN WRAP).
  destruct (H TRN 16%Z 6%Z true f [-30000; -30000]%Z ltac:(lia) ltac:(cbn; lia) ltac:(cbn; lia) ltac:(discriminate)) as (outs & v & E & C & B).
  { intros x [<-|[<-|[]]]; vm_compute; split; discriminate. }
  assert (EO : softmax_pwl TRN 16 6 true f [-30000; -30000]%Z = Some [0; 0]%Z) by (vm_compute; reflexivity). rewrite EO in E. injection E as <-.
  inversion C as [|? ? ? ? C1 _]. subst. cbn in B. rewrite Rplus_0_r in B. set (V := v (-30000)%Z) in *. apply Rabs_le_both in B.
  destruct (convR_near f V _ ltac:(cbn; lia) ltac:(discriminate) C1) as [_ N].
  { change (fF f) with 16%Z. change (imin (fS f) (fW f)) with 0%Z. change (imax (fS f) (fW f)) with 1048575%Z. rewrite bpow2_IZR by lia. change (2 ^ 16)%Z with 65536%Z. lra. }
  change (fF f) with 16%Z in N. unfold fxval in N. replace (bpow2 (- (16))) with (/ 65536) in N by (symmetry; rewrite (bpow2_opp 16), bpow2_IZR by lia; reflexivity).
  apply Rabs_le_both in N. lra.
Qed.

(** ** Order of the outputs *)
Lemma exp_mono pQ W I S f x y a b : (1 <= W)%Z -> (1 <= fW f)%Z -> fS f = false -> fO f = SAT \/ fO f = SAT_SYM -> in_range S W x -> in_range S W y ->
  Rabs (fxval x (W - I)) <= 1024 -> Rabs (fxval y (W - I)) <= 1024 -> (x <= y)%Z ->
  exp_pwl pQ W I S f x = Some a -> exp_pwl pQ W I S f y = Some b -> (a <= b)%Z.
Proof.
  intros HW HfW HfS HO Hx Hy X Y H Ea Eb. destruct (exp_evalR pQ W I S f x HW HfW HfS Hx X) as (a' & Ea' & Ca). destruct (exp_evalR pQ W I S f y HW HfW HfS Hy Y) as (b' & Eb' & Cb).
  rewrite Ea in Ea'. rewrite Eb in Eb'. injection Ea' as <-. injection Eb' as <-. apply (convR_mono f (exp_val W I S x) (exp_val W I S y)); [exact HO|apply exp_val_mono; assumption|exact Ca|exact Cb].
Qed.

Lemma Forall2_nth {A C : Type} (P : A -> C -> Prop) l r i a c : Forall2 P l r -> nth_error l i = Some a -> nth_error r i = Some c -> P a c.
Proof.
  intros H. revert i. induction H as [|a' c' l r H _ IH]; intros i; destruct i; cbn; try discriminate.
  - intros [= <-] [= <-]. exact H.
  - apply IH.
Qed.

Lemma order_from f (v : Z -> R) xs outs i j x y a b : fO f = SAT \/ fO f = SAT_SYM -> Forall2 (fun x out => convertsR f (v x) out) xs outs ->
  (forall x y, In x xs -> In y xs -> (x <= y)%Z -> v x <= v y) ->
  nth_error xs i = Some x -> nth_error xs j = Some y -> nth_error outs i = Some a -> nth_error outs j = Some b -> (x <= y)%Z -> (a <= b)%Z.
Proof.
  intros HO HF M Hx Hy Ha Hb H. pose proof (Forall2_nth _ _ _ _ _ _ HF Hx Ha) as Ca. pose proof (Forall2_nth _ _ _ _ _ _ HF Hy Hb) as Cb.
  refine (convR_mono f (v x) (v y) a b HO (M x y _ _ H) Ca Cb); eapply nth_error_In; eassumption.
Qed.

Lemma softmax_old_order pQ W I S f xs outs i j x y a b : (1 <= W)%Z -> (1 <= fW f)%Z -> (0 <= I - b2z S <= 5)%Z -> fO f = SAT \/ fO f = SAT_SYM ->
  (forall x, In x xs -> in_range S W x) -> softmax_pwl pQ W I S f xs = Some outs ->
  nth_error xs i = Some x -> nth_error xs j = Some y -> nth_error outs i = Some a -> nth_error outs j = Some b -> (x <= y)%Z -> (a <= b)%Z.
Proof.
  intros HW HfW HI HO Hr E Hx Hy Ha Hb H. assert (Hne : xs <> []) by (intros ->; destruct i; discriminate).
  destruct (softmax_old pQ W I S f HW HfW HI xs Hne Hr) as (outs' & v & E' & HF & _ & M & _). rewrite E in E'. injection E' as <-.
  exact (order_from f v xs outs i j x y a b HO HF M Hx Hy Ha Hb H).
Qed.

Lemma softmax_new_order pQ l fw W I S f xs outs i j x y a b : (1 <= W)%Z -> (1 <= fW f)%Z -> (0 <= I)%Z -> (1 <= l <= 32)%Z -> (1 <= fw)%Z -> (0 < W - I + l)%Z -> fO f = SAT \/ fO f = SAT_SYM ->
  (forall x, In x xs -> in_range S W x) -> softmax_new pQ l fw W I S f xs = Some outs ->
  nth_error xs i = Some x -> nth_error xs j = Some y -> nth_error outs i = Some a -> nth_error outs j = Some b -> (x <= y)%Z -> (a <= b)%Z.
Proof.
  intros HW HfW HI Hl Hfw HF0 HO Hr E Hx Hy Ha Hb H. assert (Hne : xs <> []) by (intros ->; destruct i; discriminate).
  destruct (softmax_new_ok pQ l fw W I S f HW HfW HI Hl Hfw HF0 xs Hne Hr) as (outs' & v & E' & HF & _ & M & _). rewrite E in E'. injection E' as <-.
  exact (order_from f v xs outs i j x y a b HO HF M Hx Hy Ha Hb H).
Qed.
