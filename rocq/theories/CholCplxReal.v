(** Backward error of the complex ac_chol_d; it succeeds on matrices that are positive definite with a margin. *)
From Coq Require Import Reals Lra Psatz.
From Verif Require Import AcTypes AcFacts Spec SpecFacts SpecR SpecRFacts SpecLin SpecCplx SpecLinC RtTypes MatrixModel MatrixProofs MatCplxModel SoftFacts CholModel CholProofs CholReal CholThm CholCplxModel CholCplx.
Local Open Scope R_scope.

Section Chain.
Variables (fo fi : fmt).
Hypothesis HW : (1 <= fW fi)%Z.
Hypothesis HS : fS fi = true.
Hypothesis HO : fO fi = SAT.
Local Notation u := (bpow2 (- fF fi)).
Local Notation vi m := (fxval m (fF fi)).
Variables (p : nat -> Z) (q : nat -> R).
Hypothesis Hq : forall k, fxval (p k) (2 * fF fo) = q k.

Lemma gchain_step j a : convertsR fi (vi (gchain fo fi p j a) - q j) (gchain fo fi p (S j) a).
Proof. rewrite gchain_S, <- Hq. apply acc_sub_R, HW. Qed.
Lemma gchain_range j a : in_range true (fW fi) a -> in_range true (fW fi) (gchain fo fi p j a).
Proof. intros Ha. destruct j; [exact Ha|]. rewrite gchain_S. rewrite <- HS. apply acc_sub_range, HW. Qed.

(** A positive pivot was never limited, and neither were the sums before it. *)
Lemma gpivot_chain a : (forall k, 0 <= q k) -> in_range true (fW fi) a -> forall j, (0 < gchain fo fi p j a)%Z -> forall k, (k <= j)%nat ->
  (0 < gchain fo fi p k a)%Z /\ Rabs (vi (gchain fo fi p k a) - (vi a - sumR q k)) <= INR k * u.
Proof.
  intros Q0 Ha. assert (P0 := bpow2_pos (- fF fi)). induction j as [|j IH]; intros P k Hk.
  - replace k with 0%nat by lia. split; [exact P|]. cbn [sumR INR]. change (gchain fo fi p 0 a) with a. replace (vi a - (vi a - 0)) with 0 by ring. rewrite Rabs_R0. lra.
  - assert (St := gchain_step j a). assert (R := gchain_range j a Ha). rewrite <- HS in R. destruct (range_fx fi _ R) as [R1 R2].
    set (V := vi (gchain fo fi p j a) - q j) in *. pose proof (Q0 j) as Q.
    assert (PV : 0 < V). { destruct (Rlt_le_dec 0 V) as [|Hle]; [assumption|]. pose proof (sat_nonpos _ _ _ HW HS HO St Hle). lia. }
    assert (PJ : (0 < gchain fo fi p j a)%Z) by (apply (fx_pos _ (fF fi)); unfold V in PV; lra).
    destruct (sat_near fi V _ HW ltac:(rewrite HO; discriminate) St) as [_ N].
    { split; [|unfold V; lra]. rewrite imin_R by assumption. pose proof (bpow2_pos (fW fi - 1 - fF fi)). lra. }
    destruct (Nat.eq_dec k (S j)) as [->|]; [|apply IH; [exact PJ|lia]]. split; [exact P|].
    destruct (IH PJ j ltac:(lia)) as [_ N']. cbn [sumR]. rewrite S_INR. apply Rabs_le_both in N, N'. unfold V in N. apply Rabs_le. lra.
Qed.

Lemma goff_chain a T : in_range true (fW fi) a -> forall j, (forall k, (k <= j)%nat -> Rabs (vi a - sumR q k) <= T) ->
  T + INR j * u <= bpow2 (fW fi - 1 - fF fi) - u -> Rabs (vi (gchain fo fi p j a) - (vi a - sumR q j)) <= INR j * u.
Proof.
  intros Ha. assert (P0 := bpow2_pos (- fF fi)). induction j as [|j IH]; intros HT HB.
  - cbn [sumR INR]. change (gchain fo fi p 0 a) with a. replace (vi a - (vi a - 0)) with 0 by ring. rewrite Rabs_R0. lra.
  - assert (N' := IH ltac:(intros; apply HT; lia) ltac:(rewrite S_INR in HB; lra)). assert (St := gchain_step j a).
    assert (HT' := HT (S j) ltac:(lia)). cbn [sumR] in HT' |- *. rewrite S_INR in *. apply Rabs_le_both in N', HT'.
    destruct (sat_near fi _ _ HW ltac:(rewrite HO; discriminate) St) as [_ N].
    { rewrite imin_R by assumption. destruct (imax_R fi) as [->|]; [|lia]. rewrite HS. lra. }
    apply Rabs_le_both in N. apply Rabs_le. lra.
Qed.
End Chain.

(** ** Pairs of real rows as one real row *)
Lemma even_S2 n : Nat.even (S (S n)) = Nat.even n. Proof. reflexivity. Qed.
Lemma half2 i : Nat.div2 (2 * i) = i /\ Nat.even (2 * i) = true /\ Nat.div2 (S (2 * i)) = i /\ Nat.even (S (2 * i)) = false.
Proof.
  induction i as [|i (A & B & C & D)]; [repeat split|]. replace (2 * S i)%nat with (S (S (2 * i))) by lia. cbn [Nat.div2 Nat.even]. repeat split; try assumption; try (rewrite A || rewrite C; reflexivity).
  all: try (f_equal; assumption). 
Qed.
Lemma sumR_two f n : sumR f (2 * n) = sumR (fun i => f (2 * i)%nat + f (S (2 * i))) n.
Proof. induction n as [|n IH]; [reflexivity|]. replace (2 * S n)%nat with (S (S (2 * n))) by lia. cbn [sumR] in *. rewrite IH. ring. Qed.

(** The 2n x 2n real matrix of a complex one: blocks [[p -n] [n p]]. *)
Definition emb (P N : nat -> nat -> R) (I K : nat) : R :=
  let i := Nat.div2 I in let k := Nat.div2 K in
  if Nat.even I then (if Nat.even K then P i k else - N i k) else (if Nat.even K then N i k else P i k).
Lemma emb_ee P N i k : emb P N (2 * i) (2 * k) = P i k.
Proof. unfold emb. destruct (half2 i) as (-> & -> & _). destruct (half2 k) as (-> & -> & _). reflexivity. Qed.
Lemma emb_eo P N i k : emb P N (2 * i) (S (2 * k)) = - N i k.
Proof. unfold emb. destruct (half2 i) as (-> & -> & _). destruct (half2 k) as (_ & _ & -> & ->). reflexivity. Qed.
Lemma emb_oe P N i k : emb P N (S (2 * i)) (2 * k) = N i k.
Proof. unfold emb. destruct (half2 i) as (_ & _ & -> & ->). destruct (half2 k) as (-> & -> & _). reflexivity. Qed.
Lemma emb_oo P N i k : emb P N (S (2 * i)) (S (2 * k)) = P i k.
Proof. unfold emb. destruct (half2 i) as (_ & _ & -> & ->). destruct (half2 k) as (_ & _ & -> & ->). reflexivity. Qed.

Definition inter (x y : nat -> R) (I : nat) : R := if Nat.even I then x (Nat.div2 I) else y (Nat.div2 I).
Lemma quad_emb P N (X : nat -> R) n : quadR (emb P N) X (2 * n) = quadC P N (fun i => X (2 * i)%nat) (fun i => X (S (2 * i))) n.
Proof.
  unfold quadR, quadC. rewrite sumR_two. apply sumR_ext. intros i _. rewrite !sumR_two, <- sumR_plus. apply sumR_ext. intros j _.
  rewrite emb_ee, emb_eo, emb_oe, emb_oo. ring.
Qed.
Lemma norm_emb (X : nat -> R) n : sumR (fun i => Rabs (X i)) (2 * n) = sumR (fun i => Rabs (X (2 * i)%nat) + Rabs (X (S (2 * i)))) n.
Proof. apply sumR_two. Qed.

Section Dots.
Variables lr li : nat -> nat -> R.
Local Notation l := (emb lr li).
Lemma dot_ee i k n : sumR (fun c => l (2 * i) c * l (2 * k) c) (2 * n) = sumR (fun c => lr i c * lr k c + li i c * li k c) n.
Proof. rewrite sumR_two. apply sumR_ext. intros c _. rewrite !emb_ee, !emb_eo. ring. Qed.
Lemma dot_oo i k n : sumR (fun c => l (S (2 * i)) c * l (S (2 * k)) c) (2 * n) = sumR (fun c => lr i c * lr k c + li i c * li k c) n.
Proof. rewrite sumR_two. apply sumR_ext. intros c _. rewrite !emb_oe, !emb_oo. ring. Qed.
Lemma dot_oe i k n : sumR (fun c => l (S (2 * i)) c * l (2 * k) c) (2 * n) = sumR (fun c => li i c * lr k c - lr i c * li k c) n.
Proof. rewrite sumR_two. apply sumR_ext. intros c _. rewrite emb_ee, emb_oe, emb_oo, emb_eo. ring. Qed.
Lemma dot_eo i k n : sumR (fun c => l (2 * i) c * l (S (2 * k)) c) (2 * n) = - sumR (fun c => li i c * lr k c - lr i c * li k c) n.
Proof. rewrite sumR_two, <- sumR_opp. apply sumR_ext. intros c _. rewrite emb_ee, emb_oe, emb_oo, emb_eo. ring. Qed.
End Dots.

Lemma halves I : exists i, I = (2 * i)%nat \/ I = S (2 * i).
Proof. exists (Nat.div2 I). pose proof (Nat.div2_odd I) as H. destruct (Nat.odd I); cbn [Nat.b2n] in H; lia. Qed.

(** A Hermitian leading block that factors with a last entry that does not. *)
Lemma small_formC P N (lr li : nat -> nat -> R) n j M rho : (n <= j < M)%nat -> 0 <= rho -> (forall k, (k < n)%nat -> 0 < lr k k /\ li k k = 0) ->
  (forall i k, (i < k)%nat -> (k < n)%nat -> lr i k = 0 /\ li i k = 0) -> hermitian M P N ->
  (forall i k, (k <= i)%nat -> (i < n)%nat -> Rabs (P i k - sumR (fun c => lr i c * lr k c + li i c * li k c) (S k)) <= rho /\
     ((k < i)%nat -> Rabs (N i k - sumR (fun c => li i c * lr k c - lr i c * li k c) (S k)) <= rho)) ->
  (forall k, (k < n)%nat -> Rabs (P j k - sumR (fun c => lr j c * lr k c + li j c * li k c) (S k)) <= rho /\ Rabs (N j k - sumR (fun c => li j c * lr k c - lr j c * li k c) (S k)) <= rho) ->
  P j j - sumR (fun c => lr j c * lr j c + li j c * li j c) n <= rho ->
  exists x y, x j = 1 /\ quadC P N x y M <= rho * norm1sqC x y M.
Proof.
  intros Hj HR HD HL HS H1 H2 H3. set (l := emb lr li).
  assert (LZ : forall I k, (I < S (2 * k))%nat -> (k < n)%nat -> l I (S (2 * k)) = 0).
  { intros I k HI Hk. destruct (halves I) as (i & [-> | ->]); unfold l; rewrite ?emb_eo, ?emb_oo.
    - destruct (Nat.eq_dec i k) as [->|]; [destruct (HD k Hk) as [_ ->]; ring|destruct (HL i k ltac:(lia) Hk) as [_ ->]; ring].
    - apply HL; lia. }
  assert (LZe : forall I k, (I < 2 * k)%nat -> (k < n)%nat -> l I (2 * k)%nat = 0).
  { intros I k HI Hk. destruct (halves I) as (i & [-> | ->]); unfold l; rewrite ?emb_ee, ?emb_oe; apply HL; lia. }
  (* the sums end at the diagonal *)
  assert (CUT : forall I k, (k < n)%nat -> sumR (fun c => l I c * l (2 * k)%nat c) (S (2 * k)) = sumR (fun c => l I c * l (2 * k)%nat c) (2 * S k)).
  { intros I k Hk. replace (2 * S k)%nat with (S (S (2 * k))) by lia. cbn [sumR]. rewrite (LZ (2 * k)%nat k) by lia. ring. }
  assert (CUTo : forall I k, sumR (fun c => l I c * l (S (2 * k)) c) (S (S (2 * k))) = sumR (fun c => l I c * l (S (2 * k)) c) (2 * S k)) by (intros I k; f_equal; lia).
  destruct (small_form (emb P N) l (2 * n) (2 * j) (2 * M) rho ltac:(lia) HR) as (X & Xj & XQ).
  - intros K HK. destruct (halves K) as (k & [-> | ->]); unfold l; rewrite ?emb_ee, ?emb_oo; apply HD; lia.
  - intros I K HI HK. destruct (halves K) as (k & [-> | ->]); [apply LZe; lia|apply LZ; lia].
  - intros I K HI HK. destruct (halves I) as (i & [-> | ->]), (halves K) as (k & [-> | ->]); rewrite ?emb_ee, ?emb_eo, ?emb_oe, ?emb_oo; destruct (HS i k ltac:(lia) ltac:(lia)) as [E1 E2]; rewrite ?E1, ?E2; ring.
  - intros I K HK HI. destruct (halves I) as (i & [-> | ->]), (halves K) as (k & [-> | ->]); rewrite ?CUT, ?CUTo by lia; unfold l; rewrite ?emb_ee, ?emb_eo, ?emb_oe, ?emb_oo, ?dot_ee, ?dot_eo, ?dot_oe, ?dot_oo.
    + apply H1; lia.
    + match goal with |- Rabs ?t <= _ => replace t with (- (N i k - sumR (fun c => li i c * lr k c - lr i c * li k c) (S k))) by ring end. rewrite Rabs_Ropp. apply H1; lia.
    + destruct (Nat.eq_dec i k) as [->|]; [|apply H1; lia]. destruct (HS k k ltac:(lia) ltac:(lia)) as [_ E2]. rewrite (sumR_ext _ (fun c => 0 * 0)) by (intros; ring). rewrite sumR_scal.
      replace (N k k) with 0 by lra. rewrite Rmult_0_l, Rminus_0_r, Rabs_R0. exact HR.
    + apply H1; lia.
  - intros K HK. destruct (halves K) as (k & [-> | ->]); rewrite ?CUT, ?CUTo by lia; unfold l; rewrite ?emb_ee, ?emb_eo, ?dot_ee, ?dot_eo.
    + apply H2; lia.
    + match goal with |- Rabs ?t <= _ => replace t with (- (N j k - sumR (fun c => li j c * lr k c - lr j c * li k c) (S k))) by ring end. rewrite Rabs_Ropp. apply H2; lia.
  - unfold l. rewrite emb_ee, dot_ee. exact H3.
  - exists (fun i => X (2 * i)%nat), (fun i => X (S (2 * i))). split; [exact Xj|]. rewrite quad_emb in XQ. unfold norm1sqC. rewrite norm_emb in XQ. exact XQ.
Qed.

(** A Hermitian matrix whose parts are within rho of those of L L^H is nearly positive semidefinite. *)
Lemma near_psdC P N (lr li : nat -> nat -> R) M rho x y : 0 <= rho -> hermitian M P N ->
  (forall i j, (j <= i < M)%nat -> Rabs (P i j - sumR (fun k => lr i k * lr j k + li i k * li j k) M) <= rho /\
     ((j < i)%nat -> Rabs (N i j - sumR (fun k => li i k * lr j k - lr i k * li j k) M) <= rho)) ->
  - (rho * norm1sqC x y M) <= quadC P N x y M.
Proof.
  intros HR HS H.
  assert (Q : - (rho * (sumR (fun i => Rabs (inter x y i)) (2 * M) * sumR (fun i => Rabs (inter x y i)) (2 * M))) <= quadR (emb P N) (inter x y) (2 * M)).
  { apply (near_psd (emb P N) (emb lr li)).
    assert (HP : forall i k, (i < M)%nat -> (k < M)%nat -> Rabs (P i k - sumR (fun c => lr i c * lr k c + li i c * li k c) M) <= rho).
    { intros i k Hi Hk. destruct (Nat.le_ge_cases k i) as [G|G]; [apply H; lia|]. destruct (HS i k Hi Hk) as [-> _]. rewrite (sumR_ext _ (fun c => lr k c * lr i c + li k c * li i c)) by (intros; ring). apply H; lia. }
    assert (HN : forall i k, (i < M)%nat -> (k < M)%nat -> Rabs (N i k - sumR (fun c => li i c * lr k c - lr i c * li k c) M) <= rho).
    { intros i k Hi Hk. destruct (Nat.lt_trichotomy k i) as [G|[->|G]]; [apply H; lia| |].
      - destruct (HS i i Hi Hi) as [_ E]. rewrite (sumR_ext _ (fun c => 0 * 0)) by (intros; ring). rewrite sumR_scal. replace (N i i) with 0 by lra. rewrite Rmult_0_l, Rminus_0_r, Rabs_R0. exact HR.
      - destruct (HS i k Hi Hk) as [_ ->]. rewrite (sumR_ext _ (fun c => - (li k c * lr i c - lr k c * li i c))) by (intros; ring). rewrite sumR_opp.
        match goal with |- Rabs ?t <= _ => replace t with (- (N k i - sumR (fun c => li k c * lr i c - lr k c * li i c) M)) by ring end. rewrite Rabs_Ropp. apply H; lia. }
    intros I K HI HK. destruct (halves I) as (i & [-> | ->]), (halves K) as (k & [-> | ->]); rewrite ?emb_ee, ?emb_eo, ?emb_oe, ?emb_oo, ?dot_ee, ?dot_eo, ?dot_oe, ?dot_oo.
    - apply HP; lia.
    - match goal with |- Rabs ?t <= _ => replace t with (- (N i k - sumR (fun c => li i c * lr k c - lr i c * li k c) M)) by ring end. rewrite Rabs_Ropp. apply HN; lia.
    - apply HN; lia.
    - apply HP; lia. }
  rewrite quad_emb, norm_emb in Q. unfold norm1sqC.
  assert (E1 : forall i, inter x y (2 * i) = x i) by (intros i; unfold inter; destruct (half2 i) as (-> & -> & _); reflexivity).
  assert (E2 : forall i, inter x y (S (2 * i)) = y i) by (intros i; unfold inter; destruct (half2 i) as (_ & _ & -> & ->); reflexivity).
  rewrite (sumR_ext (fun i => Rabs (inter x y (2 * i)) + Rabs (inter x y (S (2 * i)))) (fun i => Rabs (x i) + Rabs (y i))) in Q by (intros i _; rewrite E1, E2; reflexivity).
  unfold quadC in *. eapply Rle_trans; [exact Q|]. right. apply sumR_ext. intros i _. apply sumR_ext. intros k _. rewrite !E1, !E2. reflexivity.
Qed.

(** The Cauchy-Schwarz bound for one part of a complex dot product. *)
Lemma cs_boundC x y z w n B : sumR (fun c => x c * x c + y c * y c) n <= B -> sumR (fun c => z c * z c + w c * w c) n <= B -> Rabs (sumR (fun c => x c * z c + y c * w c) n) <= B.
Proof.
  intros H1 H2. assert (forall s, (s = 1 \/ s = -1) -> s * sumR (fun c => x c * z c + y c * w c) n <= B).
  { intros s Hs. rewrite <- sumR_scal. eapply Rle_trans; [apply (sumR_le _ (fun c => / 2 * (x c * x c + y c * y c) + / 2 * (z c * z c + w c * w c)))|rewrite sumR_plus, !sumR_scal; lra].
    intros k _. pose proof (Rle_0_sqr (x k - s * z k)) as Q. pose proof (Rle_0_sqr (y k - s * w k)) as Q'. unfold Rsqr in Q, Q'. destruct Hs as [-> | ->]; lra. }
  pose proof (H 1 ltac:(left; reflexivity)). pose proof (H (-1) ltac:(right; reflexivity)). apply Rabs_le. lra.
Qed.

Lemma first_false (p : nat -> bool) n : (forall k, (k < n)%nat -> p k = true) \/ exists j, (j < n)%nat /\ p j = false /\ forall k, (k < j)%nat -> p k = true.
Proof.
  induction n as [|n [IH|IH]]; [left; lia| |right; destruct IH as (j & H & ?); exists j; split; [lia|assumption]].
  destruct (p n) eqn:E; [left; intros k Hk; destruct (Nat.eq_dec k n) as [->|]; [exact E|apply IH; lia]|right; exists n; repeat split; [lia|exact E|exact IH]].
Qed.
