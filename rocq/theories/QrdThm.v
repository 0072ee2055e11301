(** ac_qrd: the order of the rotations, and the theorem on its error. *)
From Coq Require Import Reals Lia Lra Psatz List Sorted.
From Verif Require Import AcTypes AcFacts Spec SpecFacts SpecR SpecRFacts SpecLin RtTypes DivModel DivProofs DivSpecs SqrtModel SqrtProofs MatrixModel MatrixProofs SoftFacts
  CholModel CholProofs CholReal CholThm QrdProofs.
Import ListNotations.

(** ** The order *)
Definition before (a b : nat * nat) : Prop := (snd a < snd b \/ snd a = snd b /\ fst b < fst a)%nat.

Lemma ss_app {A} (R : A -> A -> Prop) l m : StronglySorted R l -> StronglySorted R m -> (forall x y, In x l -> In y m -> R x y) -> StronglySorted R (l ++ m).
Proof.
  induction l as [|x l IH]; intros Hl Hm H; [exact Hm|]. apply StronglySorted_inv in Hl. destruct Hl as [H1 H2]. cbn [app]. constructor.
  - apply IH; [exact H1|exact Hm|]. intros; apply H; [right|]; assumption.
  - rewrite Forall_forall in *. intros y Hy. apply in_app_or in Hy. destruct Hy; [apply H2; assumption|apply H; [left; reflexivity|assumption]].
Qed.
Lemma order_col c a n : StronglySorted before (map (fun row => (row, c)) (rev (seq a n))).
Proof.
  induction n as [|n IH]; [constructor|]. rewrite seq_S, rev_app_distr. cbn [rev app map]. constructor; [exact IH|]. rewrite Forall_forall. intros [p q] H.
  apply in_map_iff in H. destruct H as (x & E & Hx). injection E as <- <-. apply in_rev, in_seq in Hx. right. cbn [fst snd]. lia.
Qed.
Lemma order_in M p c : In (p, c) (qr_order M) <-> (c < p < M)%nat.
Proof.
  unfold qr_order. rewrite in_flat_map. split.
  - intros (x & Hx & H). apply in_map_iff in H. destruct H as (y & E & Hy). injection E as <- <-. apply in_rev, in_seq in Hy. lia.
  - intros H. exists c. split; [apply in_seq; lia|]. apply in_map_iff. exists p. split; [reflexivity|]. apply in_rev. rewrite rev_involutive. apply in_seq. lia.
Qed.
Lemma order_sorted M : StronglySorted before (qr_order M).
Proof.
  unfold qr_order. generalize 0%nat as a. generalize M at 2 as n. induction n as [|n IH]; intros a; [constructor|]. cbn [seq flat_map]. apply ss_app; [apply order_col|apply IH|].
  intros [p c] [q d] H1 H2. apply in_map_iff in H1. destruct H1 as (x & E & Hx). injection E as <- <-. apply in_flat_map in H2. destruct H2 as (z & Hz & H2).
  apply in_map_iff in H2. destruct H2 as (y & E & Hy). injection E as <- <-. apply in_seq in Hz. left. cbn [fst snd]. lia.
Qed.
Lemma ss_split {A} (R : A -> A -> Prop) l x m : StronglySorted R (l ++ x :: m) -> (forall y, In y l -> R y x) /\ (forall y, In y m -> R x y).
Proof.
  induction l as [|a l IH]; cbn [app]; intros H; apply StronglySorted_inv in H; destruct H as [H1 H2]; rewrite Forall_forall in H2.
  - split; [intros y []|exact H2].
  - destruct (IH H1) as [I1 I2]. split; [|exact I2]. intros y [<-|Hy]; [apply H2, in_or_app; right; left; reflexivity|apply I1, Hy].
Qed.
Lemma done_in l p c : done l p c = true <-> In (p, c) l.
Proof.
  unfold done. rewrite existsb_exists. split.
  - intros ([a b] & Hi & H). cbn [fst snd] in H. apply andb_true_iff in H. destruct H as [H1 H2]. apply Nat.eqb_eq in H1, H2. subst. exact Hi.
  - intros H. exists (p, c). split; [exact H|]. cbn [fst snd]. rewrite !Nat.eqb_refl. reflexivity.
Qed.
Lemma done_order M l1 r c l2 p c' : qr_order M = l1 ++ (r, c) :: l2 -> done l1 p c' = true <-> (c' < p < M /\ before (p, c') (r, c))%nat.
Proof.
  intros E. pose proof (order_sorted M) as S. rewrite E in S. apply ss_split in S. destruct S as [S1 S2]. rewrite done_in. split.
  - intros H. split; [apply order_in; rewrite E; apply in_or_app; left; exact H|apply S1, H].
  - intros [H B]. apply order_in in H. rewrite E in H. apply in_app_or in H. destruct H as [H|[H|H]]; [exact H| |].
    + injection H as <- <-. unfold before in B. cbn [fst snd] in B. lia.
    + specialize (S2 _ H). unfold before in *. cbn [fst snd] in *. lia.
Qed.
Lemma order_done M l1 r c l2 : qr_order M = l1 ++ (r, c) :: l2 ->
  (forall c', c' <> c -> done l1 r c' = done l1 (r - 1)%nat c') /\ done l1 r c = false /\ done l1 (r - 1)%nat c = false.
Proof.
  intros E. assert (I : (c < r < M)%nat) by (apply order_in; rewrite E; apply in_or_app; right; left; reflexivity). split; [|split].
  - intros c' Hc. apply Bool.eq_iff_eq_true. rewrite !(done_order M l1 r c l2) by exact E. unfold before. cbn [fst snd]. lia.
  - apply not_true_iff_false. rewrite (done_order M l1 r c l2) by exact E. unfold before. cbn [fst snd]. lia.
  - apply not_true_iff_false. rewrite (done_order M l1 r c l2) by exact E. unfold before. cbn [fst snd]. lia.
Qed.
Lemma order_len_aux a n M : (a + n = M)%nat -> (2 * length (flat_map (fun col => map (fun row => (row, col)) (rev (seq (S col) (M - S col)))) (seq a n)) = n * (n - 1))%nat.
Proof.
  revert a. induction n as [|n IH]; intros a H; [reflexivity|]. cbn [seq flat_map]. rewrite app_length, map_length, rev_length, seq_length. specialize (IH (S a) ltac:(lia)). replace (M - S a)%nat with n by lia.
  destruct n as [|n]; [cbn; lia|]. nia.
Qed.
Lemma order_len M : length (qr_order M) = (M * (M - 1) / 2)%nat.
Proof. pose proof (order_len_aux 0 M M eq_refl) as H. unfold qr_order. rewrite <- H, Nat.mul_comm, Nat.div_mul by lia. reflexivity. Qed.

Local Open Scope R_scope.
Local Notation eta := (bpow2 (- (32))).
Local Notation v m := (fxval m 32).

Lemma pow_bound e n : 0 <= e -> INR n * e <= / 3 -> 1 <= (1 + e) ^ n <= 1 + 3 / 2 * (INR n * e).
Proof.
  intros He. induction n as [|n IH]; intros H; [cbn; lra|]. rewrite S_INR in *. specialize (IH ltac:(lra)). rewrite <- tech_pow_Rmult. set (g := (1 + e) ^ n) in *. pose proof (pos_INR n).
  assert (0 <= INR n * e) by (apply Rmult_le_pos; assumption). split; [nra|]. assert ((1 + e) * g <= (1 + e) * (1 + 3 / 2 * (INR n * e))) by (apply Rmult_le_compat_l; lra).
  assert (INR n * e * e <= / 3 * e) by (apply Rmult_le_compat_r; lra). lra.
Qed.

(** The pair of elements turned by each rotation has length at least nu, in the matrix that the rotation finds. *)
Definition qr_pivots (pwl : bool) (M : nat) (fa : fmt) (A : mat) (junk : Z) (nu : R) : Prop :=
  let t := qr_fmt (Z.of_nat M) (fI fa) in
  forall l1 row col l2 X, qr_order M = l1 ++ (row, col) :: l2 ->
    fold_left (qr_step pwl M t junk) l1 (Some (qr_init M fa t A)) = Some X ->
    nu * nu <= v (X (row - 1)%nat col) * v (X (row - 1)%nat col) + v (X row col) * v (X row col).

Lemma sumR_delta n (f : nat -> R) i : (i < n)%nat -> sumR (fun p => (if Nat.eqb p i then 1 else 0) * f p) n = f i.
Proof.
  intros H. replace (f i) with (sumR (fun p => 0 * f p) n + 1 * f i).
  - rewrite <- (sumR_upd (fun _ => 0) f i 1 n H). apply sumR_ext. intros k _. destruct (Nat.eqb k i); ring.
  - rewrite (sumR_ext _ (fun _ => 0)) by (intros; ring). rewrite sumR_0. ring.
Qed.
Lemma sumR_entry f n k : (forall i, 0 <= f i) -> (k < n)%nat -> f k <= sumR f n.
Proof. intros H Hk. eapply Rle_trans; [|apply (sumR_mono f (S k) n H); lia]. cbn [sumR]. pose proof (sumR_nonneg f k ltac:(intros; apply H)). lra. Qed.
Lemma sumR_abs f g b n : (forall k, (k < n)%nat -> Rabs (f k - g k) <= b) -> Rabs (sumR f n - sumR g n) <= INR n * b.
Proof.
  intros H. induction n as [|n IH]; cbn [sumR]; [unfold Rminus; rewrite Rplus_opp_r, Rabs_R0; cbn; lra|]. specialize (IH ltac:(intros; apply H; lia)). specialize (H n ltac:(lia)). rewrite S_INR.
  apply Rabs_le_both in IH, H. apply Rabs_le. lra.
Qed.

(** Exact conversions in initialize_matrix. *)
Lemma conv_exact f x F y : (1 <= fW f)%Z -> fO f <> SAT_SYM -> fxval x F = fxval y (fF f) -> in_range (fS f) (fW f) y -> conv f x F = y.
Proof.
  intros HW HO E HR. pose proof (conv_R f x F HW) as C. destruct C as (z & Hr & Hlm). assert (z = y).
  { assert (EY : fxval x F * bpow2 (fF f) = IZR y). { rewrite E. unfold fxval. rewrite Rmult_assoc, <- bpow2_add. replace (- fF f + fF f)%Z with 0%Z by lia. change (bpow2 0) with 1. apply Rmult_1_r. }
    rewrite EY in Hr. apply Z.le_antisymm; [apply (round_le _ _ _ _ Hr); lra|apply (round_ge _ _ _ _ Hr); lra]. }
  subst z. apply is_limited_unique in Hlm; [|exact HW]. rewrite overflow_id in Hlm; [exact Hlm|exact HW|exact HR|intros; contradiction].
Qed.

Lemma range_of f y : fS f = true -> (1 <= fW f)%Z -> Rabs (fxval y (fF f)) <= bpow2 (fI f - 1) - bpow2 (- fF f) -> in_range (fS f) (fW f) y.
Proof.
  intros HS HW H. apply Rabs_le_both in H. destruct (imax_R f) as [E|]; [|lia]. pose proof (imin_R f HS HW) as E'. rewrite HS in E at 2. replace (fW f - 1 - fF f)%Z with (fI f - 1)%Z in * by (unfold fF; lia).
  pose proof (bpow2_pos (- fF f)) as P. split; apply le_IZR, (Rmult_le_reg_r (bpow2 (- fF f)) _ _ P); unfold fxval in *; lra.
Qed.
Lemma out_near f x F : fS f = true -> (1 <= fW f)%Z -> fO f <> SAT_SYM -> Rabs (fxval x F) <= bpow2 (fI f - 1) - bpow2 (- fF f) -> Rabs (fxval (conv f x F) (fF f) - fxval x F) <= bpow2 (- fF f).
Proof.
  intros HS HW HO H. apply Rabs_le_both in H. destruct (imax_R f) as [E|]; [|lia]. pose proof (imin_R f HS HW) as E'. rewrite HS in E at 2. replace (fW f - 1 - fF f)%Z with (fI f - 1)%Z in * by (unfold fF; lia).
  pose proof (bpow2_pos (- fF f)) as P. apply (sat_near f (fxval x F) (conv f x F) HW HO (conv_R f x F HW)). lra.
Qed.

Section Final.
Variables (pwl : bool) (M : nat) (fa fo : fmt) (A : mat) (junk : Z) (lam nu : R).
Hypothesis T : qr_types pwl M fa fo lam nu.
Hypothesis Hcol : forall j, (j < M)%nat -> sumR (fun i => fxval (A i j) (fF fa) * fxval (A i j) (fF fa)) M <= lam * lam.
Hypothesis Hpiv : qr_pivots pwl M fa A junk nu.
Let t := qr_fmt (Z.of_nat M) (fI fa).
Let n := (M * (M - 1) / 2)%nat.
Let X0 := qr_init M fa t A.
Let u := bpow2 (- fF fo).

Lemma t_f : fF t = 32%Z. Proof. unfold t, qr_fmt, fF. cbn [fW fI]. lia. Qed.
Lemma t_shape : exists I, t = Fmt (I + 32) I true RND SAT. Proof. eexists. reflexivity. Qed.
Lemma t_l2 : 2 * lam <= bpow2 (fI t - 1) - eta. Proof. exact (qt_l2 _ _ _ _ _ _ T). Qed.
Lemma n_pos : (1 <= n)%nat.
Proof. pose proof (qt_m _ _ _ _ _ _ T). unfold n. apply Nat.div_le_lower_bound; [lia|]. destruct M as [|[|m]]; [lia|lia|]. nia. Qed.
Lemma nu_ok : 0 < nu <= 1. Proof. pose proof (qt_nu _ _ _ _ _ _ T). pose proof (bpow2_pos (-14)). lra. Qed.
Lemma nu_eta : eta <= nu * nu / 16.
Proof. pose proof (proj1 (qt_nu _ _ _ _ _ _ T)) as H. replace eta with (bpow2 (-14) * bpow2 (-14) / 16). - pose proof (bpow2_pos (-14)). nra. - rewrite <- bpow2_add. replace (- (32))%Z with (-14 + -14 + - (4))%Z by lia. rewrite (bpow2_add (-14 + -14)), (bpow2_opp 4), (bpow2_IZR 4) by lia. reflexivity. Qed.
Lemma nu2_pos : 0 < nu * nu. Proof. pose proof nu_ok. nra. Qed.
Lemma eps_parts : 0 <= eta / (nu * nu) /\ 0 <= lam * eta.
Proof. pose proof nu2_pos. pose proof eta_1. pose proof (qt_l1 _ _ _ _ _ _ T). split; [apply Rmult_le_pos; [lra|left; apply Rinv_0_lt_compat; assumption]|apply Rmult_le_pos; lra]. Qed.
Lemma n_eps : INR n * qr_eps pwl lam nu <= 3 / 10. Proof. exact (qt_n _ _ _ _ _ _ T). Qed.
Lemma eps_nonneg : 0 <= qr_eps pwl lam nu. Proof. pose proof eps_parts. pose proof eta_1. pose proof (pwl_err_pos pwl). unfold qr_eps. change (bpow2 (-32)) with eta. lra. Qed.
Lemma lam_eta : lam * eta <= / 32.
Proof.
  pose proof n_eps as H. pose proof (le_INR 1 n n_pos) as Hn. cbn [INR] in Hn. pose proof eps_parts. pose proof eta_1. pose proof eps_nonneg.
  assert (qr_eps pwl lam nu <= INR n * qr_eps pwl lam nu) by nra. pose proof (pwl_err_pos pwl). unfold qr_eps in *. change (bpow2 (-32)) with eta in *. lra.
Qed.

(** The initial matrix. *)
Lemma col_entry i j : (i < M)%nat -> (j < M)%nat -> Rabs (fxval (A i j) (fF fa)) <= lam.
Proof.
  intros Hi Hj. pose proof (qt_l1 _ _ _ _ _ _ T). pose proof (sumR_entry (fun i => fxval (A i j) (fF fa) * fxval (A i j) (fF fa)) M i ltac:(intros; apply Rle_0_sqr) Hi) as H1. cbv beta in H1. specialize (Hcol j Hj).
  apply Rabs_le. split; nra.
Qed.
Lemma t_room V : Rabs V <= lam -> Rabs V <= bpow2 (fI t - 1) - bpow2 (- fF t).
Proof. intros H. pose proof t_l2. rewrite t_f. pose proof (qt_l1 _ _ _ _ _ _ T). change (-32)%Z with (-(32))%Z. lra. Qed.
Lemma t_w : (1 <= fW t)%Z.
Proof.
  pose proof t_l2 as H. pose proof (qt_l1 _ _ _ _ _ _ T). pose proof eta_1. destruct (Z.lt_ge_cases (fI t - 1) 1) as [L|L].
  - pose proof (bpow2_le (fI t - 1) 0 ltac:(lia)) as B. rewrite bpow2_0 in B. lra.
  - pose proof t_f as F. unfold fF in F. lia.
Qed.
Lemma x0_a i j : (i < M)%nat -> (j < M)%nat -> v (X0 i j) = fxval (A i j) (fF fa).
Proof.
  intros Hi Hj. unfold X0, qr_init. destruct (Nat.ltb_spec j M); [|lia]. pose proof (qt_fa _ _ _ _ _ _ T) as HF.
  assert (E : fxval (A i j * 2 ^ (32 - fF fa)) 32 = fxval (A i j) (fF fa)). { rewrite <- (fxval_shift (A i j) (fF fa) (32 - fF fa)) by lia. f_equal. lia. }
  rewrite (conv_exact t (A i j) (fF fa) (A i j * 2 ^ (32 - fF fa))); [exact E|apply t_w|discriminate|rewrite t_f; symmetry; exact E|].
  apply range_of; [reflexivity|apply t_w|]. apply t_room. rewrite t_f, E. apply col_entry; assumption.
Qed.
Lemma x0_e p i : (p < M)%nat -> (i < M)%nat -> v (X0 p (M + i)%nat) = if Nat.eqb p i then 1 else 0.
Proof.
  intros Hp Hi. unfold X0, qr_init. destruct (Nat.ltb_spec (M + i) M); [lia|]. replace (M + i - M)%nat with i by lia. rewrite Nat.eqb_sym.
  pose proof (qt_l1 _ _ _ _ _ _ T). assert (E : fxval (if Nat.eqb p i then 2 ^ 32 else 0)%Z 32 = if Nat.eqb p i then 1 else 0) by (destruct (Nat.eqb p i); [apply fxval_one; lia|apply fxval_0]).
  rewrite (conv_exact t _ 0 (if Nat.eqb p i then 2 ^ 32 else 0)%Z); [exact E|apply t_w|discriminate| |].
  - rewrite t_f, E. destruct (Nat.eqb p i); [apply (fxval_one 0); lia|apply fxval_0].
  - apply range_of; [reflexivity|apply t_w|]. apply t_room. rewrite t_f, E. destruct (Nat.eqb p i); rewrite ?Rabs_R1, ?Rabs_R0; lra.
Qed.
Lemma x0_cols j : (j < 2 * M)%nat -> colsq M X0 j <= lj M lam j * lj M lam j.
Proof.
  intros Hj. unfold colsq, lj. destruct (Nat.ltb_spec j M) as [L|L].
  - rewrite (sumR_ext _ (fun i => fxval (A i j) (fF fa) * fxval (A i j) (fF fa))); [apply Hcol, L|]. intros k Hk. rewrite x0_a by assumption. reflexivity.
  - right. rewrite (sumR_ext _ (fun p => (if Nat.eqb p (j - M) then 1 else 0) * 1)).
    + rewrite (sumR_delta M (fun _ => 1)) by lia. ring.
    + intros p Hp. replace j with (M + (j - M))%nat at 1 2 by lia. rewrite x0_e by lia. destruct (Nat.eqb p (j - M)); ring.
Qed.
Lemma x0_lr i j : (i < M)%nat -> (j < M)%nat -> lrprod M X0 i j = fxval (A i j) (fF fa).
Proof.
  intros Hi Hj. unfold lrprod. rewrite (sumR_ext _ (fun p => (if Nat.eqb p i then 1 else 0) * fxval (A p j) (fF fa))); [apply (sumR_delta M (fun p => fxval (A p j) (fF fa)) i Hi)|].
  intros p Hp. rewrite x0_e, x0_a by assumption. reflexivity.
Qed.
Lemma x0_ll i j : (i < M)%nat -> (j < M)%nat -> llprod M X0 i j = if Nat.eqb i j then 1 else 0.
Proof.
  intros Hi Hj. unfold llprod. rewrite (sumR_ext _ (fun p => (if Nat.eqb p i then 1 else 0) * (if Nat.eqb p j then 1 else 0))); [apply (sumR_delta M (fun p => if Nat.eqb p j then 1 else 0) i Hi)|].
  intros p Hp. rewrite !x0_e by assumption. reflexivity.
Qed.

(** The matrix after the rotations. *)
Lemma final_x : exists X, fold_left (qr_step pwl M t junk) (qr_order M) (Some X0) = Some X /\
  (forall p j, (p < M)%nat -> (j < M)%nat -> Rabs (v (X p j)) <= 2 * lam /\ Rabs (v (X p (M + j)%nat)) <= 2) /\
  (forall i j, (i < M)%nat -> (j < M)%nat -> Rabs (lrprod M X i j - fxval (A i j) (fF fa)) <= 6 * lam * (INR n * qr_eps pwl lam nu) /\
                                             Rabs (llprod M X i j - (if Nat.eqb i j then 1 else 0)) <= 6 * (INR n * qr_eps pwl lam nu)) /\
  (forall i j, (j < i < M)%nat -> Rabs (v (X i j)) <= 9 * INR n * lam * eta).
Proof.
  pose proof (qt_l1 _ _ _ _ _ _ T) as HL. pose proof eta_1 as E1. pose proof (le_INR 1 n n_pos) as HN. cbn [INR] in HN. pose proof n_eps as NE. pose proof eps_nonneg as EN. pose proof eps_parts as [EPa EPb].
  set (d := / (3 * INR n)). assert (Hd : 0 < d) by (apply Rinv_0_lt_compat; lra).
  pose proof (pow_bound (qr_eps pwl lam nu) n EN ltac:(lra)) as PB.
  assert (LEN : length (qr_order M) = n) by apply order_len.
  destruct (run_ok pwl M t lam nu junk t_shape HL t_l2 lam_eta nu_ok nu_eta (proj1 (qt_nu _ _ _ _ _ _ T)) X0 x0_cols d (qr_order M) Hd) as (X & EX & (I1 & I2 & I3) & SX).
  - intros r c H. apply order_in in H. lia.
  - rewrite LEN. fold (qr_eps pwl lam nu). change (pwl_err pwl + 7 * (eta / (nu * nu)) + 10 * (lam * eta) + 2 * eta) with (qr_eps pwl lam nu). lra.
  - intros l1 r c l2 E. exact (order_done M l1 r c l2 E).
  - exact Hpiv.
  - rewrite LEN in *. change (pwl_err pwl + 7 * (eta / (nu * nu)) + 10 * (lam * eta) + 2 * eta) with (qr_eps pwl lam nu) in *. set (g := (1 + qr_eps pwl lam nu) ^ n) in *.
    exists X. split; [exact EX|]. split; [|split].
    + intros p j Hp Hj. assert (K : forall j, (j < 2 * M)%nat -> Rabs (v (X p j)) <= 2 * lj M lam j).
      { intros k Hk. specialize (I1 k Hk). pose proof (lj_ok M lam HL k) as LJ. pose proof (sumR_entry (fun p => v (X p k) * v (X p k)) M p ltac:(intros; apply Rle_0_sqr) Hp) as S1. cbv beta in S1. change (sumR (fun p => v (X p k) * v (X p k)) M) with (colsq M X k) in S1.
        assert (1 <= lj M lam k * lj M lam k) by nra. assert (g * (4 * (lj M lam k * lj M lam k)) <= 7 / 4 * (4 * (lj M lam k * lj M lam k))) by (apply Rmult_le_compat_r; lra).
        assert (v (X p k) * v (X p k) <= 4 * (lj M lam k * lj M lam k)) by lra. apply Rabs_le. split; nra. }
      split.
      * specialize (K j ltac:(lia)). unfold lj in K. destruct (Nat.ltb_spec j M); [exact K|lia].
      * specialize (K (M + j)%nat ltac:(lia)). unfold lj in K. destruct (Nat.ltb_spec (M + j) M); [lia|lra].
    + intros i j Hi Hj. specialize (I2 i j Hi Hj). specialize (I3 i j Hi Hj). rewrite x0_lr in I2 by assumption. rewrite x0_ll in I3 by assumption. split.
      * eapply Rle_trans; [exact I2|]. assert (lam * (g - 1) <= lam * (3 / 2 * (INR n * qr_eps pwl lam nu))) by (apply Rmult_le_compat_l; lra). lra.
      * lra.
    + intros i j Hij. specialize (SX j ltac:(lia)). pose proof (sumR_entry (fun p => if done (qr_order M) p j then v (X p j) * v (X p j) else 0) M i ltac:(intros k; cbv beta; destruct (done _ k j); [apply Rle_0_sqr|lra]) ltac:(lia)) as S1. cbv beta in S1.
      rewrite (proj2 (done_in (qr_order M) i j) (proj2 (order_in M i j) Hij)) in S1. change (sumR (fun p => if done (qr_order M) p j then v (X p j) * v (X p j) else 0) M) with (sub M (qr_order M) X j) in S1.
      set (eps := pwl_err pwl + 7 * (eta / (nu * nu)) + 10 * (lam * eta)) in *. assert (E0 : 0 <= eps <= qr_eps pwl lam nu) by (pose proof (pwl_err_pos pwl); unfold eps, qr_eps; change (bpow2 (-32)) with eta; lra).
      pose proof (pow_bound d n ltac:(lra) ltac:(right; unfold d; field; lra)) as PD. replace (INR n * d) with (/ 3) in PD by (unfold d; field; lra).
      assert (PE : (1 + eps) ^ n <= g) by (apply pow_incr; lra). assert (PE0 : 1 <= (1 + eps) ^ n) by (apply pow_R1_Rle; lra). rewrite Rpow_mult_distr in SX.
      assert (PP : (1 + d) ^ n * (1 + eps) ^ n <= 9 / 4). { apply Rle_trans with (3 / 2 * (3 / 2)); [|lra]. apply Rmult_le_compat; lra. }
      replace (/ d) with (3 * INR n) in SX by (unfold d; field; lra). assert (L2 : 1 <= lam * lam) by nra. set (N := INR n) in *. set (G := (1 + d) ^ n * (1 + eps) ^ n) in *.
      assert (EE : 0 <= eta * eta) by nra. assert (Q : 25 * (lam * lam) + 2 * (1 + 3 * N) <= 33 * (N * (lam * lam))) by nra.
      assert (Q2 : (25 * (lam * lam) + 2 * (1 + 3 * N)) * (eta * eta) <= 33 * (N * (lam * lam)) * (eta * eta)) by (apply Rmult_le_compat_r; assumption).
      assert (Q3 : N * ((25 * (lam * lam) + 2 * (1 + 3 * N)) * (eta * eta)) <= N * (33 * (N * (lam * lam)) * (eta * eta))) by (apply Rmult_le_compat_l; lra).
      assert (Q4 : 0 <= N * (33 * (N * (lam * lam)) * (eta * eta))). { apply Rmult_le_pos; [lra|]. apply Rmult_le_pos; [|exact EE]. apply Rmult_le_pos; [lra|]. apply Rmult_le_pos; lra. }
      assert (Q5 : G * (N * ((25 * (lam * lam) + 2 * (1 + 3 * N)) * (eta * eta))) <= 9 / 4 * (N * (33 * (N * (lam * lam)) * (eta * eta)))).
      { apply Rle_trans with (G * (N * (33 * (N * (lam * lam)) * (eta * eta)))); [apply Rmult_le_compat_l; [unfold G; apply Rmult_le_pos; lra|exact Q3]|apply Rmult_le_compat_r; assumption]. }
      set (z := N * lam * eta). replace (9 * N * lam * eta) with (9 * z) by (unfold z; ring). assert (Z0 : 0 <= z) by (unfold z; apply Rmult_le_pos; [apply Rmult_le_pos|]; lra).
      replace (9 / 4 * (N * (33 * (N * (lam * lam)) * (eta * eta)))) with (297 / 4 * (z * z)) in Q5 by (unfold z; field). assert (v (X i j) * v (X i j) <= 297 / 4 * (z * z)) by lra. clearbody z. apply Rabs_le. split; nra.
Qed.

Lemma prod_near a b a' b' la lb h : Rabs a <= la -> Rabs b <= lb -> Rabs (a' - a) <= h -> Rabs (b' - b) <= h -> Rabs (a' * b' - a * b) <= h * (la + lb + h).
Proof.
  intros Ha Hb H1 H2. replace (a' * b' - a * b) with ((a' - a) * b + a * (b' - b) + (a' - a) * (b' - b)) by ring.
  assert (P : forall x y c d, Rabs x <= c -> Rabs y <= d -> Rabs (x * y) <= c * d) by (intros; rewrite Rabs_mult; apply Rmult_le_compat; try assumption; apply Rabs_pos).
  pose proof (P _ _ _ _ H1 Hb). pose proof (P _ _ _ _ Ha H2). pose proof (P _ _ _ _ H1 H2). eapply Rle_trans; [apply Rabs_triang|]. eapply Rle_trans; [apply Rplus_le_compat_r, Rabs_triang|]. lra.
Qed.
Lemma round_small f x F : (1 <= fW f)%Z -> fQ f <> TRN -> Rabs (fxval x F) < / 2 * bpow2 (- fF f) -> conv f x F = 0%Z.
Proof.
  intros HW HQ H. destruct (conv_R f x F HW) as (z & Hr & Hlm). set (y := fxval x F * bpow2 (fF f)) in *.
  assert (Hy : Rabs y < / 2). { unfold y. pose proof (bpow2_pos (fF f)) as P. rewrite Rabs_mult, (Rabs_pos_eq (bpow2 (fF f))) by lra.
    replace (/ 2) with (/ 2 * bpow2 (- fF f) * bpow2 (fF f)). - apply Rmult_lt_compat_r; assumption. - rewrite Rmult_assoc, <- bpow2_add. replace (- fF f + fF f)%Z with 0%Z by lia. rewrite bpow2_0. ring. }
  apply Rabs_def2 in Hy. assert (z = 0%Z).
  { cut (-1 < z < 1)%Z; [lia|]. unfold is_roundR in Hr. destruct (fQ f); try contradiction; try (destruct Hr as [Hr _]; apply Rabs_le_both in Hr; split; apply lt_IZR; lra).
    destruct Hr as [R1 R2]. destruct (Rle_dec 0 y); [specialize (R1 ltac:(lra))|specialize (R2 ltac:(lra))]; split; apply lt_IZR; lra. }
  subst z. apply is_limited_unique in Hlm; [|exact HW]. rewrite Hlm. rewrite <- (conv_same_f f 0). apply AbsProofs.conv_0. exact HW.
Qed.

Lemma qrd_final : exists Q U, qrd pwl M fa fo A junk = Some (Q, U) /\
  qr_factors M (fun i j => fxval (A i j) (fF fa)) (fun i j => fxval (Q i j) (fF fo)) (fun i j => fxval (U i j) (fF fo))
    (6 * lam * (INR n * qr_eps pwl lam nu) + INR M * (u * (2 + 2 * lam + u))) (6 * (INR n * qr_eps pwl lam nu) + INR M * (u * (4 + u))) (9 * INR n * lam * eta + u) /\
  (18 * INR n * lam * eta < u -> fQ fo <> TRN -> forall i j, (j < i < M)%nat -> U i j = 0%Z).
Proof.
  destruct final_x as (X & EX & HB & HP & HS). pose proof (qt_l1 _ _ _ _ _ _ T) as HL. pose proof (qt_l3 _ _ _ _ _ _ T) as L3. pose proof (bpow2_pos (- fF fo)) as U0. fold u in U0, L3.
  pose proof (qt_so _ _ _ _ _ _ T) as SO. pose proof (qt_wo _ _ _ _ _ _ T) as WO. pose proof (qt_oo _ _ _ _ _ _ T) as OO.
  exists (fun i j => conv fo (X j (i + M)%nat) (fF t)), (fun i j => conv fo (X i j) (fF t)). split; [unfold qrd; fold t X0; rewrite EX; reflexivity|]. rewrite t_f.
  assert (NU : forall i j, (i < M)%nat -> (j < M)%nat -> Rabs (fxval (conv fo (X i j) 32) (fF fo) - v (X i j)) <= u).
  { intros i j Hi Hj. apply out_near; try assumption. eapply Rle_trans; [apply (HB i j Hi Hj)|exact L3]. }
  assert (NQ : forall i j, (i < M)%nat -> (j < M)%nat -> Rabs (fxval (conv fo (X j (i + M)%nat) 32) (fF fo) - v (X j (M + i)%nat)) <= u).
  { intros i j Hi Hj. rewrite (Nat.add_comm M i). apply out_near; try assumption. rewrite (Nat.add_comm i M). eapply Rle_trans; [apply (HB j i Hj Hi)|]. fold u. lra. }
  split.
  - intros i j Hi Hj. destruct (HP i j Hi Hj) as [P1 P2]. split; [|split].
    + assert (D : Rabs (mulR M (fun i j => fxval (conv fo (X j (i + M)%nat) 32) (fF fo)) (fun i j => fxval (conv fo (X i j) 32) (fF fo)) i j - lrprod M X i j) <= INR M * (u * (2 + 2 * lam + u))).
      { apply sumR_abs. intros k Hk. apply prod_near; [apply (HB k i Hk Hi)|apply (HB k j Hk Hj)|apply NQ; assumption|apply NU; assumption]. }
      apply Rabs_le_both in D, P1. apply Rabs_le. lra.
    + assert (D : Rabs (mulR M (fun i j => fxval (conv fo (X j (i + M)%nat) 32) (fF fo)) (fun k j => fxval (conv fo (X k (j + M)%nat) 32) (fF fo)) i j - llprod M X i j) <= INR M * (u * (2 + 2 + u))).
      { apply sumR_abs. intros k Hk. apply prod_near; [apply (HB k i Hk Hi)|apply (HB k j Hk Hj)|apply NQ; assumption|apply NQ; assumption]. }
      replace (u * (2 + 2 + u)) with (u * (4 + u)) in D by ring. apply Rabs_le_both in D, P2. apply Rabs_le. lra.
    + intros Hij. specialize (NU i j Hi Hj). specialize (HS i j ltac:(lia)). apply Rabs_le_both in NU, HS. apply Rabs_le. lra.
  - intros HU HQ i j Hij. apply round_small; try assumption. specialize (HS i j Hij). fold u. lra.
Qed.
End Final.

Lemma init_entry pwl M fa fo A lam nu i j : qr_types pwl M fa fo lam nu ->
  (forall j, (j < M)%nat -> sumR (fun i => fxval (A i j) (fF fa) * fxval (A i j) (fF fa)) M <= lam * lam) -> (i < M)%nat -> (j < M)%nat ->
  v (qr_init M fa (qr_fmt (Z.of_nat M) (fI fa)) A i j) = fxval (A i j) (fF fa).
Proof. intros T HC. exact (x0_a pwl M fa fo A lam nu T HC i j). Qed.

(** For 2 x 2 matrices the only rotation turns the first column. *)
Lemma qr_pivots_2 pwl fa fo A junk lam nu : qr_types pwl 2 fa fo lam nu ->
  (forall j, (j < 2)%nat -> sumR (fun i => fxval (A i j) (fF fa) * fxval (A i j) (fF fa)) 2 <= lam * lam) ->
  nu * nu <= sumR (fun i => fxval (A i 0%nat) (fF fa) * fxval (A i 0%nat) (fF fa)) 2 -> qr_pivots pwl 2 fa A junk nu.
Proof.
  intros T HC HN l1 r c l2 X E EX. assert (l1 = [] /\ r = 1%nat /\ c = 0%nat) as (-> & -> & ->).
  { change (qr_order 2) with [(1%nat, 0%nat)] in E. destruct l1 as [|x l1]; [injection E as <- <- _; auto|]. exfalso. injection E as _ E. destruct l1; discriminate. }
  cbn [fold_left] in EX. injection EX as <-. change (1 - 1)%nat with 0%nat.
  rewrite !(init_entry pwl 2 fa fo A lam nu) by (assumption || lia). cbn [sumR] in HN. lra.
Qed.

(** Deciding [qr_pivots] for a given matrix. *)
Definition pivots_check (pwl : bool) (M : nat) (fa : fmt) (A : mat) (junk z : Z) : bool :=
  let t := qr_fmt (Z.of_nat M) (fI fa) in
  forallb (fun k => match nth_error (qr_order M) k, fold_left (qr_step pwl M t junk) (firstn k (qr_order M)) (Some (qr_init M fa t A)) with
                    | Some (r, c), Some X => (z * z <=? X (r - 1)%nat c * X (r - 1)%nat c + X r c * X r c)%Z
                    | _, _ => true end) (seq 0 (length (qr_order M))).
Lemma pivots_check_ok pwl M fa A junk z : pivots_check pwl M fa A junk z = true -> qr_pivots pwl M fa A junk (v z).
Proof.
  intros H l1 r c l2 X E EX. unfold pivots_check in H. rewrite forallb_forall in H. specialize (H (length l1)). rewrite in_seq in H. rewrite E in H. rewrite app_length in H. cbn [length] in H.
  specialize (H ltac:(lia)). rewrite nth_error_app2, Nat.sub_diag in H by lia. cbn [nth_error] in H. rewrite firstn_app, Nat.sub_diag, firstn_all, firstn_O, app_nil_r, EX in H.
  apply Z.leb_le, IZR_le in H. rewrite plus_IZR, !mult_IZR in H. unfold fxval. pose proof (bpow2_pos (- (32))) as P. assert (0 < eta * eta) by nra. apply (Rmult_le_compat_r (eta * eta)) in H; [lra|lra].
Qed.

(** The identity matrix: the elements of the first rotation are both zero, and so are its coefficients. *)
Definition id3 : mat := fun i j => if Nat.eqb i j then 65536%Z else 0%Z.
(** What becomes of 1. *)
Definition one_pe (pwl : bool) : Z := if pwl then 65488%Z else 65536%Z.
Lemma qrd_identity pwl : exists Q U, qrd pwl 3 (Fmt 32 16 true RND SAT) (Fmt 32 16 true RND SAT) id3 0 = Some (Q, U) /\
  forall i j, (i < 3)%nat -> (j < 3)%nat -> Q i j = (if (Nat.eqb i 0 && Nat.eqb j 0)%bool then one_pe pwl else 0)%Z /\ U i j = (if (Nat.eqb i 0 && Nat.eqb j 0)%bool then one_pe pwl else 0)%Z.
Proof.
  assert (C : match qrd pwl 3 (Fmt 32 16 true RND SAT) (Fmt 32 16 true RND SAT) id3 0 with
    | Some (Q, U) => map (fun i => map (fun j => (Q i j, U i j)) (seq 0 3)) (seq 0 3) = [[(one_pe pwl, one_pe pwl); (0, 0); (0, 0)]; [(0, 0); (0, 0); (0, 0)]; [(0, 0); (0, 0); (0, 0)]]%Z
    | None => False end) by (destruct pwl; vm_compute; reflexivity).
  destruct (qrd pwl 3 _ _ id3 0) as [[Q U]|]; [|contradiction]. exists Q, U. split; [reflexivity|]. cbn [seq map] in C. injection C as ? ? ? ? ? ? ? ? ? ? ? ? ? ? ? ? ? ?.
  intros i j Hi Hj. destruct i as [|[|[|i]]], j as [|[|[|j]]]; try lia; cbn [Nat.eqb andb]; split; assumption.
Qed.
Lemma qrd_false pwl : ~ (forall M fa fo A junk, (2 <= M)%nat -> fF fa = 16%Z -> fF fo = 16%Z -> fS fa = true -> fS fo = true -> (16 <= fI fa)%Z -> (16 <= fI fo)%Z ->
  (forall i j, (i < M)%nat -> (j < M)%nat -> Rabs (fxval (A i j) (fF fa)) <= 1) ->
  exists Q U, qrd pwl M fa fo A junk = Some (Q, U) /\
    forall i j, (i < M)%nat -> (j < M)%nat -> Rabs (mulR M (fun i j => fxval (Q i j) (fF fo)) (fun i j => fxval (U i j) (fF fo)) i j - fxval (A i j) (fF fa)) < 1).
Proof.
  intros H. destruct (qrd_identity pwl) as (Q & U & E & V). destruct (H 3%nat (Fmt 32 16 true RND SAT) (Fmt 32 16 true RND SAT) id3 0%Z) as (Q' & U' & E' & B); try (cbn; lia); try reflexivity.
  - intros i j _ _. unfold id3. change (fF (Fmt 32 16 true RND SAT)) with 16%Z. destruct (Nat.eqb i j); [change 65536%Z with (2 ^ 16)%Z; rewrite fxval_one, Rabs_R1 by lia|rewrite fxval_0, Rabs_R0]; lra.
  - rewrite E in E'. injection E' as <- <-. specialize (B 1%nat 1%nat ltac:(lia) ltac:(lia)). change (fF (Fmt 32 16 true RND SAT)) with 16%Z in B.
    unfold mulR in B. rewrite (sumR_ext _ (fun _ => 0)) in B.
    + rewrite sumR_0 in B. change (id3 1%nat 1%nat) with (2 ^ 16)%Z in B. rewrite fxval_one in B by lia. replace (0 - 1) with (-(1)) in B by ring. rewrite Rabs_Ropp, Rabs_R1 in B. lra.
    + intros k Hk. destruct (V 1%nat k ltac:(lia) Hk) as [-> _]. cbn [Nat.eqb andb]. rewrite fxval_0. ring.
Qed.

(** A matrix for which the conditions hold. *)
Definition sym3 : mat := fun i j => (65536 * nth j (nth i [[4; 2; 1]; [2; 5; 3]; [1; 3; 6]] []) 0)%Z.
Lemma sym3_types pwl : qr_types pwl 3 (Fmt 32 16 true RND SAT) (Fmt 32 16 true RND SAT) 7 1.
Proof.
  constructor; try (cbn; lia); try discriminate; try lra.
  - change (fI (Fmt 32 16 true RND SAT) + _ - 1)%Z with 17%Z. rewrite bpow2_IZR by lia. change (-32)%Z with (- (32))%Z. rewrite eta_val. change (2 ^ 17)%Z with 131072%Z. lra.
  - change (fI (Fmt 32 16 true RND SAT) - 1)%Z with 15%Z. change (- fF (Fmt 32 16 true RND SAT))%Z with (- (16))%Z. rewrite bpow2_opp, !bpow2_IZR by lia. change (2 ^ 15)%Z with 32768%Z. change (2 ^ 16)%Z with 65536%Z. lra.
  - change (-14)%Z with (- (14))%Z. rewrite bpow2_opp, bpow2_IZR by lia. change (2 ^ 14)%Z with 16384%Z. lra.
  - unfold qr_rots, qr_eps, pwl_err. change (INR (3 * (3 - 1) / 2)) with (INR 3). change (-32)%Z with (- (32))%Z. rewrite eta_val. cbn [INR]. destruct pwl; lra.
Qed.
Lemma sym3_cols j : (j < 3)%nat -> sumR (fun i => fxval (sym3 i j) 16 * fxval (sym3 i j) 16) 3 <= 7 * 7.
Proof.
  intros Hj. assert (E : forall z, fxval (65536 * z) 16 = IZR z). { intros z. unfold fxval. rewrite mult_IZR, bpow2_opp, bpow2_IZR by lia. change (2 ^ 16)%Z with 65536%Z. lra. }
  unfold sym3. cbn [sumR]. rewrite !E. destruct j as [|[|[|j]]]; [| | |lia]; cbn [nth]; lra.
Qed.
Lemma sym3_pivots pwl : qr_pivots pwl 3 (Fmt 32 16 true RND SAT) sym3 0 1.
Proof. rewrite <- (fxval_one 32) by lia. apply pivots_check_ok. destruct pwl; vm_compute; reflexivity. Qed.

Lemma qrd_2x2 pwl fa fo A junk lam nu : qr_types pwl 2 fa fo lam nu ->
  (forall j, (j < 2)%nat -> sumR (fun i => fxval (A i j) (fF fa) * fxval (A i j) (fF fa)) 2 <= lam * lam) ->
  nu * nu <= sumR (fun i => fxval (A i 0%nat) (fF fa) * fxval (A i 0%nat) (fF fa)) 2 ->
  let u := bpow2 (- fF fo) in
  exists Q U, qrd pwl 2 fa fo A junk = Some (Q, U) /\
    qr_factors 2 (fun i j => fxval (A i j) (fF fa)) (fun i j => fxval (Q i j) (fF fo)) (fun i j => fxval (U i j) (fF fo))
      (6 * lam * qr_eps pwl lam nu + 2 * (u * (2 + 2 * lam + u))) (6 * qr_eps pwl lam nu + 2 * (u * (4 + u))) (9 * lam * eta + u) /\
    (18 * lam * eta < u -> fQ fo <> TRN -> U 1%nat 0%nat = 0%Z).
Proof.
  intros T HC HN u. destruct (qrd_final pwl 2 fa fo A junk lam nu T HC (qr_pivots_2 pwl fa fo A junk lam nu T HC HN)) as (Q & U & E & F & Z). exists Q, U.
  change (2 * (2 - 1) / 2)%nat with 1%nat in *. change (INR 1) with 1 in *. change (INR 2) with 2 in *. rewrite !Rmult_1_l, ?Rmult_1_r in *. split; [exact E|]. split; [exact F|]. intros H1 H2. apply Z; [exact H1|exact H2|lia].
Qed.
