(** The model of the complex ac_chol_d satisfies the Cholesky-Crout equations, whatever the uninitialised memory holds. *)
From Coq Require Import Lia ZifyBool ZifyNat.
From Verif Require Import AcTypes AcFacts Spec RtTypes SpecCplx DivModel SqrtModel PwlModel PwlFacts MatrixModel MatrixProofs MatCplxModel CholModel CholProofs CholCplxModel.

Lemma crd_ok M a i j : (i < M)%nat -> (j <= i)%nat -> carr_rd M a i j = a (ind_conv M i j).
Proof. intros Hi Hj. unfold carr_rd. destruct (ind_ok M i j Hi Hj) as [_ B]. replace ((0 <=? ind_conv M i j) && (ind_conv M i j <? ind_size M)) with true by lia. reflexivity. Qed.
Lemma cwr_ok M a i j v : (i < M)%nat -> (j <= i)%nat -> exists a', carr_wr M a i j v = Some a' /\
  carr_rd M a' i j = Some v /\ forall i' j', (i' < M)%nat -> (j' <= i')%nat -> (i', j') <> (i, j) -> carr_rd M a' i' j' = carr_rd M a i' j'.
Proof.
  intros Hi Hj. unfold carr_wr. destruct (ind_ok M i j Hi Hj) as [_ B]. replace ((0 <=? ind_conv M i j) && (ind_conv M i j <? ind_size M)) with true by lia.
  eexists. split; [reflexivity|]. split; [rewrite crd_ok by assumption; rewrite Z.eqb_refl; reflexivity|].
  intros i' j' Hi' Hj' Hne. rewrite !crd_ok by assumption. destruct (ind_conv M i' j' =? ind_conv M i j) eqn:E; [|reflexivity].
  apply Z.eqb_eq in E. destruct (ind_inj M i' j' i j Hi' Hj' Hi Hj E) as [-> ->]. contradiction.
Qed.

(** ** The sums *)
Definition gchain (fo fi : fmt) (p : nat -> Z) (j : nat) (a : Z) : Z := fold_left (fun s k => acc_sub fi s (p k) (2 * fF fo)) (seq 0 j) a.
Lemma gchain_S fo fi p j a : gchain fo fi p (S j) a = acc_sub fi (gchain fo fi p j a) (p j) (2 * fF fo).
Proof. unfold gchain. rewrite seq_S, fold_left_app. reflexivity. Qed.
Lemma gchain_ext fo fi p p' j a : (forall k, (k < j)%nat -> p k = p' k) -> gchain fo fi p j a = gchain fo fi p' j a.
Proof. induction j as [|j IH]; intros H; [reflexivity|]. rewrite !gchain_S. rewrite H by lia. rewrite IH; [reflexivity|]. intros; apply H; lia. Qed.

(** The products of rows i and j, and the row's squared magnitudes. *)
Definition pr (f : nat -> nat -> gi) (i j k : nat) : Z := fst (f i k) * fst (f j k) + snd (f i k) * snd (f j k).
Definition pi (f : nat -> nat -> gi) (i j k : nat) : Z := snd (f i k) * fst (f j k) - fst (f i k) * snd (f j k).

Lemma pivot_ok M fo fi L (f : nat -> nat -> gi) j a : (forall k, (k < j)%nat -> carr_rd M L j k = Some (f j k)) ->
  cchol_pivot M fo fi L j a = Some (gchain fo fi (pr f j j) j a).
Proof.
  intros H. unfold cchol_pivot, gchain. assert (G : forall l a, (forall k, In k l -> carr_rd M L j k = Some (f j k)) ->
    fold_left (fun o k => obind o (fun s => obind (carr_rd M L j k) (fun x => Some (acc_sub fi s (c_mag_sqr x) (2 * fF fo))))) l (Some a) =
    Some (fold_left (fun s k => acc_sub fi s (pr f j j k) (2 * fF fo)) l a)).
  { induction l as [|k l IH]; intros b Hl; [reflexivity|]. cbn [fold_left obind]. rewrite (Hl k ltac:(left; reflexivity)). cbn [obind]. apply IH. intros k' Hk'. apply Hl. right. exact Hk'. }
  apply G. intros k Hk. apply in_seq in Hk. apply H. lia.
Qed.
Lemma cinner_ok M fo fi L (f : nat -> nat -> gi) i j a : (forall k, (k < j)%nat -> carr_rd M L i k = Some (f i k) /\ carr_rd M L j k = Some (f j k)) ->
  cchol_inner M fo fi L i j a = Some (gchain fo fi (pr f i j) j (fst a), gchain fo fi (pi f i j) j (snd a)).
Proof.
  intros H. unfold cchol_inner, gchain. assert (G : forall l a, (forall k, In k l -> carr_rd M L i k = Some (f i k) /\ carr_rd M L j k = Some (f j k)) ->
    fold_left (fun o k => obind o (fun s => obind (carr_rd M L i k) (fun x => obind (carr_rd M L j k) (fun y => Some (cacc_sub fi s (c_mul x (c_conj y)) (2 * fF fo)))))) l (Some a) =
    Some (fold_left (fun s k => acc_sub fi s (pr f i j k) (2 * fF fo)) l (fst a), fold_left (fun s k => acc_sub fi s (pi f i j k) (2 * fF fo)) l (snd a))).
  { induction l as [|k l IH]; intros b Hl; [destruct b; reflexivity|]. cbn [fold_left obind]. destruct (Hl k ltac:(left; reflexivity)) as [-> ->]. cbn [obind].
    rewrite IH by (intros k' Hk'; apply Hl; right; exact Hk'). unfold cacc_sub. cbn [fst snd].
    replace (fst (c_mul (f i k) (c_conj (f j k)))) with (pr f i j k) by (unfold pr, c_mul, c_conj; cbn [fst snd]; ring).
    replace (snd (c_mul (f i k) (c_conj (f j k)))) with (pi f i j k) by (unfold pi, c_mul, c_conj; cbn [fst snd]; ring). reflexivity. }
  apply G. intros k Hk. apply in_seq in Hk. apply H. lia.
Qed.

(** ** The columns *)
Section Cols.
Variables (pwl : bool) (M : nat) (fa fo fi : fmt) (A : nat -> nat -> gi) (junk : nat -> Z).
Hypotheses (Ho : 1 <= fW fo) (Hi : 1 <= fW fi).
Let ar i j := conv fi (fst (A i j)) (fF fa).
Let ai i j := conv fi (snd (A i j)) (fF fa).

(** The Cholesky-Crout equations of column k. *)
Definition ccrout (L : nat -> nat -> gi) (k : nat) : Prop :=
  exists d r, chol_root pwl fo fi (junk k) (gchain fo fi (pr L k k) k (ar k k)) = Some (d, r) /\
    L k k = (conv fo d (fF fo), 0) /\
    forall i, (k < i < M)%nat -> L i k = (conv fo (r * gchain fo fi (pr L i k) k (ar i k)) (2 * fF fi), conv fo (r * gchain fo fi (pi L i k) k (ai i k)) (2 * fF fi)).

Definition call_pos (L : nat -> nat -> gi) (j : nat) : bool := forallb (fun k => 0 <? gchain fo fi (pr L k k) k (ar k k)) (seq 0 j).

Lemma pr_ext L L' i j k : L i k = L' i k -> L j k = L' j k -> pr L i j k = pr L' i j k.
Proof. unfold pr. intros -> ->. reflexivity. Qed.
Lemma pi_ext L L' i j k : L i k = L' i k -> L j k = L' j k -> pi L i j k = pi L' i j k.
Proof. unfold pi. intros -> ->. reflexivity. Qed.

Lemma ccrout_ext L L' k : (k < M)%nat -> (forall i c, (c <= k)%nat -> (c <= i < M)%nat -> L i c = L' i c) -> ccrout L k -> ccrout L' k.
Proof.
  intros Hk E (d & r & R & D & O). exists d, r.
  assert (C : forall i a, (k <= i < M)%nat -> gchain fo fi (pr L i k) k a = gchain fo fi (pr L' i k) k a) by (intros i a Hik; apply gchain_ext; intros c Hc; apply pr_ext; apply E; lia).
  assert (C' : forall i a, (k <= i < M)%nat -> gchain fo fi (pi L i k) k a = gchain fo fi (pi L' i k) k a) by (intros i a Hik; apply gchain_ext; intros c Hc; apply pi_ext; apply E; lia).
  split; [rewrite <- C by lia; exact R|]. split; [rewrite <- E by lia; exact D|]. intros i Hik. rewrite <- C, <- C', <- E by lia. apply O, Hik.
Qed.

Lemma ccol_rows j r (f : nat -> nat -> gi) : (j < M)%nat -> forall n L, (n <= M - S j)%nat ->
  (forall i k, (k < j)%nat -> (k <= i < M)%nat -> carr_rd M L i k = Some (f i k)) -> exists L',
  fold_left (fun o i => obind o (fun L => obind (cchol_inner M fo fi L i j (c_conv fi (A i j) (fF fa))) (fun s => carr_wr M L i j (conv fo (r * fst s) (2 * fF fi), conv fo (r * snd s) (2 * fF fi)))))
    (rev (seq (S j) n)) (Some L) = Some L' /\
  (forall i k, (k < j)%nat -> (k <= i < M)%nat -> carr_rd M L' i k = Some (f i k)) /\
  carr_rd M L' j j = carr_rd M L j j /\
  (forall i, (j < i <= j + n)%nat -> carr_rd M L' i j = Some (conv fo (r * gchain fo fi (pr f i j) j (ar i j)) (2 * fF fi), conv fo (r * gchain fo fi (pi f i j) j (ai i j)) (2 * fF fi))) /\
  (forall i, (j + n < i < M)%nat -> carr_rd M L' i j = carr_rd M L i j).
Proof.
  intros Hj. induction n as [|n IH]; intros L Hn HL.
  - exists L. cbn. split; [reflexivity|]. split; [exact HL|]. split; [reflexivity|]. split; [lia|reflexivity].
  - rewrite seq_S, rev_app_distr. cbn [rev app fold_left obind]. set (i := (S j + n)%nat).
    rewrite (cinner_ok M fo fi L f i j); [|intros k Hk; split; apply HL; lia]. cbn [obind fst snd c_conv]. fold (ar i j) (ai i j).
    destruct (cwr_ok M L i j (conv fo (r * gchain fo fi (pr f i j) j (ar i j)) (2 * fF fi), conv fo (r * gchain fo fi (pi f i j) j (ai i j)) (2 * fF fi)) ltac:(lia) ltac:(lia)) as (L1 & -> & W1 & W2).
    destruct (IH L1 ltac:(lia)) as (L' & E & P1 & P2 & P3 & P4).
    { intros i' k Hk Hik. rewrite W2 by (try lia; intros [=]; lia). apply HL; assumption. }
    exists L'. split; [exact E|]. split; [exact P1|]. split; [rewrite P2; apply W2; try lia; intros [=]; lia|]. split.
    + intros i' Hi'. destruct (Nat.eq_dec i' i) as [->|Hne]; [rewrite P4 by lia; exact W1|apply P3; lia].
    + intros i' Hi'. rewrite P4 by lia. apply W2; try lia. intros [=]; lia.
Qed.

Lemma ccols_ok j : (j <= M)%nat -> exists L ok f, fold_left (cchol_col pwl M fa fo fi A junk) (seq 0 j) (Some (fun _ => None, true)) = Some (L, ok) /\
  (forall i k, (k < j)%nat -> (k <= i < M)%nat -> carr_rd M L i k = Some (f i k)) /\ (forall k, (k < j)%nat -> ccrout f k) /\ ok = call_pos f j.
Proof.
  induction j as [|j IH]; intros Hj.
  - exists (fun _ => None), true, (fun _ _ => (0, 0)). split; [reflexivity|]. split; [lia|]. split; [lia|reflexivity].
  - destruct (IH ltac:(lia)) as (L & ok & f & E & HL & HC & Hok). rewrite seq_S, fold_left_app, E. cbn [fold_left]. unfold cchol_col at 1. cbn [obind].
    change (0 + j)%nat with j. fold (ar j j). rewrite (pivot_ok M fo fi L f j (ar j j)); [|intros k Hk; apply HL; lia]. cbn [obind].
    set (p := gchain fo fi (pr f j j) j (ar j j)). destruct (root_total pwl fo fi (junk j) p Ho Hi) as (d & r & ER). rewrite ER. cbn [obind]. rewrite conv_zero by exact Ho.
    destruct (cwr_ok M L j j (conv fo d (fF fo), 0) ltac:(lia) ltac:(lia)) as (L1 & -> & W1 & W2). cbn [obind].
    destruct (ccol_rows j r f ltac:(lia) (M - S j) L1 ltac:(lia)) as (L2 & E2 & P1 & P2 & P3 & P4).
    { intros i k Hk Hik. rewrite W2 by (try lia; intros [=]; lia). apply HL; assumption. }
    rewrite E2. cbn [obind].
    set (f' := fun i k => if Nat.eqb k j then (if Nat.eqb i j then (conv fo d (fF fo), 0) else (conv fo (r * gchain fo fi (pr f i j) j (ar i j)) (2 * fF fi), conv fo (r * gchain fo fi (pi f i j) j (ai i j)) (2 * fF fi))) else f i k).
    assert (Fe : forall i k, (k < j)%nat -> f' i k = f i k) by (intros i k Hk; unfold f'; replace (Nat.eqb k j) with false by lia; reflexivity).
    assert (Ce : forall i k a, (k <= j)%nat -> gchain fo fi (pr f' i k) k a = gchain fo fi (pr f i k) k a) by (intros i k a Hk; apply gchain_ext; intros c Hc; apply pr_ext; apply Fe; lia).
    assert (Ci : forall i k a, (k <= j)%nat -> gchain fo fi (pi f' i k) k a = gchain fo fi (pi f i k) k a) by (intros i k a Hk; apply gchain_ext; intros c Hc; apply pi_ext; apply Fe; lia).
    exists L2, (ok && (0 <? p)), f'. split; [reflexivity|]. split; [|split].
    + intros i k Hk Hik. destruct (Nat.eq_dec k j) as [->|Hne]; [|rewrite Fe by lia; apply P1; lia].
      unfold f'. rewrite Nat.eqb_refl. destruct (Nat.eqb i j) eqn:Eij; [apply Nat.eqb_eq in Eij; subst i; rewrite P2; exact W1|apply Nat.eqb_neq in Eij; apply P3; lia].
    + intros k Hk. destruct (Nat.eq_dec k j) as [->|Hne].
      * exists d, r. rewrite Ce by lia. split; [exact ER|]. split; [unfold f'; rewrite !Nat.eqb_refl; reflexivity|]. intros i Hik. rewrite Ce, Ci by lia. unfold f'. rewrite Nat.eqb_refl. replace (Nat.eqb i j) with false by lia. reflexivity.
      * apply (ccrout_ext f f' k); [lia| |apply HC; lia]. intros i c Hc Hic. symmetry. apply Fe. lia.
    + unfold call_pos in *. rewrite seq_S, forallb_app. cbn [forallb]. rewrite andb_true_r. change (0 + j)%nat with j. rewrite Ce by lia. fold p. f_equal. rewrite Hok.
      apply forallb_ext_in'. intros k Hk. apply in_seq in Hk. rewrite Ce by lia. reflexivity.
Qed.
End Cols.

(** ** The result *)
Lemma cchol_d_eq pwl M fa fo fi A junk : 1 <= fW fo -> 1 <= fW fi -> exists out L, cchol_d pwl M fa fo fi A junk = Some out /\
  (forall k, (k < M)%nat -> ccrout pwl M fa fo fi A junk L k) /\
  (forall i j, (i < M)%nat -> (j < M)%nat -> out i j = Some (if Nat.ltb i j || negb (call_pos fa fo fi A L M) then (0, 0) else L i j)).
Proof.
  intros Ho Hi. destruct (ccols_ok pwl M fa fo fi A junk Ho Hi M ltac:(lia)) as (L & ok & f & E & HL & HC & ->). unfold cchol_d. rewrite E. cbn [obind].
  eexists. exists f. split; [reflexivity|]. split; [exact HC|]. intros i j Hi' Hj'. cbv beta. destruct (Nat.ltb i j || negb (call_pos fa fo fi A f M)) eqn:B; [reflexivity|]. apply HL; lia.
Qed.

Lemma call_pos_k M fa fo fi A L : call_pos fa fo fi A L M = true -> forall k, (k < M)%nat -> 0 < gchain fo fi (pr L k k) k (conv fi (fst (A k k)) (fF fa)).
Proof. intros H k Hk. unfold call_pos in H. rewrite forallb_forall in H. specialize (H k ltac:(apply in_seq; lia)). lia. Qed.
