(** The ac_float overload of ac_chol_d: the equations that its result satisfies. *)
From Coq Require Import Lia.
From Verif Require Import AcTypes AcFacts RtTypes MatrixModel CholModel CholProofs CholFloatModel.

Section Arith.
Context {Tin To Ti : Type}.
Variables (ar : flt_arith Tin To Ti) (M : nat) (A : nat -> nat -> Tin).

Lemma frd_ok (a : Z -> option To) i j : (i < M)%nat -> (j <= i)%nat -> farr_rd M a i j = a (ind_conv M i j).
Proof. intros Hi Hj. unfold farr_rd. destruct (ind_ok M i j Hi Hj) as [_ B]. replace ((0 <=? ind_conv M i j) && (ind_conv M i j <? ind_size M)) with true by lia. reflexivity. Qed.
Lemma fwr_ok (a : Z -> option To) i j v : (i < M)%nat -> (j <= i)%nat -> exists a', farr_wr M a i j v = Some a' /\
  farr_rd M a' i j = Some v /\ forall i' j', (i' < M)%nat -> (j' <= i')%nat -> (i', j') <> (i, j) -> farr_rd M a' i' j' = farr_rd M a i' j'.
Proof.
  intros Hi Hj. unfold farr_wr. destruct (ind_ok M i j Hi Hj) as [_ B]. replace ((0 <=? ind_conv M i j) && (ind_conv M i j <? ind_size M)) with true by lia.
  eexists. split; [reflexivity|]. split; [rewrite frd_ok by assumption; rewrite Z.eqb_refl; reflexivity|].
  intros i' j' Hi' Hj' Hne. rewrite !frd_ok by assumption. destruct (ind_conv M i' j' =? ind_conv M i j) eqn:E; [|reflexivity].
  apply Z.eqb_eq in E. destruct (ind_inj M i' j' i j Hi' Hj' Hi Hj E) as [-> ->]. contradiction.
Qed.

(** The sums after j subtractions. *)
Definition fchain (x y : nat -> To) (j : nat) (a : Ti) : Ti := fold_left (fun s k => fa_sub ar s (x k) (y k)) (seq 0 j) a.
Lemma fchain_S x y j a : fchain x y (S j) a = fa_sub ar (fchain x y j a) (x j) (y j).
Proof. unfold fchain. rewrite seq_S, fold_left_app. reflexivity. Qed.
Lemma fchain_ext x y x' y' j a : (forall k, (k < j)%nat -> x k = x' k /\ y k = y' k) -> fchain x y j a = fchain x' y' j a.
Proof.
  induction j as [|j IH]; intros H; [reflexivity|]. rewrite !fchain_S. destruct (H j ltac:(lia)) as [-> ->]. rewrite IH; [reflexivity|]. intros k Hk. apply H. lia.
Qed.
Lemma finner_ok L (f : nat -> nat -> To) i j a : (j <= M)%nat -> (forall k, (k < j)%nat -> farr_rd M L i k = Some (f i k) /\ farr_rd M L j k = Some (f j k)) ->
  chol_inner_f ar M L i j a = Some (fchain (f i) (f j) j a).
Proof.
  intros Hj H. unfold chol_inner_f, fchain. assert (G : forall l a, (forall k, In k l -> farr_rd M L i k = Some (f i k) /\ farr_rd M L j k = Some (f j k)) ->
    fold_left (fun o k => obind o (fun s => obind (farr_rd M L i k) (fun x => obind (farr_rd M L j k) (fun y => Some (fa_sub ar s x y))))) l (Some a) =
    Some (fold_left (fun s k => fa_sub ar s (f i k) (f j k)) l a)).
  { induction l as [|k l IH]; intros b Hl; [reflexivity|]. cbn [fold_left]. destruct (Hl k ltac:(left; reflexivity)) as [E1 E2]. cbn [obind]. rewrite E1, E2. cbn [obind]. apply IH. intros k' Hk'. apply Hl. right. exact Hk'. }
  apply G. intros k Hk. apply in_seq in Hk. apply H. lia.
Qed.

Let a0 i j := fa_in ar (A i j).
Definition fpiv (L : nat -> nat -> To) (k : nat) : Ti := fchain (L k) (L k) k (a0 k k).
(** The Cholesky-Crout equations of column k. *)
Definition fcrout (L : nat -> nat -> To) (k : nat) : Prop :=
  L k k = fa_root ar (fpiv L k) /\
  forall i, (k < i < M)%nat -> L i k = fa_mul ar (fa_recip ar (fpiv L k) (L k k)) (fchain (L i) (L k) k (a0 i k)).
Definition fall_pos (L : nat -> nat -> To) (j : nat) : bool := forallb (fun k => fa_pos ar (fpiv L k)) (seq 0 j).

Lemma fcrout_ext L L' k : (k < M)%nat -> (forall i c, (c <= k)%nat -> (c <= i < M)%nat -> L i c = L' i c) -> fcrout L k -> fcrout L' k.
Proof.
  intros Hk E (D & O). assert (C : forall i, (k <= i < M)%nat -> fchain (L i) (L k) k (a0 i k) = fchain (L' i) (L' k) k (a0 i k)).
  { intros i Hik. apply fchain_ext. intros c Hc. split; apply E; lia. }
  unfold fcrout, fpiv in *. split; [rewrite <- C, <- E by lia; exact D|]. intros i Hik. rewrite <- !C, <- !E by lia. apply O, Hik.
Qed.

Lemma fcol_rows j r (f : nat -> nat -> To) : (j < M)%nat -> forall n L, (n <= M - S j)%nat ->
  (forall i k, (k < j)%nat -> (k <= i < M)%nat -> farr_rd M L i k = Some (f i k)) -> exists L',
  fold_left (fun o i => obind o (fun L => obind (chol_inner_f ar M L i j (a0 i j)) (fun s => farr_wr M L i j (fa_mul ar r s))))
    (rev (seq (S j) n)) (Some L) = Some L' /\
  (forall i k, (k < j)%nat -> (k <= i < M)%nat -> farr_rd M L' i k = Some (f i k)) /\
  farr_rd M L' j j = farr_rd M L j j /\
  (forall i, (j < i <= j + n)%nat -> farr_rd M L' i j = Some (fa_mul ar r (fchain (f i) (f j) j (a0 i j)))) /\
  (forall i, (j + n < i < M)%nat -> farr_rd M L' i j = farr_rd M L i j).
Proof.
  intros Hj. induction n as [|n IH]; intros L Hn HL.
  - exists L. cbn. split; [reflexivity|]. split; [exact HL|]. split; [reflexivity|]. split; [lia|reflexivity].
  - rewrite seq_S, rev_app_distr. cbn [rev app fold_left obind]. set (i := (S j + n)%nat).
    rewrite (finner_ok L f i j (a0 i j) ltac:(lia)); [|intros k Hk; split; apply HL; lia]. cbn [obind].
    destruct (fwr_ok L i j (fa_mul ar r (fchain (f i) (f j) j (a0 i j))) ltac:(lia) ltac:(lia)) as (L1 & -> & W1 & W2).
    destruct (IH L1 ltac:(lia)) as (L' & E & P1 & P2 & P3 & P4).
    { intros i' k Hk Hik. rewrite W2 by (try lia; intros [=]; lia). apply HL; assumption. }
    exists L'. split; [exact E|]. split; [exact P1|]. split; [rewrite P2; apply W2; try lia; intros [=]; lia|]. split.
    + intros i' Hi'. destruct (Nat.eq_dec i' i) as [->|Hne]; [rewrite P4 by lia; exact W1|apply P3; lia].
    + intros i' Hi'. rewrite P4 by lia. apply W2; try lia. intros [=]; lia.
Qed.

Lemma fcols_ok j : (j <= M)%nat -> exists L ok f, fold_left (chol_col_f ar M A) (seq 0 j) (Some (fun _ => None, true)) = Some (L, ok) /\
  (forall i k, (k < j)%nat -> (k <= i < M)%nat -> farr_rd M L i k = Some (f i k)) /\ (forall k, (k < j)%nat -> fcrout f k) /\ ok = fall_pos f j.
Proof.
  induction j as [|j IH]; intros Hj.
  - exists (fun _ => None), true, (fun _ _ => fa_zero ar). split; [reflexivity|]. split; [lia|]. split; [lia|reflexivity].
  - destruct (IH ltac:(lia)) as (L & ok & f & E & HL & HC & Hok). rewrite seq_S, fold_left_app, E. cbn [fold_left]. unfold chol_col_f at 1. cbn [obind].
    change (0 + j)%nat with j. fold (a0 j j). rewrite (finner_ok L f j j (a0 j j) ltac:(lia)); [|intros k Hk; split; apply HL; lia]. cbn [obind].
    set (p := fchain (f j) (f j) j (a0 j j)). cbv zeta. set (d := fa_root ar p). set (r := fa_recip ar p d).
    destruct (fwr_ok L j j d ltac:(lia) ltac:(lia)) as (L1 & -> & W1 & W2). cbn [obind].
    destruct (fcol_rows j r f ltac:(lia) (M - S j) L1 ltac:(lia)) as (L2 & E2 & P1 & P2 & P3 & P4).
    { intros i k Hk Hik. rewrite W2 by (try lia; intros [=]; lia). apply HL; assumption. }
    unfold a0 in E2. rewrite E2. cbn [obind].
    set (f' := fun i k => if Nat.eqb k j then (if Nat.eqb i j then d else fa_mul ar r (fchain (f i) (f j) j (a0 i j))) else f i k).
    assert (Fe : forall i k, (k < j)%nat -> f' i k = f i k) by (intros i k Hk; unfold f'; replace (Nat.eqb k j) with false by lia; reflexivity).
    assert (Ce : forall i k, (k <= j)%nat -> fchain (f' i) (f' k) k (a0 i k) = fchain (f i) (f k) k (a0 i k)) by (intros i k Hk; apply fchain_ext; intros c Hc; split; apply Fe; lia).
    assert (Dj : f' j j = d) by (unfold f'; rewrite !Nat.eqb_refl; reflexivity).
    exists L2, (ok && fa_pos ar p), f'. split; [reflexivity|]. split; [|split].
    + intros i k Hk Hik. destruct (Nat.eq_dec k j) as [->|Hne]; [|rewrite Fe by lia; apply P1; lia].
      unfold f'. rewrite Nat.eqb_refl. destruct (Nat.eqb i j) eqn:Eij; [apply Nat.eqb_eq in Eij; subst i; rewrite P2; exact W1|apply Nat.eqb_neq in Eij; apply P3; lia].
    + intros k Hk. destruct (Nat.eq_dec k j) as [->|Hne].
      * unfold fcrout, fpiv. rewrite Dj, !Ce by lia. split; [reflexivity|]. intros i Hik. rewrite Ce by lia. unfold f'. rewrite Nat.eqb_refl. replace (Nat.eqb i j) with false by lia. reflexivity.
      * apply (fcrout_ext f f' k); [lia| |apply HC; lia]. intros i c Hc Hic. symmetry. apply Fe. lia.
    + unfold fall_pos, fpiv in *. rewrite seq_S, forallb_app. cbn [forallb]. rewrite andb_true_r. change (0 + j)%nat with j. rewrite Ce by lia. fold p. f_equal. rewrite Hok.
      apply forallb_ext_in'. intros k Hk. apply in_seq in Hk. rewrite Ce by lia. reflexivity.
Qed.

Theorem chol_flt_struct : exists out L (s : nat -> nat -> nat -> Ti), chol_flt ar M A = Some out /\
  (forall i j, (j <= i < M)%nat -> s i j O = fa_in ar (A i j) /\ forall k, (k < j)%nat -> s i j (S k) = fa_sub ar (s i j k) (L i k) (L j k)) /\
  (forall j, (j < M)%nat -> L j j = fa_root ar (s j j j)) /\
  (forall i j, (j < i < M)%nat -> L i j = fa_mul ar (fa_recip ar (s j j j) (L j j)) (s i j j)) /\
  (forall i j, (i < j < M)%nat -> out i j = Some (fa_zero ar)) /\
  ((forall j, (j < M)%nat -> fa_pos ar (s j j j) = true) -> forall i j, (j <= i < M)%nat -> out i j = Some (L i j)) /\
  (forall k, (k < M)%nat -> fa_pos ar (s k k k) = false -> forall i j, (i < M)%nat -> (j < M)%nat -> out i j = Some (fa_zero ar)).
Proof.
  destruct (fcols_ok M ltac:(lia)) as (L & ok & f & E & HL & HC & ->). unfold chol_flt. rewrite E. cbn [obind].
  eexists. exists f, (fun i j k => fchain (f i) (f j) k (a0 i j)). split; [reflexivity|]. split; [|split; [|split; [|split; [|split]]]].
  - intros i j _. split; [reflexivity|]. intros k _. apply fchain_S.
  - intros j Hj. apply (HC j Hj).
  - intros i j Hij. apply (HC j ltac:(lia)). lia.
  - intros i j Hij. cbv beta. replace (Nat.ltb i j) with true by lia. reflexivity.
  - intros H i j Hij. cbv beta. replace (Nat.ltb i j) with false by lia. replace (fall_pos f M) with true; [apply HL; lia|]. symmetry. apply forallb_forall. intros k Hk. apply in_seq in Hk. apply H. lia.
  - intros k Hk H i j Hi Hj. cbv beta. replace (fall_pos f M) with false; [rewrite orb_true_r; reflexivity|]. symmetry. apply Bool.not_true_iff_false. intros C. unfold fall_pos in C. rewrite forallb_forall in C. specialize (C k ltac:(apply in_seq; lia)). unfold fpiv in C. congruence.
Qed.
End Arith.
