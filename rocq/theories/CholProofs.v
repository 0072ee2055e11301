(** The Cholesky model satisfies the Cholesky-Crout equations, whatever the uninitialised memory holds. *)
From Coq Require Import Lia ZifyBool ZifyNat.
From Verif Require Import AcTypes AcFacts Spec RtTypes DivModel SqrtModel PwlModel PwlFacts PwlSqrt PwlReal MatrixModel CholModel.

(** ** The packed index *)
Lemma tri_even n : 0 <= n -> 2 * (n * (n + 1) / 2) = n * (n + 1).
Proof.
  intros Hn. pose proof (Z.div_mod (n * (n + 1)) 2 ltac:(lia)). assert ((n * (n + 1)) mod 2 = 0); [|lia].
  rewrite Z.mul_mod by lia. pose proof (Z.mod_pos_bound n 2 ltac:(lia)). rewrite (Z.add_mod n 1) by lia.
  assert (n mod 2 = 0 \/ n mod 2 = 1) as [-> | ->] by lia; reflexivity.
Qed.
Lemma nbits_lt v : 0 <= v -> v < 2 ^ nbits v.
Proof. intros H. unfold nbits. destruct (v <=? 0) eqn:E; [change (2 ^ 0) with 1; lia|]. pose proof (Z.log2_spec v ltac:(lia)). replace (Z.log2 v + 1) with (Z.succ (Z.log2 v)) by lia. lia. Qed.
Lemma ind_ok M i j : (i < M)%nat -> (j <= i)%nat -> let n := Z.of_nat i in
  ind_conv M i j = n * (n + 1) / 2 + Z.of_nat j /\ 0 <= ind_conv M i j < ind_size M.
Proof.
  intros Hi Hj n. unfold ind_conv. fold n. set (s := ind_size M). assert (E : Z.shiftr (n * (n + 1)) 1 = n * (n + 1) / 2) by (rewrite Z.shiftr_div_pow2 by lia; reflexivity).
  rewrite E. pose proof (tri_even n ltac:(lia)) as T. pose proof (tri_even (Z.of_nat M) ltac:(lia)) as T2. change (Z.of_nat M * (Z.of_nat M + 1) / 2) with s in T2.
  set (q := n * (n + 1) / 2) in *. assert (B : 0 <= q + Z.of_nat j < s) by nia.
  rewrite wrapu_id; [lia|]. pose proof (nbits_lt (s - 1) ltac:(lia)). lia.
Qed.
Lemma ind_inj M i j i' j' : (i < M)%nat -> (j <= i)%nat -> (i' < M)%nat -> (j' <= i')%nat -> ind_conv M i j = ind_conv M i' j' -> i = i' /\ j = j'.
Proof.
  intros Hi Hj Hi' Hj' E. destruct (ind_ok M i j Hi Hj) as [E1 _]. destruct (ind_ok M i' j' Hi' Hj') as [E2 _]. rewrite E1, E2 in E.
  pose proof (tri_even (Z.of_nat i) ltac:(lia)) as T1. pose proof (tri_even (Z.of_nat i') ltac:(lia)) as T2.
  set (q1 := Z.of_nat i * (Z.of_nat i + 1) / 2) in *. set (q2 := Z.of_nat i' * (Z.of_nat i' + 1) / 2) in *.
  assert (i = i') by (destruct (Nat.lt_trichotomy i i') as [H|[H|H]]; [exfalso; nia|exact H|exfalso; nia]). subst i'. split; [reflexivity|lia].
Qed.

Lemma rd_ok M a i j : (i < M)%nat -> (j <= i)%nat -> arr_rd M a i j = a (ind_conv M i j).
Proof. intros Hi Hj. unfold arr_rd. destruct (ind_ok M i j Hi Hj) as [_ B]. replace ((0 <=? ind_conv M i j) && (ind_conv M i j <? ind_size M)) with true by lia. reflexivity. Qed.
Lemma wr_ok M a i j v : (i < M)%nat -> (j <= i)%nat -> exists a', arr_wr M a i j v = Some a' /\
  arr_rd M a' i j = Some v /\ forall i' j', (i' < M)%nat -> (j' <= i')%nat -> (i', j') <> (i, j) -> arr_rd M a' i' j' = arr_rd M a i' j'.
Proof.
  intros Hi Hj. unfold arr_wr. destruct (ind_ok M i j Hi Hj) as [_ B]. replace ((0 <=? ind_conv M i j) && (ind_conv M i j <? ind_size M)) with true by lia.
  eexists. split; [reflexivity|]. split; [rewrite rd_ok by assumption; rewrite Z.eqb_refl; reflexivity|].
  intros i' j' Hi' Hj' Hne. rewrite !rd_ok by assumption. destruct (ind_conv M i' j' =? ind_conv M i j) eqn:E; [|reflexivity].
  apply Z.eqb_eq in E. destruct (ind_inj M i' j' i j Hi' Hj' Hi Hj E) as [-> ->]. contradiction.
Qed.

(** ** The sums *)
Definition chain (fo fi : fmt) (x y : nat -> Z) (j : nat) (a : Z) : Z :=
  fold_left (fun s k => acc_sub fi s (x k * y k) (2 * fF fo)) (seq 0 j) a.
Lemma chain_S fo fi x y j a : chain fo fi x y (S j) a = acc_sub fi (chain fo fi x y j a) (x j * y j) (2 * fF fo).
Proof. unfold chain. rewrite seq_S, fold_left_app. reflexivity. Qed.
Lemma chain_ext fo fi x y x' y' j a : (forall k, (k < j)%nat -> x k = x' k /\ y k = y' k) -> chain fo fi x y j a = chain fo fi x' y' j a.
Proof.
  induction j as [|j IH]; intros H; [reflexivity|]. rewrite !chain_S. destruct (H j ltac:(lia)) as [-> ->]. rewrite IH; [reflexivity|]. intros k Hk. apply H. lia.
Qed.
Lemma inner_ok M fo fi L (f : nat -> nat -> Z) i j a : (j <= M)%nat -> (forall k, (k < j)%nat -> arr_rd M L i k = Some (f i k) /\ arr_rd M L j k = Some (f j k)) ->
  chol_inner M fo fi L i j a = Some (chain fo fi (f i) (f j) j a).
Proof.
  intros Hj H. unfold chol_inner, chain. assert (G : forall l a, (forall k, In k l -> arr_rd M L i k = Some (f i k) /\ arr_rd M L j k = Some (f j k)) ->
    fold_left (fun o k => obind o (fun s => obind (arr_rd M L i k) (fun x => obind (arr_rd M L j k) (fun y => Some (acc_sub fi s (x * y) (2 * fF fo)))))) l (Some a) =
    Some (fold_left (fun s k => acc_sub fi s (f i k * f j k) (2 * fF fo)) l a)).
  { induction l as [|k l IH]; intros b Hl; [reflexivity|]. cbn [fold_left]. destruct (Hl k ltac:(left; reflexivity)) as [E1 E2]. cbn [obind]. rewrite E1, E2. cbn [obind]. apply IH. intros k' Hk'. apply Hl. right. exact Hk'. }
  apply G. intros k Hk. apply in_seq in Hk. apply H. lia.
Qed.

(** ** The roots are always defined *)
Lemma conv_range_u f x F : 1 <= fW f -> 0 <= conv (unsig f) x F < 2 ^ fW f.
Proof. intros H. pose proof (conv_range (unsig f) x F H) as R. unfold in_range, imin, imax, unsig in R. cbn [fS fW] in R. unfold unsig. lia. Qed.
Lemma root_total pwl fo fi junk p : 1 <= fW fo -> 1 <= fW fi -> exists d r, chol_root pwl fo fi junk p = Some (d, r).
Proof.
  intros Ho Hi. unfold chol_root. destruct pwl; [|eexists; eexists; reflexivity]. pose proof (conv_range_u fi p (fF fi) Hi) as B. set (pu := conv (unsig fi) p (fF fi)) in *.
  destruct (Z.eq_dec pu 0) as [->|Hne].
  - rewrite sqrt_zero. rewrite isqrt_zero. eexists. eexists. reflexivity.
  - destruct (sqrt_real TRN (fW fi) (fI fi) (fO fi) (unsig fo) true pu Hi Ho eq_refl ltac:(lia) ltac:(left; reflexivity)) as (d & _ & -> & _).
    destruct (isqrt_real TRN (fW fi) (fI fi) (fO fi) (unsig fi) true pu Hi Hi eq_refl ltac:(lia) ltac:(left; reflexivity)) as (r & _ & -> & _). eexists. eexists. reflexivity.
Qed.

Lemma forallb_ext_in' {T} (f g : T -> bool) l : (forall a, In a l -> f a = g a) -> forallb f l = forallb g l.
Proof. induction l as [|a l IH]; intros H; [reflexivity|]. cbn. rewrite (H a) by (left; reflexivity). f_equal. apply IH. intros b Hb. apply H. right. exact Hb. Qed.

(** ** The columns *)
Section Cols.
Variables (pwl : bool) (M : nat) (fa fo fi : fmt) (A : mat) (junk : nat -> Z).
Hypotheses (Ho : 1 <= fW fo) (Hi : 1 <= fW fi).
Let a0 i j := conv fi (A i j) (fF fa).

(** The Cholesky-Crout equations of column k. *)
Definition crout (L : nat -> nat -> Z) (k : nat) : Prop :=
  exists d r, chol_root pwl fo fi (junk k) (chain fo fi (L k) (L k) k (a0 k k)) = Some (d, r) /\
    L k k = conv fo d (fF fo) /\
    forall i, (k < i < M)%nat -> L i k = conv fo (r * chain fo fi (L i) (L k) k (a0 i k)) (2 * fF fi).

Definition all_pos (L : nat -> nat -> Z) (j : nat) : bool := forallb (fun k => 0 <? chain fo fi (L k) (L k) k (a0 k k)) (seq 0 j).

Lemma crout_ext L L' k : (k < M)%nat -> (forall i c, (c <= k)%nat -> (c <= i < M)%nat -> L i c = L' i c) -> crout L k -> crout L' k.
Proof.
  intros Hk E (d & r & R & D & O). exists d, r. assert (C : forall i, (k <= i < M)%nat -> chain fo fi (L i) (L k) k (a0 i k) = chain fo fi (L' i) (L' k) k (a0 i k)).
  { intros i Hik. apply chain_ext. intros c Hc. split; apply E; lia. }
  split; [rewrite <- C by lia; exact R|]. split; [rewrite <- E by lia; exact D|]. intros i Hik. rewrite <- C, <- E by lia. apply O, Hik.
Qed.

Lemma col_rows j r (f : nat -> nat -> Z) : (j < M)%nat -> forall n L, (n <= M - S j)%nat ->
  (forall i k, (k < j)%nat -> (k <= i < M)%nat -> arr_rd M L i k = Some (f i k)) -> exists L',
  fold_left (fun o i => obind o (fun L => obind (chol_inner M fo fi L i j (a0 i j)) (fun s => arr_wr M L i j (conv fo (r * s) (2 * fF fi)))))
    (rev (seq (S j) n)) (Some L) = Some L' /\
  (forall i k, (k < j)%nat -> (k <= i < M)%nat -> arr_rd M L' i k = Some (f i k)) /\
  arr_rd M L' j j = arr_rd M L j j /\
  (forall i, (j < i <= j + n)%nat -> arr_rd M L' i j = Some (conv fo (r * chain fo fi (f i) (f j) j (a0 i j)) (2 * fF fi))) /\
  (forall i, (j + n < i < M)%nat -> arr_rd M L' i j = arr_rd M L i j).
Proof.
  intros Hj. induction n as [|n IH]; intros L Hn HL.
  - exists L. cbn. split; [reflexivity|]. split; [exact HL|]. split; [reflexivity|]. split; [lia|reflexivity].
  - rewrite seq_S, rev_app_distr. cbn [rev app fold_left obind]. set (i := (S j + n)%nat).
    rewrite (inner_ok M fo fi L f i j (a0 i j) ltac:(lia)); [|intros k Hk; split; apply HL; lia]. cbn [obind].
    destruct (wr_ok M L i j (conv fo (r * chain fo fi (f i) (f j) j (a0 i j)) (2 * fF fi)) ltac:(lia) ltac:(lia)) as (L1 & -> & W1 & W2).
    destruct (IH L1 ltac:(lia)) as (L' & E & P1 & P2 & P3 & P4).
    { intros i' k Hk Hik. rewrite W2 by (try lia; intros [=]; lia). apply HL; assumption. }
    exists L'. split; [exact E|]. split; [exact P1|]. split; [rewrite P2; apply W2; try lia; intros [=]; lia|]. split.
    + intros i' Hi'. destruct (Nat.eq_dec i' i) as [->|Hne]; [rewrite P4 by lia; exact W1|apply P3; lia].
    + intros i' Hi'. rewrite P4 by lia. apply W2; try lia. intros [=]; lia.
Qed.

Lemma cols_ok j : (j <= M)%nat -> exists L ok f, fold_left (chol_col pwl M fa fo fi A junk) (seq 0 j) (Some (fun _ => None, true)) = Some (L, ok) /\
  (forall i k, (k < j)%nat -> (k <= i < M)%nat -> arr_rd M L i k = Some (f i k)) /\ (forall k, (k < j)%nat -> crout f k) /\ ok = all_pos f j.
Proof.
  induction j as [|j IH]; intros Hj.
  - exists (fun _ => None), true, (fun _ _ => 0). split; [reflexivity|]. split; [lia|]. split; [lia|reflexivity].
  - destruct (IH ltac:(lia)) as (L & ok & f & E & HL & HC & Hok). rewrite seq_S, fold_left_app, E. cbn [fold_left]. unfold chol_col at 1. cbn [obind].
    change (0 + j)%nat with j. fold (a0 j j). rewrite (inner_ok M fo fi L f j j (a0 j j) ltac:(lia)); [|intros k Hk; split; apply HL; lia]. cbn [obind].
    set (p := chain fo fi (f j) (f j) j (a0 j j)). destruct (root_total pwl fo fi (junk j) p Ho Hi) as (d & r & ER). rewrite ER. cbn [obind].
    destruct (wr_ok M L j j (conv fo d (fF fo)) ltac:(lia) ltac:(lia)) as (L1 & -> & W1 & W2). cbn [obind].
    destruct (col_rows j r f ltac:(lia) (M - S j) L1 ltac:(lia)) as (L2 & E2 & P1 & P2 & P3 & P4).
    { intros i k Hk Hik. rewrite W2 by (try lia; intros [=]; lia). apply HL; assumption. }
    unfold a0 in E2. rewrite E2. cbn [obind].
    set (f' := fun i k => if Nat.eqb k j then (if Nat.eqb i j then conv fo d (fF fo) else conv fo (r * chain fo fi (f i) (f j) j (a0 i j)) (2 * fF fi)) else f i k).
    assert (Fe : forall i k, (k < j)%nat -> f' i k = f i k) by (intros i k Hk; unfold f'; replace (Nat.eqb k j) with false by lia; reflexivity).
    assert (Ce : forall i k, (k <= j)%nat -> chain fo fi (f' i) (f' k) k (a0 i k) = chain fo fi (f i) (f k) k (a0 i k)) by (intros i k Hk; apply chain_ext; intros c Hc; split; apply Fe; lia).
    exists L2, (ok && (0 <? p)), f'. split; [reflexivity|]. split; [|split].
    + intros i k Hk Hik. destruct (Nat.eq_dec k j) as [->|Hne]; [|rewrite Fe by lia; apply P1; lia].
      unfold f'. rewrite Nat.eqb_refl. destruct (Nat.eqb i j) eqn:Eij; [apply Nat.eqb_eq in Eij; subst i; rewrite P2; exact W1|apply Nat.eqb_neq in Eij; apply P3; lia].
    + intros k Hk. destruct (Nat.eq_dec k j) as [->|Hne].
      * exists d, r. rewrite Ce by lia. split; [exact ER|]. split; [unfold f'; rewrite !Nat.eqb_refl; reflexivity|]. intros i Hik. rewrite Ce by lia. unfold f'. rewrite Nat.eqb_refl. replace (Nat.eqb i j) with false by lia. reflexivity.
      * apply (crout_ext f f' k); [lia| |apply HC; lia]. intros i c Hc Hic. symmetry. apply Fe. lia.
    + unfold all_pos in *. rewrite seq_S, forallb_app. cbn [forallb]. rewrite andb_true_r. change (0 + j)%nat with j. rewrite Ce by lia. fold p. f_equal. rewrite Hok.
      apply forallb_ext_in'. intros k Hk. apply in_seq in Hk. rewrite Ce by lia. reflexivity.
Qed.
End Cols.

(** ** The result *)
Lemma chol_d_eq pwl M fa fo fi A junk : 1 <= fW fo -> 1 <= fW fi -> exists out L, chol_d pwl M fa fo fi A junk = Some out /\
  (forall k, (k < M)%nat -> crout pwl M fa fo fi A junk L k) /\
  (forall i j, (i < M)%nat -> (j < M)%nat -> out i j = Some (if Nat.ltb i j || negb (all_pos fa fo fi A L M) then 0 else L i j)).
Proof.
  intros Ho Hi. destruct (cols_ok pwl M fa fo fi A junk Ho Hi M ltac:(lia)) as (L & ok & f & E & HL & HC & ->). unfold chol_d. rewrite E. cbn [obind].
  eexists. exists f. split; [reflexivity|]. split; [exact HC|]. intros i j Hi' Hj'. cbv beta. destruct (Nat.ltb i j || negb (all_pos fa fo fi A f M)) eqn:B; [reflexivity|]. apply HL; lia.
Qed.
