(** Leibniz' formula expands along the first row. *)
From Coq Require Import Lia ZifyBool Permutation.
From Verif Require Import AcTypes SpecMat MatrixModel DetModel.

Definition sgn (p : list nat) : Z := if Nat.even (inversions p) then 1 else -1.
(** Column number q of the matrix without column j. *)
Definition skip (j q : nat) : nat := if Nat.ltb q j then q else S q.

Lemma minor_skip j A p q : det_minor j A p q = A (S p) (skip j q).
Proof.
  unfold det_minor, skip. f_equal. destruct (Nat.ltb_spec q j); [replace (Nat.leb (S q) j) with true by lia|replace (Nat.leb (S q) j) with false by lia]; lia.
Qed.

Lemma selects_map {A B} (f : A -> B) l : selects (map f l) = map (fun xr => (f (fst xr), map f (snd xr))) (selects l).
Proof.
  induction l as [|x l IH]; [reflexivity|]. cbn [selects map]. f_equal. rewrite IH, !map_map. apply map_ext. intros [y r]. reflexivity.
Qed.
Lemma flat_map_map {A B C} (f : B -> list C) (g : A -> B) l : flat_map f (map g l) = flat_map (fun x => f (g x)) l.
Proof. induction l as [|x l IH]; [reflexivity|]. cbn. rewrite IH. reflexivity. Qed.
Lemma map_flat_map {A B C} (f : B -> C) (g : A -> list B) l : map f (flat_map g l) = flat_map (fun x => map f (g x)) l.
Proof. induction l as [|x l IH]; [reflexivity|]. cbn. rewrite map_app, IH. reflexivity. Qed.
Lemma flat_map_ext {A B} (f g : A -> list B) l : (forall x, f x = g x) -> flat_map f l = flat_map g l.
Proof. intros H. induction l as [|x l IH]; [reflexivity|]. cbn. rewrite H, IH. reflexivity. Qed.
Lemma perms_map {A B} (f : A -> B) n : forall l, perms n (map f l) = map (map f) (perms n l).
Proof.
  induction n as [|n IH]; intros l; [reflexivity|]. cbn [perms]. rewrite selects_map, flat_map_map, map_flat_map.
  apply flat_map_ext. intros [x r]. cbn [fst snd]. rewrite IH, !map_map. apply map_ext. reflexivity.
Qed.

(** The list of permutations is the list of permutations. *)
Lemma selects_perm {A} (l : list A) x r : In (x, r) (selects l) -> Permutation (x :: r) l.
Proof.
  revert x r. induction l as [|y l IH]; intros x r H; [contradiction|]. cbn [selects] in H. destruct H as [E|H].
  - injection E as -> ->. reflexivity.
  - apply in_map_iff in H. destruct H as ([z s] & E & H). cbn [fst snd] in E. injection E as -> <-. apply IH in H.
    rewrite perm_swap. constructor. exact H.
Qed.
Lemma selects_in {A} (l : list A) x : In x l -> exists r, In (x, r) (selects l).
Proof.
  induction l as [|y l IH]; intros H; [contradiction|]. cbn [selects]. destruct H as [->|H]; [eexists; left; reflexivity|].
  destruct (IH H) as [r Hr]. exists (y :: r). right. apply in_map_iff. exists (x, r). split; [reflexivity|exact Hr].
Qed.
Lemma perms_perm {A} n : forall (l p : list A), length l = n -> In p (perms n l) <-> Permutation p l.
Proof.
  induction n as [|n IH]; intros l p L.
  - destruct l; [|discriminate]. cbn. split; [intros [<-|[]]; constructor|]. intros H. apply Permutation_sym, Permutation_nil in H. left. congruence.
  - cbn [perms]. rewrite in_flat_map. split.
    + intros ([x r] & H & Hp). cbn [fst snd] in Hp. apply in_map_iff in Hp. destruct Hp as (q & <- & Hq).
      apply selects_perm in H. assert (Lr : length r = n) by (apply Permutation_length in H; cbn in H; lia).
      apply (IH r q Lr) in Hq. rewrite Hq. exact H.
    + intros H. destruct p as [|x q]; [apply Permutation_length in H; cbn in H; lia|].
      destruct (selects_in l x) as [r Hr]; [apply (Permutation_in x H); left; reflexivity|].
      exists (x, r). split; [exact Hr|]. cbn [fst snd]. apply in_map_iff. exists q. split; [reflexivity|].
      apply selects_perm in Hr. assert (Lr : length r = n) by (apply Permutation_length in Hr; cbn in Hr; lia).
      apply (IH r q Lr). apply Permutation_cons_inv with x. rewrite H, Hr. reflexivity.
Qed.
Lemma nodup_app {A} (a b : list A) : NoDup a -> NoDup b -> (forall x, In x a -> In x b -> False) -> NoDup (a ++ b).
Proof.
  intros Ha Hb H. induction a as [|x a IH]; [exact Hb|]. inversion Ha; subst. cbn. constructor.
  - intros I. apply in_app_iff in I. destruct I as [I|I]; [contradiction|]. apply (H x); [left; reflexivity|exact I].
  - apply IH; [assumption|]. intros y Hy. apply H. right. exact Hy.
Qed.
Lemma perms_nodup {A} n : forall (l : list A), NoDup l -> NoDup (perms n l).
Proof.
  induction n as [|n IH]; intros l Hl; cbn [perms]; [constructor; [intros []|constructor]|].
  assert (K : forall s : list (A * list A), NoDup (map fst s) -> (forall x r, In (x, r) s -> NoDup r) ->
     NoDup (flat_map (fun xr => map (cons (fst xr)) (perms n (snd xr))) s)).
  { induction s as [|[x r] s IHs]; intros N1 N2; [constructor|]. cbn [flat_map map fst snd] in *. inversion N1 as [|? ? N11 N12]; subst.
    apply nodup_app.
    - apply FinFun.Injective_map_NoDup; [intros a b E; congruence|]. apply IH. apply (N2 x). left; reflexivity.
    - apply IHs; [exact N12|]. intros y t Hy. apply (N2 y). right; exact Hy.
    - intros p Hp Hq. apply in_map_iff in Hp. destruct Hp as (q & <- & _). apply in_flat_map in Hq.
      destruct Hq as ([y t] & Hy & Hq). cbn [fst snd] in Hq. apply in_map_iff in Hq. destruct Hq as (z & E & _). injection E as -> _.
      apply N11. apply in_map_iff. exists (x, t). split; [reflexivity|exact Hy]. }
  apply K.
  - replace (map fst (selects l)) with l; [exact Hl|]. clear. induction l as [|x l IH]; [reflexivity|]. cbn [selects map fst]. f_equal.
    rewrite map_map. cbn [fst]. exact IH.
  - intros x r H. apply selects_perm in H. assert (N : NoDup (x :: r)) by (apply (Permutation_NoDup (Permutation_sym H)); exact Hl).
    inversion N; assumption.
Qed.

(** Expansion along the first row. *)
Lemma inversions_map f p : (forall x y, (x < y)%nat -> (f x < f y)%nat) -> inversions (map f p) = inversions p.
Proof.
  intros Hf. induction p as [|x p IH]; [reflexivity|]. cbn [map inversions]. rewrite IH. f_equal.
  clear IH. induction p as [|y p IH]; [reflexivity|]. cbn [map filter].
  replace (Nat.ltb (f y) (f x)) with (Nat.ltb y x).
  - destruct (Nat.ltb y x); cbn [length]; rewrite IH; reflexivity.
  - destruct (Nat.ltb_spec y x) as [H|H], (Nat.ltb_spec (f y) (f x)) as [H2|H2]; try reflexivity.
    + apply Hf in H. lia.
    + destruct (Nat.eq_dec x y) as [->|]; [lia|]. assert (x < y)%nat by lia. apply Hf in H0. lia.
Qed.
Lemma skip_mono j x y : (x < y)%nat -> (skip j x < skip j y)%nat.
Proof. unfold skip. intros H. destruct (Nat.ltb_spec x j), (Nat.ltb_spec y j); lia. Qed.
Lemma prod_map a f p : forall i, prod_from a i (map f p) = prod_from (fun i c => a i (f c)) i p.
Proof. induction p as [|c p IH]; intros i; [reflexivity|]. cbn [map prod_from]. rewrite IH. reflexivity. Qed.
Lemma prod_shift a b p : (forall i c, a (S i) c = b i c) -> forall i, prod_from a (S i) p = prod_from b i p.
Proof. intros H. induction p as [|c p IH]; intros i; [reflexivity|]. cbn [prod_from]. rewrite IH, H. reflexivity. Qed.

Lemma selects_seq n : selects (seq 0 (S n)) = map (fun j => (j, map (skip j) (seq 0 n))) (seq 0 (S n)).
Proof.
  assert (G : forall n s, selects (seq s (S n)) = map (fun j => (j, map (fun q => if Nat.ltb q j then q else S q) (seq s n))) (seq s (S n))).
  { clear n. induction n as [|n IH]; intros s; [reflexivity|].
    change (seq s (S (S n))) with (s :: seq (S s) (S n)). cbn [selects map]. f_equal.
    - f_equal. rewrite <- seq_shift. apply map_ext_in. intros q Hq. apply in_seq in Hq. replace (Nat.ltb q s) with false by lia. reflexivity.
    - rewrite IH. rewrite map_map. apply map_ext_in. intros j Hj. apply in_seq in Hj. cbn [fst snd]. f_equal.
      change (seq s (S n)) with (s :: seq (S s) n). cbn [map]. replace (Nat.ltb s j) with true by lia. reflexivity. }
  apply G.
Qed.

Lemma filter_lt_perm j n p : Permutation p (seq 0 n) -> (j <= n)%nat -> length (filter (fun y => Nat.ltb y j) (map (skip j) p)) = j.
Proof.
  intros HP Hj.
  assert (E : forall q, length (filter (fun y => Nat.ltb y j) (map (skip j) q)) = length (filter (fun y => Nat.ltb y j) q)).
  { induction q as [|y q IH]; [reflexivity|]. cbn [map filter]. unfold skip at 1. destruct (Nat.ltb_spec y j) as [H|H].
    - replace (Nat.ltb y j) with true by lia. cbn [length]. rewrite IH. reflexivity.
    - replace (Nat.ltb (S y) j) with false by lia. exact IH. }
  rewrite E.
  assert (P : forall p q : list nat, Permutation p q -> length (filter (fun y => Nat.ltb y j) p) = length (filter (fun y => Nat.ltb y j) q)).
  { induction 1 as [|x l l' P IP|x y l|l l' l'' P1 IP1 P2 IP2]; cbn [filter].
    - reflexivity.
    - destruct (Nat.ltb x j); cbn [length]; rewrite IP; reflexivity.
    - destruct (Nat.ltb x j), (Nat.ltb y j); reflexivity.
    - rewrite IP1. exact IP2. }
  rewrite (P _ _ HP). clear -Hj. replace n with (j + (n - j))%nat by lia. rewrite seq_app, filter_app, app_length.
  assert (A : forall k s, (s + k <= j)%nat -> filter (fun y => Nat.ltb y j) (seq s k) = seq s k).
  { induction k as [|k IH]; intros s H; [reflexivity|]. cbn [seq filter]. replace (Nat.ltb s j) with true by lia. rewrite IH by lia. reflexivity. }
  assert (B : forall k s, (j <= s)%nat -> filter (fun y => Nat.ltb y j) (seq s k) = []).
  { induction k as [|k IH]; intros s H; [reflexivity|]. cbn [seq filter]. replace (Nat.ltb s j) with false by lia. apply IH. lia. }
  rewrite A, B by lia. rewrite seq_length. cbn. lia.
Qed.

Lemma zsum_list_app a b : zsum_list (a ++ b) = zsum_list a + zsum_list b.
Proof. unfold zsum_list. induction a as [|x a IH]; cbn [app fold_right]; lia. Qed.
Lemma zsum_list_flat {A} (f : A -> list Z) l : zsum_list (flat_map f l) = zsum_list (map (fun x => zsum_list (f x)) l).
Proof. induction l as [|x l IH]; [reflexivity|]. cbn [flat_map map]. rewrite zsum_list_app, IH. reflexivity. Qed.
Lemma zsum_list_scale {A} c (f : A -> Z) l : zsum_list (map (fun x => c * f x) l) = c * zsum_list (map f l).
Proof. unfold zsum_list. induction l as [|x l IH]; cbn [map fold_right]; lia. Qed.
Lemma zsum_list_ext {A} (f g : A -> Z) l : (forall x, In x l -> f x = g x) -> zsum_list (map f l) = zsum_list (map g l).
Proof. intros H. f_equal. apply map_ext_in. exact H. Qed.
Lemma zsum_list_seq f n : zsum_list (map f (seq 0 n)) = zsum n f.
Proof.
  induction n as [|n IH]; [reflexivity|]. rewrite seq_S, map_app, zsum_list_app, IH. unfold zsum_list. cbn [plus map fold_right zsum]. lia.
Qed.

Definition alt (j : nat) : Z := if Nat.even j then 1 else -1.
Lemma sgn_cons j n p : Permutation p (seq 0 n) -> (j <= n)%nat -> sgn (j :: map (skip j) p) = alt j * sgn p.
Proof.
  intros HP Hj. unfold sgn, alt. cbn [inversions]. rewrite (filter_lt_perm j n p HP Hj), (inversions_map (skip j)) by (apply skip_mono).
  rewrite Nat.even_add. destruct (Nat.even j), (Nat.even (inversions p)); reflexivity.
Qed.

Theorem det_laplace n A : det (S n) A = zsum (S n) (fun j => A O j * (alt j * det n (det_minor j A))).
Proof.
  unfold det at 1. cbn [perms]. rewrite selects_seq, flat_map_map, map_flat_map, zsum_list_flat. rewrite <- zsum_list_seq.
  apply zsum_list_ext. intros j Hj. apply in_seq in Hj. cbn [fst snd]. rewrite map_map, perms_map, map_map.
  unfold det. rewrite <- Z.mul_assoc || idtac. rewrite Z.mul_assoc, <- zsum_list_scale. apply zsum_list_ext. intros p Hp.
  apply perms_perm in Hp; [|apply seq_length]. change (if Nat.even (inversions ?q) then 1 else -1) with (sgn q).
  rewrite (sgn_cons j n p Hp ltac:(lia)). cbn [prod_from]. rewrite prod_map.
  rewrite (prod_shift (fun i c => A i (skip j c)) (det_minor j A)) by (intros; rewrite minor_skip; reflexivity). ring.
Qed.

Lemma det_0 A : det 0 A = 1.
Proof. reflexivity. Qed.
Lemma det_1 A : det 1 A = A O O.
Proof. unfold det. cbn -[Z.mul Z.add]. ring. Qed.
Lemma det_ext n A B : (forall i j, (i < n)%nat -> (j < n)%nat -> A i j = B i j) -> det n A = det n B.
Proof.
  revert A B. induction n as [|n IH]; intros A B H; [reflexivity|]. rewrite !det_laplace.
  assert (K : forall k, (k <= S n)%nat -> zsum k (fun j => A O j * (alt j * det n (det_minor j A))) = zsum k (fun j => B O j * (alt j * det n (det_minor j B)))).
  { induction k as [|k IHk]; intros Hk; [reflexivity|]. cbn [zsum]. rewrite IHk, (H O k) by lia. do 3 f_equal. apply IH.
    intros i j Hi Hj. rewrite !minor_skip. apply H; [lia|]. unfold skip. destruct (Nat.ltb j k); lia. }
  apply K. lia.
Qed.

(** Bound of the determinant and of the partial sums of its expansion. *)
Lemma alt_abs j : Z.abs (alt j) = 1.
Proof. unfold alt. destruct (Nat.even j); reflexivity. Qed.
Lemma det_bound n : forall A B, 0 <= B -> (forall i j, (i < n)%nat -> (j < n)%nat -> Z.abs (A i j) <= B) ->
  Z.abs (det n A) <= Z.of_nat (fact n) * B ^ Z.of_nat n /\ forall k, (k <= n)%nat -> Z.abs (zsum k (fun j => A O j * (alt j * det (n - 1) (det_minor j A)))) <= Z.of_nat (fact n) * B ^ Z.of_nat n.
Proof.
  induction n as [|n IH]; intros A B HB H.
  - split; [cbn; lia|]. intros k Hk. replace k with O by lia. cbn. lia.
  - cut (forall k, (k <= S n)%nat -> Z.abs (zsum k (fun j => A O j * (alt j * det n (det_minor j A)))) <= Z.of_nat (fact (S n)) * B ^ Z.of_nat (S n)).
    { intros K. split; [rewrite det_laplace; apply K; lia|]. cbn [Nat.sub]. rewrite Nat.sub_0_r. exact K. }
    assert (P : 0 <= Z.of_nat (fact n) * B ^ Z.of_nat n) by (apply Z.mul_nonneg_nonneg; [lia|apply Z.pow_nonneg; lia]).
    assert (K : forall k, (k <= S n)%nat -> Z.abs (zsum k (fun j => A O j * (alt j * det n (det_minor j A)))) <= Z.of_nat k * (B * (Z.of_nat (fact n) * B ^ Z.of_nat n))).
    { induction k as [|k IHk]; intros Hk; [cbn; lia|]. cbn [zsum]. specialize (IHk ltac:(lia)).
      assert (T : Z.abs (A O k * (alt k * det n (det_minor k A))) <= B * (Z.of_nat (fact n) * B ^ Z.of_nat n)).
      { rewrite !Z.abs_mul, alt_abs, Z.mul_1_l. apply Z.mul_le_mono_nonneg; [lia|apply H; lia|lia|].
        apply IH; [exact HB|]. intros i j Hi Hj. rewrite minor_skip. apply H; [lia|]. unfold skip. destruct (Nat.ltb j k); lia. }
      rewrite Nat2Z.inj_succ, Z.mul_succ_l. lia. }
    intros k Hk. eapply Z.le_trans; [apply K; exact Hk|].
    change (fact (S n)) with (S n * fact n)%nat. rewrite Nat2Z.inj_mul, (Nat2Z.inj_succ n), Z.pow_succ_r by lia.
    replace (Z.succ (Z.of_nat n) * Z.of_nat (fact n) * (B * B ^ Z.of_nat n)) with (Z.succ (Z.of_nat n) * (B * (Z.of_nat (fact n) * B ^ Z.of_nat n))) by ring.
    apply Z.mul_le_mono_nonneg_r; [apply Z.mul_nonneg_nonneg; lia|lia].
Qed.
