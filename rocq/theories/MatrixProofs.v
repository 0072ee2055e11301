(** Proofs about the models of ac_matrix and ac_matrixmul. *)
From Coq Require Import Lia ZifyBool.
From Verif Require Import AcTypes AcFacts Spec SpecFacts ShiftFacts RtTypes RtFacts SpecMat MatrixModel ArrayProofs.
From Verif Require AbsProofs.

(** *** loops over all elements *)

Lemma put_same m r c v : put m r c v r c = v.
Proof. unfold put. rewrite !Nat.eqb_refl. reflexivity. Qed.
Lemma put_other m r c v i j : i <> r \/ j <> c -> put m r c v i j = m i j.
Proof. intros H. unfold put. destruct (Nat.eqb_spec i r), (Nat.eqb_spec j c); cbn [andb]; try reflexivity; subst; tauto. Qed.

Definition local (body : nat -> nat -> mat -> Z) := forall i j m m', m i j = m' i j -> body i j m = body i j m'.

Lemma inner_loop body (L : local body) i m N :
  forall r c, fold_left (fun m j => put m i j (body i j m)) (seq 0 N) m r c
    = if Nat.eqb r i && Nat.ltb c N then body r c m else m r c.
Proof.
  induction N as [|N IH]; intros r c.
  - cbn. rewrite Bool.andb_false_r. reflexivity.
  - rewrite seq_S, fold_left_app. cbn [fold_left plus]. set (m' := fold_left _ _ m) in *.
    destruct (Nat.eq_dec r i) as [->|NE].
    + rewrite Nat.eqb_refl. cbn [andb]. destruct (Nat.eq_dec c N) as [->|NC].
      * rewrite put_same. replace (Nat.ltb N (S N)) with true by lia.
        apply L. unfold m'. rewrite IH, Nat.eqb_refl. replace (Nat.ltb N N) with false by lia. reflexivity.
      * rewrite put_other by tauto. unfold m'. rewrite IH, Nat.eqb_refl. cbn [andb].
        replace (Nat.ltb c (S N)) with (Nat.ltb c N) by lia. reflexivity.
    + rewrite put_other by tauto. unfold m'. rewrite IH. replace (Nat.eqb r i) with false by lia. reflexivity.
Qed.

Lemma loop2_ok body (L : local body) M N m r c :
  loop2 M N body m r c = if Nat.ltb r M && Nat.ltb c N then body r c m else m r c.
Proof.
  unfold loop2. induction M as [|M IH]; [reflexivity|].
  rewrite seq_S, fold_left_app. cbn [fold_left plus]. rewrite inner_loop by exact L.
  set (m' := fold_left _ _ m) in *. destruct (Nat.eq_dec r M) as [->|NE].
  - rewrite Nat.eqb_refl. replace (Nat.ltb M (S M)) with true by lia. replace (Nat.ltb M M) with false in IH by lia.
    cbn [andb] in *. rewrite <- IH. destruct (Nat.ltb c N); [|reflexivity]. apply L. exact IH.
  - replace (Nat.eqb r M) with false by lia. replace (Nat.ltb r (S M)) with (Nat.ltb r M) by lia. cbn [andb]. exact IH.
Qed.

Lemma loop2_in body (L : local body) M N m r c : (r < M)%nat -> (c < N)%nat -> loop2 M N body m r c = body r c m.
Proof. intros. rewrite loop2_ok by exact L. replace (Nat.ltb r M) with true by lia. replace (Nat.ltb c N) with true by lia. reflexivity. Qed.

Lemma local_const g : local (fun i j _ => g i j).
Proof. intros i j m m' _. reflexivity. Qed.

(** *** element-wise operations *)

Lemma rt_plus_conv a b x y : 1 <= fW a -> 1 <= fW b -> fits a x -> fits b y ->
  conv (rt_plus a b) (fx_add a b x y) (rt_f a b) = fx_add a b x y.
Proof.
  intros HA HB Hx Hy. destruct (fits_plus a b x y HA HB Hx Hy) as [W Fi]. unfold rt_plus in *. cbn [dfmt fW fI fS] in *.
  apply conv_fits; [exact W|lia|]. exact Fi.
Qed.
Lemma rt_minus_conv a b x y : 1 <= fW a -> 1 <= fW b -> fits a x -> fits b y ->
  conv (rt_minus a b) (fx_sub a b x y) (rt_f a b) = fx_sub a b x y.
Proof.
  intros HA HB Hx Hy. destruct (fits_minus a b x y HA HB Hx Hy) as [W Fi]. unfold rt_minus in *. cbn [dfmt fW fI fS] in *.
  apply conv_fits; [exact W|lia|]. exact Fi.
Qed.
Lemma rt_mult_conv a b x y : 1 <= fW a -> 1 <= fW b -> fits a x -> fits b y ->
  conv (rt_mult a b) (x * y) (fF a + fF b) = x * y.
Proof.
  intros HA HB Hx Hy. pose proof (fits_mult a b x y HA HB Hx Hy) as Fi. unfold rt_mult in *. 
  apply conv_fits; [lia|unfold fF; lia|]. exact Fi.
Qed.

Theorem mat_add_ok M N ta tb a b i j : 1 <= fW ta -> 1 <= fW tb -> fits_mat M N ta a -> fits_mat M N tb b ->
  (i < M)%nat -> (j < N)%nat ->
  let F := Z.max (fF ta) (fF tb) in
  mat_add M N ta tb a b i j = a i j * 2 ^ (F - fF ta) + b i j * 2 ^ (F - fF tb).
Proof.
  intros HA HB Ha Hb Hi Hj F. unfold mat_add. rewrite loop2_in by (auto using local_const).
  rewrite rt_plus_conv by auto. reflexivity.
Qed.
Theorem mat_minus_ok M N ta tb a b i j : 1 <= fW ta -> 1 <= fW tb -> fits_mat M N ta a -> fits_mat M N tb b ->
  (i < M)%nat -> (j < N)%nat ->
  let F := Z.max (fF ta) (fF tb) in
  mat_minus M N ta tb a b i j = a i j * 2 ^ (F - fF ta) - b i j * 2 ^ (F - fF tb).
Proof.
  intros HA HB Ha Hb Hi Hj F. unfold mat_minus. rewrite loop2_in by (auto using local_const).
  rewrite rt_minus_conv by auto. reflexivity.
Qed.
Theorem mat_pwise_ok M N ta tb a b i j : 1 <= fW ta -> 1 <= fW tb -> fits_mat M N ta a -> fits_mat M N tb b ->
  (i < M)%nat -> (j < N)%nat -> mat_pwise M N ta tb a b i j = a i j * b i j.
Proof.
  intros HA HB Ha Hb Hi Hj. unfold mat_pwise, fx_mul. rewrite loop2_in by (auto using local_const).
  apply rt_mult_conv; auto.
Qed.

Lemma local_acc g : local (fun i j m => g i j (m i j)).
Proof. intros i j m m' E. rewrite E. reflexivity. Qed.

Theorem mat_add_to_ok M N t a b i j : 1 <= fW t -> (i < M)%nat -> (j < N)%nat ->
  converts2 t (a i j + b i j) (- fF t) (mat_add_to M N t a b i j).
Proof.
  intros HW Hi Hj. unfold mat_add_to. rewrite (loop2_in _ (local_acc (fun i j v => conv t (v + b i j) (fF t)))) by assumption.
  apply (conv_eq_converts2 t _ _ (fF t)); [lia|lia|reflexivity].
Qed.
Theorem mat_sub_to_ok M N t a b i j : 1 <= fW t -> (i < M)%nat -> (j < N)%nat ->
  converts2 t (a i j - b i j) (- fF t) (mat_sub_to M N t a b i j).
Proof.
  intros HW Hi Hj. unfold mat_sub_to. rewrite (loop2_in _ (local_acc (fun i j v => conv t (v - b i j) (fF t)))) by assumption.
  apply (conv_eq_converts2 t _ _ (fF t)); [lia|lia|reflexivity].
Qed.

Theorem mat_scale_ok M N t fs s a i j : 1 <= fW t -> (i < M)%nat -> (j < N)%nat ->
  converts2 t (s * a i j) (- (fs + fF t)) (mat_scale M N t fs s a i j).
Proof.
  intros HW Hi Hj. unfold mat_scale, fx_mul. rewrite loop2_in by (auto using local_const).
  apply (conv_eq_converts2 t _ _ (fs + fF t)); [lia|lia|reflexivity].
Qed.

Theorem mat_sub_ok R S a row col i j : (i < R)%nat -> (j < S)%nat -> mat_sub R S a row col i j = a (row + i)%nat (col + j)%nat.
Proof. intros. unfold mat_sub. rewrite loop2_in by (auto using local_const). f_equal; lia. Qed.

(** transpose writes (j,i) *)
Lemma tr_inner (a : mat) i m N r c :
  fold_left (fun m j => put m j i (a i j)) (seq 0 N) m r c = if Nat.eqb c i && Nat.ltb r N then a i r else m r c.
Proof.
  induction N as [|N IH]; [cbn; rewrite Bool.andb_false_r; reflexivity|].
  rewrite seq_S, fold_left_app. cbn [fold_left plus].
  destruct (Nat.eq_dec c i) as [->|NE].
  - rewrite Nat.eqb_refl in *. cbn [andb] in *. destruct (Nat.eq_dec r N) as [->|NR].
    + rewrite put_same. replace (Nat.ltb N (S N)) with true by lia. reflexivity.
    + rewrite put_other by tauto. rewrite IH. replace (Nat.ltb r (S N)) with (Nat.ltb r N) by lia. reflexivity.
  - rewrite put_other by tauto. rewrite IH. replace (Nat.eqb c i) with false by lia. reflexivity.
Qed.
Theorem mat_transpose_ok M N a i j : (i < N)%nat -> (j < M)%nat -> mat_transpose M N a i j = a j i.
Proof.
  intros Hi Hj. unfold mat_transpose. induction M as [|M IH]; [lia|].
  rewrite seq_S, fold_left_app. cbn [fold_left plus]. rewrite tr_inner.
  destruct (Nat.eqb_spec j M) as [->|NE]; cbn [andb].
  - replace (Nat.ltb i N) with true by lia. reflexivity.
  - apply IH. lia.
Qed.

Theorem mat_transpose_involution M N a i j : (i < M)%nat -> (j < N)%nat ->
  mat_transpose N M (mat_transpose M N a) i j = a i j.
Proof. intros. rewrite !mat_transpose_ok by assumption. reflexivity. Qed.

Lemma existsb_false {A} (f : A -> bool) l : existsb f l = false <-> forall x, In x l -> f x = false.
Proof.
  split.
  - intros H x Hx. destruct (f x) eqn:E; [|reflexivity]. assert (existsb f l = true) by (apply existsb_exists; eauto). congruence.
  - intros H. destruct (existsb f l) eqn:E; [|reflexivity]. apply existsb_exists in E. destruct E as (x & I & E). rewrite (H x I) in E. discriminate.
Qed.
Theorem mat_eq_ok M N neq a b : (forall x y, neq x y = false <-> x = y) ->
  mat_eq M N M N neq a b = true <-> (forall i j, (i < M)%nat -> (j < N)%nat -> a i j = b i j).
Proof.
  intros Hn. unfold mat_eq, mat_ne. rewrite !Nat.eqb_refl. cbn [negb]. rewrite Bool.negb_true_iff, existsb_false. split.
  - intros H i j Hi Hj. specialize (H i ltac:(apply in_seq; lia)). rewrite existsb_false in H.
    apply Hn. apply H. apply in_seq. lia.
  - intros H i Hi. apply existsb_false. intros j Hj. apply in_seq in Hi, Hj. apply Hn. apply H; lia.
Qed.
Theorem mat_ne_ok M N M2 N2 neq a b : (forall x y, neq x y = false <-> x = y) ->
  mat_ne M N M2 N2 neq a b = true <->
  (M2, N2) <> (M, N) \/ exists i j, (i < M)%nat /\ (j < N)%nat /\ a i j <> b i j.
Proof.
  intros Hn. unfold mat_ne. destruct (Nat.eqb_spec M2 M) as [->|NM]; cbn [negb]; [|split; [left; congruence|reflexivity]].
  destruct (Nat.eqb_spec N2 N) as [->|NN]; cbn [negb]; [|split; [left; congruence|reflexivity]]. split.
  - intros E. right. apply existsb_exists in E. destruct E as (i & Hi & E). apply existsb_exists in E. destruct E as (j & Hj & E).
    apply in_seq in Hi, Hj. exists i, j. split; [lia|]. split; [lia|]. intros X. apply Hn in X. congruence.
  - intros [C|(i & j & Hi & Hj & D)]; [congruence|]. apply existsb_exists. exists i. split; [apply in_seq; lia|].
    apply existsb_exists. exists j. split; [apply in_seq; lia|]. destruct (neq (a i j) (b i j)) eqn:E; [reflexivity|]. apply Hn in E. contradiction.
Qed.

(** *** products *)

Lemma zsum_ext n f g : (forall i, (i < n)%nat -> f i = g i) -> zsum n f = zsum n g.
Proof. induction n as [|n IH]; intros H; [reflexivity|]. cbn [zsum]. rewrite IH by (intros; apply H; lia). rewrite H by lia. reflexivity. Qed.

Lemma zsum_bounds n f lo hi : (forall i, (i < n)%nat -> lo <= f i <= hi) ->
  Z.of_nat n * lo <= zsum n f <= Z.of_nat n * hi.
Proof.
  induction n as [|n IH]; intros H; [cbn; lia|]. cbn [zsum]. specialize (IH ltac:(intros; apply H; lia)).
  pose proof (H n ltac:(lia)). rewrite Nat2Z.inj_succ, !Z.mul_succ_l. lia.
Qed.

Lemma wrap_add S W s p : 0 <= W -> wrap S W (wrap S W s + p) = wrap S W (s + p).
Proof.
  intros HW. apply wrap_congr; [assumption|]. pose proof (pow2_pos W HW).
  rewrite <- Zplus_mod_idemp_l, wrap_mod by lia. apply Zplus_mod_idemp_l.
Qed.

Lemma wrap_wrap S W x : 0 <= W -> wrap S W (wrap S W x) = wrap S W x.
Proof. intros HW. apply wrap_congr; [assumption|]. apply wrap_mod. assumption. Qed.

Lemma conv_dfmt_same W I S x F : F = W - I -> conv (dfmt W I S) x F = wrap S W x.
Proof. intros ->. apply conv_same. Qed.

Lemma acc_wrap W I S F p n : 1 <= W -> F = W - I ->
  fold_left (fun s k => conv (dfmt W I S) (s + p k) F) (seq 0 n) (conv (dfmt W I S) 0 0) = wrap S W (zsum n p).
Proof.
  intros HW ->. induction n as [|n IH].
  - cbn [seq fold_left zsum]. rewrite conv_unfold. cbn [dfmt fQ fS fW fO overflow]. reflexivity.
  - rewrite seq_S, fold_left_app, IH. cbn [fold_left plus zsum]. rewrite conv_same. apply wrap_add. lia.
Qed.

Lemma mat_mul_wrap M N Q ta tb a b i j : 1 <= fW ta -> 1 <= fW tb -> (i < M)%nat -> (j < Q)%nat ->
  mat_mul M N Q ta tb a b i j =
  wrap (fS ta || fS tb) (fW ta + fW tb + Z.log2_up (Z.of_nat N - 1)) (zsum N (fun k => a i k * b k j)).
Proof.
  intros HA HB Hi Hj. unfold mat_mul. cbv zeta. rewrite loop2_in by (auto using local_const).
  pose proof (Z.log2_up_nonneg (Z.of_nat N - 1)) as L0. unfold rt_sum, rt_mult, fx_mul. cbn [dfmt fW fI fS].
  change (Fmt ?W ?I ?S TRN WRAP) with (dfmt W I S).
  rewrite (acc_wrap _ _ _ _ (fun k => a i k * b k j)) by (unfold fF; lia).
  rewrite conv_dfmt_same by (unfold fF; lia). apply wrap_wrap. lia.
Qed.

(** ac_matrix operator*: the exact sum of products, reduced modulo the width of the accumulator. *)
Theorem mat_mul_mod M N Q ta tb a b i j : 1 <= fW ta -> 1 <= fW tb -> (i < M)%nat -> (j < Q)%nat ->
  is_limited WRAP (fS ta || fS tb) (fW ta + fW tb + Z.log2_up (Z.of_nat N - 1))
             (zsum N (fun k => a i k * b k j)) (mat_mul M N Q ta tb a b i j).
Proof.
  intros HA HB Hi Hj. pose proof (Z.log2_up_nonneg (Z.of_nat N - 1)) as L0. rewrite mat_mul_wrap by assumption.
  refine (overflow_is_limited WRAP _ _ _ _); lia.
Qed.

Lemma prod_sum_fits N ta tb (a b : mat) i j n : 1 <= fW ta -> 1 <= fW tb -> (1 <= N)%nat -> Z.of_nat N <= 2 ^ Z.log2_up n ->
  (forall k, (k < N)%nat -> fits ta (a i k)) -> (forall k, (k < N)%nat -> fits tb (b k j)) ->
  in_range (fS ta || fS tb) (fW ta + fW tb + Z.log2_up n) (zsum N (fun k => a i k * b k j)).
Proof.
  intros HA HB HN Hn Ha Hb.
  assert (P : forall k, (k < N)%nat -> fits (rt_mult ta tb) (a i k * b k j)) by (intros; apply fits_mult; auto).
  pose proof (zsum_bounds N (fun k => a i k * b k j) (imin (fS ta || fS tb) (fW ta + fW tb)) (imax (fS ta || fS tb) (fW ta + fW tb)) P) as B.
  pose proof (Z.log2_up_nonneg n) as L0. set (l := Z.log2_up n) in *. set (S := fS ta || fS tb) in *. set (W := fW ta + fW tb) in *.
  unfold in_range, imin, imax in *. pose proof (pow2_pos l L0). destruct S.
  - replace (W + l - 1) with ((W - 1) + l) by lia. rewrite pow2_add by lia. pose proof (pow2_pos (W - 1) ltac:(lia)). nia.
  - rewrite pow2_add by lia. pose proof (pow2_pos W ltac:(lia)). nia.
Qed.

Theorem mat_mul_exact M N Q ta tb a b i j : 1 <= fW ta -> 1 <= fW tb -> (2 <= N)%nat ->
  (forall k, 0 <= k -> Z.of_nat N <> 2 ^ k + 1) ->
  fits_mat M N ta a -> fits_mat N Q tb b -> (i < M)%nat -> (j < Q)%nat ->
  mat_mul M N Q ta tb a b i j = zsum N (fun k => a i k * b k j).
Proof.
  intros HA HB HN HP Ha Hb Hi Hj. pose proof (Z.log2_up_nonneg (Z.of_nat N - 1)) as L0.
  rewrite mat_mul_wrap by assumption. apply wrap_id; [lia|]. apply prod_sum_fits; auto; [lia|].
  destruct (log2_up_le (Z.of_nat N - 1) ltac:(lia)) as [_ L]. pose proof (HP _ L0). lia.
Qed.

(** One element too many for the accumulator. *)
Theorem mat_mul_short k : 0 <= k -> exists w (a : mat), let N := Z.to_nat (2 ^ k + 1) in let t := dfmt w w false in
  1 <= w /\ fits_mat N N t a /\ mat_mul N N N t t a a 0%nat 0%nat < zsum N (fun l => a 0%nat l * a l 0%nat).
Proof.
  intros Hk. exists (k + 2), (fun _ _ => 2 ^ (k + 2) - 1). cbv zeta. pose proof (pow2_pos k Hk) as P.
  pose proof (pow2_pos (k + 2) ltac:(lia)) as P2.
  split; [lia|]. split.
  - intros i j _ _. unfold fits, in_range, imin, imax. cbn [dfmt fW fS]. lia.
  - rewrite mat_mul_wrap by (cbn [dfmt fW]; lia). cbn [dfmt fW fS orb wrap]. rewrite Z2Nat.id by lia.
    replace (2 ^ k + 1 - 1) with (2 ^ k) by lia. rewrite Z.log2_up_pow2 by lia.
    set (s := zsum _ _). assert (E : s = (2 ^ k + 1) * ((2 ^ (k + 2) - 1) * (2 ^ (k + 2) - 1))).
    { unfold s. pose proof (zsum_bounds (Z.to_nat (2 ^ k + 1)) (fun _ => (2 ^ (k + 2) - 1) * (2 ^ (k + 2) - 1)) _ _ (fun _ _ => conj (Z.le_refl _) (Z.le_refl _))) as B.
      rewrite Z2Nat.id in B by lia. lia. }
    pose proof (wrapu_range (k + 2 + (k + 2) + k) s ltac:(lia)) as R.
    replace (2 ^ (k + 2 + (k + 2) + k)) with (2 ^ (k + 2) * 2 ^ (k + 2) * 2 ^ k) in R by (rewrite <- !pow2_add by lia; reflexivity).
    assert (E2 : 2 ^ (k + 2) = 4 * 2 ^ k) by (rewrite pow2_add by lia; change (2 ^ 2) with 4; ring).
    rewrite E2 in *. revert R E P. clearbody s. generalize (2 ^ k) as p. intros p R E P. nia.
Qed.

Theorem mat_mul_transpose M N Q ta tb a b i j : 1 <= fW ta -> 1 <= fW tb -> (i < Q)%nat -> (j < M)%nat ->
  mat_transpose M Q (mat_mul M N Q ta tb a b) i j =
  mat_mul Q N M tb ta (mat_transpose N Q b) (mat_transpose M N a) i j.
Proof.
  intros HA HB Hi Hj. rewrite mat_transpose_ok by assumption. rewrite !mat_mul_wrap by assumption.
  rewrite (Bool.orb_comm (fS tb)), (Z.add_comm (fW tb)). f_equal. apply zsum_ext. intros k Hk.
  rewrite !mat_transpose_ok by assumption. apply Z.mul_comm.
Qed.

(** *** ac_matrixmul *)
Lemma fold_left_ext {A B} (f g : A -> B -> A) l a : (forall a b, In b l -> f a b = g a b) -> fold_left f l a = fold_left g l a.
Proof. revert a. induction l as [|x l IH]; intros a H; [reflexivity|]. cbn. rewrite H by (left; reflexivity). apply IH. intros; apply H; right; assumption. Qed.

Theorem matrixmul_ok M N P ta tb tc a b i j : 1 <= fW ta -> 1 <= fW tb -> 1 <= fW tc -> (1 <= N)%nat ->
  fits_mat M N ta a -> fits_mat N P tb b -> (i < M)%nat -> (j < P)%nat ->
  converts2 tc (zsum N (fun k => a i k * b k j)) (- (fF ta + fF tb)) (matrixmul M N P ta tb tc a b i j).
Proof.
  intros HA HB HC HN Ha Hb Hi Hj. apply (conv_eq_converts2 tc _ _ (fF ta + fF tb)); [assumption|lia|].
  unfold matrixmul. cbv zeta. rewrite loop2_in by (auto using local_const). f_equal.
  erewrite fold_left_ext; [|intros s k Hk; apply in_seq in Hk; unfold fx_mul; rewrite rt_mult_conv by (first [assumption|apply Ha; lia|apply Hb; lia]); reflexivity].
  unfold rt_sum, rt_mult. cbn [dfmt fW fI fS]. change (Fmt ?W ?I ?S TRN WRAP) with (dfmt W I S).
  pose proof (Z.log2_up_nonneg (Z.of_nat N)) as L0.
  rewrite (acc_wrap _ _ _ _ (fun k => a i k * b k j)) by (unfold fF; lia).
  apply wrap_id; [lia|]. apply prod_sum_fits; auto. apply log2_up_le. lia.
Qed.

(** The accumulator after n additions holds the exact partial sum. *)
Theorem matrixmul_acc_ok M N P ta tb a b i j n : 1 <= fW ta -> 1 <= fW tb -> (1 <= n <= N)%nat ->
  fits_mat M N ta a -> fits_mat N P tb b -> (i < M)%nat -> (j < P)%nat ->
  in_range (fS ta || fS tb) (fW (rt_sum (rt_mult ta tb) (Z.of_nat N))) (zsum n (fun k => a i k * b k j)).
Proof.
  intros HA HB HN Ha Hb Hi Hj. unfold rt_sum, rt_mult. cbn [dfmt fW].
  apply prod_sum_fits; auto; [lia| | |]; try (intros; apply Ha || apply Hb; lia).
  destruct (log2_up_le (Z.of_nat N) ltac:(lia)). lia.
Qed.

(** *** sum *)

Lemma conv_same_f f x : conv f x (fF f) = overflow (fO f) (fS f) (fW f) x.
Proof.
  rewrite conv_unfold, Z.sub_diag. f_equal. change (pw 0) with 1. rewrite Z.mul_1_r. apply qround_int.
Qed.
Lemma conv_zero f : 1 <= fW f -> conv f 0 0 = 0.
Proof. apply AbsProofs.conv_0. Qed.

Theorem mat_sum_wrap M N t a : 1 <= fW t -> fO t = WRAP -> is_limited WRAP (fS t) (fW t) (msum M N a) (mat_sum M N t a).
Proof.
  intros HW HO. assert (E : mat_sum M N t a = wrap (fS t) (fW t) (msum M N a)).
  { unfold mat_sum, msum. rewrite conv_zero by assumption.
    assert (In_ : forall i n s, fold_left (fun s j => conv t (s + a i j) (fF t)) (seq 0 n) (wrap (fS t) (fW t) s)
                  = wrap (fS t) (fW t) (s + zsum n (fun j => a i j))).
    { intros i n s. induction n as [|n IH]; [cbn [seq fold_left zsum]; f_equal; lia|].
      rewrite seq_S, fold_left_app, IH. cbn [fold_left plus zsum]. rewrite conv_same_f, HO. cbn [overflow].
      rewrite wrap_add by lia. f_equal. lia. }
    induction M as [|M' IH].
    - cbn [seq fold_left zsum]. symmetry. apply wrap_id; [assumption|apply in_range_0; assumption].
    - rewrite seq_S, fold_left_app, IH. cbn [fold_left plus zsum]. apply In_. }
  rewrite E. exact (overflow_is_limited WRAP _ _ _ HW).
Qed.

Lemma zsum_abs n f : Z.abs (zsum n f) <= zsum n (fun i => Z.abs (f i)).
Proof. induction n as [|n IH]; [cbn; lia|]. cbn [zsum]. lia. Qed.
Lemma zsum_nonneg n f : (forall i, 0 <= f i) -> 0 <= zsum n f.
Proof. intros H. induction n as [|n IH]; [cbn; lia|]. cbn [zsum]. specialize (H n). lia. Qed.

Theorem mat_sum_exact M N t a : 1 <= fW t -> fits_mat M N t a ->
  msum M N (fun i j => Z.abs (a i j)) <= highest (fS t) (fW t) -> mat_sum M N t a = msum M N a.
Proof.
  intros HW Ha HS. unfold mat_sum, msum in *. rewrite conv_zero by assumption.
  assert (K : forall x, Z.abs x <= highest (fS t) (fW t) -> (fS t = false -> 0 <= x) -> conv t x (fF t) = x).
  { intros x Hx Hu. rewrite conv_same_f. unfold highest in Hx. apply overflow_id; [assumption| |].
    - unfold in_range, imin, imax. pose proof (pow2_pos (fW t - 1) ltac:(lia)). destruct (fS t); lia.
    - intros _ E. rewrite E in *. unfold imin. lia. }
  assert (U : fS t = false -> forall i j, (i < M)%nat -> (j < N)%nat -> 0 <= a i j).
  { intros E i j Hi Hj. specialize (Ha i j Hi Hj). apply (fits_u t _ E) in Ha. lia. }
  set (h := highest (fS t) (fW t)) in *.
  assert (In_ : forall i n s, (i < M)%nat -> (n <= N)%nat -> Z.abs s + zsum n (fun j => Z.abs (a i j)) <= h -> (fS t = false -> 0 <= s) ->
     fold_left (fun s j => conv t (s + a i j) (fF t)) (seq 0 n) s = s + zsum n (fun j => a i j)).
  { intros i n s Hi. induction n as [|n IH]; intros Hn Hh Hu; [cbn [seq fold_left zsum]; lia|].
    rewrite seq_S, fold_left_app. cbn [fold_left plus zsum] in *. rewrite IH; [|lia|pose proof (Z.abs_nonneg (a i n)); lia|assumption].
    rewrite K; [lia| |].
    - pose proof (zsum_abs n (fun j => a i j)) as B. cbv beta in B. lia.
    - intros E. pose proof (Hu E). pose proof (U E i n Hi ltac:(lia)).
      assert (0 <= zsum n (fun j => a i j)); [|lia].
      clear -U E Hi Hn. induction n as [|n IH]; [cbn; lia|]. cbn [zsum]. specialize (IH ltac:(lia)). pose proof (U E i n Hi ltac:(lia)). lia. }
  assert (Out : forall m, (m <= M)%nat -> fold_left (fun s i => fold_left (fun s j => conv t (s + a i j) (fF t)) (seq 0 N) s) (seq 0 m) 0
            = zsum m (fun i => zsum N (fun j => a i j))).
  { intros m. induction m as [|m IH]; intros Hm; [reflexivity|]. rewrite seq_S, fold_left_app, IH by lia. cbn [fold_left plus zsum].
    apply In_; [lia|lia| |].
    - assert (Mono : forall k, (k <= M)%nat -> zsum k (fun i => zsum N (fun j => Z.abs (a i j))) <= h).
      { intros k Hk. apply Z.le_trans with (2 := HS). clear -Hk. induction M as [|M' IH]; [replace k with O by lia; lia|].
        destruct (Nat.eq_dec k (S M')) as [->|]; [lia|]. cbn [zsum]. specialize (IH ltac:(lia)).
        pose proof (zsum_nonneg N (fun j => Z.abs (a M' j)) ltac:(intros; lia)). lia. }
      specialize (Mono (S m) Hm). cbn [zsum] in Mono.
      assert (Z.abs (zsum m (fun i => zsum N (fun j => a i j))) <= zsum m (fun i => zsum N (fun j => Z.abs (a i j)))); [|lia].
      clear. induction m as [|m IH]; [cbn; lia|]. cbn [zsum]. pose proof (zsum_abs N (fun j => a m j)) as B. cbv beta in B. lia.
    - intros E. clear -U E Hm. induction m as [|m IH]; [cbn; lia|]. cbn [zsum]. specialize (IH ltac:(lia)).
      assert (0 <= zsum N (fun j => a m j)); [|lia].
      assert (G : forall n, (n <= N)%nat -> 0 <= zsum n (fun j => a m j)); [|apply G; lia].
      induction n as [|n IHn]; intros; [cbn; lia|]. cbn [zsum]. pose proof (U E m n ltac:(lia) ltac:(lia)). specialize (IHn ltac:(lia)). lia. }
  apply Out. lia.
Qed.

(** *** determinants of 2x2 and 3x3 matrices *)
Lemma det2_eq a : det 2 a = a 0%nat 0%nat * a 1%nat 1%nat - a 0%nat 1%nat * a 1%nat 0%nat.
Proof. unfold det. cbn -[Z.mul Z.add]. ring. Qed.
Lemma det3_eq m : det 3 m = m 0%nat 0%nat * (m 1%nat 1%nat * m 2%nat 2%nat - m 1%nat 2%nat * m 2%nat 1%nat)
  - m 0%nat 1%nat * (m 1%nat 0%nat * m 2%nat 2%nat - m 1%nat 2%nat * m 2%nat 0%nat)
  + m 0%nat 2%nat * (m 1%nat 0%nat * m 2%nat 1%nat - m 1%nat 1%nat * m 2%nat 0%nat).
Proof. unfold det. cbn -[Z.mul Z.add]. ring. Qed.

Theorem mat_det2_ok t a : 1 <= fW t -> converts2 t (det 2 a) (- (2 * fF t)) (mat_det2 t a).
Proof. intros H. rewrite det2_eq. apply (conv_eq_converts2 t _ _ (2 * fF t)); [assumption|lia|reflexivity]. Qed.
Theorem mat_det3_ok t a : 1 <= fW t -> converts2 t (det 3 a) (- (3 * fF t)) (mat_det3 t a).
Proof. intros H. rewrite det3_eq. apply (conv_eq_converts2 t _ _ (3 * fF t)); [assumption|lia|reflexivity]. Qed.
Theorem mat_det2_transpose t a : mat_det2 t (mat_transpose 2 2 a) = mat_det2 t a.
Proof. unfold mat_det2. f_equal. rewrite !mat_transpose_ok by lia. ring. Qed.
Theorem mat_det3_transpose t a : mat_det3 t (mat_transpose 3 3 a) = mat_det3 t a.
Proof. unfold mat_det3. f_equal. rewrite !mat_transpose_ok by lia. ring. Qed.
Theorem mat_det2_swap t a : 1 <= fW t -> converts2 t (- det 2 a) (- (2 * fF t)) (mat_det2 t (swap_rows 0 1 a)).
Proof.
  intros H. apply (conv_eq_converts2 t _ _ (2 * fF t)); [assumption|lia|]. unfold mat_det2. f_equal. rewrite det2_eq. unfold swap_rows. cbn [Nat.eqb]. ring.
Qed.
Theorem mat_det3_swap t a r1 r2 : 1 <= fW t -> (r1 < r2 < 3)%nat -> converts2 t (- det 3 a) (- (3 * fF t)) (mat_det3 t (swap_rows r1 r2 a)).
Proof.
  intros H Hr. apply (conv_eq_converts2 t _ _ (3 * fF t)); [assumption|lia|]. unfold mat_det3. f_equal. rewrite det3_eq. unfold swap_rows.
  assert (r1 = 0 /\ r2 = 1 \/ r1 = 0 /\ r2 = 2 \/ r1 = 1 /\ r2 = 2)%nat as [[-> ->]|[[-> ->]|[-> ->]]] by lia; cbn [Nat.eqb]; ring.
Qed.

(** *** construction from an initializer list *)

Lemma mset_some {A} M N (m : list (list A)) r c v : shape2 M N m -> (r < M)%nat -> (c < N)%nat ->
  exists m', mset m r c v = Some m' /\ shape2 M N m' /\
    forall i j, at2 m' i j = if Nat.eqb i r && Nat.eqb j c then Some v else at2 m i j.
Proof.
  intros [L S] Hr Hc. unfold mset. destruct (nth_error m r) as [row|] eqn:E; [|apply nth_error_None in E; lia]. cbn [obind].
  pose proof (S row (nth_error_In _ _ E)) as Lr.
  destruct (upd_some row c v ltac:(lia)) as (row' & E1 & L1 & N1). rewrite E1. cbn [obind].
  destruct (upd_some m r row' ltac:(lia)) as (m' & E2 & L2 & N2). exists m'. split; [exact E2|]. split.
  - split; [congruence|]. intros x Hx. apply In_nth_error in Hx. destruct Hx as [k Hk]. rewrite N2 in Hk.
    destruct (Nat.eqb k r); [injection Hk as <-; congruence|]. apply S. apply nth_error_In in Hk. exact Hk.
  - intros i j. unfold at2. rewrite N2. destruct (Nat.eqb_spec i r) as [->|]; cbn [andb]; [|reflexivity].
    rewrite N1, E. reflexivity.
Qed.

Lemma mset_none {A} M N (m : list (list A)) r c v : shape2 M N m -> (M <= r)%nat -> mset m r c v = None.
Proof. intros [L S] Hr. unfold mset. replace (nth_error m r) with (@None (list A)); [reflexivity|]. symmetry. apply nth_error_None. lia. Qed.

Lemma init_index {A} M N (vs : list A) o k :
  snd (fold_left (fun '(o, index) v => (obind o (fun m => mset m (index / M) (index mod N) v), S index)) vs (o, k)) = (k + length vs)%nat.
Proof. revert o k. induction vs as [|v vs IH]; intros o k; cbn [fold_left length snd]; [lia|]. rewrite IH. lia. Qed.

Lemma init_snoc {A} M N m (vs : list A) v :
  init_list M N m (vs ++ [v]) = obind (init_list M N m vs) (fun m => mset m (length vs / M) (length vs mod N) v).
Proof.
  unfold init_list. rewrite fold_left_app. pose proof (init_index M N vs (Some m) 0) as E.
  destruct (fold_left _ vs _) as [o k]. cbn [snd fold_left fst] in *. subst k. reflexivity.
Qed.

Theorem init_square {A} N (m : list (list A)) vs : (1 <= N)%nat -> shape2 N N m -> (length vs <= N * N)%nat ->
  exists m', init_list N N m vs = Some m' /\ shape2 N N m' /\
    forall r c, (r < N)%nat -> (c < N)%nat -> at2 m' r c = match nth_error vs (r * N + c) with Some v => Some v | None => at2 m r c end.
Proof.
  intros HN HS. induction vs as [|v vs IH] using rev_ind; intros HL.
  - exists m. repeat split; try apply HS. intros r c _ _. destruct (r * N + c)%nat; reflexivity.
  - rewrite app_length in HL. cbn [length] in HL. destruct IH as (m1 & E1 & S1 & A1); [lia|].
    rewrite init_snoc, E1. cbn [obind].
    destruct (mset_some N N m1 (length vs / N) (length vs mod N) v S1) as (m2 & E2 & S2 & A2).
    { apply Nat.div_lt_upper_bound; lia. } { apply Nat.mod_upper_bound. lia. }
    exists m2. split; [exact E2|]. split; [exact S2|]. intros r c Hr Hc. rewrite A2.
    pose proof (Nat.div_mod (length vs) N ltac:(lia)) as D. pose proof (Nat.mod_upper_bound (length vs) N ltac:(lia)) as B.
    destruct (Nat.eq_dec (r * N + c) (length vs)) as [E|NE].
    + rewrite <- E in *. replace ((r * N + c) / N)%nat with r by (apply (Nat.div_unique _ N r c); lia).
      replace ((r * N + c) mod N)%nat with c by (apply (Nat.mod_unique _ N r c); lia).
      rewrite !Nat.eqb_refl. cbn [andb]. rewrite nth_error_app2 by lia. rewrite E, Nat.sub_diag. reflexivity.
    + replace (Nat.eqb r (length vs / N) && Nat.eqb c (length vs mod N)) with false.
      * rewrite A1 by assumption. destruct (Nat.lt_ge_cases (r * N + c) (length vs)).
        -- rewrite nth_error_app1 by lia. reflexivity.
        -- replace (nth_error vs (r * N + c)) with (@None A) by (symmetry; apply nth_error_None; lia).
           replace (nth_error (vs ++ [v]) (r * N + c)) with (@None A) by (symmetry; apply nth_error_None; rewrite app_length; cbn; lia). reflexivity.
      * destruct (Nat.eqb_spec r (length vs / N)) as [->|]; [|reflexivity]. destruct (Nat.eqb_spec c (length vs mod N)) as [->|]; [|reflexivity]. lia.
Qed.

Lemma init_none_app {A} M N m (vs ws : list A) : init_list M N m vs = None -> init_list M N m (vs ++ ws) = None.
Proof.
  intros H. induction ws as [|w ws IH] using rev_ind; [rewrite app_nil_r; exact H|]. rewrite app_assoc, init_snoc, IH. reflexivity.
Qed.

(** More columns than rows: a full list leaves the storage. *)
Theorem init_wide {A} M N (m : list (list A)) vs : (1 <= M < N)%nat -> shape2 M N m -> length vs = (M * N)%nat -> init_list M N m vs = None.
Proof.
  intros H HS HL.
  assert (G : forall ws, (length ws <= M * M)%nat -> exists m', init_list M N m ws = Some m' /\ shape2 M N m').
  { induction ws as [|w ws IH] using rev_ind; intros L; [exists m; split; [reflexivity|exact HS]|].
    rewrite app_length in L. cbn [length] in L. destruct IH as (m1 & E1 & S1); [lia|]. rewrite init_snoc, E1. cbn [obind].
    destruct (mset_some M N m1 (length ws / M) (length ws mod N) w S1) as (m2 & E2 & S2 & _);
      [apply Nat.div_lt_upper_bound; lia|apply Nat.mod_upper_bound; lia|]. eauto. }
  set (pre := firstn (M * M) vs). assert (LP : length pre = (M * M)%nat) by (unfold pre; rewrite firstn_length; nia).
  rewrite <- (firstn_skipn (S (M * M)) vs). apply init_none_app.
  assert (EX : exists v, firstn (S (M * M)) vs = pre ++ [v]).
  { pose proof (firstn_skipn (M * M) vs) as E. fold pre in E. destruct (skipn (M * M) vs) as [|v rest] eqn:ES.
    - exfalso. assert (length (skipn (M * M) vs) = 0%nat) by (rewrite ES; reflexivity). rewrite skipn_length in *. nia.
    - exists v. rewrite <- E. rewrite <- LP at 1. replace (S (length pre)) with (length pre + 1)%nat by lia. rewrite firstn_app_2. reflexivity. }
  destruct EX as [v ->]. rewrite init_snoc. destruct (G pre ltac:(lia)) as (m1 & -> & S1). cbn [obind].
  apply (mset_none M N); [exact S1|]. rewrite LP, Nat.div_mul by lia. lia.
Qed.

(** More rows than columns: value number N does not arrive at row 1, column 0. *)
Theorem init_tall M N (m m' : list (list nat)) : (1 <= N < M)%nat -> shape2 M N m -> at2 m 1 0 <> Some N ->
  init_list M N m (seq 0 (M * N)) = Some m' -> at2 m' 1 0 <> Some N.
Proof.
  intros H HS HI. revert m'.
  assert (G : forall k, exists m1, init_list M N m (seq 0 (Nat.min k (M * N))) = Some m1 /\ shape2 M N m1 /\ at2 m1 1 0 <> Some N).
  { induction k as [|k (m1 & E1 & S1 & A1)]; [exists m; repeat split; try apply HS; exact HI|].
    destruct (Nat.lt_ge_cases k (M * N)) as [Hk|Hk]; [|rewrite Nat.min_r in * by lia; eauto].
    rewrite Nat.min_l in * by lia. rewrite seq_S, init_snoc, E1. cbn [obind plus]. rewrite seq_length.
    assert (k / M < M)%nat. { apply Nat.div_lt_upper_bound; nia. }
    destruct (mset_some M N m1 (k / M) (k mod N) k S1) as (m2 & E2 & S2 & A2); [assumption|apply Nat.mod_upper_bound; lia|].
    exists m2. split; [exact E2|]. split; [exact S2|]. rewrite A2. destruct (Nat.eqb_spec 1 (k / M)) as [E|]; cbn [andb]; [|exact A1].
    destruct (Nat.eqb 0 (k mod N)); [|exact A1]. intros X. injection X as ->. rewrite Nat.div_small in E by lia. discriminate. }
  intros m' E. destruct (G (M * N)%nat) as (m1 & E1 & _ & A1). rewrite Nat.min_id in E1. congruence.
Qed.
