(** ac_matrixmul and ac_determinant on complex elements. *)
From Coq Require Import Lia ZifyBool Ring Permutation.
From Verif Require Import AcTypes AcFacts Spec SpecFacts ShiftFacts SpecMat SpecCplx RtTypes RtFacts MatrixModel DetModel MatCplxModel DetFacts MatrixProofs DetProofs.
From Verif Require AbsProofs.

Lemma gi_ring : ring_theory ((0, 0) : gi) (1, 0) gadd gmul (fun x y => gadd x (gopp y)) gopp eq.
Proof. split; intros; unfold gadd, gmul, gopp; cbn [fst snd]; repeat match goal with x : gi |- _ => destruct x end; cbn [fst snd]; try reflexivity; f_equal; ring. Qed.
Add Ring giR : gi_ring.
Lemma gi_ring_pair : @ring_theory (Z * Z) (0, 0) (1, 0) gadd gmul (fun x y => gadd x (gopp y)) gopp eq.
Proof. exact gi_ring. Qed.
Add Ring giRp : gi_ring_pair.
Ltac gring := match goal with |- @eq _ ?a ?b => first [change (@eq gi a b); ring | change (@eq (Z * Z)%type a b); ring] end.

Lemma gscale_mul c x : gscale c x = gmul (c, 0) x.
Proof. destruct x. unfold gscale, gmul. cbn [fst snd]. f_equal; ring. Qed.
Lemma c_mul_g x y : c_mul x y = gmul x y.
Proof. reflexivity. Qed.
Lemma c_add_g x y : c_add x y = gadd x y.
Proof. reflexivity. Qed.
Lemma c_align_g k x : c_align k x = gscale (2 ^ k) x.
Proof. unfold c_align, gscale. f_equal; ring. Qed.
Lemma gscale_gscale a b x : gscale a (gscale b x) = gscale (a * b) x.
Proof. unfold gscale. cbn [fst snd]. f_equal; ring. Qed.
Lemma gscale_add c x y : gscale c (gadd x y) = gadd (gscale c x) (gscale c y).
Proof. unfold gscale, gadd. cbn [fst snd]. f_equal; ring. Qed.
Lemma gmul_gscale c x y : gmul x (gscale c y) = gscale c (gmul x y).
Proof. unfold gscale, gmul. cbn [fst snd]. f_equal; ring. Qed.

Lemma norm1_add x y : norm1 (gadd x y) <= norm1 x + norm1 y.
Proof. unfold norm1, gadd. cbn [fst snd]. lia. Qed.
Lemma norm1_mul x y : norm1 (gmul x y) <= norm1 x * norm1 y.
Proof.
  unfold norm1, gmul. cbn [fst snd]. rewrite Z.mul_add_distr_r, !Z.mul_add_distr_l, <- !Z.abs_mul. lia.
Qed.
Lemma norm1_nonneg x : 0 <= norm1 x.
Proof. unfold norm1. lia. Qed.
Lemma norm1_scale c x : norm1 (gscale c x) = Z.abs c * norm1 x.
Proof. unfold norm1, gscale. cbn [fst snd]. rewrite !Z.abs_mul. ring. Qed.

(** *** Laplace expansion *)
Lemma gsum_list_app a b : gsum_list (a ++ b) = gadd (gsum_list a) (gsum_list b).
Proof. unfold gsum_list. induction a as [|x a IH]; cbn [app fold_right]; [gring|]. rewrite IH. gring. Qed.
Lemma gsum_list_flat {A} (f : A -> list gi) l : gsum_list (flat_map f l) = gsum_list (map (fun x => gsum_list (f x)) l).
Proof. induction l as [|x l IH]; [reflexivity|]. cbn [flat_map map]. rewrite gsum_list_app, IH. reflexivity. Qed.
Lemma gsum_list_scale {A} c (f : A -> gi) l : gsum_list (map (fun x => gmul c (f x)) l) = gmul c (gsum_list (map f l)).
Proof. unfold gsum_list. induction l as [|x l IH]; cbn [map fold_right]; [gring|]. rewrite IH. gring. Qed.
Lemma gsum_list_ext {A} (f g : A -> gi) l : (forall x, In x l -> f x = g x) -> gsum_list (map f l) = gsum_list (map g l).
Proof. intros H. f_equal. apply map_ext_in. exact H. Qed.
Lemma gsum_list_seq f n : gsum_list (map f (seq 0 n)) = gsum n f.
Proof.
  induction n as [|n IH]; [reflexivity|]. rewrite seq_S, map_app, gsum_list_app, IH. unfold gsum_list. cbn [plus map fold_right gsum]. gring.
Qed.
Lemma gprod_map a f p : forall i, gprod_from a i (map f p) = gprod_from (fun i c => a i (f c)) i p.
Proof. induction p as [|c p IH]; intros i; [reflexivity|]. cbn [map gprod_from]. rewrite IH. reflexivity. Qed.
Lemma gprod_shift a b p : (forall i c, a (S i) c = b i c) -> forall i, gprod_from a (S i) p = gprod_from b i p.
Proof. intros H. induction p as [|c p IH]; intros i; [reflexivity|]. cbn [gprod_from]. rewrite H, IH. reflexivity. Qed.
Lemma cminor_skip j A p q : cdet_minor j A p q = A (S p) (skip j q).
Proof.
  unfold cdet_minor, skip. destruct (Nat.leb (S q) j) eqn:E, (Nat.ltb q j) eqn:E2; f_equal; lia.
Qed.

Theorem gdet_laplace n A : gdet (S n) A = gsum (S n) (fun j => gmul (A O j) (gscale (alt j) (gdet n (cdet_minor j A)))).
Proof.
  unfold gdet at 1. cbn [perms]. rewrite selects_seq, flat_map_map, map_flat_map, gsum_list_flat. rewrite <- gsum_list_seq.
  apply gsum_list_ext. intros j Hj. apply in_seq in Hj. cbn [fst snd]. rewrite map_map, perms_map, map_map.
  unfold gdet. rewrite gscale_mul. rewrite <- !gsum_list_scale. apply gsum_list_ext. intros p Hp.
  apply perms_perm in Hp; [|apply seq_length]. change (if Nat.even (inversions ?q) then 1 else -1) with (sgn q).
  rewrite (sgn_cons j n p Hp ltac:(lia)). cbn [gprod_from]. rewrite gprod_map.
  rewrite (gprod_shift (fun i c => A i (skip j c)) (cdet_minor j A)) by (intros; rewrite cminor_skip; reflexivity).
  rewrite !gscale_mul. replace ((alt j * sgn p, 0) : gi) with (gmul (alt j, 0) (sgn p, 0)); [gring|].
  unfold gmul. cbn [fst snd]. f_equal; ring.
Qed.
Lemma gdet_1 A : gdet 1 A = A O O.
Proof. unfold gdet. cbn -[Z.mul Z.add gscale gmul gadd]. rewrite gscale_mul. gring. Qed.
Lemma gdet2_eq A : gdet 2 A = gadd (gmul (A O O) (A 1%nat 1%nat)) (gopp (gmul (A O 1%nat) (A 1%nat O))).
Proof.
  rewrite gdet_laplace. cbn [gsum]. rewrite !gdet_1. unfold cdet_minor, alt. cbn [Nat.leb Nat.sub Nat.even]. rewrite !gscale_mul.
  change ((-1, 0) : gi) with (gopp (1, 0)). gring.
Qed.
Lemma norm1_alt j x : norm1 (gscale (alt j) x) = norm1 x.
Proof. rewrite norm1_scale, alt_abs. ring. Qed.

Lemma gdet_bound n : forall A B, 0 <= B -> (forall i j, (i < n)%nat -> (j < n)%nat -> norm1 (A i j) <= B) ->
  norm1 (gdet n A) <= Z.of_nat (fact n) * B ^ Z.of_nat n /\ forall k, (k <= n)%nat -> norm1 (gsum k (fun j => gmul (A O j) (gscale (alt j) (gdet (n - 1) (cdet_minor j A))))) <= Z.of_nat (fact n) * B ^ Z.of_nat n.
Proof.
  induction n as [|n IH]; intros A B HB H.
  - split; [cbn; lia|]. intros k Hk. replace k with O by lia. cbn. lia.
  - cut (forall k, (k <= S n)%nat -> norm1 (gsum k (fun j => gmul (A O j) (gscale (alt j) (gdet n (cdet_minor j A))))) <= Z.of_nat (fact (S n)) * B ^ Z.of_nat (S n)).
    { intros K. split; [rewrite gdet_laplace; apply K; lia|]. cbn [Nat.sub]. rewrite Nat.sub_0_r. exact K. }
    assert (P : 0 <= Z.of_nat (fact n) * B ^ Z.of_nat n) by (apply Z.mul_nonneg_nonneg; [lia|apply Z.pow_nonneg; lia]).
    assert (K : forall k, (k <= S n)%nat -> norm1 (gsum k (fun j => gmul (A O j) (gscale (alt j) (gdet n (cdet_minor j A))))) <= Z.of_nat k * (B * (Z.of_nat (fact n) * B ^ Z.of_nat n))).
    { induction k as [|k IHk]; intros Hk; [cbn; lia|]. cbn [gsum]. specialize (IHk ltac:(lia)).
      assert (T : norm1 (gmul (A O k) (gscale (alt k) (gdet n (cdet_minor k A)))) <= B * (Z.of_nat (fact n) * B ^ Z.of_nat n)).
      { eapply Z.le_trans; [apply norm1_mul|]. rewrite norm1_alt. apply Z.mul_le_mono_nonneg; [apply norm1_nonneg|apply H; lia|apply norm1_nonneg|].
        apply IH; [exact HB|]. intros i j Hi Hj. rewrite cminor_skip. apply H; [lia|]. unfold skip. destruct (Nat.ltb j k); lia. }
      rewrite Nat2Z.inj_succ, Z.mul_succ_l. eapply Z.le_trans; [apply norm1_add|]. lia. }
    intros k Hk. eapply Z.le_trans; [apply K; exact Hk|].
    change (fact (S n)) with (S n * fact n)%nat. rewrite Nat2Z.inj_mul, (Nat2Z.inj_succ n), Z.pow_succ_r by lia.
    replace (Z.succ (Z.of_nat n) * Z.of_nat (fact n) * (B * B ^ Z.of_nat n)) with (Z.succ (Z.of_nat n) * (B * (Z.of_nat (fact n) * B ^ Z.of_nat n))) by ring.
    apply Z.mul_le_mono_nonneg_r; [apply Z.mul_nonneg_nonneg; lia|lia].
Qed.

(** *** Conversions of both parts *)
Lemma c_holds f e b v : holds f e b -> norm1 v <= b -> c_conv f v e = gscale (2 ^ (fF f - e)) v.
Proof.
  intros H Hv. unfold norm1 in Hv. unfold c_conv, gscale. rewrite !(holds_conv f e b) by (try exact H; lia). f_equal; ring.
Qed.
Lemma c_rescale f v e g : e <= g -> c_conv f (gscale (2 ^ (g - e)) v) g = c_conv f v e.
Proof. intros H. unfold c_conv, gscale. cbn [fst snd]. rewrite !(Z.mul_comm (2 ^ _)), !conv_rescale by exact H. reflexivity. Qed.
Lemma c_zero f : 1 <= fW f -> c_conv f (0, 0) 0 = (0, 0).
Proof. intros H. unfold c_conv. cbn [fst snd]. rewrite AbsProofs.conv_0 by exact H. reflexivity. Qed.

Section Exact.
  Variable T : det_types.
  Variable B : Z.
  Variable n : nat.
  Let bnd (k : nat) : Z := Z.of_nat (fact k) * B ^ Z.of_nat k.
  Let centries (k : nat) (A : nat -> nat -> gi) := forall i j, (i < k)%nat -> (j < k)%nat -> norm1 (A i j) <= B.
  Let F := fF (t_in T).
  Hypothesis HB : 0 <= B.
  Hypothesis Htemp : forall k, (2 <= k < n)%nat -> holds (t_temp T) (Z.of_nat k * F) (bnd k).
  Hypothesis Hc : forall k, (2 <= k < n)%nat -> holds (t_c T) (Z.of_nat k * F) (bnd k).
  Hypothesis Hd : forall k, (3 <= k <= n)%nat -> holds (t_d T) (Z.of_nat k * F) (bnd k).
  Hypothesis Hout : forall k, (3 <= k < n)%nat -> holds (t_out T) (Z.of_nat k * F) (bnd k).
  Hypothesis Hbase1 : holds (t_base T) F (bnd 1).
  Hypothesis Hbase2 : (2 <= n)%nat -> holds (t_base T) (2 * F) (bnd 2).

  Let gdet_bnd k A : centries k A -> norm1 (gdet k A) <= bnd k.
  Proof. intros H. apply (gdet_bound k A B HB H). Qed.
  Let centries_minor k j A : centries (S k) A -> centries k (cdet_minor j A).
  Proof. intros H p q Hp Hq. rewrite cminor_skip. apply H; [lia|]. unfold skip. destruct (Nat.ltb q j); lia. Qed.

  Let cdet_d (M : nat) (A : nat -> nat -> gi) : gi :=
    fold_left (fun d j => cdet_acc T d (c_mul (A O j)
        (let temp := c_conv (t_temp T) (cdet_compute T (M - 1) (cdet_minor j A)) (fF (ret_type T (M - 1))) in
         c_conv (t_c T) (Nat.iter (S j) (fun pr => -1 * pr) (-1) * fst temp, Nat.iter (S j) (fun pr => -1 * pr) (-1) * snd temp) (fF (t_temp T)))))
      (seq 0 M) (c_conv (t_d T) (0, 0) 0).
  Let cdet_compute_d M A : (3 <= M)%nat -> cdet_compute T M A = c_conv (t_out T) (cdet_d M A) (fF (t_d T)).
  Proof. intros H. destruct M as [|[|[|m]]]; try lia. unfold cdet_d. rewrite Nat.sub_succ, Nat.sub_0_r. reflexivity. Qed.

  Lemma cdet_exact_both k : forall A, (1 <= k <= n)%nat -> centries k A ->
    ((k <= 2)%nat \/ (k < n)%nat -> Z.of_nat k * F <= fF (ret_type T k) /\ cdet_compute T k A = gscale (2 ^ (fF (ret_type T k) - Z.of_nat k * F)) (gdet k A)) /\
    ((3 <= k)%nat -> cdet_d k A = gscale (2 ^ (fF (t_d T) - Z.of_nat k * F)) (gdet k A)).
  Proof.
    induction k as [|k IH]; intros A Hk HA; [lia|].
    destruct k as [|[|k]].
    - split; [|lia]. intros _. cbn [cdet_compute]. unfold ret_type. cbn [Nat.leb]. replace (Z.of_nat 1 * F) with F by lia.
      split; [apply Hbase1|]. rewrite gdet_1. change (fF (t_in T)) with F. apply (c_holds _ _ (bnd 1)); [exact Hbase1|].
      rewrite <- gdet_1. apply gdet_bnd; assumption.
    - split; [|lia]. intros _. unfold ret_type. cbn [Nat.leb]. replace (Z.of_nat 2 * F) with (2 * F) by lia.
      specialize (Hbase2 ltac:(lia)). split; [apply Hbase2|].
      assert (Hprod : forall i j i' j', (i < 2)%nat -> (j < 2)%nat -> (i' < 2)%nat -> (j' < 2)%nat -> norm1 (c_mul (A i j) (A i' j')) <= bnd 2).
      { intros i j i' j' H1 H2 H3 H4. rewrite c_mul_g. eapply Z.le_trans; [apply norm1_mul|]. unfold bnd. change (Z.of_nat (fact 2)) with 2. change (Z.of_nat 2) with 2.
        rewrite Z.pow_2_r. pose proof (HA i j H1 H2). pose proof (HA i' j' H3 H4). pose proof (norm1_nonneg (A i j)). pose proof (norm1_nonneg (A i' j')).
        assert (norm1 (A i j) * norm1 (A i' j') <= B * B) by (apply Z.mul_le_mono_nonneg; lia). nia. }
      cbn [cdet_compute]. change (fF (t_in T)) with F.
      rewrite !(c_holds (t_base T) (2 * F) (bnd 2)) by (first [exact Hbase2|apply Hprod; lia]).
      change c_mul with gmul. 
      assert (E : c_sub (gscale (2 ^ (fF (t_base T) - 2 * F)) (gmul (A O O) (A 1%nat 1%nat))) (gscale (2 ^ (fF (t_base T) - 2 * F)) (gmul (A O 1%nat) (A 1%nat O)))
        = gscale (2 ^ (fF (t_base T) - 2 * F)) (gdet 2 A)).
      { rewrite gdet2_eq. unfold c_sub, gscale, gadd, gopp. cbn [fst snd]. f_equal; ring. }
      rewrite E. rewrite c_rescale by apply Hbase2. apply (c_holds _ _ (bnd 2)); [exact Hbase2|]. apply gdet_bnd; assumption.
    - set (m := S (S k)) in *.
      assert (DD : cdet_d (S m) A = gscale (2 ^ (fF (t_d T) - Z.of_nat (S m) * F)) (gdet (S m) A)).
      { unfold cdet_d. replace (S m - 1)%nat with m by lia.
        pose proof (Htemp m ltac:(lia)) as HT. pose proof (Hc m ltac:(lia)) as HC. pose proof (Hd (S m) ltac:(lia)) as HD.
        rewrite gdet_laplace. rewrite c_zero by apply HD.
        assert (G : forall q, (q <= S m)%nat -> fold_left (fun d j => cdet_acc T d (c_mul (A O j)
            (let temp := c_conv (t_temp T) (cdet_compute T m (cdet_minor j A)) (fF (ret_type T m)) in
             c_conv (t_c T) (Nat.iter (S j) (fun pr => -1 * pr) (-1) * fst temp, Nat.iter (S j) (fun pr => -1 * pr) (-1) * snd temp) (fF (t_temp T))))) (seq 0 q) (0, 0)
            = gscale (2 ^ (fF (t_d T) - Z.of_nat (S m) * F)) (gsum q (fun j => gmul (A O j) (gscale (alt j) (gdet m (cdet_minor j A)))))); [|apply G; lia].
        induction q as [|q IHq]; intros Hq; [unfold gscale; cbn [gsum fst snd seq fold_left]; rewrite Z.mul_0_r; reflexivity|].
        rewrite seq_S, fold_left_app, IHq by lia. cbn [fold_left plus gsum]. cbv zeta.
        rewrite iter_pr.
        pose proof (centries_minor m q A HA) as HM. destruct (IH (cdet_minor q A) ltac:(lia) HM) as [[FR ER] _]; [right; lia|].
        pose proof (gdet_bnd m (cdet_minor q A) HM) as BM.
        rewrite ER. rewrite c_rescale by exact FR. rewrite (c_holds _ _ (bnd m) _ HT BM).
        set (dm := gdet m (cdet_minor q A)) in *.
        assert (E1 : (alt q * fst (gscale (2 ^ (fF (t_temp T) - Z.of_nat m * F)) dm), alt q * snd (gscale (2 ^ (fF (t_temp T) - Z.of_nat m * F)) dm))
          = gscale (2 ^ (fF (t_temp T) - Z.of_nat m * F)) (gscale (alt q) dm)) by (unfold gscale; cbn [fst snd]; f_equal; ring).
        rewrite E1, c_rescale by apply HT.
        rewrite (c_holds _ _ (bnd m)) by (first [exact HC|rewrite norm1_alt; exact BM]).
        unfold cdet_acc. change (fF (t_in T)) with F. set (Fp := F + fF (t_c T)). set (FF := Z.max (fF (t_d T)) Fp).
        set (s := gsum q _). change c_mul with gmul; rewrite gmul_gscale, !c_align_g, !gscale_gscale. change c_add with gadd.
        assert (EF : Z.of_nat (S m) * F = F + Z.of_nat m * F) by lia.
        destruct HC as (_ & _ & HC & _). destruct HD as (HD1 & HD2 & HD & HD3).
        rewrite <- !pow2_add by lia.
        replace (FF - fF (t_d T) + (fF (t_d T) - Z.of_nat (S m) * F)) with (FF - Z.of_nat (S m) * F) by lia.
        replace (FF - Fp + (fF (t_c T) - Z.of_nat m * F)) with (FF - Z.of_nat (S m) * F) by lia.
        rewrite <- gscale_add, c_rescale by lia.
        apply (c_holds _ _ (bnd (S m))); [repeat split; assumption|].
        pose proof (proj2 (gdet_bound (S m) A B HB HA) (S q) Hq) as BB. replace (S m - 1)%nat with m in BB by lia. exact BB. }
      split; [|intros _; exact DD]. intros [H|H]; [lia|]. unfold ret_type. replace (Nat.leb (S m) 2) with false by lia.
      pose proof (Hout (S m) ltac:(lia)) as HO. split; [apply HO|]. rewrite cdet_compute_d by lia. rewrite DD.
      rewrite c_rescale by (apply (Hd (S m)); lia). apply (c_holds _ _ (bnd (S m))); [exact HO|]. apply gdet_bnd; assumption.
  Qed.
  Lemma cdet_n A : (1 <= n)%nat -> centries n A -> holds (t_d T) (Z.of_nat n * F) (bnd n) -> holds (t_out T) (Z.of_nat n * F) (bnd n) ->
    cdeterminant T n A = gscale (2 ^ (fF (t_out T) - Z.of_nat n * F)) (gdet n A).
  Proof.
    intros H1 HA HD HO. destruct (cdet_exact_both n A ltac:(lia) HA) as [E1 E2]. pose proof (gdet_bnd n A HA) as BN.
    unfold cdeterminant. destruct (Nat.le_gt_cases n 2) as [L|L].
    - destruct E1 as [L1 E1]; [left; exact L|]. rewrite E1, c_rescale by exact L1. rewrite (c_holds _ _ _ _ HD BN), c_rescale by apply HD.
      apply (c_holds _ _ _ _ HO BN).
    - rewrite cdet_compute_d, E2 by lia. unfold ret_type. replace (Nat.leb n 2) with false by lia.
      rewrite c_rescale by apply HD. rewrite (c_holds _ _ _ _ HO BN), c_rescale by apply HO.
      rewrite (c_holds _ _ _ _ HD BN), c_rescale by apply HD. apply (c_holds _ _ _ _ HO BN).
  Qed.
End Exact.

Theorem cdeterminant_exact T M A B : (1 <= M)%nat -> 0 <= B ->
  (forall i j, (i < M)%nat -> (j < M)%nat -> norm1 (A i j) <= B) ->
  let F := fF (t_in T) in
  let b k := Z.of_nat (fact k) * B ^ Z.of_nat k in
  (forall k, (1 <= k <= M)%nat -> holds (t_temp T) (Z.of_nat k * F) (b k) /\ holds (t_c T) (Z.of_nat k * F) (b k) /\
     holds (t_d T) (Z.of_nat k * F) (b k) /\ holds (t_out T) (Z.of_nat k * F) (b k) /\
     ((k <= 2)%nat -> holds (t_base T) (Z.of_nat k * F) (b k))) ->
  cdeterminant T M A = gscale (2 ^ (fF (t_out T) - Z.of_nat M * F)) (gdet M A).
Proof.
  intros HM HB HA F b H. 
  assert (H1 : holds (t_base T) F (b 1%nat)) by (replace F with (Z.of_nat 1 * F) by lia; apply H; lia).
  assert (H2 : (2 <= M)%nat -> holds (t_base T) (2 * F) (b 2%nat)) by (intros; replace (2 * F) with (Z.of_nat 2 * F) by lia; apply H; lia).
  apply (cdet_n T B M); try assumption; try (intros; apply H; lia).
Qed.
Theorem cdeterminant_default_exact M L tin tout A B : (1 <= M)%nat -> 0 <= L -> 1 <= fW tin -> 0 <= fF tin ->
  2 ^ fF tin <= B <= 2 ^ (fW tin - 1) ->
  (forall i j, (i < M)%nat -> (j < M)%nat -> norm1 (A i j) <= B) ->
  Z.of_nat (fact M) * B ^ Z.of_nat M <= 2 ^ (Z.of_nat M * fW tin - 1) - 1 ->
  (forall k, (1 <= k <= M)%nat -> holds tout (Z.of_nat k * fF tin) (Z.of_nat (fact k) * B ^ Z.of_nat k)) ->
  cdeterminant (cdet_default (Z.of_nat M) L tin tout) M A = gscale (2 ^ (fF tout - Z.of_nat M * fF tin)) (gdet M A).
Proof.
  intros HM HL HW HF HB HA HS HO. pose proof (pow2_pos (fF tin) HF) as PF.
  refine (cdeterminant_exact (cdet_default (Z.of_nat M) L tin tout) M A B HM ltac:(lia) HA _).
  intros k Hk. cbn [cdet_default det_default t_in t_temp t_c t_d t_out t_base].
  pose proof (default_bound (fW tin) (fF tin) M B k HW HF ltac:(lia) ltac:(lia) HS) as D.
  set (W := fW tin) in *. set (I := fI tin) in *. assert (EF : fF tin = W - I) by reflexivity. set (F := fF tin) in *.
  set (b := Z.of_nat (fact k) * B ^ Z.of_nat k) in *.
  assert (MF : Z.of_nat M * W - Z.of_nat M * I = Z.of_nat M * F) by (rewrite EF; ring).
  assert (KM : Z.of_nat k * F <= Z.of_nat M * F) by (apply Z.mul_le_mono_nonneg_r; lia).
  assert (MW : 1 <= Z.of_nat M * W) by nia.
  assert (D' : b * 2 ^ (Z.of_nat M * W - Z.of_nat M * I - Z.of_nat k * F) <= 2 ^ (Z.of_nat M * W - 1) - 1) by (rewrite MF; exact D).
  split; [|split; [|split; [|split]]].
  - apply holds_fmt; [lia|lia|exact D'].
  - apply holds_fmt; [lia|lia|]. replace (Z.of_nat M * W + L - (Z.of_nat M * I + L) - Z.of_nat k * F) with (Z.of_nat M * W - Z.of_nat M * I - Z.of_nat k * F) by lia.
    eapply Z.le_trans; [exact D'|]. assert (2 ^ (Z.of_nat M * W - 1) <= 2 ^ (Z.of_nat M * W + L - 1)) by (apply pow2_le; lia). lia.
  - apply holds_fmt; [lia|lia|exact D'].
  - apply HO. exact Hk.
  - intros K2. assert (P1 : 2 ^ (2 * W + 1 - 1) = 2 * (2 * (2 ^ (W - 1) * 2 ^ (W - 1)))).
    { rewrite <- pow2_add by lia. rewrite <- !pow2_succ by lia. f_equal. lia. }
    pose proof (pow2_pos (W - 1) ltac:(lia)) as PW.
    assert (B * B <= 2 ^ (W - 1) * 2 ^ (W - 1)) by (apply Z.mul_le_mono_nonneg; lia).
    apply holds_fmt; [lia|nia|]. rewrite P1.
    assert (k = 1 \/ k = 2)%nat as [->| ->] by lia; unfold b.
    + change (Z.of_nat (fact 1)) with 1. change (Z.of_nat 1) with 1. rewrite Z.pow_1_r.
      replace (2 * W + 1 - (2 * I + 1) - 1 * F) with F by lia.
      assert (B * 2 ^ F <= B * B) by (apply Z.mul_le_mono_nonneg_l; lia). lia.
    + change (Z.of_nat (fact 2)) with 2. change (Z.of_nat 2) with 2. rewrite Z.pow_2_r.
      replace (2 * W + 1 - (2 * I + 1) - 2 * F) with 0 by lia. change (2 ^ 0) with 1. lia.
Qed.
