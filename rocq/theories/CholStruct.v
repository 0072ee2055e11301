(** Structure of the results of ac_chol_d and ac_cholinv, and the matrices on which they go wrong. *)
From Coq Require Import Reals Lia Lra Psatz.
From Verif Require Import AcTypes AcFacts Spec SpecFacts SpecR SpecRFacts SpecLin RtTypes DivModel DivProofs DivSpecs PwlModel PwlProofs PwlReal MatrixModel MatrixProofs SoftFacts
  CholModel CholProofs CholReal CholThm.

(** ** ac_chol_d *)
Lemma chol_struct pwl M fa fo fi A junk : 1 <= fW fo -> 1 <= fW fi ->
  exists out L (s : nat -> nat -> Z), chol_d pwl M fa fo fi A junk = Some out /\
    (forall i j, (i < M)%nat -> (j < M)%nat -> in_range (fS fo) (fW fo) (L i j)) /\
    (forall j, (j < M)%nat -> convertsR fi (fxval (A j j) (fF fa)) (s j O) /\
       forall k, (k < j)%nat -> convertsR fi (fxval (s j k) (fF fi) - fxval (L j k) (fF fo) * fxval (L j k) (fF fo)) (s j (S k))) /\
    (forall i j, (i < j < M)%nat -> out i j = Some 0) /\
    ((forall j, (j < M)%nat -> 0 < s j j) -> forall i j, (j <= i < M)%nat -> out i j = Some (L i j)) /\
    ((exists j, (j < M)%nat /\ s j j <= 0) -> zero_out M out).
Proof.
  intros Ho Hi. destruct (chol_d_eq pwl M fa fo fi A junk Ho Hi) as (out & L & E & HC & HO).
  exists out, (fun i j => if Nat.ltb i j then conv fo 0 0 else L i j), (fun j k => chain fo fi (L j) (L j) k (conv fi (A j j) (fF fa))).
  split; [exact E|]. split; [|split; [|split; [|split]]].
  - intros i j Hi' Hj'. destruct (Nat.ltb_spec i j); [apply conv_range, Ho|]. destruct (HC j Hj') as (d & r & _ & ED & EO). destruct (Nat.eq_dec i j) as [->|]; [rewrite ED|rewrite EO by lia]; apply conv_range, Ho.
  - intros j Hj. split; [apply conv_R, Hi|]. intros k Hk. replace (Nat.ltb j k) with false by (symmetry; apply Nat.ltb_ge; lia). apply chain_step, Hi.
  - intros i j H. rewrite HO by lia. replace (Nat.ltb i j) with true by (symmetry; apply Nat.ltb_lt; lia). reflexivity.
  - intros HP i j H. rewrite HO by lia. replace (Nat.ltb i j) with false by (symmetry; apply Nat.ltb_ge; lia).
    replace (all_pos fa fo fi A L M) with true; [reflexivity|]. symmetry. apply forallb_forall. intros k Hk. apply in_seq in Hk. specialize (HP k ltac:(lia)). lia.
  - intros (j & Hj & HN) i k Hi' Hk'. rewrite HO by assumption. replace (all_pos fa fo fi A L M) with false; [rewrite orb_true_r; reflexivity|].
    symmetry. destruct (all_pos fa fo fi A L M) eqn:AP; [|reflexivity]. pose proof (all_pos_k _ _ _ _ _ _ AP j Hj). lia.
Qed.

(** The uninitialised locals never reach the result, unless the reciprocal has no bits at all. *)
Lemma div_junk NW NI DW DI f n d j1 j2 : 0 < NI + (DW - DI) + fF f + guard (fQ f) -> fst (div_ufx NW NI DW DI f n d j1) = fst (div_ufx NW NI DW DI f n d j2).
Proof.
  intros H. pose proof (early_guard NI DW DI f) as E. unfold div_early in E. unfold div_ufx. change (fW f - fI f) with (fF f). rewrite E. replace (_ <=? 0) with false by lia. reflexivity.
Qed.

Lemma fold_left_ext {S T} (f g : S -> T -> S) l : (forall a x, f a x = g a x) -> forall a, fold_left f l a = fold_left g l a.
Proof. intros H. induction l as [|x l IH]; intros a; [reflexivity|]. cbn [fold_left]. rewrite H. apply IH. Qed.

Lemma chol_junk pwl M fa fo fi A j1 j2 : 0 < 1 + fF fo + fF fi + guard (fQ fi) -> chol_d pwl M fa fo fi A j1 = chol_d pwl M fa fo fi A j2.
Proof.
  intros H. unfold chol_d. rewrite (fold_left_ext _ (chol_col pwl M fa fo fi A j2)); [reflexivity|]. intros st j. unfold chol_col. destruct st as [[L ok]|]; [|reflexivity]. cbn [obind].
  destruct (chol_inner _ _ _ _ _ _ _) as [p|]; [|reflexivity]. cbn [obind].
  replace (chol_root pwl fo fi (j1 j) p) with (chol_root pwl fo fi (j2 j) p); [reflexivity|]. unfold chol_root. destruct pwl; [reflexivity|]. cbv zeta. do 2 f_equal. apply div_junk. exact H.
Qed.

(** A matrix with a negative value of its quadratic form for which a factor is returned. *)
Definition mat2 (a b c : Z) : mat := fun i j => match i, j with O, O => a | 1%nat, 1%nat => c | _, _ => b end.
Definition f32_16 : fmt := Fmt 32 16 true RND SAT.
Definition f32_8 : fmt := Fmt 32 8 true RND SAT.

Lemma types_32_16 : chol_types f32_16 f32_16.
Proof. constructor; cbv; try reflexivity; try discriminate; split; discriminate. Qed.

Lemma quad2 (A : nat -> nat -> R) x : (quadR A x 2 = x O * A O O * x O + x O * A O 1%nat * x 1%nat + x 1%nat * A 1%nat O * x O + x 1%nat * A 1%nat 1%nat * x 1%nat)%R.
Proof. unfold quadR. cbn [sumR]. ring. Qed.

Lemma chol_not_psd : ~ (forall M fo fi A junk out, chol_types fo fi -> (forall i j, (i < M)%nat -> (j < M)%nat -> in_range (fS fo) (fW fo) (A i j) /\ A i j = A j i) ->
  (exists x, (quadR (fun i j => fxval (A i j) (fF fo)) x M < 0)%R) -> chol_d false M fo fo fi A junk = Some out -> zero_out M out).
Proof.
  intros H. set (A := mat2 196608 6553600 218453333).
  assert (E : match chol_d false 2 f32_16 f32_16 f32_16 A (fun _ => 0) with Some out => out O O = Some 113512 | None => False end) by (vm_compute; reflexivity).
  destruct (chol_d false 2 f32_16 f32_16 f32_16 A (fun _ => 0)) as [out|] eqn:EC; [|exact E].
  assert (Z0 : out O O = Some 0); [|rewrite Z0 in E; discriminate].
  apply (H 2%nat f32_16 f32_16 A (fun _ => 0) out types_32_16); [|exists (fun i => match i with O => -100 | _ => 3 end)%R|exact EC|lia|lia].
  - intros i j Hi Hj. destruct i as [|[|i]], j as [|[|j]]; try lia; cbv; split; try reflexivity; split; discriminate.
  - rewrite quad2. unfold fxval. cbn [A mat2]. change (fF f32_16) with 16. pose proof (bpow2_pos (- (16))) as P. nra.
Qed.

(** Where the reciprocal of a small diagonal element does not fit, the factor is wrong by far more than the error bound,
    and the matrix need not be positive definite at all. *)
Lemma chol_recip_limited : exists A x L00 L10 out, (forall i j, (i < 2)%nat -> (j < 2)%nat -> in_range true 32 (A i j) /\ A i j = A j i) /\
  (quadR (fun i j => fxval (A i j) 24) x 2 < -900)%R /\
  chol_d false 2 f32_8 f32_8 f32_8 A (fun _ => 0) = Some out /\ out O O = Some L00 /\ out 1%nat O = Some L10 /\
  (fxval (A 1%nat O) 24 - fxval L10 24 * fxval L00 24 >= 0.02)%R.
Proof.
  set (A := mat2 16 524288 1677721600).
  assert (E : match chol_d false 2 f32_8 f32_8 f32_8 A (fun _ => 0) with Some out => out O O = Some 16384 /\ out 1%nat O = Some 134217728 | None => False end) by (vm_compute; split; reflexivity).
  destruct (chol_d false 2 f32_8 f32_8 f32_8 A (fun _ => 0)) as [out|] eqn:EC; [|contradiction].
  exists A, (fun i => match i with O => -32768 | _ => 1 end)%R, 16384, 134217728, out. split; [|split; [|split; [exact EC|split; [apply E|split; [apply E|]]]]].
  - intros i j Hi Hj. destruct i as [|[|i]], j as [|[|j]]; try lia; cbv; split; try reflexivity; split; discriminate.
  - rewrite quad2. unfold fxval. cbn [A mat2]. replace (bpow2 (- (24))) with (/ 16777216)%R by (rewrite bpow2_opp, bpow2_IZR by lia; reflexivity). lra.
  - unfold fxval. cbn [A mat2]. replace (bpow2 (- (24))) with (/ 16777216)%R by (rewrite bpow2_opp, bpow2_IZR by lia; reflexivity). lra.
Qed.

(** ** ac_cholinv *)
Lemma recip_total pwl ft junk l : 1 <= fW ft -> in_range (fS ft) (fW ft) l -> exists r, inv_recip pwl ft junk l = Some r.
Proof.
  intros HW HR. unfold inv_recip. destruct pwl; [|eexists; reflexivity]. destruct (Z.eq_dec l 0) as [->|Hl].
  - rewrite recip_zero by exact HW. eexists; reflexivity.
  - destruct (recip_real TRN (fW ft) (fI ft) (fS ft) ft l HW HW HR Hl) as (o & V & E & _). exists o. exact E.
Qed.

Lemma inv_total pwl M ft L junk : 1 <= fW ft -> (forall i, (i < M)%nat -> in_range (fS ft) (fW ft) (L i i)) ->
  forall l V, (forall i, In i l -> (i < M)%nat) -> exists V', fold_left (inv_col pwl M ft L junk) l (Some V) = Some V'.
Proof.
  intros HW HL. induction l as [|i l IH]; intros V Hin; [exists V; reflexivity|]. cbn [fold_left].
  assert (E : exists V1, inv_col pwl M ft L junk (Some V) i = Some V1).
  { unfold inv_col. cbn [obind]. destruct (recip_total pwl ft junk (L i i) HW (HL i (Hin i (or_introl eq_refl)))) as (r & ->). cbn [obind].
    assert (G : forall l V, (forall j, In j l -> (j < M)%nat) -> exists V', fold_left (fun o j => obind o (fun V => if Nat.leb (S i) j then obind (inv_elem pwl ft L i j junk V) (fun v => Some (put V j i v)) else Some V)) l (Some V) = Some V').
    { induction l0 as [|j l0 IHl]; intros V0 Hin0; [exists V0; reflexivity|]. cbn [fold_left obind]. destruct (Nat.leb (S i) j).
      - unfold inv_elem. destruct (recip_total pwl ft junk (L j j) HW (HL j (Hin0 j (or_introl eq_refl)))) as (r' & ->). cbn [obind]. apply IHl. intros; apply Hin0; right; assumption.
      - apply IHl. intros; apply Hin0; right; assumption. }
    apply G. intros j Hj. apply in_seq in Hj. lia. }
  destruct E as (V1 & ->). apply IH. intros; apply Hin; right; assumption.
Qed.

Lemma inv_sym M ft fo V i j : inv_prod M ft fo V i j = inv_prod M ft fo V j i.
Proof.
  unfold inv_prod. f_equal. apply fold_left_ext. intros s k. rewrite (Bool.orb_comm (Nat.ltb k j)), (Z.mul_comm (V k i)). reflexivity.
Qed.

Lemma cholinv_ok pwl1 pwl2 M fa fo ft A V0 j1 j2 : 1 <= fW fo -> 1 <= fW ft -> exists out, cholinv pwl1 pwl2 M fa fo ft A V0 j1 j2 = Some out /\
  forall i j, (i < M)%nat -> (j < M)%nat -> out i j = out j i /\ in_range (fS fo) (fW fo) (out i j).
Proof.
  intros Ho Ht. unfold cholinv. destruct (chol_d_eq pwl1 M fa ft (imd_fmt ft 0 0 RND SAT) A j1 Ht ltac:(cbn; lia)) as (out & L & E & HC & HO). rewrite E. cbn [obind].
  destruct (inv_total pwl2 M ft (fun i j => match out i j with Some v => v | None => 0 end) j2 Ht) with (l := seq 0 M) (V := V0) as (V & EV).
  - intros i Hi. rewrite HO by assumption. destruct (Nat.ltb i i || _); [unfold in_range, imin, imax; destruct (fS ft); pose proof (pow2_pos (fW ft)); pose proof (pow2_pos (fW ft - 1)); lia|].
    destruct (HC i Hi) as (d & r & _ & -> & _). apply conv_range, Ht.
  - intros i Hi. apply in_seq in Hi. lia.
  - rewrite EV. cbn [obind]. eexists. split; [reflexivity|]. intros i j _ _. split; [apply inv_sym|]. unfold inv_prod. apply conv_range, Ho.
Qed.

(** The zeros that ac_chol_d returns for minus the identity become the largest values. *)
Lemma cholinv_not_zero : exists out, cholinv false false 2 f32_16 f32_16 f32_16 (mat2 (-65536) 0 (-65536)) (fun _ _ => 0) (fun _ => 0) 0 = Some out /\ out O O = imax true 32 /\ out 1%nat 1%nat = imax true 32.
Proof.
  assert (E : match cholinv false false 2 f32_16 f32_16 f32_16 (mat2 (-65536) 0 (-65536)) (fun _ _ => 0) (fun _ => 0) 0 with Some out => out O O = imax true 32 /\ out 1%nat 1%nat = imax true 32 | None => False end) by (vm_compute; split; reflexivity).
  destruct (cholinv false false 2 _ _ _ _ _ _ _) as [out|]; [|contradiction]. exists out. split; [reflexivity|exact E].
Qed.
Lemma cholinv_zero_false : ~ (forall M fo A V0 j1 j2, 1 <= fW fo -> (forall i j, (i < M)%nat -> (j < M)%nat -> A i j = A j i) ->
  (exists x, (quadR (fun i j => fxval (A i j) (fF fo)) x M < 0)%R) ->
  exists out, cholinv false false M fo fo fo A V0 j1 j2 = Some out /\ forall i j, (i < M)%nat -> (j < M)%nat -> out i j = 0).
Proof.
  intros H. destruct cholinv_not_zero as (out & E & E1 & _). destruct (H 2%nat f32_16 (mat2 (-65536) 0 (-65536)) (fun _ _ => 0) (fun _ => 0) 0) as (out' & E' & Z0).
  - cbv. discriminate.
  - intros i j Hi Hj. destruct i as [|[|i]], j as [|[|j]]; try lia; reflexivity.
  - exists (fun i => match i with O => 1 | _ => 0 end)%R. rewrite quad2. unfold fxval. cbn [mat2]. pose proof (bpow2_pos (- fF f32_16)). lra.
  - rewrite E in E'. injection E' as <-. rewrite Z0 in E1 by lia. discriminate.
Qed.
