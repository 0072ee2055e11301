(** The complex ac_cholinv: what is in the inverse factor, and the structure of the result. *)
From Coq Require Import Reals Lia Lra Psatz.
From Verif Require Import AcTypes AcFacts Spec SpecFacts SpecR SpecRFacts SpecLin SpecCplx SpecLinC RtTypes DivModel DivProofs PwlModel PwlProofs PwlReal MatrixModel MatrixProofs MatCplxModel SoftFacts
  PwlCplxModel PwlCplx PwlCplxThm CholModel CholProofs CholReal CholThm CholStruct QrdProofs QrdThm CholInv CholCplxModel CholCplx CholCplxReal CholCplxThm CholInvCplxModel.

Lemma cput_same m r c v : cput m r c v r c = v.
Proof. unfold cput. rewrite !Nat.eqb_refl. reflexivity. Qed.
Lemma cput_other m r c v i j : i <> r \/ j <> c -> cput m r c v i j = m i j.
Proof. intros H. unfold cput. destruct (Nat.eqb_spec i r), (Nat.eqb_spec j c); cbn [andb]; try reflexivity. lia. Qed.

(** A complex sum is two real sums. *)
Lemma cfold_parts f (t : nat -> gi) Fp l : forall s, fold_left (fun s k => cacc_add f s (t k) Fp) l s =
  (fold_left (fun s k => acc_add f s (fst (t k)) Fp) l (fst s), fold_left (fun s k => acc_add f s (snd (t k)) Fp) l (snd s)).
Proof. induction l as [|k l IH]; intros s; [destruct s; reflexivity|]. cbn [fold_left]. rewrite IH. reflexivity. Qed.

Definition citerm (L V : nat -> nat -> gi) (i j k : nat) : gi := if Nat.ltb k j && Nat.leb i k then c_mul (L j k) (V k i) else (0, 0).
Definition cisum (ft : fmt) (L V : nat -> nat -> gi) (i j : nat) : gi :=
  fold_left (fun s k => cacc_add ft s (citerm L V i j k) (2 * fF ft)) (seq 0 (S j)) (c_conv ft (0, 0) 0).
Definition cinv_eqs (pwl : bool) (MW : Z) (M : nat) (ft : fmt) (L : nat -> nat -> gi) (junk : Z) (V : nat -> nat -> gi) : Prop :=
  forall i j, (i <= j < M)%nat -> exists r, cinv_recip pwl MW ft junk (L j j) = Some r /\
    V j i = if Nat.eqb i j then r else c_conv ft (c_opp (c_mul (cisum ft L V i j) r)) (2 * fF ft).

Lemma cisum_ext ft L V W i j : (forall k, (i <= k < j)%nat -> V k i = W k i) -> cisum ft L V i j = cisum ft L W i j.
Proof.
  intros H. unfold cisum. apply fold_left_ext_in. intros s k _. unfold citerm. destruct (Nat.ltb_spec k j), (Nat.leb_spec i k); cbn [andb]; try reflexivity. rewrite H by lia. reflexivity.
Qed.

Lemma cinv_rows pwl MW M ft L junk i V : (i < M)%nat -> (forall j, (j < M)%nat -> exists r, cinv_recip pwl MW ft junk (L j j) = Some r) ->
  forall n, (n <= M)%nat -> exists W,
    fold_left (fun o j => obind o (fun V => if Nat.leb (S i) j then obind (cinv_elem pwl MW ft L i j junk V) (fun v => Some (cput V j i v)) else Some V)) (seq 0 n) (Some V) = Some W /\
    (forall k c, (c <> i \/ k <= i \/ n <= k)%nat -> W k c = V k c) /\
    (forall j, (i < j < n)%nat -> exists r, cinv_recip pwl MW ft junk (L j j) = Some r /\ W j i = c_conv ft (c_opp (c_mul (cisum ft L W i j) r)) (2 * fF ft)).
Proof.
  intros Hi HR. induction n as [|n IH]; intros Hn.
  - exists V. split; [reflexivity|]. split; [reflexivity|]. intros j Hj. lia.
  - destruct (IH ltac:(lia)) as (W & E & U & Q). rewrite seq_S, fold_left_app, E. cbn [fold_left obind Nat.add]. destruct (Nat.leb_spec (S i) n) as [H|H].
    + destruct (HR n ltac:(lia)) as (r & Er). unfold cinv_elem. rewrite Er. cbn [obind]. eexists. split; [reflexivity|].
      change (fun s k => cacc_add ft s (if Nat.ltb k n && Nat.leb i k then c_mul (L n k) (W k i) else (0, 0)) (2 * fF ft)) with (fun s k => cacc_add ft s (citerm L W i n k) (2 * fF ft)). fold (cisum ft L W i n). split.
      * intros k c Hk. rewrite cput_other by lia. apply U. lia.
      * intros j Hj. destruct (Nat.eq_dec j n) as [->|Hne].
        -- exists r. split; [exact Er|]. rewrite cput_same. match goal with |- _ = c_conv _ (c_opp (c_mul (cisum _ _ ?X _ _) _)) _ => replace (cisum ft L X i n) with (cisum ft L W i n); [reflexivity|apply cisum_ext] end. intros k Hk. rewrite cput_other by lia. reflexivity.
        -- destruct (Q j ltac:(lia)) as (r' & Er' & EW). exists r'. split; [exact Er'|]. rewrite cput_other by lia. rewrite EW. match goal with |- _ = c_conv _ (c_opp (c_mul (cisum _ _ ?X _ _) _)) _ => replace (cisum ft L X i j) with (cisum ft L W i j); [reflexivity|apply cisum_ext] end. intros k Hk. rewrite cput_other by lia. reflexivity.
    + exists W. split; [reflexivity|]. split; [intros k c Hk; apply U; lia|]. intros j Hj. apply Q. lia.
Qed.

Lemma cinv_cols pwl MW M ft L junk V0 : (forall j, (j < M)%nat -> exists r, cinv_recip pwl MW ft junk (L j j) = Some r) ->
  exists V, fold_left (cinv_col pwl MW M ft L junk) (seq 0 M) (Some V0) = Some V /\ cinv_eqs pwl MW M ft L junk V.
Proof.
  intros HR. enough (G : forall n, (n <= M)%nat -> exists V, fold_left (cinv_col pwl MW M ft L junk) (seq 0 n) (Some V0) = Some V /\
    forall i j, (i < n)%nat -> (i <= j < M)%nat -> exists r, cinv_recip pwl MW ft junk (L j j) = Some r /\ V j i = if Nat.eqb i j then r else c_conv ft (c_opp (c_mul (cisum ft L V i j) r)) (2 * fF ft)).
  { destruct (G M ltac:(lia)) as (V & E & Q). exists V. split; [exact E|]. intros i j Hij. apply Q; lia. }
  induction n as [|n IH]; intros Hn; [exists V0; split; [reflexivity|]; intros; lia|].
  destruct (IH ltac:(lia)) as (V & E & Q). rewrite seq_S, fold_left_app, E. cbn [fold_left Nat.add]. unfold cinv_col. cbn [obind]. destruct (HR n ltac:(lia)) as (r & Er). rewrite Er. cbn [obind].
  destruct (cinv_rows pwl MW M ft L junk n (cput V n n r) ltac:(lia) HR M ltac:(lia)) as (W & EW & U & QW). exists W. split; [exact EW|].
  intros i j Hi Hij. destruct (Nat.eq_dec i n) as [->|Hne].
  - destruct (Nat.eqb_spec n j) as [->|Hj].
    + exists r. split; [exact Er|]. rewrite U by lia. apply cput_same.
    + apply QW. lia.
  - assert (UW : forall k, W k i = V k i) by (intros k; rewrite U, cput_other by lia; reflexivity). destruct (Q i j ltac:(lia) Hij) as (r' & Er' & EV). exists r'. split; [exact Er'|]. rewrite UW, EV.
    destruct (Nat.eqb i j); [reflexivity|]. rewrite (cisum_ext ft L V W i j); [reflexivity|]. intros k _. symmetry. apply UW.
Qed.

Lemma cinv_eqs_unique pwl MW M ft L junk V W : cinv_eqs pwl MW M ft L junk V -> cinv_eqs pwl MW M ft L junk W -> forall i j, (i <= j < M)%nat -> V j i = W j i.
Proof.
  intros HV HW i. enough (G : forall n j, (j < n)%nat -> (i <= j < M)%nat -> V j i = W j i) by (intros j Hj; apply (G (S j)); [lia|exact Hj]).
  induction n as [|n IH]; intros j Hn Hj; [lia|]. destruct (HV i j Hj) as (r & Er & EV). destruct (HW i j Hj) as (r' & Er' & EW). rewrite Er in Er'. injection Er' as <-. rewrite EV, EW.
  destruct (Nat.eqb i j); [reflexivity|]. rewrite (cisum_ext ft L V W i j); [reflexivity|]. intros k Hk. apply IH; lia.
Qed.
Definition cpterm (V : nat -> nat -> gi) (i j k : nat) : gi := if Nat.ltb k j || Nat.ltb k i then (0, 0) else c_mul (c_conj (V k i)) (V k j).
Lemma cinv_prod_eq M ft fo V i j : cinv_prod M ft fo V i j = c_conv fo (fold_left (fun s k => cacc_add ft s (cpterm V i j k) (2 * fF ft)) (seq 0 M) (c_conv ft (0, 0) 0)) (fF ft).
Proof. reflexivity. Qed.
Lemma cinv_prod_ext M ft fo V W : (forall i j, (i <= j < M)%nat -> V j i = W j i) -> forall i j, (i < M)%nat -> (j < M)%nat -> cinv_prod M ft fo V i j = cinv_prod M ft fo W i j.
Proof.
  intros H i j Hi Hj. rewrite !cinv_prod_eq. f_equal. apply fold_left_ext_in. intros s k Hk. apply in_seq in Hk. unfold cpterm. destruct (Nat.ltb_spec k j), (Nat.ltb_spec k i); cbn [orb]; try reflexivity.
  rewrite (H i k), (H j k) by lia. reflexivity.
Qed.

(** ** The structure of the product *)
Lemma cinv_re_sym M ft fo V i j : fst (cinv_prod M ft fo V i j) = fst (cinv_prod M ft fo V j i).
Proof.
  rewrite !cinv_prod_eq, !cfold_parts. cbn [fst c_conv]. f_equal. apply fold_left_ext. intros s k. unfold cpterm. rewrite (Bool.orb_comm (Nat.ltb k j)). destruct (_ || _); [reflexivity|].
  unfold c_mul, c_conj. cbn [fst snd]. f_equal. ring.
Qed.
Lemma acc_zero f n Fp : 1 <= fW f -> fold_left (fun s (_ : nat) => acc_add f s 0 Fp) n 0 = 0.
Proof.
  intros HW. induction n as [|k n IH]; [reflexivity|]. cbn [fold_left]. replace (acc_add f 0 0 Fp) with 0; [exact IH|]. symmetry. unfold acc_add. rewrite !Z.mul_0_l. apply AbsProofs.conv_0, HW.
Qed.
Lemma cinv_im_diag M ft fo V i : 1 <= fW fo -> 1 <= fW ft -> snd (cinv_prod M ft fo V i i) = 0.
Proof.
  intros Ho Ht. rewrite cinv_prod_eq, cfold_parts. cbn [snd c_conv]. rewrite conv_zero by exact Ht. rewrite (fold_left_ext_in _ (fun s _ => acc_add ft s 0 (2 * fF ft))), acc_zero by (exact Ht || (intros s k _; unfold cpterm; destruct (_ || _); [reflexivity|]; unfold c_mul, c_conj; cbn [fst snd]; f_equal; ring)).
  apply AbsProofs.conv_0, Ho.
Qed.

(** ** Totality *)
Definition cchol_l (out : nat -> nat -> option gi) : nat -> nat -> gi := fun i j => match out i j with Some v => v | None => (0, 0) end.
Lemma zero_range s w : 1 <= w -> in_range s w 0.
Proof. intros H. unfold in_range, imin, imax. destruct s; pose proof (pow2_pos w); pose proof (pow2_pos (w - 1)); lia. Qed.
Lemma cchol_l_diag pwl M fa ft A junk out : 1 <= fW ft -> cchol_d pwl M fa ft (imd_fmt ft 0 0 RND SAT) A junk = Some out ->
  forall i, (i < M)%nat -> in_range (fS ft) (fW ft) (fst (cchol_l out i i)) /\ snd (cchol_l out i i) = 0.
Proof.
  intros Ht EC i Hi. destruct (cchol_d_eq pwl M fa ft (imd_fmt ft 0 0 RND SAT) A junk Ht ltac:(cbn; lia)) as (out' & L & E & HC & HO). rewrite EC in E. injection E as <-. unfold cchol_l.
  rewrite HO by assumption. destruct (Nat.ltb i i || _); [split; [apply zero_range, Ht|reflexivity]|].
  destruct (HC i Hi) as (d & r & _ & -> & _). cbn [fst snd]. split; [apply conv_range, Ht|reflexivity].
Qed.
Lemma crecip_total pwl MW ft junk l : 1 <= fW ft -> 2 * fW ft <= MW -> in_range (fS ft) (fW ft) (fst l) -> snd l = 0 -> exists r, cinv_recip pwl MW ft junk l = Some r.
Proof.
  intros HW HM HR HI. unfold cinv_recip. destruct pwl; [|unfold inv_recip; cbn [obind]; eexists; reflexivity]. destruct l as [a b]. cbn [fst snd] in *. subst b. destruct (Z.eq_dec a 0) as [->|Ha].
  - rewrite recip_cplx_zero by lia. eexists; reflexivity.
  - assert (B : a * a + 0 * 0 < 2 ^ MW).
    { apply Z.lt_le_trans with (2 ^ (2 * fW ft)); [|apply Z.pow_le_mono_r; lia]. replace (2 * fW ft) with (fW ft + fW ft) by lia. rewrite Z.pow_add_r by lia. unfold in_range, imin, imax in HR.
      assert (-2 ^ fW ft < a < 2 ^ fW ft) by (destruct (fS ft); [assert (2 ^ fW ft = 2 * 2 ^ (fW ft - 1)) by (rewrite <- Z.pow_succ_r by lia; f_equal; lia); pose proof (pow2_pos (fW ft - 1))|]; lia). nia. }
    destruct (recip_cplx_real TRN MW (fW ft) (fI ft) (fS ft) ft a 0 HW HW ltac:(lia) HR (zero_range _ _ HW) B ltac:(left; exact Ha)) as (r & i & rho & E & _). rewrite E. eexists; reflexivity.
Qed.
Lemma ccholinv_char pwl1 pwl2 MW M fa fo ft A V0 j1 j2 : 1 <= fW ft -> 2 * fW ft <= MW -> exists outL V,
  cchol_d pwl1 M fa ft (imd_fmt ft 0 0 RND SAT) A j1 = Some outL /\
  cinv_eqs pwl2 MW M ft (cchol_l outL) j2 V /\ ccholinv pwl1 pwl2 MW M fa fo ft A V0 j1 j2 = Some (cinv_prod M ft fo V).
Proof.
  intros Ht HM. destruct (cchol_d_eq pwl1 M fa ft (imd_fmt ft 0 0 RND SAT) A j1 Ht ltac:(cbn; lia)) as (out & L & E & _). exists out.
  destruct (cinv_cols pwl2 MW M ft (cchol_l out) j2 V0) as (V & EV & HV).
  - intros j Hj. destruct (cchol_l_diag pwl1 M fa ft A j1 out Ht E j Hj). apply crecip_total; assumption.
  - exists V. split; [exact E|]. split; [exact HV|]. unfold ccholinv. rewrite E. cbn [obind]. fold (cchol_l out). rewrite EV. reflexivity.
Qed.
Lemma ccholinv_ok pwl1 pwl2 MW M fa fo ft A V0 j1 j2 : 1 <= fW fo -> 1 <= fW ft -> 2 * fW ft <= MW -> exists out, ccholinv pwl1 pwl2 MW M fa fo ft A V0 j1 j2 = Some out /\
  forall i j, (i < M)%nat -> (j < M)%nat -> fst (out i j) = fst (out j i) /\ snd (out i i) = 0 /\ in_range (fS fo) (fW fo) (fst (out i j)) /\ in_range (fS fo) (fW fo) (snd (out i j)).
Proof.
  intros Ho Ht HM. destruct (ccholinv_char pwl1 pwl2 MW M fa fo ft A V0 j1 j2 Ht HM) as (L & V & _ & _ & E). eexists. split; [exact E|]. intros i j _ _.
  split; [apply cinv_re_sym|]. split; [apply cinv_im_diag; assumption|]. rewrite cinv_prod_eq. cbn [fst snd c_conv]. split; apply conv_range, Ho.
Qed.
Lemma ccholinv_uninit pwl1 pwl2 MW M fa fo ft A V0 V1 j1 j2 out0 out1 : 1 <= fW ft -> 2 * fW ft <= MW ->
  ccholinv pwl1 pwl2 MW M fa fo ft A V0 j1 j2 = Some out0 -> ccholinv pwl1 pwl2 MW M fa fo ft A V1 j1 j2 = Some out1 ->
  forall i j, (i < M)%nat -> (j < M)%nat -> out0 i j = out1 i j.
Proof.
  intros Ht HM E0 E1. destruct (ccholinv_char pwl1 pwl2 MW M fa fo ft A V0 j1 j2 Ht HM) as (L & V & EL & HV & E). destruct (ccholinv_char pwl1 pwl2 MW M fa fo ft A V1 j1 j2 Ht HM) as (L' & V' & EL' & HV' & E').
  rewrite EL in EL'. injection EL' as <-. rewrite E0 in E. rewrite E1 in E'. injection E as ->. injection E' as ->. apply cinv_prod_ext. exact (cinv_eqs_unique pwl2 MW M ft (cchol_l L) j2 V V' HV HV').
Qed.

(** ** Real matrices *)
Lemma ccholinv_real pwl1 MW M fa fo ft A V0 V1 j1 j2 : 1 <= fW fo -> 1 <= fW ft -> 2 * fW ft <= MW ->
  exists out outr, ccholinv pwl1 false MW M fa fo ft (fun i j => (A i j, 0)) V0 j1 j2 = Some out /\ cholinv pwl1 false M fa fo ft A V1 j1 j2 = Some outr /\
  forall i j, (i < M)%nat -> (j < M)%nat -> out i j = (outr i j, 0).
Proof.
  intros Ho Ht HM. destruct (ccholinv_char pwl1 false MW M fa fo ft (fun i j => (A i j, 0)) V0 j1 j2 Ht HM) as (L & V & EL & HV & E). destruct (cholinv_char pwl1 false M fa fo ft A V1 j1 j2 Ht) as (L' & V' & EL' & HV' & E').
  eexists. eexists. split; [exact E|]. split; [exact E'|].
  destruct (cchol_real pwl1 M fa ft (imd_fmt ft 0 0 RND SAT) A j1 Ht ltac:(cbn; lia)) as (o & o' & Eo & Eo' & HL). rewrite EL in Eo. rewrite EL' in Eo'. injection Eo as <-. injection Eo' as <-.
  assert (CL : forall i j, (i < M)%nat -> (j < M)%nat -> cchol_l L i j = (chol_l L' i j, 0)) by (intros a c Ha Hc; unfold cchol_l, chol_l; rewrite HL by assumption; destruct (L' a c); reflexivity).
  assert (VE : forall i j, (i <= j < M)%nat -> V j i = (V' j i, 0)).
  { intros i. enough (G : forall n j, (j < n)%nat -> (i <= j < M)%nat -> V j i = (V' j i, 0)) by (intros j Hj; apply (G (S j)); [lia|exact Hj]).
    induction n as [|n IH]; intros j Hn Hj; [lia|]. destruct (HV i j Hj) as (r & Er & EV). destruct (HV' i j Hj) as (r' & Er' & EV'). unfold cinv_recip in Er. rewrite CL in Er by lia. cbn [fst] in Er. rewrite Er' in Er. cbn [obind] in Er. injection Er as <-.
    rewrite conv_zero in EV by exact Ht. rewrite EV, EV'. destruct (Nat.eqb i j); [reflexivity|].
    assert (S1 : cisum ft (cchol_l L) V i j = (isum ft (chol_l L') V' i j, 0)).
    { unfold cisum. rewrite cfold_parts. cbn [fst snd c_conv]. rewrite !conv_zero by exact Ht. unfold isum. f_equal.
      - rewrite conv_zero by exact Ht. apply fold_left_ext_in. intros s k Hk. apply in_seq in Hk. unfold citerm. destruct (Nat.ltb_spec k j), (Nat.leb_spec i k); cbn [andb fst]; try reflexivity. rewrite CL, IH by lia. unfold c_mul. cbn [fst snd]. f_equal. ring.
      - rewrite (fold_left_ext_in _ (fun s _ => acc_add ft s 0 (2 * fF ft))); [apply acc_zero, Ht|]. intros s k Hk. apply in_seq in Hk. unfold citerm. destruct (Nat.ltb_spec k j), (Nat.leb_spec i k); cbn [andb snd]; try reflexivity. rewrite CL, IH by lia. unfold c_mul. cbn [fst snd]. f_equal. ring. }
    rewrite S1. unfold c_conv, c_opp, c_mul. cbn [fst snd]. f_equal; [f_equal; ring|]. rewrite !Z.mul_0_l, Z.mul_0_r. apply AbsProofs.conv_0, Ht. }
  intros i j Hi Hj. rewrite cinv_prod_eq, cfold_parts. cbn [fst snd c_conv]. rewrite !conv_zero by exact Ht. unfold c_conv. cbn [fst snd]. f_equal.
  - unfold inv_prod. rewrite conv_zero by exact Ht. f_equal. apply fold_left_ext_in. intros s k Hk. apply in_seq in Hk. unfold cpterm. destruct (Nat.ltb_spec k j), (Nat.ltb_spec k i); cbn [orb fst]; try reflexivity. rewrite !VE by lia. unfold c_mul, c_conj. cbn [fst snd]. f_equal. ring.
  - rewrite (fold_left_ext_in _ (fun s _ => acc_add ft s 0 (2 * fF ft))); [rewrite acc_zero by exact Ht; apply AbsProofs.conv_0, Ho|]. intros s k Hk. apply in_seq in Hk. unfold cpterm. destruct (Nat.ltb_spec k j), (Nat.ltb_spec k i); cbn [orb snd]; try reflexivity. rewrite !VE by lia. unfold c_mul, c_conj. cbn [fst snd]. f_equal. ring.
Qed.

(** The rounding of a tie depends on the sign. *)
Definition f16_8 : fmt := Fmt 16 8 true RND SAT.
Lemma ccholinv_not_hermitian : ~ (forall M fo A V0 j1 j2 MW out, 1 <= fW fo -> fS fo = true -> fO fo = SAT -> 2 * fW fo <= MW ->
  (forall i j, (i < M)%nat -> (j < M)%nat -> A i j = c_conj (A j i)) -> ccholinv false false MW M fo fo fo A V0 j1 j2 = Some out ->
  forall i j, (i < M)%nat -> (j < M)%nat -> out i j = c_conj (out j i)).
Proof.
  intros H. assert (X : match ccholinv false false 32 2 f16_8 f16_8 f16_8 (herm2 256 2 1024) (fun _ _ => (0, 0)) (fun _ => 0) 0 with Some o => (snd (o O 1%nat) =? - snd (o 1%nat O)) = false | None => False end) by (vm_compute; reflexivity).
  destruct (ccholinv false false 32 2 _ _ _ _ _ _ _) as [o|] eqn:E; [|contradiction].
  assert (G : o 0%nat 1%nat = c_conj (o 1%nat 0%nat)).
  { apply (H 2%nat f16_8 (herm2 256 2 1024) (fun _ _ => (0, 0)) (fun _ => 0) 0 32 o); [cbn; lia|reflexivity|reflexivity|cbn; lia| |exact E|lia|lia].
    intros [|[|i]] [|[|j]] Hi Hj; try lia; reflexivity. }
  rewrite G in X. unfold c_conj in X. cbn [snd] in X. rewrite Z.eqb_refl in X. discriminate.
Qed.

(** ** Rounding that treats both signs alike *)
Lemma qround_opp q n d : 0 < d -> q <> TRN -> q <> RND -> q <> RND_MIN_INF -> qround q (- n) d = - qround q n d.
Proof.
  intros Hd N1 N2 N3. pose proof (Z.mod_pos_bound n d Hd) as B. pose proof (Z.div_mod n d ltac:(lia)) as DM. destruct (Z.eq_dec (n mod d) 0) as [E|E].
  - assert (X : n = n / d * d) by lia. rewrite X at 1. replace (- (n / d * d)) with (- (n / d) * d) by ring. rewrite qround_exact by exact Hd. rewrite X at 2. rewrite qround_exact by exact Hd. reflexivity.
  - assert (Q : (- n) / d = - (n / d) - 1) by (apply Z.div_opp_l_nz; lia). assert (R : (- n) mod d = d - n mod d) by (apply Z.mod_opp_l_nz; lia).
    assert (N0 : n <> 0) by (intros ->; apply E; apply Z.mod_0_l; lia). unfold qround. rewrite Q, R. set (f := n / d) in *. set (r := n mod d) in *. clearbody f r.
    assert (P1 : Z.odd (- f - 1) = negb (Z.odd f)) by (replace (- f - 1) with (- (f + 1)) by ring; rewrite Z.odd_opp, Z.odd_add; destruct (Z.odd f); reflexivity).
    assert (P2 : Z.even (- f - 1) = negb (Z.even f)) by (rewrite <- !Z.negb_odd, P1; reflexivity). rewrite ?P1, ?P2.
    destruct q; try congruence.
    + destruct (Z.ltb_spec n 0), (Z.ltb_spec (- n) 0), (Z.eqb_spec r 0), (Z.eqb_spec (d - r) 0); cbn [andb negb]; try lia; nia.
    + destruct (Z.ltb_spec d (2 * r)), (Z.ltb_spec d (2 * (d - r))), (Z.eqb_spec d (2 * r)), (Z.eqb_spec d (2 * (d - r))), (Z.ltb_spec n 0), (Z.ltb_spec (- n) 0); cbn [andb negb]; try lia; nia.
    + destruct (Z.ltb_spec d (2 * r)), (Z.ltb_spec d (2 * (d - r))), (Z.eqb_spec d (2 * r)), (Z.eqb_spec d (2 * (d - r))), (Z.ltb_spec n 0), (Z.ltb_spec (- n) 0); cbn [andb negb]; try lia; nia.
    + destruct (Z.ltb_spec d (2 * r)), (Z.ltb_spec d (2 * (d - r))), (Z.eqb_spec d (2 * r)), (Z.eqb_spec d (2 * (d - r))), (Z.odd f); cbn [andb negb]; lia.
    + destruct (Z.ltb_spec d (2 * r)), (Z.ltb_spec d (2 * (d - r))), (Z.eqb_spec d (2 * r)), (Z.eqb_spec d (2 * (d - r))), (Z.even f); cbn [andb negb]; lia.
Qed.
Lemma conv_opp f x F : sym_fmt f -> conv f (- x) F = - conv f x F.
Proof.
  intros (HW & HS & HO & Q1 & Q2 & Q3). unfold conv, conv_rat. rewrite HS, HO. replace (- x * pw (- F) * pw (fF f)) with (- (x * pw (- F) * pw (fF f))) by ring.
  rewrite qround_opp by (try assumption; pose proof (pw_pos F); pose proof (pw_pos (- fF f)); nia). set (y := qround _ _ _). unfold overflow, imax. pose proof (pow2_pos (fW f - 1) ltac:(lia)).
  destruct (Z.ltb_spec y (- (2 ^ (fW f - 1) - 1))), (Z.ltb_spec (2 ^ (fW f - 1) - 1) y), (Z.ltb_spec (- y) (- (2 ^ (fW f - 1) - 1))), (Z.ltb_spec (2 ^ (fW f - 1) - 1) (- y)); lia.
Qed.
Lemma ccholinv_hermitian pwl1 pwl2 MW M fa fo ft A V0 j1 j2 out : sym_fmt fo -> sym_fmt ft -> 2 * fW ft <= MW -> ccholinv pwl1 pwl2 MW M fa fo ft A V0 j1 j2 = Some out ->
  forall i j, out i j = c_conj (out j i).
Proof.
  intros Ho Ht HM E. assert (W : 1 <= fW ft) by apply Ht. destruct (ccholinv_char pwl1 pwl2 MW M fa fo ft A V0 j1 j2 W HM) as (L & V & _ & _ & E'). rewrite E in E'. injection E' as ->. intros i j.
  enough (G : snd (cinv_prod M ft fo V i j) = - snd (cinv_prod M ft fo V j i)).
  { unfold c_conj. rewrite <- (cinv_re_sym M ft fo V i j), <- G. destruct (cinv_prod M ft fo V i j); reflexivity. }
  rewrite !cinv_prod_eq, !cfold_parts. unfold c_conv. cbn [snd]. rewrite <- conv_opp by exact Ho. f_equal. rewrite !conv_zero by exact W.
  enough (G : forall l s, fold_left (fun s k => acc_add ft s (snd (cpterm V i j k)) (2 * fF ft)) l (- s) = - fold_left (fun s k => acc_add ft s (snd (cpterm V j i k)) (2 * fF ft)) l s) by (apply (G _ 0)).
  induction l as [|k l IH]; intros s; [reflexivity|]. cbn [fold_left]. rewrite <- IH. f_equal. unfold acc_add. rewrite <- conv_opp by exact Ht. f_equal.
  replace (snd (cpterm V i j k)) with (- snd (cpterm V j i k)); [ring|]. unfold cpterm. rewrite (Bool.orb_comm (Nat.ltb k j)). destruct (_ || _); [reflexivity|]. unfold c_mul, c_conj. cbn [fst snd]. ring.
Qed.

(** The zeros that ac_chol_d returns for minus the identity become the largest values. *)
Lemma ccholinv_zero_false : ~ (forall M fo A V0 j1 j2 MW, 1 <= fW fo -> 2 * fW fo <= MW -> (forall i j, (i < M)%nat -> (j < M)%nat -> A i j = c_conj (A j i)) ->
  (exists outL, cchol_d false M fo fo (imd_fmt fo 0 0 RND SAT) A j1 = Some outL /\ zero_outC M outL) ->
  exists out, ccholinv false false MW M fo fo fo A V0 j1 j2 = Some out /\ forall i j, (i < M)%nat -> (j < M)%nat -> out i j = (0, 0)).
Proof.
  intros H. destruct (H 2%nat f16_8 (herm2 (-256) 0 (-256)) (fun _ _ => (0, 0)) (fun _ => 0) 0 32) as (out & E & Z0).
  - cbn; lia.
  - cbn; lia.
  - intros [|[|i]] [|[|j]] Hi Hj; try lia; reflexivity.
  - destruct (cchol_d false 2 f16_8 f16_8 (imd_fmt f16_8 0 0 RND SAT) (herm2 (-256) 0 (-256)) (fun _ => 0)) as [oL|] eqn:EL; [|vm_compute in EL; discriminate].
    exists oL. split; [reflexivity|]. assert (X : match cchol_d false 2 f16_8 f16_8 (imd_fmt f16_8 0 0 RND SAT) (herm2 (-256) 0 (-256)) (fun _ => 0) with Some o => o O O = Some (0, 0) /\ o O 1%nat = Some (0, 0) /\ o 1%nat O = Some (0, 0) /\ o 1%nat 1%nat = Some (0, 0) | None => False end) by (vm_compute; repeat split).
    rewrite EL in X. intros [|[|i]] [|[|j]] Hi Hj; try lia; apply X.
  - assert (X : match ccholinv false false 32 2 f16_8 f16_8 f16_8 (herm2 (-256) 0 (-256)) (fun _ _ => (0, 0)) (fun _ => 0) 0 with Some o => fst (o O O) = imax true 16 | None => False end) by (vm_compute; reflexivity).
    rewrite E in X. rewrite Z0 in X by lia. discriminate.
Qed.
