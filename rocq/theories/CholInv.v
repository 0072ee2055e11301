(** ac_cholinv: what is in the inverse factor, and the error of the inverse. *)
From Coq Require Import Reals Lia Lra Psatz.
From Verif Require Import AcTypes AcFacts Spec SpecFacts SpecR SpecRFacts SpecLin RtTypes DivModel DivProofs DivSpecs PwlModel PwlProofs PwlReal MatrixModel MatrixProofs SoftFacts
  CholModel CholProofs CholReal CholThm CholStruct QrdProofs QrdThm.

(** ** The inverse factor *)
Definition isum (ft : fmt) (L V : nat -> nat -> Z) (i j : nat) : Z :=
  fold_left (fun s k => acc_add ft s (if Nat.ltb k j && Nat.leb i k then L j k * V k i else 0) (2 * fF ft)) (seq 0 (S j)) (conv ft 0 0).
(** V satisfies the equations of the forward substitution. *)
Definition inv_eqs (pwl : bool) (M : nat) (ft : fmt) (L : nat -> nat -> Z) (junk : Z) (V : mat) : Prop :=
  forall i j, (i <= j < M)%nat -> exists r, inv_recip pwl ft junk (L j j) = Some r /\
    V j i = if Nat.eqb i j then r else conv ft (- (isum ft L V i j * r)) (2 * fF ft).

Lemma fold_left_ext_in {S T} (f g : S -> T -> S) l : (forall a x, In x l -> f a x = g a x) -> forall a, fold_left f l a = fold_left g l a.
Proof. induction l as [|x l IH]; intros H a; [reflexivity|]. cbn [fold_left]. rewrite H by (left; reflexivity). apply IH. intros; apply H; right; assumption. Qed.
Lemma isum_ext ft L V W i j : (forall k, (i <= k < j)%nat -> V k i = W k i) -> isum ft L V i j = isum ft L W i j.
Proof.
  intros H. unfold isum. apply fold_left_ext_in. intros s k _. destruct (Nat.ltb_spec k j), (Nat.leb_spec i k); cbn [andb]; try reflexivity. rewrite H by lia. reflexivity.
Qed.

Lemma inv_rows pwl M ft L junk i V : (i < M)%nat -> (forall j, (j < M)%nat -> exists r, inv_recip pwl ft junk (L j j) = Some r) ->
  forall n, (n <= M)%nat -> exists W,
    fold_left (fun o j => obind o (fun V => if Nat.leb (S i) j then obind (inv_elem pwl ft L i j junk V) (fun v => Some (put V j i v)) else Some V)) (seq 0 n) (Some V) = Some W /\
    (forall k c, (c <> i \/ k <= i \/ n <= k)%nat -> W k c = V k c) /\
    (forall j, (i < j < n)%nat -> exists r, inv_recip pwl ft junk (L j j) = Some r /\ W j i = conv ft (- (isum ft L W i j * r)) (2 * fF ft)).
Proof.
  intros Hi HR. induction n as [|n IH]; intros Hn.
  - exists V. split; [reflexivity|]. split; [reflexivity|]. intros j Hj. lia.
  - destruct (IH ltac:(lia)) as (W & E & U & Q). rewrite seq_S, fold_left_app, E. cbn [fold_left obind Nat.add]. destruct (Nat.leb_spec (S i) n) as [H|H].
    + destruct (HR n ltac:(lia)) as (r & Er). unfold inv_elem. rewrite Er. cbn [obind]. eexists. split; [reflexivity|]. fold (isum ft L W i n). split.
      * intros k c Hk. rewrite put_other by lia. apply U. lia.
      * intros j Hj. destruct (Nat.eq_dec j n) as [->|Hne].
        -- exists r. split; [exact Er|]. rewrite put_same. f_equal. f_equal. f_equal. apply isum_ext. intros k Hk. rewrite put_other by lia. reflexivity.
        -- destruct (Q j ltac:(lia)) as (r' & Er' & EW). exists r'. split; [exact Er'|]. rewrite put_other by lia. rewrite EW. f_equal. f_equal. f_equal. apply isum_ext. intros k Hk. rewrite put_other by lia. reflexivity.
    + exists W. split; [reflexivity|]. split; [intros k c Hk; apply U; lia|]. intros j Hj. apply Q. lia.
Qed.

Lemma inv_cols pwl M ft L junk V0 : (forall j, (j < M)%nat -> exists r, inv_recip pwl ft junk (L j j) = Some r) ->
  exists V, fold_left (inv_col pwl M ft L junk) (seq 0 M) (Some V0) = Some V /\ inv_eqs pwl M ft L junk V.
Proof.
  intros HR. enough (G : forall n, (n <= M)%nat -> exists V, fold_left (inv_col pwl M ft L junk) (seq 0 n) (Some V0) = Some V /\
    forall i j, (i < n)%nat -> (i <= j < M)%nat -> exists r, inv_recip pwl ft junk (L j j) = Some r /\ V j i = if Nat.eqb i j then r else conv ft (- (isum ft L V i j * r)) (2 * fF ft)).
  { destruct (G M ltac:(lia)) as (V & E & Q). exists V. split; [exact E|]. intros i j Hij. apply Q; lia. }
  induction n as [|n IH]; intros Hn; [exists V0; split; [reflexivity|]; intros; lia|].
  destruct (IH ltac:(lia)) as (V & E & Q). rewrite seq_S, fold_left_app, E. cbn [fold_left Nat.add]. unfold inv_col. cbn [obind]. destruct (HR n ltac:(lia)) as (r & Er). rewrite Er. cbn [obind].
  destruct (inv_rows pwl M ft L junk n (put V n n r) ltac:(lia) HR M ltac:(lia)) as (W & EW & U & QW). exists W. split; [exact EW|].
  intros i j Hi Hij. destruct (Nat.eq_dec i n) as [->|Hne].
  - destruct (Nat.eqb_spec n j) as [->|Hj].
    + exists r. split; [exact Er|]. rewrite U by lia. apply put_same.
    + apply QW. lia.
  - assert (UW : forall k, W k i = V k i) by (intros k; rewrite U, put_other by lia; reflexivity). destruct (Q i j ltac:(lia) Hij) as (r' & Er' & EV). exists r'. split; [exact Er'|]. rewrite UW, EV.
    destruct (Nat.eqb i j); [reflexivity|]. f_equal. f_equal. f_equal. apply isum_ext. intros k _. symmetry. apply UW.
Qed.

Lemma inv_eqs_unique pwl M ft L junk V W : inv_eqs pwl M ft L junk V -> inv_eqs pwl M ft L junk W -> forall i j, (i <= j < M)%nat -> V j i = W j i.
Proof.
  intros HV HW i. enough (G : forall n j, (j < n)%nat -> (i <= j < M)%nat -> V j i = W j i) by (intros j Hj; apply (G (S j)); [lia|exact Hj]).
  induction n as [|n IH]; intros j Hn Hj; [lia|]. destruct (HV i j Hj) as (r & Er & EV). destruct (HW i j Hj) as (r' & Er' & EW). rewrite Er in Er'. injection Er' as <-. rewrite EV, EW.
  destruct (Nat.eqb i j); [reflexivity|]. f_equal. f_equal. f_equal. apply isum_ext. intros k Hk. apply IH; lia.
Qed.
Lemma inv_prod_ext M ft fo V W : (forall i j, (i <= j < M)%nat -> V j i = W j i) -> forall i j, (i < M)%nat -> (j < M)%nat -> inv_prod M ft fo V i j = inv_prod M ft fo W i j.
Proof.
  intros H i j Hi Hj. unfold inv_prod. f_equal. apply fold_left_ext_in. intros s k Hk. apply in_seq in Hk. destruct (Nat.ltb_spec k j), (Nat.ltb_spec k i); cbn [orb]; try reflexivity.
  rewrite (H i k), (H j k) by lia. reflexivity.
Qed.

(** The factor that ac_cholinv works with. *)
Definition chol_l (out : nat -> nat -> option Z) : nat -> nat -> Z := fun i j => match out i j with Some v => v | None => 0 end.
Lemma chol_l_diag pwl M fa ft A junk out : 1 <= fW ft -> chol_d pwl M fa ft (imd_fmt ft 0 0 RND SAT) A junk = Some out -> forall i, (i < M)%nat -> in_range (fS ft) (fW ft) (chol_l out i i).
Proof.
  intros Ht EC i Hi. destruct (chol_d_eq pwl M fa ft (imd_fmt ft 0 0 RND SAT) A junk Ht ltac:(cbn; lia)) as (out' & L & E & HC & HO). rewrite EC in E. injection E as <-. unfold chol_l.
  rewrite HO by assumption. destruct (Nat.ltb i i || _); [unfold in_range, imin, imax; destruct (fS ft); pose proof (pow2_pos (fW ft)); pose proof (pow2_pos (fW ft - 1)); lia|].
  destruct (HC i Hi) as (d & r & _ & -> & _). apply conv_range, Ht.
Qed.

Lemma cholinv_char pwl1 pwl2 M fa fo ft A V0 j1 j2 : 1 <= fW ft -> exists outL V,
  chol_d pwl1 M fa ft (imd_fmt ft 0 0 RND SAT) A j1 = Some outL /\
  inv_eqs pwl2 M ft (chol_l outL) j2 V /\ cholinv pwl1 pwl2 M fa fo ft A V0 j1 j2 = Some (inv_prod M ft fo V).
Proof.
  intros Ht. destruct (chol_d_eq pwl1 M fa ft (imd_fmt ft 0 0 RND SAT) A j1 Ht ltac:(cbn; lia)) as (out & L & E & _). exists out.
  destruct (inv_cols pwl2 M ft (chol_l out) j2 V0) as (V & EV & HV).
  - intros j Hj. apply recip_total; [exact Ht|]. exact (chol_l_diag pwl1 M fa ft A j1 out Ht E j Hj).
  - exists V. split; [exact E|]. split; [exact HV|]. unfold cholinv. rewrite E. cbn [obind]. fold (chol_l out). rewrite EV. reflexivity.
Qed.

(** The uninitialised arrays do not matter. *)
Lemma cholinv_uninit pwl1 pwl2 M fa fo ft A V0 V1 j1 j2 out0 out1 : 1 <= fW ft ->
  cholinv pwl1 pwl2 M fa fo ft A V0 j1 j2 = Some out0 -> cholinv pwl1 pwl2 M fa fo ft A V1 j1 j2 = Some out1 ->
  forall i j, (i < M)%nat -> (j < M)%nat -> out0 i j = out1 i j.
Proof.
  intros Ht E0 E1. destruct (cholinv_char pwl1 pwl2 M fa fo ft A V0 j1 j2 Ht) as (L & V & EL & HV & E). destruct (cholinv_char pwl1 pwl2 M fa fo ft A V1 j1 j2 Ht) as (L' & V' & EL' & HV' & E').
  rewrite EL in EL'. injection EL' as <-. rewrite E0 in E. rewrite E1 in E'. injection E as ->. injection E' as ->. apply inv_prod_ext. exact (inv_eqs_unique pwl2 M ft (chol_l L) j2 V V' HV HV').
Qed.

(** ** Errors *)
Local Open Scope R_scope.

Lemma acc_add_R f s p Fp : (1 <= fW f)%Z -> convertsR f (fxval s (fF f) + fxval p Fp) (acc_add f s p Fp).
Proof.
  intros HW. unfold acc_add. set (F := Z.max (fF f) Fp). pose proof (conv_R f (s * 2 ^ (F - fF f) + p * 2 ^ (F - Fp)) F HW) as H.
  replace (fxval (s * 2 ^ (F - fF f) + p * 2 ^ (F - Fp)) F) with (fxval s (fF f) + fxval p Fp) in H; [exact H|].
  rewrite <- (fxval_shift s (fF f) (F - fF f)), <- (fxval_shift p Fp (F - Fp)) by lia.
  replace (fF f + (F - fF f))%Z with F by lia. replace (Fp + (F - Fp))%Z with F by lia. unfold fxval. rewrite plus_IZR. ring.
Qed.

(** Conversion to a signed saturating type: near when the value or the result is inside. *)
Section Sat.
Variable f : fmt.
Hypotheses (HW : (1 <= fW f)%Z) (HS : fS f = true) (HO : fO f = SAT).
Lemma top_max : fxval (imax (fS f) (fW f)) (fF f) = top f.
Proof. destruct (imax_R f) as [E|]; [|lia]. rewrite HS in *. rewrite E. unfold top. f_equal. f_equal. unfold fF. lia. Qed.
Lemma top_min : fxval (imin (fS f) (fW f)) (fF f) = - (top f + bpow2 (- fF f)).
Proof. rewrite (imin_R f HS HW). unfold top. replace (fW f - 1 - fF f)%Z with (fI f - 1)%Z by (unfold fF; lia). ring. Qed.
Lemma sat_in V m : convertsR f V m -> Rabs V <= top f -> Rabs (fxval m (fF f) - V) <= bpow2 (- fF f).
Proof.
  intros C H. apply Rabs_le_both in H. pose proof (bpow2_pos (- fF f)). apply (sat_near f V m HW ltac:(rewrite HO; discriminate) C). rewrite top_max, top_min. lra.
Qed.
Lemma sat_out V m : convertsR f V m -> Rabs (fxval m (fF f)) < top f -> Rabs (fxval m (fF f) - V) <= bpow2 (- fF f).
Proof.
  intros C H. pose proof (bpow2_pos (- fF f)). apply Rabs_def2 in H. destruct (Rle_dec (fxval (imin (fS f) (fW f)) (fF f)) V) as [A|A].
  - destruct (Rle_dec V (fxval (imax (fS f) (fW f)) (fF f))) as [B|B].
    + apply (sat_near f V m HW ltac:(rewrite HO; discriminate) C). lra.
    + rewrite (sat_high f V m HW HO C) in H by lra. rewrite top_max in H. lra.
  - rewrite (sat_low f V m HW HO C) in H by lra. rewrite top_min in H. lra.
Qed.
(** What can be said below the upper limit. *)
Lemma sat_ge V m a : convertsR f V m -> a <= V -> a <= top f -> - top f <= a -> a - bpow2 (- fF f) <= fxval m (fF f).
Proof.
  intros C H1 H2 H3. pose proof (bpow2_pos (- fF f)). destruct (Rle_dec V (fxval (imax (fS f) (fW f)) (fF f))) as [B|B].
  - destruct (sat_near f V m HW ltac:(rewrite HO; discriminate) C) as [_ N]; [rewrite top_min; lra|]. apply Rabs_le_both in N. lra.
  - rewrite (sat_high f V m HW HO C) by lra. rewrite top_max. lra.
Qed.

(** A sum of n terms whose partial sums stay inside. *)
Lemma chain_near (t : nat -> Z) Fp n b : (forall k, (k <= n)%nat -> Rabs (sumR (fun k => fxval (t k) Fp) k) <= b) -> b + INR n * bpow2 (- fF f) <= top f ->
  Rabs (fxval (fold_left (fun s k => acc_add f s (t k) Fp) (seq 0 n) (conv f 0 0)) (fF f) - sumR (fun k => fxval (t k) Fp) n) <= INR n * bpow2 (- fF f).
Proof.
  intros Hb Ht. pose proof (bpow2_pos (- fF f)) as U0. enough (G : forall m, (m <= n)%nat -> Rabs (fxval (fold_left (fun s k => acc_add f s (t k) Fp) (seq 0 m) (conv f 0 0)) (fF f) - sumR (fun k => fxval (t k) Fp) m) <= INR m * bpow2 (- fF f)) by (apply G; lia).
  induction m as [|m IH]; intros Hm.
  - cbn [seq fold_left sumR INR]. rewrite AbsProofs.conv_0 by exact HW. rewrite fxval_0. unfold Rminus. rewrite Rplus_opp_r, Rabs_R0. lra.
  - specialize (IH ltac:(lia)). rewrite seq_S, fold_left_app. cbn [fold_left Nat.add sumR]. rewrite S_INR. set (s := fold_left _ (seq 0 m) _) in *.
    pose proof (acc_add_R f s (t m) Fp HW) as C. pose proof (Hb (S m) Hm) as B. cbn [sumR] in B. pose proof (le_INR (S m) n Hm) as LN. rewrite S_INR in LN.
    assert (INR m * bpow2 (- fF f) <= INR n * bpow2 (- fF f)) by (apply Rmult_le_compat_r; lra).
    apply Rabs_le_both in IH, B. pose proof (sat_in _ _ C ltac:(apply Rabs_le; lra)) as N. apply Rabs_le_both in N. apply Rabs_le. lra.
Qed.
(** A sum of terms that are not negative is not smaller than each of them, up to the limit. *)
Lemma chain_mono (t : nat -> Z) Fp n : (forall k, (k < n)%nat -> 0 <= fxval (t k) Fp) -> forall a, 0 <= a <= top f -> a <= sumR (fun k => fxval (t k) Fp) n -> INR n * bpow2 (- fF f) <= top f ->
  a - INR n * bpow2 (- fF f) <= fxval (fold_left (fun s k => acc_add f s (t k) Fp) (seq 0 n) (conv f 0 0)) (fF f).
Proof.
  pose proof (bpow2_pos (- fF f)) as U0. induction n as [|n IH]; intros Hp a Ha Hs Hn.
  - cbn [seq fold_left sumR INR] in *. rewrite AbsProofs.conv_0 by exact HW. rewrite fxval_0. lra.
  - rewrite seq_S, fold_left_app. cbn [fold_left Nat.add sumR] in *. rewrite S_INR in *. set (s := fold_left _ (seq 0 n) _) in *. specialize (Hp n ltac:(lia)) as P. pose proof (pos_INR n) as N0.
    set (a1 := Rmin a (sumR (fun k => fxval (t k) Fp) n)). assert (S0 : 0 <= sumR (fun k => fxval (t k) Fp) n) by (apply sumR_nonneg; intros; apply Hp; lia).
    assert (A1 : 0 <= a1 <= top f /\ a1 <= sumR (fun k => fxval (t k) Fp) n /\ a <= a1 + fxval (t n) Fp) by (unfold a1, Rmin; destruct (Rle_dec a (sumR (fun k => fxval (t k) Fp) n)); lra).
    assert (0 <= INR n * bpow2 (- fF f)) by (apply Rmult_le_pos; lra).
    specialize (IH ltac:(intros; apply Hp; lia) a1 ltac:(lra) ltac:(lra) ltac:(lra)). pose proof (acc_add_R f s (t n) Fp HW) as C.
    pose proof (sat_ge _ _ (a - INR n * bpow2 (- fF f)) C ltac:(lra) ltac:(lra) ltac:(lra)). lra.
Qed.
End Sat.

(** ** The triangular inverse and the product *)
Lemma prod_abs a b c d : Rabs a <= c -> Rabs b <= d -> Rabs (a * b) <= c * d.
Proof. intros. rewrite Rabs_mult. apply Rmult_le_compat; try assumption; apply Rabs_pos. Qed.
Lemma sumR_abs_le f n b : (forall k, (k < n)%nat -> Rabs (f k) <= b) -> Rabs (sumR f n) <= INR n * b.
Proof.
  intros H. induction n as [|n IH]; cbn [sumR]; [rewrite Rabs_R0; cbn; lra|]. specialize (IH ltac:(intros; apply H; lia)). specialize (H n ltac:(lia)). rewrite S_INR.
  eapply Rle_trans; [apply Rabs_triang|]. lra.
Qed.
Lemma n_le k n b : (k <= n)%nat -> 0 <= b -> INR k * b <= INR n * b.
Proof. intros H Hb. apply Rmult_le_compat_r; [exact Hb|]. apply le_INR, H. Qed.

Definition low (i k : nat) (z : R) : R := if Nat.leb i k then z else 0.
Section Inv.
Variables (M : nat) (ft : fmt) (L : nat -> nat -> Z) (junk : Z) (V : mat) (be ga : R).
Hypotheses (HW : (1 <= fW ft)%Z) (HS : fS ft = true) (HO : fO ft = SAT) (HF : (0 <= fF ft)%Z).
Hypothesis HV : inv_eqs false M ft L junk V.
Hypothesis HLr : forall j, (j < M)%nat -> in_range true (fW ft) (L j j).
Let u := bpow2 (- fF ft).
Let l j k := fxval (L j k) (fF ft).
Let w k i := low i k (fxval (V k i) (fF ft)).
Hypothesis Hl : forall j k, (j < M)%nat -> (k < M)%nat -> Rabs (l j k) <= be.
Hypothesis Hlp : forall j, (j < M)%nat -> 0 < l j j.
Hypothesis Hup : forall j k, (j < k < M)%nat -> l j k = 0.
Hypothesis Hw : forall k i, (i <= k < M)%nat -> Rabs (fxval (V k i) (fF ft)) <= ga.
Hypothesis Hga : ga < top ft.
Hypothesis Hroom : INR M * (be * ga) + INR M * u <= top ft.

Lemma be0 : (1 <= M)%nat -> 0 <= be /\ 0 <= ga.
Proof. intros H. pose proof (Hl 0 0 ltac:(lia) ltac:(lia)). pose proof (Hw 0 0 ltac:(lia)). pose proof (Rabs_pos (l 0%nat 0%nat)). pose proof (Rabs_pos (fxval (V 0%nat 0%nat) (fF ft))). lra. Qed.
Lemma w_le k i : (k < M)%nat -> Rabs (w k i) <= ga.
Proof. intros Hk. unfold w, low. destruct (Nat.leb_spec i k); [apply Hw; lia|]. rewrite Rabs_R0. apply be0. lia. Qed.
(** The reciprocal of the diagonal. *)
Lemma recip_conv j r : (j < M)%nat -> inv_recip false ft junk (L j j) = Some r -> convertsR ft (/ l j j) r.
Proof.
  intros Hj E. unfold inv_recip in E. rewrite HS in E. injection E as E. specialize (Hlp j Hj). apply fx_pos in Hlp. specialize (HLr j Hj). unfold in_range, imin, imax in HLr.
  assert (C := div_sfx_converts 2 2 (fW ft) (fI ft) ft 1 (L j j) junk ltac:(lia) HW HW HS ltac:(change (2 ^ (2 - 1))%Z with 2%Z; lia) ltac:(lia) ltac:(lia)).
  cbv zeta in C. rewrite E in C. change (fW ft - fI ft)%Z with (fF ft) in C. specialize (C ltac:(lia) ltac:(intros X; rewrite HO in X; discriminate)).
  replace (fF ft - (2 - 2))%Z with (fF ft) in C by lia. rewrite Z.max_r in C by lia. rewrite Z.max_l in C by lia. rewrite Z.pow_0_r, !Z.mul_1_r, Z.sgn_pos, Z.abs_eq, !Z.mul_1_l, ?Z.mul_1_r in C by lia.
  apply converts_R in C; [|lia]. replace (/ l j j) with (IZR (2 ^ fF ft) / IZR (L j j)); [exact C|]. unfold l, fxval. rewrite <- bpow2_IZR by lia. rewrite bpow2_opp.
  assert (0 < IZR (L j j)) by (apply (IZR_lt 0); lia). pose proof (bpow2_pos (fF ft)). field. lra.
Qed.
Lemma diag_near j : (j < M)%nat -> Rabs (w j j - / l j j) <= u.
Proof.
  intros Hj. destruct (HV j j ltac:(lia)) as (r & Er & EV). rewrite Nat.eqb_refl in EV. unfold w, low. rewrite Nat.leb_refl, EV. apply sat_out; try assumption; [exact (recip_conv j r Hj Er)|].
  rewrite <- EV. eapply Rle_lt_trans; [apply Hw; lia|exact Hga].
Qed.

(** The sums. *)
Definition term (i j k : nat) : Z := if Nat.ltb k j && Nat.leb i k then (L j k * V k i)%Z else 0%Z.
Lemma term_R i j k : fxval (term i j k) (2 * fF ft) = if Nat.ltb k j then l j k * w k i else 0.
Proof.
  unfold term, w, low, l. replace (2 * fF ft)%Z with (fF ft + fF ft)%Z by lia. destruct (Nat.ltb k j), (Nat.leb i k); cbn [andb]; rewrite ?fxval_mul, ?fxval_0; ring.
Qed.
Lemma isum_near i j : (i < j < M)%nat -> Rabs (fxval (isum ft L V i j) (fF ft) - sumR (fun k => l j k * w k i) j) <= INR M * u /\ Rabs (sumR (fun k => l j k * w k i) j) <= INR M * (be * ga).
Proof.
  intros Hij. destruct (be0 ltac:(lia)) as [B0 G0]. assert (BG : 0 <= be * ga) by (apply Rmult_le_pos; assumption). pose proof (bpow2_pos (- fF ft)) as U0. fold u in U0.
  assert (PS : forall n, (n <= S j)%nat -> Rabs (sumR (fun k => fxval (term i j k) (2 * fF ft)) n) <= INR M * (be * ga)).
  { intros n Hn. eapply Rle_trans; [apply (sumR_abs_le _ n (be * ga))|apply n_le; [lia|exact BG]]. intros k Hk. rewrite term_R. destruct (Nat.ltb_spec k j); [|rewrite Rabs_R0; exact BG].
    apply prod_abs; [apply Hl; lia|apply w_le; lia]. }
  assert (E : sumR (fun k => fxval (term i j k) (2 * fF ft)) (S j) = sumR (fun k => l j k * w k i) j).
  { cbn [sumR]. rewrite term_R, Nat.ltb_irrefl, Rplus_0_r. apply sumR_ext. intros k Hk. rewrite term_R. replace (Nat.ltb k j) with true by (symmetry; apply Nat.ltb_lt; exact Hk). reflexivity. }
  assert (NU : INR (S j) * u <= INR M * u) by (apply n_le; [lia|lra]).
  pose proof (chain_near ft HW HS HO (term i j) (2 * fF ft) (S j) _ PS ltac:(fold u; lra)) as N. rewrite E in N. fold u in N. split.
  - eapply Rle_trans; [exact N|exact NU].
  - rewrite <- E. apply PS. lia.
Qed.

(** L times the inverse factor is the identity. *)
Notation resid := (inv_res M ft be ga).
Lemma lv_near i j : (i < M)%nat -> (j < M)%nat -> Rabs (sumR (fun k => l j k * w k i) M - (if Nat.eqb i j then 1 else 0)) <= resid.
Proof.
  intros Hi Hj. destruct (be0 ltac:(lia)) as [B0 G0]. pose proof (bpow2_pos (- fF ft)) as U0. fold u in U0. assert (BG : 0 <= be * ga) by (apply Rmult_le_pos; assumption).
  assert (BU : 0 <= be * u) by (apply Rmult_le_pos; lra). pose proof (pos_INR M) as M0. assert (MU : 0 <= INR M * u) by (apply Rmult_le_pos; lra). assert (MB : 0 <= INR M * (be * ga)) by (apply Rmult_le_pos; assumption).
  assert (Q0 : 0 <= be * u * (INR M * (be * ga))) by (apply Rmult_le_pos; assumption). assert (Q1 : 0 <= be * u * (INR M * u)) by (apply Rmult_le_pos; assumption).
  rewrite (sumR_cut _ (S j) M) by (lia || (intros k Hk; rewrite Hup by lia; ring)). cbn [sumR]. pose proof (diag_near j Hj) as DN. pose proof (Hl j j Hj Hj) as LB. pose proof (Hlp j Hj) as LP.
  destruct (Nat.lt_trichotomy i j) as [H|[->|H]].
  - replace (Nat.eqb i j) with false by (symmetry; apply Nat.eqb_neq; lia). destruct (isum_near i j ltac:(lia)) as [N1 N2]. destruct (HV i j ltac:(lia)) as (r & Er & EV).
    replace (Nat.eqb i j) with false in EV by (symmetry; apply Nat.eqb_neq; lia). destruct (HV j j ltac:(lia)) as (r' & Er' & EV'). rewrite Nat.eqb_refl in EV'. rewrite Er in Er'. injection Er' as <-.
    set (s := fxval (isum ft L V i j) (fF ft)) in *. set (S := sumR (fun k => l j k * w k i) j) in *.
    assert (ER : fxval r (fF ft) = w j j) by (unfold w, low; rewrite Nat.leb_refl, EV'; reflexivity).
    assert (WJ : Rabs (w j i - - (s * w j j)) <= u).
    { unfold w at 1, low. replace (Nat.leb i j) with true by (symmetry; apply Nat.leb_le; lia). rewrite EV.
      replace (- (s * w j j)) with (fxval (- (isum ft L V i j * r)) (2 * fF ft)) by (replace (2 * fF ft)%Z with (fF ft + fF ft)%Z by lia; rewrite fxval_opp, fxval_mul, ER; reflexivity).
      apply sat_out; try assumption; [apply conv_R, HW|]. rewrite <- EV. eapply Rle_lt_trans; [apply Hw; lia|exact Hga]. }
    set (e1 := w j j - / l j j) in *. set (e2 := w j i - - (s * w j j)) in *.
    replace (S + l j j * w j i - 0) with ((S - s) + (l j j * e2 - s * l j j * e1)) by (unfold e1, e2; field; lra).
    assert (A1 : Rabs (S - s) <= INR M * u) by (rewrite Rabs_minus_sym; exact N1). assert (A2 : Rabs (l j j * e2) <= be * u) by (apply prod_abs; assumption).
    assert (A3 : Rabs s <= INR M * (be * ga) + INR M * u) by (apply Rabs_le_both in N1, N2; apply Rabs_le; lra).
    assert (A4 : Rabs (s * l j j * e1) <= (INR M * (be * ga) + INR M * u) * be * u) by (apply prod_abs; [apply prod_abs; assumption|assumption]).
    apply Rabs_le_both in A1, A2, A4. unfold inv_res; fold u. apply Rabs_le. lra.
  - rewrite Nat.eqb_refl. rewrite (sumR_ext _ (fun _ => 0)), (sumR_ext (fun _ => 0) (fun k => 0 * 0)) by (intros k Hk; try (unfold w, low; destruct (Nat.leb_spec j k); [lia|]); ring).
    rewrite (sumR_scal 0 (fun _ => 0)). replace (0 * sumR (fun _ => 0) j + l j j * w j j - 1) with (l j j * (w j j - / l j j)) by (field; lra).
    pose proof (prod_abs _ _ _ _ LB DN). unfold inv_res; fold u. lra.
  - replace (Nat.eqb i j) with false by (symmetry; apply Nat.eqb_neq; lia). rewrite (sumR_ext _ (fun k => 0 * 0)) by (intros k Hk; unfold w, low; destruct (Nat.leb_spec i k); [lia|ring]).
    rewrite (sumR_scal 0 (fun _ => 0)). unfold w, low. destruct (Nat.leb_spec i j); [lia|]. replace (0 * sumR (fun _ => 0) j + l j j * 0 - 0) with 0 by ring. rewrite Rabs_R0. unfold inv_res; fold u. lra.
Qed.
End Inv.

(** ** The product *)
Section Prod.
Variables (M : nat) (ft fo : fmt) (V : mat) (ga : R).
Hypotheses (HW : (1 <= fW ft)%Z) (HS : fS ft = true) (HO : fO ft = SAT) (HWo : (1 <= fW fo)%Z) (HSo : fS fo = true) (HOo : fO fo = SAT).
Let u := bpow2 (- fF ft).
Let uo := bpow2 (- fF fo).
Let w k i := low i k (fxval (V k i) (fF ft)).
Definition pterm (i j k : nat) : Z := if Nat.ltb k j || Nat.ltb k i then 0%Z else (V k i * V k j)%Z.
Lemma pterm_R i j k : fxval (pterm i j k) (2 * fF ft) = w k i * w k j.
Proof.
  unfold pterm, w, low. replace (2 * fF ft)%Z with (fF ft + fF ft)%Z by lia. destruct (Nat.ltb_spec k j), (Nat.ltb_spec k i), (Nat.leb_spec i k), (Nat.leb_spec j k); try lia; cbn [orb]; rewrite ?fxval_mul, ?fxval_0; ring.
Qed.
Lemma prod_ok : (1 <= M)%nat -> (forall k i, (k < M)%nat -> Rabs (w k i) <= ga) -> INR M * (ga * ga) + INR M * u <= top ft -> INR M * (ga * ga) + INR M * u <= top fo ->
  forall i j, (i < M)%nat -> (j < M)%nat -> Rabs (fxval (inv_prod M ft fo V i j) (fF fo) - sumR (fun k => w k i * w k j) M) <= INR M * u + uo.
Proof.
  intros HM Hw Ht Hto i j Hi Hj. assert (G0 : 0 <= ga) by (eapply Rle_trans; [apply Rabs_pos|apply (Hw 0%nat 0%nat); lia]). assert (GG : 0 <= ga * ga) by (apply Rmult_le_pos; assumption).
  assert (PS : forall n, (n <= M)%nat -> Rabs (sumR (fun k => fxval (pterm i j k) (2 * fF ft)) n) <= INR M * (ga * ga)).
  { intros n Hn. eapply Rle_trans; [apply (sumR_abs_le _ n (ga * ga))|apply n_le; [lia|exact GG]]. intros k Hk. rewrite pterm_R. apply prod_abs; apply Hw; lia. }
  pose proof (chain_near ft HW HS HO (pterm i j) (2 * fF ft) M _ PS Ht) as N. fold u in N. specialize (PS M (le_n M)). rewrite (sumR_ext _ (fun k => w k i * w k j)) in PS, N by (intros k _; apply pterm_R).
  unfold inv_prod. change (fun s k => acc_add ft s (if Nat.ltb k j || Nat.ltb k i then 0%Z else (V k i * V k j)%Z) (2 * fF ft)) with (fun s k => acc_add ft s (pterm i j k) (2 * fF ft)).
  set (s := fold_left _ _ _) in *. apply Rabs_le_both in N, PS. pose proof (sat_in fo HWo HSo HOo _ _ (conv_R fo s (fF ft) HWo) ltac:(apply Rabs_le; lra)) as N'. fold uo in N'. apply Rabs_le_both in N'. apply Rabs_le. lra.
Qed.
Lemma diag_bound g : (1 <= M)%nat -> 0 <= ga -> g + uo + INR M * u <= ga * ga -> INR M * (ga * ga) + INR M * u <= top ft -> INR M * (ga * ga) + INR M * u <= top fo ->
  forall i, (i < M)%nat -> fxval (inv_prod M ft fo V i i) (fF fo) <= g -> forall k, (k < M)%nat -> Rabs (w k i) <= ga.
Proof.
  intros HM G0 Hg Ht Hto i Hi Ho k Hk. assert (GG : 0 <= ga * ga) by (apply Rmult_le_pos; assumption). pose proof (bpow2_pos (- fF ft)) as U0. pose proof (bpow2_pos (- fF fo)) as U1. fold u in U0. fold uo in U1.
  assert (M1 : 1 <= INR M) by (apply (le_INR 1); exact HM). assert (u <= INR M * u) by (rewrite <- (Rmult_1_l u) at 1; apply Rmult_le_compat_r; lra). assert (ga * ga <= INR M * (ga * ga)) by (rewrite <- (Rmult_1_l (ga * ga)) at 1; apply Rmult_le_compat_r; lra).
  assert (SQ : sumR (fun k => w k i * w k i) M <= ga * ga).
  { apply Rnot_lt_le. intros H1. set (S := sumR (fun k => w k i * w k i) M) in *.
    set (a := Rmin S (Rmin (top ft) (top fo))). assert (A1 : a <= S /\ a <= top ft /\ a <= top fo /\ ga * ga < a) by (unfold a, Rmin; destruct (Rle_dec (top ft) (top fo)); destruct (Rle_dec _ _); repeat split; lra).
    pose proof (chain_mono ft HW HS HO (pterm i i) (2 * fF ft) M) as N. rewrite (sumR_ext _ (fun k => w k i * w k i)) in N by (intros; apply pterm_R). fold S u in N.
    specialize (N ltac:(intros; rewrite pterm_R; apply Rle_0_sqr) a ltac:(lra) ltac:(lra) ltac:(lra)).
    unfold inv_prod in Ho. change (fun s k => acc_add ft s (if Nat.ltb k i || Nat.ltb k i then 0%Z else (V k i * V k i)%Z) (2 * fF ft)) with (fun s k => acc_add ft s (pterm i i k) (2 * fF ft)) in Ho.
    set (s := fold_left _ _ _) in *. pose proof (sat_ge fo HWo HSo HOo _ _ (a - INR M * u) (conv_R fo s (fF ft) HWo) N ltac:(lra) ltac:(lra)) as N'. fold uo in N'. lra. }
  pose proof (sumR_entry (fun k => w k i * w k i) M k ltac:(intros; apply Rle_0_sqr) Hk) as E. cbv beta in E. apply Rabs_le. split; apply Rnot_lt_le; intros X; nra.
Qed.
End Prod.

(** ** Matrices *)
Section Alg.
Variable M : nat.
Notation mul := (mulR M).
Definition idR (i j : nat) : R := if Nat.eqb i j then 1 else 0.
Definition trR (A : nat -> nat -> R) (i j : nat) : R := A j i.
Lemma mul_ext A B C D i j : (forall k, (k < M)%nat -> A i k = C i k) -> (forall k, (k < M)%nat -> B k j = D k j) -> mul A B i j = mul C D i j.
Proof. intros H1 H2. unfold mulR. apply sumR_ext. intros k Hk. rewrite H1, H2 by exact Hk. reflexivity. Qed.
Lemma mul_assoc A B C i j : mul (mul A B) C i j = mul A (mul B C) i j.
Proof.
  unfold mulR. rewrite (sumR_ext _ (fun k => sumR (fun c => A i c * (B c k * C k j)) M)).
  - rewrite sumR_swap. apply sumR_ext. intros c _. apply sumR_scal.
  - intros k _. rewrite Rmult_comm, <- sumR_scal. apply sumR_ext. intros c _. ring.
Qed.
Lemma mul_plus_l A B C i j : mul (fun i k => A i k + B i k) C i j = mul A C i j + mul B C i j.
Proof. unfold mulR. rewrite <- sumR_plus. apply sumR_ext. intros k _. ring. Qed.
Lemma mul_plus_r A B C i j : mul A (fun k j => B k j + C k j) i j = mul A B i j + mul A C i j.
Proof. unfold mulR. rewrite <- sumR_plus. apply sumR_ext. intros k _. ring. Qed.
Lemma mul_minus_r A B C i j : mul A (fun k j => B k j - C k j) i j = mul A B i j - mul A C i j.
Proof. unfold mulR. unfold Rminus. rewrite <- sumR_opp, <- sumR_plus. apply sumR_ext. intros k _. ring. Qed.
Lemma mul_id_l A i j : (i < M)%nat -> mul idR A i j = A i j.
Proof.
  intros H. unfold mulR. transitivity (sumR (fun k => (if Nat.eqb k i then 0 + 1 else 0) * A k j) M).
  - apply sumR_ext. intros k _. unfold idR. rewrite Nat.eqb_sym. destruct (Nat.eqb k i); ring.
  - rewrite (sumR_upd (fun _ => 0) (fun k => A k j) i 1 M H), (sumR_scal 0 (fun i => A i j)). ring.
Qed.
Lemma mul_id_r A i j : (j < M)%nat -> mul A idR i j = A i j.
Proof. intros H. transitivity (mul idR (trR A) j i); [|exact (mul_id_l (trR A) j i H)]. unfold mulR. apply sumR_ext. intros k _. unfold idR, trR. rewrite Nat.eqb_sym. ring. Qed.
Lemma mul_abs A B a b i j : (forall k, (k < M)%nat -> Rabs (A i k) <= a) -> (forall k, (k < M)%nat -> Rabs (B k j) <= b) -> Rabs (mul A B i j) <= INR M * (a * b).
Proof. intros H1 H2. unfold mulR. apply sumR_abs_le. intros k Hk. apply prod_abs; [apply H1|apply H2]; exact Hk. Qed.

Lemma tri_solve (T Y : nat -> nat -> R) n : (forall i, (i < n)%nat -> T i i <> 0) -> exists S : nat -> nat -> R, forall i j, (i < n)%nat -> sumR (fun k => T i k * S k j) (Datatypes.S i) = Y i j.
Proof.
  induction n as [|n IH]; intros HT; [exists (fun _ _ => 0); intros; lia|]. destruct (IH ltac:(intros; apply HT; lia)) as (S & HS).
  exists (fun k j => if Nat.eqb k n then (Y n j - sumR (fun k => T n k * S k j) n) / T n n else S k j). intros i j Hi. destruct (Nat.eq_dec i n) as [->|N].
  - cbn [sumR]. rewrite Nat.eqb_refl. rewrite (sumR_ext _ (fun k => T n k * S k j)) by (intros k Hk; destruct (Nat.eqb_spec k n); [lia|reflexivity]). field. apply HT. lia.
  - rewrite <- (HS i j) by lia. apply sumR_ext. intros k Hk. destruct (Nat.eqb_spec k n); [lia|reflexivity].
Qed.
Lemma tri_inj (T : nat -> nat -> R) (x : nat -> R) : (forall i, (i < M)%nat -> T i i <> 0) -> (forall i k, (i < k < M)%nat -> T i k = 0) -> (forall i, (i < M)%nat -> sumR (fun k => T i k * x k) M = 0) -> forall i, (i < M)%nat -> x i = 0.
Proof.
  intros HT HU HX i. induction i as [i IH] using lt_wf_ind. intros Hi. specialize (HX i Hi). rewrite (sumR_cut _ (S i) M) in HX by (lia || (intros k Hk; rewrite HU by lia; ring)). cbn [sumR] in HX.
  rewrite (sumR_ext _ (fun k => 0 * 0)), (sumR_scal 0 (fun _ => 0)) in HX by (intros k Hk; rewrite IH by lia; ring). specialize (HT i Hi). apply (Rmult_eq_reg_l (T i i)); [lra|exact HT].
Qed.
Lemma max_entry (x : nat -> R) n : (1 <= n)%nat -> exists m, (m < n)%nat /\ forall k, (k < n)%nat -> Rabs (x k) <= Rabs (x m).
Proof.
  induction n as [|n IH]; intros Hn; [lia|]. destruct (Nat.eq_dec n 0) as [->|N]; [exists 0%nat; split; [lia|intros k Hk; replace k with 0%nat by lia; lra]|].
  destruct (IH ltac:(lia)) as (m & Hm & Hx). destruct (Rle_dec (Rabs (x n)) (Rabs (x m))) as [H|H].
  - exists m. split; [lia|]. intros k Hk. destruct (Nat.eq_dec k n) as [->|]; [exact H|apply Hx; lia].
  - exists n. split; [lia|]. intros k Hk. destruct (Nat.eq_dec k n) as [->|]; [lra|]. specialize (Hx k ltac:(lia)). lra.
Qed.

Variables (L W : nat -> nat -> R) (be ga ep : R).
Hypotheses (HM : (1 <= M)%nat) (HLd : forall i, (i < M)%nat -> L i i <> 0) (HLu : forall i k, (i < k < M)%nat -> L i k = 0) (HWu : forall i k, (i < k < M)%nat -> W i k = 0).
Hypotheses (HLb : forall i k, (i < M)%nat -> (k < M)%nat -> Rabs (L i k) <= be) (HWb : forall i k, (i < M)%nat -> (k < M)%nat -> Rabs (W i k) <= ga).
Hypotheses (Hep : INR M * ep <= 1 / 2) (HR : forall i j, (i < M)%nat -> (j < M)%nat -> Rabs (mul L W i j - idR i j) <= ep).
Definition resE (i j : nat) : R := mul L W i j - idR i j.
Lemma alg_bounds : 0 <= be /\ 0 <= ga /\ 0 <= ep /\ ep <= 1 / 2 /\ 1 <= INR M.
Proof.
  pose proof (Rle_trans _ _ _ (Rabs_pos _) (HLb 0%nat 0%nat ltac:(lia) ltac:(lia))). pose proof (Rle_trans _ _ _ (Rabs_pos _) (HWb 0%nat 0%nat ltac:(lia) ltac:(lia))). pose proof (Rle_trans _ _ _ (Rabs_pos _) (HR 0%nat 0%nat ltac:(lia) ltac:(lia))).
  assert (1 <= INR M) by (apply (le_INR 1); exact HM). repeat split; try assumption. nra.
Qed.
Lemma lw_upper i k : (i < k < M)%nat -> mul L W i k = 0.
Proof.
  intros H. unfold mulR. rewrite (sumR_ext _ (fun c => 0 * 0)), (sumR_scal 0 (fun _ => 0)); [ring|]. intros c Hc. destruct (Nat.le_gt_cases c i); [rewrite HWu by lia; ring|rewrite HLu by lia; ring].
Qed.
(** The inverse on the other side. *)
Lemma left_near i j : (i < M)%nat -> (j < M)%nat -> Rabs (mul W L i j - idR i j) <= 2 * (INR M * INR M * (be * ga)) * ep.
Proof.
  intros Hi Hj. destruct alg_bounds as (B0 & G0 & E0 & E1 & M1). destruct (tri_solve (mul L W) (mul resE L) M) as (S & HS).
  { intros k Hk. pose proof (HR k k Hk Hk) as X. unfold idR in X. rewrite Nat.eqb_refl in X. apply Rabs_le_both in X. intros Z. rewrite Z in X. lra. }
  assert (TS : forall i j, (i < M)%nat -> mul (mul L W) S i j = mul resE L i j).
  { intros a c Ha. rewrite <- HS by exact Ha. unfold mulR at 1. apply sumR_cut; [lia|]. intros k Hk. rewrite lw_upper by lia. ring. }
  assert (YB : forall i, (i < M)%nat -> Rabs (mul resE L i j) <= INR M * (ep * be)) by (intros a Ha; apply mul_abs; intros k Hk; [apply HR|apply HLb]; assumption).
  assert (SB : forall k, (k < M)%nat -> Rabs (S k j) <= 2 * (INR M * (ep * be))).
  { destruct (max_entry (fun k => S k j) M HM) as (m & Hm & Hx). cbv beta in Hx. intros k Hk. eapply Rle_trans; [apply Hx, Hk|].
    assert (Q : mul (mul L W) S m j = S m j + mul resE S m j).
    { transitivity (mul idR S m j + mul resE S m j); [|rewrite (mul_id_l S m j Hm); reflexivity]. rewrite <- mul_plus_l. apply mul_ext; [|reflexivity]. intros c _. unfold resE. ring. }
    rewrite TS in Q by exact Hm. pose proof (mul_abs resE S ep (Rabs (S m j)) m j (fun c Hc => HR m c Hm Hc) Hx) as R1. specialize (YB m Hm). pose proof (Rabs_pos (S m j)) as P.
    assert (INR M * (ep * Rabs (S m j)) <= 1 / 2 * Rabs (S m j)) by (rewrite <- Rmult_assoc; apply Rmult_le_compat_r; assumption).
    replace (S m j) with (mul resE L m j - mul resE S m j) at 1 by lra. apply Rabs_le_both in YB, R1. assert (Rabs (S m j) <= INR M * (ep * be) + 1 / 2 * Rabs (S m j)) by (replace (S m j) with (mul resE L m j - mul resE S m j) at 1 by lra; apply Rabs_le; lra).
    replace (mul resE L m j - mul resE S m j) with (S m j) by lra. lra. }
  assert (EQ : mul W L i j - idR i j = mul W S i j).
  { apply Rminus_diag_uniq. apply (tri_inj L (fun i => mul W L i j - idR i j - mul W S i j) HLd HLu); [|exact Hi]. intros a Ha. change (mul L (fun i j => mul W L i j - idR i j - mul W S i j) a j = 0).
    rewrite (mul_minus_r L (fun i j => mul W L i j - idR i j) (mul W S)), (mul_minus_r L (mul W L) idR), <- !mul_assoc, TS, mul_id_r by assumption.
    replace (mul (mul L W) L a j) with (L a j + mul resE L a j); [ring|]. transitivity (mul idR L a j + mul resE L a j); [rewrite (mul_id_l L a j Ha); reflexivity|]. rewrite <- mul_plus_l. apply mul_ext; [|reflexivity]. intros c _. unfold resE. ring. }
  rewrite EQ. eapply Rle_trans; [apply (mul_abs W S ga (2 * (INR M * (ep * be)))); [intros; apply HWb; assumption|exact SB]|]. right. ring.
Qed.

Variables (A X : nat -> nat -> R) (e1 e3 : R).
Hypotheses (HA : forall i j, (i < M)%nat -> (j < M)%nat -> Rabs (A i j - mul L (trR L) i j) <= e1).
Hypotheses (HX : forall i j, (i < M)%nat -> (j < M)%nat -> Rabs (X i j - mul (trR W) W i j) <= e3).
Lemma inverse_near i j : (i < M)%nat -> (j < M)%nat ->
  Rabs (mul A X i j - idR i j) <= ep + 2 * (INR M * INR M * (be * ga)) * (INR M * INR M * (be * ga)) * ep + INR M * INR M * (be * be) * e3 + INR M * INR M * (ga * ga) * e1 + INR M * e1 * e3.
Proof.
  intros Hi Hj. set (P := mul L (trR L)) in *. set (N := mul (trR W) W) in *. set (D1 := fun i j => A i j - P i j). set (D3 := fun i j => X i j - N i j). set (G := fun i j => mul W L i j - idR i j).
  assert (E : mul A X i j = mul P N i j + mul P D3 i j + (mul D1 N i j + mul D1 D3 i j)).
  { rewrite <- !mul_plus_r, <- mul_plus_l. apply mul_ext; intros k _; unfold D1, D3; ring. }
  assert (E2 : mul P N i j = mul L W i j + mul (mul L (trR G)) W i j).
  { unfold P, N. rewrite <- mul_assoc. rewrite <- mul_plus_l. apply mul_ext; [|reflexivity]. intros k Hk. rewrite mul_assoc. transitivity (mul L idR i k + mul L (trR G) i k); [|rewrite (mul_id_r L i k Hk); reflexivity]. rewrite <- mul_plus_r. apply mul_ext; [reflexivity|].
    intros c _. unfold trR, G, idR. rewrite (Nat.eqb_sym k c). replace (mul (fun i j => L j i) (fun i j => W j i) c k) with (mul W L k c); [ring|]. unfold mulR. apply sumR_ext. intros; ring. }
  assert (PB : forall k, (k < M)%nat -> Rabs (P i k) <= INR M * (be * be)) by (intros k Hk; apply mul_abs; intros c Hc; apply HLb; assumption).
  assert (NB : forall k, (k < M)%nat -> Rabs (N k j) <= INR M * (ga * ga)) by (intros k Hk; apply mul_abs; intros c Hc; apply HWb; assumption).
  pose proof (mul_abs P D3 _ e3 i j PB (fun k Hk => HX k j Hk Hj)) as B1. pose proof (mul_abs D1 N e1 _ i j (fun k Hk => HA i k Hi Hk) NB) as B2.
  pose proof (mul_abs D1 D3 e1 e3 i j (fun k Hk => HA i k Hi Hk) (fun k Hk => HX k j Hk Hj)) as B3.
  assert (B5 : Rabs (mul (mul L (trR G)) W i j) <= INR M * (INR M * (be * (2 * (INR M * INR M * (be * ga)) * ep)) * ga)).
  { apply mul_abs; [|intros; apply HWb; assumption]. intros k Hk. apply mul_abs; [intros c Hc; apply HLb; assumption|]. intros c Hc. apply left_near; assumption. }
  pose proof (HR i j Hi Hj) as B6. rewrite E, E2. apply Rabs_le_both in B1, B2, B3, B5, B6. apply Rabs_le. split; lra.
Qed.
End Alg.

(** ** The inverse *)
Lemma cholinv_near M fa fo ft A V0 j1 j2 b be ga g : let fi := imd_fmt ft 0 0 RND SAT in
  chol_types ft fi -> chol_room M fi b <= bpow2 (fI fi - 2) ->
  (forall i j, (i < M)%nat -> (j < M)%nat -> Rabs (fxval (A i j) (fF fa)) <= b /\ fxval (A i j) (fF fa) = fxval (A j i) (fF fa)) ->
  b + chol_err M ft fi b <= be * be -> g + bpow2 (- fF fo) + INR M * bpow2 (- fF ft) <= ga * ga -> inv_room M ft fo be ga ->
  exists out, cholinv false false M fa fo ft A V0 j1 j2 = Some out /\
    ((forall i, (i < M)%nat -> fxval (out i i) (fF fo) <= g) -> forall i j, (i < M)%nat -> (j < M)%nat ->
      Rabs (mulR M (fun i j => fxval (A i j) (fF fa)) (fun i j => fxval (out i j) (fF fo)) i j - (if Nat.eqb i j then 1 else 0)) <= inv_err M ft fo (chol_err M ft fi b) be ga).
Proof.
  intros fi TK HB HA Hbe Hga [HM HWo HSo HOo B0 G0 R1 R2 R3 R4 R5]. pose proof (tk_wo _ _ TK) as HW. pose proof (tk_so _ _ TK) as HS. pose proof (tk_oo _ _ TK) as HO. assert (HF : (0 <= fF ft)%Z) by (pose proof (tk_fra _ _ TK) as X; lia).
  destruct (cholinv_char false false M fa fo ft A V0 j1 j2 ltac:(lia)) as (outL & V & EL & HV & E). eexists. split; [exact E|]. intros Hd i j Hi Hj.
  assert (HWg : forall k i, (k < M)%nat -> (i < M)%nat -> Rabs (low i k (fxval (V k i) (fF ft))) <= ga) by (intros k c Hk Hc; apply (diag_bound M ft fo V ga ltac:(lia) HS HO HWo HSo HOo g HM G0 Hga R3 R4 c Hc (Hd c Hc) k Hk)).
  assert (HWl : forall k i, (i <= k < M)%nat -> Rabs (fxval (V k i) (fF ft)) <= ga).
  { intros k c Hk. specialize (HWg k c ltac:(lia) ltac:(lia)). unfold low in HWg. destruct (Nat.leb_spec c k); [exact HWg|lia]. }
  destruct (chol_exact M fa ft fi A j1 b TK HB ltac:(intros; apply HA; lia)) as (outL' & EL' & [(L & HL1 & HL2 & HL3 & HL4)|HZ] & _); fold fi in EL; rewrite EL in EL'; injection EL' as <-.
  2:{ exfalso. destruct (HV 0%nat 0%nat ltac:(lia)) as (r & Er & EV). cbn [Nat.eqb] in EV. unfold chol_l in Er. rewrite HZ in Er by lia. unfold inv_recip in Er. rewrite HS in Er. rewrite div_sfx_zero in Er. cbn [Z.ltb Z.compare] in Er. injection Er as Er.
    specialize (HWl 0%nat 0%nat ltac:(lia)). rewrite EV, <- Er in HWl. unfold highest in HWl. rewrite HS in HWl. pose proof (top_max ft ltac:(lia) HS) as T. rewrite HS in T. unfold imax in T. rewrite T in HWl. apply Rabs_le_both in HWl. lra. }
  assert (CL : forall i j, (i < M)%nat -> (j < M)%nat -> chol_l outL i j = L i j) by (intros a c Ha Hc; unfold chol_l; rewrite HL1 by assumption; reflexivity).
  set (l := fun j k => fxval (chol_l outL j k) (fF ft)). set (w := fun k i => low i k (fxval (V k i) (fF ft))).
  assert (FA : forall i j, (i < M)%nat -> (j < M)%nat -> Rabs (fxval (A i j) (fF fa) - mulR M l (trR l) i j) <= chol_err M ft fi b).
  { assert (FL : forall i j, (j <= i < M)%nat -> Rabs (fxval (A i j) (fF fa) - mulR M l (trR l) i j) <= chol_err M ft fi b).
    { intros a c Hac. eapply Rle_trans; [|apply (HL4 a c Hac)]. right. do 2 f_equal. unfold mulR, trR, l. apply sumR_ext. intros k Hk. rewrite !CL by lia. reflexivity. }
    intros a c Ha Hc. destruct (Nat.le_ge_cases c a); [apply FL; lia|]. destruct (HA a c Ha Hc) as [_ ->]. replace (mulR M l (trR l) a c) with (mulR M l (trR l) c a) by (unfold mulR, trR; apply sumR_ext; intros; ring). apply FL; lia. }
  assert (LB : forall i k, (i < M)%nat -> (k < M)%nat -> Rabs (l i k) <= be).
  { intros a c Ha Hc. pose proof (FA a a Ha Ha) as Q. destruct (HA a a Ha Ha) as [Q2 _]. pose proof (sumR_entry (fun k => l a k * l a k) M c ltac:(intros; apply Rle_0_sqr) Hc) as Q3. cbv beta in Q3.
    unfold mulR, trR in Q. apply Rabs_le_both in Q, Q2. apply Rabs_le. split; apply Rnot_lt_le; intros X; nra. }
  assert (LP : forall j, (j < M)%nat -> 0 < l j j) by (intros c Hc; unfold l; rewrite CL by assumption; apply fx_pos, HL3, Hc).
  assert (LU : forall j k, (j < k < M)%nat -> l j k = 0) by (intros a c Hac; unfold l; rewrite CL by lia; rewrite HL2 by lia; apply fxval_0).
  pose proof (lv_near M ft (chol_l outL) j2 V be ga ltac:(lia) HS HO HF HV) as LV. cbv zeta in LV.
  specialize (LV ltac:(intros c Hc; pose proof (chol_l_diag false M fa ft A j1 outL ltac:(lia) EL c Hc) as X; rewrite HS in X; exact X) LB LP LU HWl R1 R2).
  assert (HWb : forall k i, (k < M)%nat -> (i < M)%nat -> Rabs (w k i) <= ga) by exact HWg.
  assert (HWa : forall k i, (k < M)%nat -> Rabs (low i k (fxval (V k i) (fF ft))) <= ga).
  { intros k c Hk. unfold low. destruct (Nat.leb_spec c k); [apply HWl; lia|rewrite Rabs_R0; exact G0]. }
  apply (inverse_near M l w be ga (inv_res M ft be ga) HM); try assumption.
  - intros k Hk. specialize (LP k Hk). lra.
  - intros a c Hac. unfold w, low. destruct (Nat.leb_spec c a); [lia|reflexivity].
  - intros a c Ha Hc. unfold idR. rewrite Nat.eqb_sym. apply LV; assumption.
  - intros a c Ha Hc. apply (prod_ok M ft fo V ga ltac:(lia) HS HO HWo HSo HOo HM HWa R3 R4 a c Ha Hc).
Qed.

(** A 3 x 3 case: the conditions hold, and the residual is below 1/8. *)
Lemma room_case : let fi := imd_fmt f32_16 0 0 RND SAT in chol_types f32_16 fi /\ chol_room 3 fi 6 <= bpow2 (fI fi - 2) /\ 6 + chol_err 3 f32_16 fi 6 <= 5 / 2 * (5 / 2) /\
  35 / 100 + bpow2 (- fF f32_16) + INR 3 * bpow2 (- fF f32_16) <= 6 / 10 * (6 / 10) /\ inv_room 3 f32_16 f32_16 (5 / 2) (6 / 10) /\ inv_err 3 f32_16 f32_16 (chol_err 3 f32_16 fi 6) (5 / 2) (6 / 10) <= 1 / 8.
Proof.
  intros fi. assert (U : bpow2 (- (16)) = / 65536) by (rewrite bpow2_opp, bpow2_IZR by lia; reflexivity). assert (T : bpow2 15 = 32768) by (rewrite bpow2_IZR by lia; reflexivity). assert (T' : bpow2 14 = 16384) by (rewrite bpow2_IZR by lia; reflexivity).
  assert (CE : 0 <= chol_err 3 f32_16 fi 6 <= 60 / 65536).
  { unfold chol_err, chol_room. cbv zeta. change (fF fi) with 16%Z. change (fF f32_16) with 16%Z. rewrite U. cbn [INR Nat.add]. set (B := 6 + _). assert (HB : 6 <= B <= 601 / 100) by (unfold B; lra).
    assert (SQ : 0 <= sqrt B <= 5 / 2). { split; [apply sqrt_pos|]. apply Rsqr_incr_0_var; [|lra]. rewrite Rsqr_sqrt by lra. unfold Rsqr. lra. } clearbody B. set (q := sqrt B) in *. clearbody q. split; nra. }
  split; [|split; [|split; [|split; [|split]]]].
  - constructor; cbv; try reflexivity; try discriminate; split; discriminate.
  - unfold chol_room. change (fF fi) with 16%Z. change (fI fi - 2)%Z with 14%Z. rewrite U, T'. cbn [INR Nat.add]. lra.
  - lra.
  - change (fF f32_16) with 16%Z. rewrite U. cbn [INR]. lra.
  - constructor; unfold inv_res, top; change (fF f32_16) with 16%Z; change (fI f32_16 - 1)%Z with 15%Z; rewrite ?U, ?T; cbn [INR]; try reflexivity; try lia; try lra. cbv; discriminate.
  - unfold inv_err, inv_res. cbv zeta. change (fF f32_16) with 16%Z. rewrite U. cbn [INR]. set (e := chol_err 3 f32_16 fi 6) in *. clearbody e. lra.
Qed.
Lemma cholinv_sym3 : exists out, cholinv false false 3 f32_16 f32_16 f32_16 sym3 (fun _ _ => 0%Z) (fun _ => 0%Z) 0 = Some out /\
  forall i j, (i < 3)%nat -> (j < 3)%nat -> Rabs (mulR 3 (fun i j => fxval (sym3 i j) 16) (fun i j => fxval (out i j) 16) i j - (if Nat.eqb i j then 1 else 0)) <= 1 / 8.
Proof.
  destruct room_case as (H1 & H2 & H3 & H4 & H5 & H6). assert (U : bpow2 (- (16)) = / 65536) by (rewrite bpow2_opp, bpow2_IZR by lia; reflexivity).
  destruct (cholinv_near 3 f32_16 f32_16 f32_16 sym3 (fun _ _ => 0%Z) (fun _ => 0%Z) 0 6 (5 / 2) (6 / 10) (35 / 100) H1 H2) as (out & E & N); try assumption.
  - intros i j Hi Hj. destruct i as [|[|[|i]]]; try lia; destruct j as [|[|[|j]]]; try lia; (split; [|reflexivity]); unfold fxval; change (fF f32_16) with 16%Z; rewrite U; match goal with |- context [IZR ?z] => let v := eval vm_compute in z in change z with v end; apply Rabs_le; lra.
  - exists out. split; [exact E|]. intros i j Hi Hj. eapply Rle_trans; [apply N; try assumption|exact H6]. intros k Hk.
    assert (X : match cholinv false false 3 f32_16 f32_16 f32_16 sym3 (fun _ _ => 0%Z) (fun _ => 0%Z) 0 with Some V => V 0%nat 0%nat = 20541%Z /\ V 1%nat 1%nat = 22497%Z /\ V 2%nat 2%nat = 15650%Z | None => False end) by (vm_compute; repeat split).
    rewrite E in X. destruct X as (X0 & X1 & X2). unfold fxval. change (fF f32_16) with 16%Z. rewrite U. destruct k as [|[|[|k]]]; try lia; rewrite ?X0, ?X1, ?X2; lra.
Qed.
