(** The complex factorisation reproduces the matrix; it succeeds on matrices that are positive definite with a margin. *)
From Coq Require Import Reals Lra Psatz.
From Verif Require Import AcTypes AcFacts AbsProofs Spec SpecFacts SpecR SpecRFacts SpecLin SpecCplx SpecLinC RtTypes DivModel MatrixModel MatrixProofs MatCplxModel SoftFacts CholModel CholProofs CholReal CholThm CholPwl CholStruct CholCplxModel CholCplx CholCplxReal.
Local Open Scope R_scope.

Section Vals.
Variables (fo : fmt) (L : nat -> nat -> gi).
Local Notation lr i k := (fxval (fst (L i k)) (fF fo)).
Local Notation li i k := (fxval (snd (L i k)) (fF fo)).
Lemma pr_val i k c : fxval (pr L i k c) (2 * fF fo) = lr i c * lr k c + li i c * li k c.
Proof. unfold pr. replace (2 * fF fo)%Z with (fF fo + fF fo)%Z by lia. rewrite <- !fxval_mul. unfold fxval. rewrite plus_IZR. ring. Qed.
Lemma pi_val i k c : fxval (pi L i k c) (2 * fF fo) = li i c * lr k c - lr i c * li k c.
Proof. unfold pi. replace (2 * fF fo)%Z with (fF fo + fF fo)%Z by lia. rewrite <- !fxval_mul. unfold fxval. rewrite minus_IZR. ring. Qed.
End Vals.

Section Fact.
Variables (pwl : bool) (M : nat) (fa fo fi : fmt) (A : nat -> nat -> gi) (junk : nat -> Z) (L : nat -> nat -> gi) (b : R).
Variables (D kap del X : R).
Hypothesis TK : chol_types fo fi.
Local Notation u := (bpow2 (- fF fo)).
Local Notation ui := (bpow2 (- fF fi)).
Local Notation vo m := (fxval m (fF fo)).
Local Notation vi m := (fxval m (fF fi)).
Local Notation P i j := (fxval (fst (A i j)) (fF fa)).
Local Notation N i j := (fxval (snd (A i j)) (fF fa)).
Local Notation lr i k := (vo (fst (L i k))).
Local Notation li i k := (vo (snd (L i k))).
Local Notation ar i j := (conv fi (fst (A i j)) (fF fa)).
Local Notation ai i j := (conv fi (snd (A i j)) (fF fa)).
Let B : R := b + INR (M + 1) * ui.
Hypothesis HB : B <= bpow2 (fI fi - 2).
Hypothesis HA : forall i j, (j <= i < M)%nat -> Rabs (P i j) <= b /\ ((j < i)%nat -> Rabs (N i j) <= b).
Hypothesis HC : forall k, (k < M)%nat -> ccrout pwl M fa fo fi A junk L k.
Hypothesis HX : sqrt B <= X.
Local Notation piv k m := (gchain fo fi (pr L k k) m (ar k k)).
Local Notation offr i k m := (gchain fo fi (pr L i k) m (ar i k)).
Local Notation offi i k m := (gchain fo fi (pi L i k) m (ai i k)).
Local Notation sq i := (fun c => lr i c * lr i c + li i c * li i c).
Local Notation dr i k := (fun c => lr i c * lr k c + li i c * li k c).
Local Notation di i k := (fun c => li i c * lr k c - lr i c * li k c).
Hypothesis Hroot : forall k d r, (0 < piv k k)%Z -> in_range true (fW fi) (piv k k) -> vi (piv k k) <= B ->
  chol_root pwl fo fi (junk k) (piv k k) = Some (d, r) -> root_spec fo fi B X D kap del (vi (piv k k)) d r.

Lemma sq_pos i c : 0 <= lr i c * lr i c + li i c * li i c.
Proof. nra. Qed.

Lemma Ii_halfC : bpow2 (fW fi - 1 - fF fi) = 2 * bpow2 (fI fi - 2).
Proof. replace (fW fi - 1 - fF fi)%Z with (1 + (fI fi - 2))%Z by (unfold fF; lia). rewrite bpow2_add, bpow2_1. reflexivity. Qed.
Lemma M1C : INR (M + 1) = INR M + 1. Proof. rewrite plus_INR. reflexivity. Qed.
Lemma uiC : 0 < ui. Proof. apply bpow2_pos. Qed.
Lemma b_nonnegC i : (i < M)%nat -> 0 <= b.
Proof. intros H. destruct (HA i i ltac:(lia)) as [Q _]. pose proof (Rabs_pos (P i i)). lra. Qed.
Lemma INR_M k : (k < M)%nat -> INR k + 1 <= INR M.
Proof. intros H. rewrite <- S_INR. apply le_INR. lia. Qed.

Lemma val_ok x : (0 < M)%nat -> Rabs (fxval x (fF fa)) <= b -> in_range true (fW fi) (conv fi x (fF fa)) /\ Rabs (vi (conv fi x (fF fa)) - fxval x (fF fa)) <= ui.
Proof.
  intros HM Ha. pose proof (b_nonnegC 0 HM) as Hb. apply Rabs_le_both in Ha. pose proof Ii_halfC as E. pose proof uiC as Pu.
  pose proof (tk_wi _ _ TK) as Wi. pose proof (pos_INR M). unfold B in HB. rewrite M1C in HB.
  assert (ui * 1 <= INR M * ui). { assert (1 <= INR M) by (apply (le_INR 1); lia). nra. }
  destruct (sat_near fi _ _ Wi ltac:(rewrite (tk_oi _ _ TK); discriminate) (conv_R fi x (fF fa) Wi)) as [R Nr].
  { rewrite imin_R by (try apply TK; assumption). destruct (imax_R fi) as [->|]; [|lia]. rewrite (tk_si _ _ TK), E. nra. }
  rewrite (tk_si _ _ TK) in R. split; assumption.
Qed.
Lemma ar_ok i j : (j <= i < M)%nat -> in_range true (fW fi) (ar i j) /\ Rabs (vi (ar i j) - P i j) <= ui.
Proof. intros H. apply val_ok; [lia|apply HA, H]. Qed.
Lemma ai_ok i j : (j < i < M)%nat -> in_range true (fW fi) (ai i j) /\ Rabs (vi (ai i j) - N i j) <= ui.
Proof. intros H. apply val_ok; [lia|apply (HA i j); lia]. Qed.

(** A row with positive sums up to m is bounded. *)
Lemma crow_bound i m : (i < M)%nat -> (m <= i)%nat -> (0 < piv i m)%Z ->
  (forall k, (k <= m)%nat -> sumR (sq i) k <= B) /\ vi (piv i m) <= B /\ Rabs (vi (piv i m) - (P i i - sumR (sq i) m)) <= (INR m + 1) * ui.
Proof.
  intros Hi Hm Pp. destruct (ar_ok i i ltac:(lia)) as [R Nn]. destruct (HA i i ltac:(lia)) as [Ha _]. apply Rabs_le_both in Nn, Ha. pose proof uiC as Pu.
  pose proof (gpivot_chain fo fi (tk_wi _ _ TK) (tk_si _ _ TK) (tk_oi _ _ TK) (pr L i i) (sq i) (pr_val fo L i i) _ (sq_pos i) R m Pp) as K. cbv beta in K.
  pose proof (INR_M i Hi) as Mi. assert (Mm : INR m <= INR i) by (apply le_INR; lia). split; [|split].
  - intros k Hk. destruct (K k Hk) as [Pk Nk]. apply (fx_pos _ (fF fi)) in Pk. apply Rabs_le_both in Nk. assert (INR k <= INR m) by (apply le_INR; lia).
    unfold B. rewrite M1C. nra.
  - destruct (K m ltac:(lia)) as [_ Nm]. apply Rabs_le_both in Nm. assert (0 <= sumR (sq i) m) by (apply sumR_nonneg; intros; apply sq_pos).
    unfold B. rewrite M1C. nra.
  - destruct (K m ltac:(lia)) as [_ Nm]. apply Rabs_le_both in Nm. apply Rabs_le. lra.
Qed.

Lemma piv_range k m : (k < M)%nat -> in_range true (fW fi) (piv k m).
Proof. intros H. apply gchain_range; [apply TK|apply TK|apply ar_ok; lia]. Qed.

(** The pivot column. *)
Lemma ccol_fact k : (k < M)%nat -> (0 < piv k k)%Z -> exists r, root_spec fo fi B X D kap del (vi (piv k k)) (fst (L k k)) r /\
  chol_root pwl fo fi (junk k) (piv k k) = Some (fst (L k k), r) /\ snd (L k k) = 0%Z /\
  forall i, (k < i < M)%nat -> fst (L i k) = conv fo (r * offr i k k) (2 * fF fi) /\ snd (L i k) = conv fo (r * offi i k k) (2 * fF fi).
Proof.
  intros Hk Pp. destruct (HC k Hk) as (d & r & E1 & E2 & E3). destruct (crow_bound k k Hk ltac:(lia) Pp) as (_ & PB & _).
  assert (RS := Hroot k d r Pp (piv_range k k Hk) PB E1).
  assert (Ed : fst (L k k) = d). { rewrite E2. cbn [fst]. apply conv_own; [pose proof (tk_wo _ _ TK); lia|rewrite (tk_oo _ _ TK); discriminate|]. rewrite (tk_so _ _ TK). apply RS. }
  exists r. rewrite Ed. split; [exact RS|split; [exact E1|split; [rewrite E2; reflexivity|]]]. intros i Hi. rewrite E3 by exact Hi. split; reflexivity.
Qed.

(** One part of the sums below the pivot. *)
Lemma part_fact (p : nat -> Z) (q : nat -> R) a V k : (forall c, fxval (p c) (2 * fF fo) = q c) -> in_range true (fW fi) a -> Rabs (vi a - V) <= ui -> Rabs V <= b ->
  (k + 1 < M)%nat -> (forall c, (c <= k)%nat -> Rabs (sumR q c) <= B) ->
  Rabs (vi (gchain fo fi p k a) - (V - sumR q k)) <= (INR k + 1) * ui /\ Rabs (vi (gchain fo fi p k a)) <= 2 * B.
Proof.
  intros Hp R Nn Ha Hk CS. apply Rabs_le_both in Nn, Ha. pose proof uiC as Pu. pose proof (INR_M (k + 1) Hk) as Mk. rewrite plus_INR in Mk. cbn [INR] in Mk. pose proof (pos_INR k).
  assert (T : forall c, (c <= k)%nat -> Rabs (vi a - sumR q c) <= b + ui + B).
  { intros c Hc. pose proof (CS c Hc) as Q. apply Rabs_le_both in Q. apply Rabs_le. lra. }
  assert (NB : Rabs (vi (gchain fo fi p k a) - (vi a - sumR q k)) <= INR k * ui).
  { apply (goff_chain fo fi (tk_wi _ _ TK) (tk_si _ _ TK) (tk_oi _ _ TK) p q Hp _ (b + ui + B) R k T). rewrite Ii_halfC. unfold B in *. rewrite M1C in *. nra. }
  pose proof (T k ltac:(lia)) as Tk. apply Rabs_le_both in NB, Tk. split; apply Rabs_le; [lra|]. unfold B in *. rewrite M1C in *. split; nra.
Qed.

Lemma coff_fact i k : (k < i < M)%nat -> (0 < piv k k)%Z -> (forall c, (c <= k)%nat -> sumR (sq i) c <= B) ->
  (Rabs (vi (offr i k k) - (P i k - sumR (dr i k) k)) <= (INR k + 1) * ui /\ Rabs (vi (offr i k k)) <= 2 * B) /\
  (Rabs (vi (offi i k k) - (N i k - sumR (di i k) k)) <= (INR k + 1) * ui /\ Rabs (vi (offi i k k)) <= 2 * B).
Proof.
  intros H Pp SB. destruct (crow_bound k k ltac:(lia) ltac:(lia) Pp) as (SK & _ & _). split.
  - destruct (ar_ok i k ltac:(lia)) as [R Nn]. apply (part_fact _ (dr i k)); [apply pr_val|exact R|exact Nn|apply HA; lia|lia|].
    intros c Hc. apply (cs_boundC (fun c => lr i c) (fun c => li i c) (fun c => lr k c) (fun c => li k c)); [apply SB, Hc|apply SK, Hc].
  - destruct (ai_ok i k ltac:(lia)) as [R Nn]. apply (part_fact _ (di i k)); [apply pi_val|exact R|exact Nn|apply (HA i k); lia|lia|].
    intros c Hc. rewrite (sumR_ext _ (fun c => li i c * lr k c + lr i c * (- li k c))) by (intros; ring).
    apply (cs_boundC (fun c => li i c) (fun c => lr i c) (fun c => lr k c) (fun c => - li k c)).
    + rewrite (sumR_ext _ (sq i)) by (intros; ring). apply SB, Hc.
    + rewrite (sumR_ext _ (sq k)) by (intros; ring). apply SK, Hc.
Qed.

(** A part of an element is the rounded product, or was limited. *)
Lemma part_cases l r s : l = conv fo (r * s) (2 * fF fi) -> Rabs (vo l - vi r * vi s) <= u \/ 2 * bpow2 (fI fo - 2) - u <= Rabs (vi r * vi s) /\ sqrt B < Rabs (vo l).
Proof.
  intros E. assert (C := conv_R fo (r * s) (2 * fF fi) ltac:(pose proof (tk_wo _ _ TK); lia)). rewrite <- E in C. replace (2 * fF fi)%Z with (fF fi + fF fi)%Z in C by lia. rewrite fxval_mul in C.
  set (V := vi r * vi s) in *. pose proof (Io_half fo) as Io2. pose proof (bpow2_pos (- fF fo)) as U0. pose proof (sqrtB_le fo fi B TK HB) as S2. pose proof (u_small fo fi TK) as U.
  pose proof (tk_wo _ _ TK) as Wo.
  assert (EM : fxval (imax (fS fo) (fW fo)) (fF fo) = 2 * bpow2 (fI fo - 2) - u) by (destruct (imax_R fo) as [->|]; [rewrite (tk_so _ _ TK), Io2; reflexivity|lia]).
  assert (Em : fxval (imin (fS fo) (fW fo)) (fF fo) = - (2 * bpow2 (fI fo - 2))) by (rewrite imin_R by (try apply TK; lia); rewrite Io2; reflexivity).
  destruct (Rle_lt_dec (fxval (imax (fS fo) (fW fo)) (fF fo)) V) as [Hh|Hh].
  { right. pose proof (sat_high fo V _ ltac:(lia) (tk_oo _ _ TK) C Hh) as ->. rewrite EM in *. pose proof (Rle_abs V). split; [lra|]. eapply Rlt_le_trans; [|apply Rle_abs]. lra. }
  destruct (Rle_lt_dec V (fxval (imin (fS fo) (fW fo)) (fF fo))) as [Hl|Hl].
  { right. pose proof (sat_low fo V _ ltac:(lia) (tk_oo _ _ TK) C Hl) as ->. rewrite Em in *. pose proof (Rle_abs (- V)) as Q. rewrite Rabs_Ropp in Q. split; [lra|]. rewrite Rabs_Ropp. eapply Rlt_le_trans; [|apply Rle_abs]. lra. }
  left. apply (sat_near fo V); [lia|rewrite (tk_oo _ _ TK); discriminate|exact C|lra].
Qed.

Let rho : R := INR M * ui + Rmax kap del.

Lemma cdiag_res k : (k < M)%nat -> (0 < piv k k)%Z -> Rabs (P k k - sumR (sq k) (S k)) <= rho.
Proof.
  intros Hk Pp. destruct (ccol_fact k Hk Pp) as (r & RS & _ & I0 & _). destruct (crow_bound k k Hk ltac:(lia) Pp) as (_ & _ & Nn). destruct RS as (_ & _ & K & _).
  cbn [sumR]. rewrite I0, fxval_0. pose proof (INR_M k Hk) as Mk. pose proof uiC. apply Rabs_le_both in Nn, K. pose proof (Rmax_l kap del). unfold rho. apply Rabs_le. nra.
Qed.

Lemma part_res i k : (k < i < M)%nat -> (0 < piv k k)%Z -> (forall c, (c <= S k)%nat -> sumR (sq i) c <= B) ->
  Rabs (P i k - sumR (dr i k) (S k)) <= rho /\ Rabs (N i k - sumR (di i k) (S k)) <= rho.
Proof.
  intros H Pp SB. destruct (ccol_fact k ltac:(lia) Pp) as (r & RS & _ & I0 & EL). destruct (EL i H) as [ER EI]. destruct (coff_fact i k H Pp ltac:(intros; apply SB; lia)) as [[N1 B1] [N2 B2]].
  assert (Q : lr i k * lr i k + li i k * li i k <= B). { specialize (SB (S k) ltac:(lia)). cbn [sumR] in SB. assert (0 <= sumR (sq i) k) by (apply sumR_nonneg; intros; apply sq_pos). lra. }
  assert (H1 : Rabs (lr i k) <= sqrt B) by (apply sq_le_abs; nra). assert (H2 : Rabs (li i k) <= sqrt B) by (apply sq_le_abs; nra).
  assert (E1 : Rabs (lr i k - vi r * vi (offr i k k)) <= u) by (destruct (part_cases _ _ _ ER) as [E|[_ E]]; [exact E|lra]).
  assert (E2 : Rabs (li i k - vi r * vi (offi i k k)) <= u) by (destruct (part_cases _ _ _ EI) as [E|[_ E]]; [exact E|lra]).
  destruct RS as (_ & _ & _ & K). pose proof (K _ _ B1 (Rle_trans _ _ _ H1 HX) E1) as K1. pose proof (K _ _ B2 (Rle_trans _ _ _ H2 HX) E2) as K2.
  cbn [sumR]. rewrite I0, fxval_0. pose proof (INR_M i ltac:(lia)) as Mi. assert (Mk : INR k + 1 <= INR i) by (rewrite <- S_INR; apply le_INR; lia). pose proof uiC. pose proof (Rmax_r kap del).
  assert (INR k * ui + ui <= INR M * ui) by nra. unfold rho. apply Rabs_le_both in N1, K1, N2, K2. split; apply Rabs_le; lra.
Qed.

Lemma cresidual i j : call_pos fa fo fi A L M = true -> (j <= i < M)%nat -> Rabs (P i j - sumR (dr i j) (S j)) <= rho /\ ((j < i)%nat -> Rabs (N i j - sumR (di i j) (S j)) <= rho).
Proof.
  intros HP H. pose proof (call_pos_k _ _ _ _ _ _ HP) as K. destruct (Nat.eq_dec i j) as [->|]; [split; [apply cdiag_res; [lia|apply K; lia]|lia]|].
  destruct (part_res i j ltac:(lia) (K j ltac:(lia))) as [R1 R2]; [|split; [exact R1|intros _; exact R2]]. intros c Hc. destruct (crow_bound i i ltac:(lia) ltac:(lia) (K i ltac:(lia))) as (SB & _). apply SB. lia.
Qed.

(** ** What the output is *)
Lemma cfactors out err : (forall i j, (i < M)%nat -> (j < M)%nat -> out i j = Some (if Nat.ltb i j || negb (call_pos fa fo fi A L M) then (0, 0)%Z else L i j)) ->
  rho <= err -> call_pos fa fo fi A L M = true -> exists L', chol_factorsC M (fun i j => P i j) (fun i j => N i j) (fF fo) err out L'.
Proof.
  intros HO HE AP. exists (fun i j => if Nat.ltb i j then (0, 0)%Z else L i j). split; [|split; [|split]].
  - intros i j Hi Hj. rewrite HO by assumption. rewrite AP, orb_false_r. reflexivity.
  - intros i j H. destruct (Nat.ltb_spec i j); [reflexivity|lia].
  - intros j Hj. rewrite Nat.ltb_irrefl. destruct (ccol_fact j Hj (call_pos_k M fa fo fi A L AP j Hj)) as (r & RS & _ & I0 & _). split; [apply (fx_pos _ (fF fo)), RS|exact I0].
  - intros i j H. unfold dotCr, dotCi.
    rewrite (sumR_cut _ (S j)), (sumR_cut (fun k => _ - _) (S j)); try lia; try (intros k Hk; destruct (Nat.ltb_spec j k); [cbn [fst snd]; rewrite fxval_0; ring|lia]).
    rewrite (sumR_ext _ (dr i j)), (sumR_ext (fun k => _ - _) (di i j)); try (intros k Hk; destruct (Nat.ltb_spec i k); [lia|]; destruct (Nat.ltb_spec j k); [lia|reflexivity]).
    destruct (cresidual i j AP H) as [R1 R2]. split; [lra|]. intros Hji. specialize (R2 Hji). lra.
Qed.
(** ** Success *)
Hypothesis Hherm : hermitian M (fun i j => P i j) (fun i j => N i j).
Hypothesis HX2 : bpow2 (fI fo - 1) <= X.
Hypothesis Hdel : 0 <= Rmax kap del.
Hypothesis Hsat : forall k r s, (0 < piv k k)%Z -> in_range true (fW fi) (piv k k) -> vi (piv k k) <= B -> chol_root pwl fo fi (junk k) (piv k k) = Some (fst (L k k), r) ->
  Rabs s <= 2 * B -> 2 * bpow2 (fI fo - 2) - u <= Rabs (vi r * s) -> B <= (s / vo (fst (L k k))) * (s / vo (fst (L k k))).

Lemma out_range v e : Rabs (vo (conv fo v e)) <= X.
Proof.
  pose proof (tk_wo _ _ TK). assert (R := conv_range fo v e ltac:(lia)).
  rewrite (tk_so _ _ TK) in R. apply (range_R true (fW fo) (fI fo)) in R; [|lia]. change (fW fo - fI fo)%Z with (fF fo) in R. apply Rabs_le. lra.
Qed.

Lemma csuccess : (forall x y, (exists i, (i < M)%nat /\ (x i <> 0 \/ y i <> 0)) -> rho * norm1sqC x y M < quadC (fun i j => P i j) (fun i j => N i j) x y M) ->
  call_pos fa fo fi A L M = true.
Proof.
  intros HP. destruct (first_false (fun k => 0 <? piv k k)%Z M) as [H|(j & Hj & Fj & Pj)].
  { unfold call_pos. apply forallb_forall. intros k Hk. apply in_seq in Hk. apply H. lia. }
  exfalso. cbv beta in Fj, Pj. assert (PK : forall k, (k < j)%nat -> (0 < piv k k)%Z) by (intros k Hk; specialize (Pj k Hk); lia). clear Pj.
  destruct (first_false (fun m => 0 <? piv j m)%Z (S j)) as [H|(n & Hn & Fn & Pn)]; [specialize (H j ltac:(lia)); cbv beta in H; congruence|].
  cbv beta in Fn, Pn. assert (HR : 0 <= rho) by (unfold rho; pose proof (pos_INR M); pose proof uiC; nra). pose proof uiC as Pu.
  pose proof (INR_M j Hj) as Mj. assert (Mn : INR n <= INR j) by (apply le_INR; lia).
  (* the rows before j *)
  assert (RB : forall i, (i < j)%nat -> forall c, (c <= i)%nat -> sumR (sq i) c <= B).
  { intros i Hi c Hc. apply (crow_bound i i ltac:(lia) ltac:(lia) (PK i Hi)); exact Hc. }
  assert (RES : forall i k, (k <= i)%nat -> (i < j)%nat -> Rabs (P i k - sumR (dr i k) (S k)) <= rho /\ ((k < i)%nat -> Rabs (N i k - sumR (di i k) (S k)) <= rho)).
  { intros i k Hk Hi. destruct (Nat.eq_dec i k) as [->|]; [split; [apply cdiag_res; [lia|apply PK; lia]|lia]|].
    destruct (part_res i k ltac:(lia) (PK k ltac:(lia))) as [R1 R2]; [|split; [exact R1|intros _; exact R2]]. intros c Hc. apply RB; lia. }
  assert (DP : forall k, (k < n)%nat -> 0 < lr k k /\ li k k = 0). { intros k Hk. destruct (ccol_fact k ltac:(lia) (PK k ltac:(lia))) as (r & RS & _ & I0 & _). split; [apply RS|rewrite I0; apply fxval_0]. }
  (* a witness from a row for j *)
  assert (WIT : forall jr ji : nat -> R,
    (forall k, (k < n)%nat -> Rabs (P j k - (sumR (fun c => jr c * lr k c + ji c * li k c) k + jr k * lr k k)) <= rho /\
       Rabs (N j k - (sumR (fun c => ji c * lr k c - jr c * li k c) k + ji k * lr k k)) <= rho) ->
    P j j - sumR (fun c => jr c * jr c + ji c * ji c) n <= rho -> False).
  { intros jr ji H2 H3.
    set (er := fun i k => if Nat.ltb i k then 0 else if Nat.eqb i j then jr k else lr i k). set (ei := fun i k => if Nat.ltb i k then 0 else if Nat.eqb i j then ji k else li i k).
    assert (Lj : forall k, (k < n)%nat -> er j k = jr k /\ ei j k = ji k). { intros k Hk. unfold er, ei. destruct (Nat.ltb_spec j k); [lia|]. rewrite Nat.eqb_refl. split; reflexivity. }
    assert (Ll : forall i k, (i < j)%nat -> (k <= i)%nat -> er i k = lr i k /\ ei i k = li i k). { intros i k Hi Hk. unfold er, ei. destruct (Nat.ltb_spec i k); [lia|]. destruct (Nat.eqb_spec i j); [lia|split; reflexivity]. }
    destruct (small_formC (fun i j => P i j) (fun i j => N i j) er ei n j M rho ltac:(lia) HR) as (x & y & Xj & XQ).
    - intros k Hk. destruct (Ll k k ltac:(lia) ltac:(lia)) as [-> ->]. apply DP, Hk.
    - intros i k Hik _. unfold er, ei. destruct (Nat.ltb_spec i k); [split; reflexivity|lia].
    - exact Hherm.
    - intros i k Hk Hi. rewrite (sumR_ext _ (dr i k)), (sumR_ext (fun c => ei i c * er k c - er i c * ei k c) (di i k)); [apply RES; lia| |]; intros c Hc; destruct (Ll i c ltac:(lia) ltac:(lia)) as [-> ->]; destruct (Ll k c ltac:(lia) ltac:(lia)) as [-> ->]; reflexivity.
    - intros k Hk. cbn [sumR]. rewrite (sumR_ext _ (fun c => jr c * lr k c + ji c * li k c)), (sumR_ext (fun c => ei j c * er k c - er j c * ei k c) (fun c => ji c * lr k c - jr c * li k c));
        try (intros c Hc; destruct (Lj c ltac:(lia)) as [-> ->]; destruct (Ll k c ltac:(lia) ltac:(lia)) as [-> ->]; reflexivity).
      destruct (Lj k Hk) as [-> ->]. destruct (Ll k k ltac:(lia) ltac:(lia)) as [-> ->]. destruct (DP k Hk) as [_ ->]. destruct (H2 k Hk) as [G1 G2]. rewrite !Rmult_0_r, Rplus_0_r, Rminus_0_r. split; assumption.
    - rewrite (sumR_ext _ (fun c => jr c * jr c + ji c * ji c)); [exact H3|]. intros c Hc. destruct (Lj c Hc) as [-> ->]. reflexivity.
    - specialize (HP x y ltac:(exists j; split; [lia|left; rewrite Xj; lra])). lra. }
  destruct n as [|m].
  { (* the diagonal entry itself *)
    apply (WIT (fun _ => 0) (fun _ => 0)); [lia|]. cbn [sumR]. change (gchain fo fi (pr L j j) 0 (ar j j)) with (ar j j) in Fn. destruct (ar_ok j j ltac:(lia)) as [_ Nn]. apply Rabs_le_both in Nn.
    assert (vi (ar j j) <= 0) by (rewrite <- (fxval_0 (fF fi)); apply fxval_le; lia). unfold rho. pose proof (pos_INR j). nra. }
  specialize (Pn m ltac:(lia)) as Pm. cbv beta in Pm. assert (Pm' : (0 < piv j m)%Z) by lia. destruct (crow_bound j m Hj ltac:(lia) Pm') as (SB & PB & PN). apply Rabs_le_both in PN.
  destruct (ccol_fact m ltac:(lia) (PK m ltac:(lia))) as (r & RS & RE & I0 & EL). destruct (EL j ltac:(lia)) as [ER EI].
  destruct (coff_fact j m ltac:(lia) (PK m ltac:(lia)) SB) as [[NO1 NB1] [NO2 NB2]]. assert (Mm : INR m + 1 <= INR j) by (rewrite <- S_INR; exact Mn). pose proof (pos_INR m) as Pm0.
  assert (EARLY : forall k, (k < m)%nat -> Rabs (P j k - (sumR (dr j k) k + lr j k * lr k k)) <= rho /\ Rabs (N j k - (sumR (di j k) k + li j k * lr k k)) <= rho).
  { intros k Hk. destruct (part_res j k ltac:(lia) (PK k ltac:(lia))) as [R1 R2]; [intros c Hc; apply SB; lia|]. cbn [sumR] in R1, R2. destruct (DP k ltac:(lia)) as [_ Z0]. rewrite Z0 in R1, R2. rewrite Rmult_0_r, Rplus_0_r in R1. rewrite Rmult_0_r, Rminus_0_r in R2. split; assumption. }
  assert (RM : INR m * ui + 2 * ui + Rmax kap del <= rho) by (unfold rho; nra).
  assert (LIM : (B <= (vi (offr j m m) / lr m m) * (vi (offr j m m) / lr m m) + (vi (offi j m m) / lr m m) * (vi (offi j m m) / lr m m)) -> False).
  { assert (RBm := proj1 (proj2 RS)). destruct RBm as [D0 _]. intros SQ. set (s := vi (offr j m m)) in *. set (t := vi (offi j m m)) in *. set (d := lr m m) in *.
    apply (WIT (fun c => if Nat.eqb c m then s / d else lr j c) (fun c => if Nat.eqb c m then t / d else li j c)).
    + intros k Hk. rewrite (sumR_ext _ (dr j k)), (sumR_ext (fun c => (if Nat.eqb c m then t / d else li j c) * lr k c - (if Nat.eqb c m then s / d else lr j c) * li k c) (di j k)) by (intros c Hc; destruct (Nat.eqb_spec c m); [lia|reflexivity]).
      destruct (Nat.eqb_spec k m) as [->|]; [|apply EARLY; lia]. fold d. replace (s / d * d) with s by (field; lra). replace (t / d * d) with t by (field; lra). apply Rabs_le_both in NO1, NO2. split; apply Rabs_le; lra.
    + cbn [sumR]. rewrite Nat.eqb_refl. rewrite (sumR_ext _ (sq j)) by (intros c Hc; destruct (Nat.eqb_spec c m); [lia|reflexivity]). lra. }
  pose proof (proj2 (proj2 (proj2 RS))) as K.
  destruct (part_cases _ _ _ ER) as [Un1|[Sa _]].
  2: { apply LIM. destruct (crow_bound m m ltac:(lia) ltac:(lia) (PK m ltac:(lia))) as (_ & PBm & _). pose proof (Hsat m r _ (PK m ltac:(lia)) (piv_range m m ltac:(lia)) PBm RE NB1 Sa). pose proof (Rle_0_sqr (vi (offi j m m) / lr m m)) as Q. unfold Rsqr in Q. lra. }
  destruct (part_cases _ _ _ EI) as [Un2|[Sa _]].
  2: { apply LIM. destruct (crow_bound m m ltac:(lia) ltac:(lia) (PK m ltac:(lia))) as (_ & PBm & _). pose proof (Hsat m r _ (PK m ltac:(lia)) (piv_range m m ltac:(lia)) PBm RE NB2 Sa). pose proof (Rle_0_sqr (vi (offr j m m) / lr m m)) as Q. unfold Rsqr in Q. lra. }
  (* not limited: the next sum is not positive *)
  apply (WIT (fun c => lr j c) (fun c => li j c)).
  - intros k Hk. destruct (Nat.eq_dec k m) as [->|]; [|apply EARLY; lia].
    assert (O1 : Rabs (lr j m) <= X) by (rewrite ER; apply out_range). assert (O2 : Rabs (li j m) <= X) by (rewrite EI; apply out_range). assert (K1 := K _ _ NB1 O1 Un1). assert (K2 := K _ _ NB2 O2 Un2).
    apply Rabs_le_both in K1, NO1, K2, NO2. pose proof (Rmax_r kap del). split; apply Rabs_le; lra.
  - cbn [sumR]. assert (St := gchain_step fo fi (tk_wi _ _ TK) (pr L j j) (sq j) (pr_val fo L j j) m (ar j j)). cbv beta in St. set (V := vi (piv j m) - (lr j m * lr j m + li j m * li j m)) in *.
    assert (V <= ui).
    { destruct (Rle_lt_dec V ui) as [|Hlt]; [assumption|]. exfalso. destruct St as (z & Hr & Hl). assert (1 <= z)%Z.
      { apply (round_ge _ _ _ _ Hr). replace 1 with (ui * bpow2 (fF fi)) by (rewrite <- bpow2_add, Z.add_opp_diag_l; reflexivity). apply Rmult_le_compat_r; [left; apply bpow2_pos|lra]. }
      apply is_limited_unique in Hl; [|apply (tk_wi _ _ TK)]. rewrite (tk_oi _ _ TK), (tk_si _ _ TK) in Hl. cbn [overflow] in Hl.
      assert (1 <= imax true (fW fi))%Z. { apply Z.le_trans with (piv j m); [lia|]. apply (piv_range j m Hj). }
      revert Hl. repeat match goal with |- context [(?a <? ?b)%Z] => destruct (Z.ltb_spec a b) end; intros; unfold imin in *; pose proof (pow2_pos (fW fi - 1)); lia. }
    pose proof (Rmax_l kap del). unfold V in *. lra.
Qed.

End Fact.

(** ** The factorisation with ac_sqrt and ac_div *)
Section Exact.
Variables (M : nat) (fa fo fi : fmt) (A : nat -> nat -> gi) (junk : nat -> Z) (b : R).
Hypothesis TK : chol_types fo fi.
Hypothesis HB : chol_room M fi b <= bpow2 (fI fi - 2).
Local Notation u := (bpow2 (- fF fo)).
Local Notation ui := (bpow2 (- fF fi)).
Local Notation P i j := (fxval (fst (A i j)) (fF fa)).
Local Notation N i j := (fxval (snd (A i j)) (fF fa)).
Hypothesis HA : forall i j, (j <= i < M)%nat -> Rabs (P i j) <= b /\ ((j < i)%nat -> Rabs (N i j) <= b).
Let B := chol_room M fi b.

Lemma B_posC : (0 < M)%nat -> 0 <= B.
Proof. intros H. destruct (HA O O ltac:(lia)) as [Q _]. pose proof (Rabs_pos (P O O)). unfold B, chol_room. pose proof (pos_INR (M + 1)). pose proof (bpow2_pos (- fF fi)). nra. Qed.

Local Notation factors := (chol_factorsC M (fun i j => P i j) (fun i j => N i j) (fF fo) (chol_err M fo fi b)).

Lemma cchol_exact : exists out, cchol_d false M fa fo fi A junk = Some out /\ ((exists L, factors out L) \/ zero_outC M out) /\
  ((fI fi - fI fo + 2 <= fF fi)%Z -> hermitian M (fun i j => P i j) (fun i j => N i j) ->
   (forall x y, (exists i, (i < M)%nat /\ (x i <> 0 \/ y i <> 0)) -> chol_err M fo fi b * norm1sqC x y M < quadC (fun i j => P i j) (fun i j => N i j) x y M) -> exists L, factors out L).
Proof.
  destruct (cchol_d_eq false M fa fo fi A junk ltac:(pose proof (tk_wo _ _ TK); lia) (tk_wi _ _ TK)) as (out & L & E & HC & HO). exists out. split; [exact E|].
  destruct (Nat.eq_dec M 0) as [E0|HM].
  { assert (exists L, factors out L) as F. { exists (fun _ _ => (0, 0)%Z). rewrite E0. repeat split; intros; lia. } split; [left; exact F|intros; exact F]. }
  assert (B0 : 0 <= B) by (apply B_posC; lia). set (X := Rmax (sqrt B) (bpow2 (fI fo - 1))).
  set (piv := fun k => gchain fo fi (pr L k k) k (conv fi (fst (A k k)) (fF fa))).
  assert (HR : forall k d r, (0 < piv k)%Z -> in_range true (fW fi) (piv k) -> fxval (piv k) (fF fi) <= B -> chol_root false fo fi (junk k) (piv k) = Some (d, r) ->
    root_spec fo fi B X (sqrt B + u) (2 * (sqrt B + u) * u) ((sqrt B + u) * (u + 2 * B * ui)) (fxval (piv k) (fF fi)) d r)
    by (intros k d r Pp R PB RE; apply (root_exact fo fi B TK HB (junk k)); assumption).
  assert (EL : INR M * ui + Rmax (2 * (sqrt B + u) * u) ((sqrt B + u) * (u + 2 * B * ui)) <= chol_err M fo fi b) by (apply err_le; exact B0).
  assert (FA : call_pos fa fo fi A L M = true -> exists L, factors out L).
  { intros AP. apply (cfactors false M fa fo fi A junk L b (sqrt B + u) (2 * (sqrt B + u) * u) ((sqrt B + u) * (u + 2 * B * ui)) X TK HB HA HC (Rmax_l _ _) HR out _ HO EL AP). }
  split.
  - destruct (call_pos fa fo fi A L M) eqn:AP; [left; apply FA; reflexivity|right]. intros i j Hi Hj. rewrite HO by assumption. rewrite orb_true_r. reflexivity.
  - intros HF Hherm HP. apply FA.
    pose proof (bpow2_pos (- fF fo)) as U0. pose proof (bpow2_pos (- fF fi)) as U1. pose proof (sqrt_pos B) as S0.
    apply (csuccess false M fa fo fi A junk L b (sqrt B + u) (2 * (sqrt B + u) * u) ((sqrt B + u) * (u + 2 * B * ui)) X TK HB HA HC (Rmax_l _ _) HR Hherm (Rmax_r _ _)).
    + eapply Rle_trans; [|apply Rmax_l]. apply Rmult_le_pos; lra.
    + intros k r s Pp R PB RE Hs Hv. destruct (root_exact fo fi B TK HB _ _ _ _ X Pp R PB RE) as [RS Nr]. destruct RS as (_ & [D0 _] & _). set (d := fxval (fst (L k k)) (fF fo)) in *. set (vr := fxval r (fF fi)) in *.
      pose proof (sqrtB_le fo fi B TK HB) as S2. pose proof (u_small fo fi TK) as U.
      assert (Q : 2 * B * ui <= bpow2 (fI fo - 2) / 2).
      { replace (bpow2 (fI fo - 2) / 2) with (bpow2 (fI fo - 3)) by (replace (fI fo - 2)%Z with (1 + (fI fo - 3))%Z by lia; rewrite bpow2_add, bpow2_1; field).
        apply Rle_trans with (2 * bpow2 (fI fi - 2) * ui); [apply Rmult_le_compat_r; [lra|apply Rmult_le_compat_l; [lra|exact HB]]|]. replace (2 * bpow2 (fI fi - 2)) with (bpow2 (fI fi - 1)) by (replace (fI fi - 1)%Z with (1 + (fI fi - 2))%Z by lia; rewrite bpow2_add, bpow2_1; ring).
        rewrite <- bpow2_add. apply bpow2_le. lia. }
      assert (AB : bpow2 (fI fo - 2) <= Rabs (s / d)).
      { assert (Rabs (vr * s) <= Rabs (s / d) + ui * (2 * B)); [|lra]. replace (vr * s) with (s / d + (vr - / d) * s) by (unfold Rdiv; ring). eapply Rle_trans; [apply Rabs_triang|]. apply Rplus_le_compat_l.
        rewrite Rabs_mult. apply Rmult_le_compat; try apply Rabs_pos; assumption. }
      assert (E2 : (s / d) * (s / d) = Rabs (s / d) * Rabs (s / d)) by (rewrite <- Rabs_mult, Rabs_pos_eq by nra; reflexivity).
      rewrite E2. apply Rle_trans with (sqrt B * sqrt B); [right; symmetry; apply sqrt_sqrt; exact B0|]. apply Rmult_le_compat; lra.
    + intros x y Hx. specialize (HP x y Hx). eapply Rle_lt_trans; [|exact HP]. unfold norm1sqC. apply Rmult_le_compat_r; [|exact EL].
      assert (0 <= sumR (fun i => Rabs (x i) + Rabs (y i)) M) by (apply sumR_nonneg; intros k _; pose proof (Rabs_pos (x k)); pose proof (Rabs_pos (y k)); lra). nra.
Qed.

Lemma cchol_reject : hermitian M (fun i j => P i j) (fun i j => N i j) ->
  (exists x y, quadC (fun i j => P i j) (fun i j => N i j) x y M < - (chol_err M fo fi b * norm1sqC x y M)) -> exists out, cchol_d false M fa fo fi A junk = Some out /\ zero_outC M out.
Proof.
  intros HH (x & y & Hx). destruct cchol_exact as (out & E & [(L & _ & _ & _ & R)|Z] & _); exists out; (split; [exact E|]); [exfalso|exact Z].
  destruct (Nat.eq_dec M 0) as [E0|HM]; [rewrite E0 in Hx; unfold quadC, norm1sqC in Hx; cbn [sumR] in Hx; lra|].
  assert (E0 : 0 <= chol_err M fo fi b) by (destruct (R O O ltac:(lia)) as [Q _]; pose proof (Rabs_pos (P O O - dotCr (fF fo) L 0 0 M)); lra).
  pose proof (near_psdC (fun i j => P i j) (fun i j => N i j) (fun i k => fxval (fst (L i k)) (fF fo)) (fun i k => fxval (snd (L i k)) (fF fo)) M (chol_err M fo fi b) x y E0 HH R). lra.
Qed.
End Exact.

Lemma cchol_pwl M fa fo fi A junk b : chol_types fo fi -> (4 <= fW fo)%Z -> chol_room M fi b <= bpow2 (fI fi - 2) ->
  (forall i j, (j <= i < M)%nat -> Rabs (fxval (fst (A i j)) (fF fa)) <= b /\ ((j < i)%nat -> Rabs (fxval (snd (A i j)) (fF fa)) <= b)) ->
  exists out, cchol_d true M fa fo fi A junk = Some out /\
    ((exists L, chol_factorsC M (fun i j => fxval (fst (A i j)) (fF fa)) (fun i j => fxval (snd (A i j)) (fF fa)) (fF fo) (chol_err_pwl M fo fi b) out L) \/ zero_outC M out).
Proof.
  intros TK Wo4 HB HA. destruct (cchol_d_eq true M fa fo fi A junk ltac:(pose proof (tk_wo _ _ TK); lia) (tk_wi _ _ TK)) as (out & L & E & HC & HO). exists out. split; [exact E|].
  destruct (call_pos fa fo fi A L M) eqn:AP; [left|right; intros i j Hi Hj; rewrite HO by assumption; rewrite orb_true_r; reflexivity]. set (B := chol_room M fi b) in *.
  pose proof (fun k d r Pp R PB RE => root_pwl fo fi B TK Wo4 HB (junk k) (gchain fo fi (pr L k k) k (conv fi (fst (A k k)) (fF fa))) d r Pp R PB RE) as HR.
  apply (cfactors true M fa fo fi A junk L b _ _ _ (sqrt B) TK HB HA HC (Rle_refl _) HR out); [rewrite AP; exact HO| |exact AP].
  rewrite Rmax_left by lra. apply Rle_refl.
Qed.

(** ** Structure *)
Lemma cchol_struct pwl M fa fo fi A junk : (1 <= fW fo)%Z -> (1 <= fW fi)%Z ->
  exists out L (s : nat -> nat -> Z), cchol_d pwl M fa fo fi A junk = Some out /\
    (forall i j, (i < M)%nat -> (j < M)%nat -> in_range (fS fo) (fW fo) (fst (L i j)) /\ in_range (fS fo) (fW fo) (snd (L i j))) /\
    (forall j, (j < M)%nat -> snd (L j j) = 0%Z) /\
    (forall j, (j < M)%nat -> convertsR fi (fxval (fst (A j j)) (fF fa)) (s j O) /\
       forall k, (k < j)%nat -> convertsR fi (fxval (s j k) (fF fi) - (fxval (fst (L j k)) (fF fo) * fxval (fst (L j k)) (fF fo) + fxval (snd (L j k)) (fF fo) * fxval (snd (L j k)) (fF fo))) (s j (S k))) /\
    (forall i j, (i < j < M)%nat -> out i j = Some (0, 0)%Z) /\
    ((forall j, (j < M)%nat -> (0 < s j j)%Z) -> forall i j, (j <= i < M)%nat -> out i j = Some (L i j)) /\
    ((exists j, (j < M)%nat /\ (s j j <= 0)%Z) -> zero_outC M out).
Proof.
  intros Ho Hi. destruct (cchol_d_eq pwl M fa fo fi A junk Ho Hi) as (out & L & E & HC & HO).
  exists out, (fun i j => if Nat.ltb i j then (conv fo 0 0, conv fo 0 0) else L i j), (fun j k => gchain fo fi (pr L j j) k (conv fi (fst (A j j)) (fF fa))).
  split; [exact E|]. split; [|split; [|split; [|split; [|split]]]].
  - intros i j Hi' Hj'. destruct (Nat.ltb_spec i j); [split; apply conv_range, Ho|]. destruct (HC j Hj') as (d & r & _ & ED & EO). destruct (Nat.eq_dec i j) as [->|]; [rewrite ED|rewrite EO by lia; split; apply conv_range, Ho].
    cbn [fst snd]. split; [apply conv_range, Ho|rewrite <- (conv_zero fo Ho); apply conv_range, Ho].
  - intros j Hj. rewrite Nat.ltb_irrefl. destruct (HC j Hj) as (d & r & _ & -> & _). reflexivity.
  - intros j Hj. split; [apply conv_R, Hi|]. intros k Hk. replace (Nat.ltb j k) with false by (symmetry; apply Nat.ltb_ge; lia). apply (gchain_step fo fi Hi (pr L j j) (fun k => _) (pr_val fo L j j)).
  - intros i j H. rewrite HO by lia. replace (Nat.ltb i j) with true by (symmetry; apply Nat.ltb_lt; lia). reflexivity.
  - intros HP i j H. rewrite HO by lia. replace (Nat.ltb i j) with false by (symmetry; apply Nat.ltb_ge; lia).
    replace (call_pos fa fo fi A L M) with true; [reflexivity|]. symmetry. apply forallb_forall. intros k Hk. apply in_seq in Hk. specialize (HP k ltac:(lia)). lia.
  - intros (j & Hj & HN) i k Hi' Hk'. rewrite HO by assumption. replace (call_pos fa fo fi A L M) with false; [rewrite orb_true_r; reflexivity|].
    symmetry. destruct (call_pos fa fo fi A L M) eqn:AP; [|reflexivity]. pose proof (call_pos_k _ _ _ _ _ _ AP j Hj). lia.
Qed.

Lemma cchol_junk pwl M fa fo fi A j1 j2 : (0 < 1 + fF fo + fF fi + guard (fQ fi))%Z -> cchol_d pwl M fa fo fi A j1 = cchol_d pwl M fa fo fi A j2.
Proof.
  intros H. unfold cchol_d. rewrite (fold_left_ext _ (cchol_col pwl M fa fo fi A j2)); [reflexivity|]. intros st j. unfold cchol_col. destruct st as [[L ok]|]; [|reflexivity]. cbn [obind].
  destruct (cchol_pivot _ _ _ _ _ _) as [p|]; [|reflexivity]. cbn [obind].
  replace (chol_root pwl fo fi (j1 j) p) with (chol_root pwl fo fi (j2 j) p); [reflexivity|]. unfold chol_root. destruct pwl; [reflexivity|]. cbv zeta. do 2 f_equal. apply div_junk. exact H.
Qed.

(** ** Real matrices *)
Lemma ccrout_unique pwl M fa fo fi A junk L L' : (forall k, (k < M)%nat -> ccrout pwl M fa fo fi A junk L k) -> (forall k, (k < M)%nat -> ccrout pwl M fa fo fi A junk L' k) ->
  forall i c, (c <= i < M)%nat -> L i c = L' i c.
Proof.
  intros H H'. assert (G : forall n i c, (c < n)%nat -> (c <= i < M)%nat -> L i c = L' i c); [|intros i c Hc; apply (G (S c)); lia].
  induction n as [|n IH]; intros i c Hc Hi; [lia|]. destruct (Nat.eq_dec c n) as [->|]; [|apply IH; lia].
  assert (Cr : forall i a, (n <= i < M)%nat -> gchain fo fi (pr L i n) n a = gchain fo fi (pr L' i n) n a) by (intros i' a Hi'; apply gchain_ext; intros k Hk; apply pr_ext; apply IH; lia).
  assert (Ci : forall i a, (n <= i < M)%nat -> gchain fo fi (pi L i n) n a = gchain fo fi (pi L' i n) n a) by (intros i' a Hi'; apply gchain_ext; intros k Hk; apply pi_ext; apply IH; lia).
  destruct (H n ltac:(lia)) as (d & r & E1 & E2 & E3). destruct (H' n ltac:(lia)) as (d' & r' & F1 & F2 & F3). rewrite Cr in E1 by lia. rewrite E1 in F1.
  assert (Ed := f_equal (fun o => match o with Some (x, _) => x | None => 0%Z end) F1). assert (Er := f_equal (fun o => match o with Some (_, x) => x | None => 0%Z end) F1). cbv beta iota in Ed, Er. subst d' r'.
  destruct (Nat.eq_dec i n) as [->|]; [rewrite E2, F2; reflexivity|]. rewrite E3, F3 by lia. rewrite Cr, Ci by lia. reflexivity.
Qed.

Lemma gchain_zero fo fi (p : nat -> Z) n : (1 <= fW fi)%Z -> (forall k, p k = 0%Z) -> gchain fo fi p n 0 = 0%Z.
Proof.
  intros HW Hp. induction n as [|n IH]; [reflexivity|]. rewrite gchain_S, IH, Hp. unfold acc_sub. rewrite !Z.mul_0_l, Z.sub_0_r. apply conv_0, HW.
Qed.

Lemma cchol_real pwl M fa fo fi A junk : (1 <= fW fo)%Z -> (1 <= fW fi)%Z -> exists out outr, cchol_d pwl M fa fo fi (fun i j => (A i j, 0%Z)) junk = Some out /\ chol_d pwl M fa fo fi A junk = Some outr /\
  forall i j, (i < M)%nat -> (j < M)%nat -> out i j = option_map (fun v => (v, 0%Z)) (outr i j).
Proof.
  intros Ho Hi. destruct (cchol_d_eq pwl M fa fo fi (fun i j => (A i j, 0%Z)) junk Ho Hi) as (out & L & E & HC & HO). destruct (chol_d_eq pwl M fa fo fi A junk Ho Hi) as (outr & L' & E' & HC' & HO').
  exists out, outr. split; [exact E|split; [exact E'|]]. set (LC := fun i j => (L' i j, 0%Z)).
  assert (PR : forall i j n a, gchain fo fi (pr LC i j) n a = chain fo fi (L' i) (L' j) n a).
  { intros i j n a. unfold chain. change (fold_left _ (seq 0 n) a) with (gchain fo fi (fun k => L' i k * L' j k)%Z n a). apply gchain_ext. intros k _. unfold pr, LC. cbn [fst snd]. ring. }
  assert (PI0 : forall i j n, gchain fo fi (pi LC i j) n 0 = 0%Z) by (intros i j n; apply gchain_zero; [exact Hi|intros k; unfold pi, LC; cbn [fst snd]; ring]).
  assert (HL : forall k, (k < M)%nat -> ccrout pwl M fa fo fi (fun i j => (A i j, 0%Z)) junk LC k).
  { intros k Hk. destruct (HC' k Hk) as (d & r & E1 & E2 & E3). exists d, r. rewrite PR. cbn [fst snd]. split; [exact E1|]. split; [unfold LC; rewrite E2; reflexivity|].
    intros i Hik. rewrite PR. rewrite conv_0 by exact Hi. rewrite PI0, Z.mul_0_r, conv_0 by exact Ho. unfold LC. rewrite E3 by exact Hik. reflexivity. }
  pose proof (ccrout_unique _ _ _ _ _ _ _ L LC HC HL) as U.
  assert (AP : call_pos fa fo fi (fun i j => (A i j, 0%Z)) L M = all_pos fa fo fi A L' M).
  { unfold call_pos, all_pos. apply forallb_ext_in'. intros k Hk. apply in_seq in Hk. cbn [fst]. rewrite <- PR. f_equal. apply gchain_ext. intros c Hc. apply pr_ext; apply U; lia. }
  intros i j Hi' Hj'. rewrite HO, HO' by assumption. rewrite AP. cbn [option_map]. destruct (Nat.ltb_spec i j) as [|Hij]; [reflexivity|]. destruct (all_pos fa fo fi A L' M); [|reflexivity]. cbn [orb negb]. rewrite U by lia. reflexivity.
Qed.

(** ** A matrix that is not positive semi-definite *)
Definition herm2 (a b c : Z) (i j : nat) : gi := match i, j with O, O => (a, 0%Z) | 1%nat, 1%nat => (c, 0%Z) | 1%nat, O => (0%Z, b) | _, _ => (0%Z, (- b)%Z) end.
Lemma cchol_not_psd : ~ (forall M fo fi A junk out, chol_types fo fi ->
  (forall i j, (i < M)%nat -> (j < M)%nat -> in_range (fS fo) (fW fo) (fst (A i j)) /\ in_range (fS fo) (fW fo) (snd (A i j)) /\ A i j = (fst (A j i), (- snd (A j i))%Z)) ->
  (exists x y, quadC (fun i j => fxval (fst (A i j)) (fF fo)) (fun i j => fxval (snd (A i j)) (fF fo)) x y M < 0) -> cchol_d false M fo fo fi A junk = Some out -> zero_outC M out).
Proof.
  intros H. set (A := herm2 196608 6553600 218453333).
  assert (E : match cchol_d false 2 f32_16 f32_16 f32_16 A (fun _ => 0%Z) with Some out => out O O = Some (113512, 0)%Z | None => False end) by (vm_compute; reflexivity).
  destruct (cchol_d false 2 f32_16 f32_16 f32_16 A (fun _ => 0%Z)) as [out|] eqn:EC; [|exact E].
  assert (Z0 : out O O = Some (0, 0)%Z); [|rewrite Z0 in E; discriminate].
  apply (H 2%nat f32_16 f32_16 A (fun _ => 0%Z) out types_32_16); [|exists (fun i => match i with O => -100 | _ => 0 end), (fun i => match i with O => 0 | _ => 3 end)|exact EC|lia|lia].
  - intros i j Hi Hj. destruct i as [|[|i]], j as [|[|j]]; try lia; (split; [|split; [|reflexivity]]); cbv; split; discriminate.
  - unfold quadC. cbn [sumR A herm2 fst snd]. unfold fxval. change (fF f32_16) with 16%Z. pose proof (bpow2_pos (- (16))) as Q.
    match goal with |- ?t < 0 => replace t with (-3 * bpow2 (- (16))) by (cbn [Z.opp]; ring) end. lra.
Qed.
