(** Proofs about the higher-accuracy reciprocals and inverse square root, integer level. *)
From Coq Require Import Lia ZifyBool.
From Verif Require Import AcTypes AcFacts Spec SpecFacts ShiftFacts ShiftModel ShiftProofs LeadingModel LeadingProofs SpecFloat DetProofs FlfxProofs PwlModel PwlFacts PwlProofs PwlSqrt PwlHaModel.

(** ** Reciprocals with any table *)
Section Recip.
Variables (ms cs : list Z) (ib nf : Z) (Ylo Yhi D d : Z).
Notation RY := (pw_lin ms cs nf).
Hypothesis Hib : 1 <= ib.
Hypothesis Hnf : 1 <= nf.
Hypothesis Hms : Z.of_nat (length ms) = 2 ^ ib.
Hypothesis Hcs : length cs = length ms.
Hypothesis HYlo : 0 < Ylo.
Hypothesis HYhi : Yhi < 2 ^ (2 * nf + 1).
Hypothesis HY2 : Yhi <= 2 * Ylo.
Hypothesis Hmono : forall a b, 0 <= a -> a <= b -> b < 2 ^ (ib + nf) -> RY b <= RY a.
Hypothesis Hrange : forall T, 0 <= T < 2 ^ (ib + nf) -> Ylo <= RY T <= Yhi.
Hypothesis HD : 0 < D.
Hypothesis Hnear : forall T, 0 <= T < 2 ^ (ib + nf) -> (D - d) * 2 ^ (ib + 1 + 3 * nf) <= D * (RY T * (2 ^ (ib + nf) + T)) /\
  D * (RY T * (2 ^ (ib + nf) + T + 1)) <= (D + d) * 2 ^ (ib + 1 + 3 * nf).

(** The scaled position is exact whenever fewer than nf fraction bits are kept. *)
Lemma rg_exact W I S x : 1 <= W -> in_range S W x -> x <> 0 ->
  let fb := Z.max 1 (Z.min nf (W - (ib + 1) - b2z S)) in let n := snd (normalize W I false WRAP (Z.abs x)) in
  fb = nf \/ exists k, (n - 2 ^ (W - 1)) * 2 ^ (ib + 1 + fb) = k * 2 ^ W.
Proof.
  intros HW Hx Hx0 fb n. destruct (abs_u_ok W I S x HW Hx) as [_ Ha].
  pose proof (normalize_u_ok W I WRAP (Z.abs x) HW ltac:(lia)) as N. subst n. destruct (normalize W I false WRAP (Z.abs x)) as [e n].
  cbn [snd]. destruct N as (A & B & C).
  destruct (Z.eq_dec fb nf) as [|Hf]; [left; assumption|right].
  destruct (Z.le_gt_cases (W - (ib + 1)) fb) as [L|L].
  { exists ((n - 2 ^ (W - 1)) * 2 ^ (ib + 1 + fb - W)). rewrite <- Z.mul_assoc, <- pow2_add by lia. do 2 f_equal. lia. }
  destruct S; cbn [b2z] in *; [|lia].
  assert (Ef : ib + 1 + fb = W - 1) by lia. rewrite Ef.
  assert (Hab : Z.abs x <= 2 ^ (W - 1)) by (unfold in_range, imin, imax in Hx; lia).
  destruct (Z.eq_dec e I) as [->|].
  { rewrite Z.sub_diag in B. change (2 ^ 0) with 1 in B. exists 0. replace n with (2 ^ (W - 1)) by lia. lia. }
  rewrite (pow2_half W) by lia. exists (Z.abs x * 2 ^ (I - e - 1) - 2 ^ (W - 2)). subst n.
  rewrite (pow2_half (I - e)) by lia. rewrite (pow2_half (W - 1)) at 1 by lia. replace (W - 1 - 1) with (W - 2) by lia. ring.
Qed.

Lemma rg_eval pQ W I S f x : 1 <= W -> 1 <= fW f -> in_range S W x -> x <> 0 ->
  let '(e, n) := normalize W I false WRAP (Z.abs x) in
  exists out, recip_steps ms cs ib nf pQ W S f x e n = Some out /\
    converts2 f ((if S && fS f && (x <? 0) then -1 else 1) * RY (pos W (ib + 1) nf n)) (- (2 * nf) - e) out.
Proof.
  intros HW HfW Hx Hx0. destruct (abs_u_ok W I S x HW Hx) as [Ea Ha].
  pose proof (normalize_u_ok W I WRAP (Z.abs x) HW ltac:(lia)) as N. pose proof (rg_exact W I S x HW Hx Hx0) as Ex. cbv zeta in Ex.
  unfold recip_steps. destruct (normalize W I false WRAP (Z.abs x)) as [e n]. cbn [snd] in Ex. destruct N as (A & B & C).
  set (fb := Z.max 1 (Z.min nf (W - (ib + 1) - b2z S))) in *. assert (Hfb : 1 <= fb <= nf) by lia.
  destruct (scale_half_ok W ib fb (ib + 1) nf n HW ltac:(lia) ltac:(lia) Hfb C Ex) as [Ht Et].
  set (t := scale_half W ib fb (ib + 1) n) in *. rewrite (pwl_table_ok ms cs ib fb t); [|lia|lia|exact Hms|exact Hcs|exact Ht].
  pose proof (pw_lin_scale ms cs fb nf t ltac:(lia) ltac:(lia)) as Es. rewrite Et in Es.
  destruct (pos_bounds W (ib + 1) nf n HW ltac:(lia) ltac:(lia) C) as [[PB _]|]; [|lia]. replace (ib + 1 - 1 + nf) with (ib + nf) in PB by lia.
  pose proof (Hrange _ PB) as YB.
  set (y := pw_lin ms cs fb t) in *. set (Y := RY (pos W (ib + 1) nf n)) in *.
  assert (Hy : 0 < y < 2 ^ (fb + nf + 1)).
  { replace (fb + nf + 1) with (2 * nf + 1 - (nf - fb)) by lia. pose proof (pow2_pos (nf - fb) ltac:(lia)). split; [nia|].
    apply (Z.mul_lt_mono_pos_r (2 ^ (nf - fb))); [lia|]. rewrite <- pow2_add by lia. replace (2 * nf + 1 - (nf - fb) + (nf - fb)) with (2 * nf + 1) by lia. lia. }
  set (pt := Fmt (fb + nf + 1 + b2z (fS f)) (1 + b2z (fS f)) (fS f) pQ WRAP).
  assert (HpF : fb + nf = fF pt) by (unfold pt, fF; cbn [fW fI]; lia).
  assert (HpR : forall z, - y <= z <= y -> (0 <= z \/ fS f = true) -> in_range (fS pt) (fW pt) z).
  { intros z Hz Hs. unfold pt, in_range, imin, imax; cbn [fS fW]. destruct (fS f); cbn [b2z].
    - replace (fb + nf + 1 + 1 - 1) with (fb + nf + 1) by lia. lia.
    - destruct Hs; [|discriminate]. replace (fb + nf + 1 + 0) with (fb + nf + 1) by lia. lia. }
  rewrite (conv_fits pt y (fb + nf)) by (try (apply HpR; lia); try reflexivity; try exact HpF; unfold pt; cbn [fW]; destruct (fS f); cbn [b2z]; lia).
  replace (x =? 0) with false by lia. cbn [negb].
  set (sg := if S && fS f && (x <? 0) then -1 else 1).
  assert (Ey : (if S && fS f then if x <? 0 then conv pt (- y) (fb + nf) else y else y) = sg * y).
  { unfold sg. destruct S; cbn [andb]; [|lia]. destruct (fS f) eqn:HfS; [|cbn [andb]; lia]. cbn [andb]. destruct (x <? 0); [|lia].
    rewrite conv_fits; [lia|unfold pt; cbn [fW b2z]; lia|exact HpF|reflexivity|apply HpR; [lia|right; reflexivity]]. }
  rewrite Ey. eexists. split; [reflexivity|].
  assert (Hsg : sg = 1 \/ (sg = -1 /\ fS f = true)).
  { unfold sg. destruct S; [|left; reflexivity]. destruct (fS f); [|left; reflexivity]. cbn [andb]. destruct (x <? 0); [right; split; reflexivity|left; reflexivity]. }
  assert (Q : converts2 f (sg * y) (- (fW pt - fI pt) - e) ((if fS f then shift_right_si else shift_right_ui) (fW pt) (fI pt) f (sg * y) e)).
  { pose proof (HpR (sg * y) ltac:(destruct Hsg as [-> | [-> ?]]; lia) ltac:(destruct Hsg as [-> | [-> ?]]; [left; lia|right; assumption])) as R.
    unfold in_range, imin, imax in R. change (fS pt) with (fS f) in R.
    assert (1 <= fW pt) by (unfold pt; cbn [fW]; destruct (fS f); cbn [b2z]; lia).
    destruct (fS f) eqn:HfS.
    - apply shift_right_si_spec; [assumption|assumption|assumption|lia].
    - apply shift_right_ui_spec; [assumption|assumption|assumption|lia]. }
  apply (converts2_rescale f _ _ (nf - fb)) in Q; [|assumption|lia].
  replace (sg * Y) with (sg * y * 2 ^ (nf - fb)) by (rewrite <- Z.mul_assoc, Es; reflexivity).
  replace (- (2 * nf) - e) with (- (fW pt - fI pt) - e - (nf - fb)) by (unfold pt; cbn [fW fI]; lia). exact Q.
Qed.

(** Accuracy: the product of the value before conversion and |x| is within d/D of 1. *)
Lemma rg_accuracy pQ W I S f x : 1 <= W -> 1 <= fW f -> in_range S W x -> x <> 0 ->
  let '(e, n) := normalize W I false WRAP (Z.abs x) in
  exists out Y k, recip_steps ms cs ib nf pQ W S f x e n = Some out /\ 0 <= k /\ (0 < Y <= Yhi /\ Z.abs x * 2 ^ (2 * nf) < 2 ^ k) /\
    converts2 f ((if S && fS f && (x <? 0) then -1 else 1) * Y) (W - I - k) out /\ D * Z.abs (Y * Z.abs x - 2 ^ k) <= d * 2 ^ k.
Proof.
  intros HW HfW Hx Hx0. pose proof (rg_eval pQ W I S f x HW HfW Hx Hx0) as E. destruct (abs_u_ok W I S x HW Hx) as [_ Ha].
  pose proof (normalize_u_ok W I WRAP (Z.abs x) HW ltac:(lia)) as N.
  destruct (normalize W I false WRAP (Z.abs x)) as [e n]. destruct N as (A & B & C). destruct E as (out & Eo & Ec).
  destruct (pos_bounds W (ib + 1) nf n HW ltac:(lia) ltac:(lia) C) as [[PB PE]|]; [|lia].
  replace (ib + 1 - 1 + nf) with (ib + nf) in * by lia.
  pose proof (Hrange _ PB) as YB. destruct (Hnear _ PB) as (Y1 & Y2). set (T := pos W (ib + 1) nf n) in *. set (Y := RY T) in *.
  assert (He : I - e < W).
  { apply (Z.pow_lt_mono_r_iff 2); [lia|lia|]. pose proof (pow2_pos (I - e) ltac:(lia)). nia. }
  exists out, Y, (2 * nf + e + W - I). split; [exact Eo|]. split; [lia|]. split.
  { split; [lia|]. apply (Z.mul_lt_mono_pos_r (2 ^ (I - e))); [apply pow2_pos; lia|]. rewrite <- pow2_add by lia. replace (2 * nf + e + W - I + (I - e)) with (2 * nf + W) by lia. rewrite pow2_add by lia. pose proof (pow2_pos (2 * nf) ltac:(lia)). nia. }
  split; [replace (W - I - (2 * nf + e + W - I)) with (- (2 * nf) - e) by lia; exact Ec|].
  set (P := 2 ^ (2 * nf + e + W - I)). set (R := 2 ^ (I - e)) in *.
  assert (E1 : P * R = 2 ^ (2 * nf) * 2 ^ W) by (unfold P, R; rewrite <- !pow2_add by lia; f_equal; lia).
  assert (E2 : 2 ^ (ib + 1 + 3 * nf) = 2 ^ (2 * nf) * (2 * 2 ^ (ib + nf))).
  { replace (ib + 1 + 3 * nf) with (2 * nf + (1 + (ib + nf))) by lia. rewrite (pow2_add (2 * nf)), (pow2_add 1) by lia. reflexivity. }
  rewrite E2 in Y1, Y2.
  set (K := 2 ^ (ib + nf)) in *. set (M := 2 ^ (2 * nf)) in *. set (w := 2 ^ W) in *.
  assert (0 < R) by (apply pow2_pos; lia). assert (0 < w) by (apply pow2_pos; lia). assert (0 < K) by (apply pow2_pos; lia). assert (0 < M) by (apply pow2_pos; lia).
  assert (L1 : (K + T) * w <= 2 * K * n) by lia. assert (L2 : 2 * K * n <= (K + T + 1) * w) by lia.
  assert (M1 : D * (Y * ((K + T) * w)) <= D * (Y * (2 * K * n))) by (apply Z.mul_le_mono_nonneg_l; [lia|]; apply Z.mul_le_mono_nonneg_l; lia).
  assert (M2 : D * (Y * (2 * K * n)) <= D * (Y * ((K + T + 1) * w))) by (apply Z.mul_le_mono_nonneg_l; [lia|]; apply Z.mul_le_mono_nonneg_l; lia).
  assert (M3 : (D - d) * (M * (2 * K)) * w <= D * (Y * (K + T)) * w) by (apply Z.mul_le_mono_nonneg_r; lia).
  assert (M4 : D * (Y * (K + T + 1)) * w <= (D + d) * (M * (2 * K)) * w) by (apply Z.mul_le_mono_nonneg_r; lia).
  assert (M5 : (D - d) * (P * R) * (2 * K) <= D * (Y * n) * (2 * K)).
  { rewrite E1. replace ((D - d) * (M * w) * (2 * K)) with ((D - d) * (M * (2 * K)) * w) by ring. replace (D * (Y * n) * (2 * K)) with (D * (Y * (2 * K * n))) by ring.
    replace (D * (Y * (K + T)) * w) with (D * (Y * ((K + T) * w))) in M3 by ring. lia. }
  assert (M6 : D * (Y * n) * (2 * K) <= (D + d) * (P * R) * (2 * K)).
  { rewrite E1. replace ((D + d) * (M * w) * (2 * K)) with ((D + d) * (M * (2 * K)) * w) by ring. replace (D * (Y * n) * (2 * K)) with (D * (Y * (2 * K * n))) by ring.
    replace (D * (Y * (K + T + 1)) * w) with (D * (Y * ((K + T + 1) * w))) in M4 by ring. lia. }
  apply Z.mul_le_mono_pos_r in M5; [|lia]. apply Z.mul_le_mono_pos_r in M6; [|lia].
  subst n. replace (D * (Y * (Z.abs x * R))) with (D * (Y * Z.abs x) * R) in M5, M6 by ring.
  replace ((D - d) * (P * R)) with ((D - d) * P * R) in M5 by ring. replace ((D + d) * (P * R)) with ((D + d) * P * R) in M6 by ring.
  apply Z.mul_le_mono_pos_r in M5; [|lia]. apply Z.mul_le_mono_pos_r in M6; [|lia].
  rewrite Z.mul_sub_distr_r in M5. rewrite Z.mul_add_distr_r in M6. rewrite <- (Z.abs_eq D) at 1 by lia. rewrite <- Z.abs_mul, Z.mul_sub_distr_l. lia.
Qed.

Lemma rg_zero pQ W S f e n : recip_steps ms cs ib nf pQ W S f 0 e n = Some (imax (fS f) (fW f)).
Proof.
  unfold recip_steps. set (fb := Z.max 1 (Z.min nf (W - (ib + 1) - b2z S))).
  destruct (table_total ms cs ib fb (scale_half W ib fb (ib + 1) n) ltac:(lia) Hms Hcs) as [y ->]. reflexivity.
Qed.

(** Odd: the value before conversion is negated exactly. *)
Lemma rg_odd pQ W I f x : 1 <= W -> 1 <= fW f -> fS f = true -> 0 < x < 2 ^ (W - 1) ->
  let '(e, n) := normalize W I false WRAP x in
  exists Y k out1 out2, recip_steps ms cs ib nf pQ W true f x e n = Some out1 /\ recip_steps ms cs ib nf pQ W true f (- x) e n = Some out2 /\
    converts2 f Y k out1 /\ converts2 f (- Y) k out2.
Proof.
  intros HW HfW HS Hx.
  pose proof (rg_eval pQ W I true f x HW HfW ltac:(unfold in_range, imin, imax; lia) ltac:(lia)) as E1.
  pose proof (rg_eval pQ W I true f (- x) HW HfW ltac:(unfold in_range, imin, imax; lia) ltac:(lia)) as E2.
  rewrite Z.abs_opp in E2. rewrite (Z.abs_eq x) in E1, E2 by lia. destruct (normalize W I false WRAP x) as [e n].
  destruct E1 as (o1 & A1 & B1), E2 as (o2 & A2 & B2). rewrite HS in B1, B2.
  replace (x <? 0) with false in B1 by lia. replace (- x <? 0) with true in B2 by lia. cbn [andb] in B1, B2.
  do 4 eexists. split; [exact A1|]. split; [exact A2|]. split; [exact B1|].
  replace (- (1 * RY (pos W (ib + 1) nf n))) with (-1 * RY (pos W (ib + 1) nf n)) by ring. exact B2.
Qed.

(** Decreasing on positive inputs. *)
Lemma rg_decreasing pQ W I S f x y a b : 1 <= W -> 1 <= fW f -> (fO f = SAT \/ fO f = SAT_SYM) ->
  in_range S W y -> 0 < x <= y ->
  (let '(e, n) := normalize W I false WRAP x in recip_steps ms cs ib nf pQ W S f x e n) = Some a ->
  (let '(e, n) := normalize W I false WRAP y in recip_steps ms cs ib nf pQ W S f y e n) = Some b -> b <= a.
Proof.
  intros HW HfW HO Hy Hxy Ea Eb.
  assert (Hx : in_range S W x) by (unfold in_range, imin, imax in *; destruct S; pose proof (pow2_nonneg (W - 1)); lia).
  pose proof (rg_eval pQ W I S f x HW HfW Hx ltac:(lia)) as E1. pose proof (rg_eval pQ W I S f y HW HfW Hy ltac:(lia)) as E2.
  rewrite Z.abs_eq in E1, E2 by lia. destruct (abs_u_ok W I S y HW Hy) as [_ Yb]. rewrite Z.abs_eq in Yb by lia.
  pose proof (normalize_mono W I WRAP x y HW ltac:(lia) ltac:(lia) ltac:(lia)) as M.
  pose proof (normalize_u_ok W I WRAP x HW ltac:(lia)) as N1. pose proof (normalize_u_ok W I WRAP y HW ltac:(lia)) as N2.
  destruct (normalize W I false WRAP x) as [e1 n1], (normalize W I false WRAP y) as [e2 n2]. cbn [fst snd] in M.
  destruct N1 as (A1 & B1 & C1), N2 as (A2 & B2 & C2). destruct E1 as (o1 & F1 & G1), E2 as (o2 & F2 & G2).
  replace (x <? 0) with false in G1 by lia. replace (y <? 0) with false in G2 by lia. rewrite andb_false_r in G1, G2. rewrite Z.mul_1_l in G1, G2.
  rewrite Ea in F1. injection F1 as <-. rewrite Eb in F2. injection F2 as <-.
  destruct (pos_bounds W (ib + 1) nf n1 HW ltac:(lia) ltac:(lia) C1) as [[P1 _]|]; [|lia].
  destruct (pos_bounds W (ib + 1) nf n2 HW ltac:(lia) ltac:(lia) C2) as [[P2 _]|]; [|lia]. replace (ib + 1 - 1 + nf) with (ib + nf) in * by lia.
  eapply converts2_mono; [exact HfW|exact HO| |exact G2|exact G1].
  destruct M as [L|[-> L]].
  - pose proof (Hrange _ P1) as R1. pose proof (Hrange _ P2) as R2. apply dle_next; lia.
  - apply dle_same. apply Hmono; [lia|apply pos_mono; lia|lia].
Qed.
End Recip.

(** ** Blocks of 2^k positions *)
Definition recip_blk_g (ms cs : list Z) (ib nf k D d B : Z) : bool :=
  let U := pw_lin ms cs nf (B * 2 ^ k) in let V := slope ms nf k B in let a := 2 ^ (ib + nf) + B * 2 ^ k in let L := 2 ^ k in let K := 2 ^ (ib + 1 + 3 * nf) in
  (V <=? 0) && ((D - d) * K <=? D * U * a) && ((D - d) * K <=? (D * U + D * V * L) * (a + L)) &&
  (D * U * (a + 1) <=? (D + d) * K) && (D * U * (a + 1) + (D * U + D * V * (a + 1)) * L <=? (D + d) * K).
Lemma recip_blk_near ms cs ib nf k D d (n : positive) : 0 <= ib -> 0 <= k <= nf -> 0 < D -> 2 ^ (ib + nf) = Zpos n * 2 ^ k ->
  zall (recip_blk_g ms cs ib nf k D d) n 0 = true -> forall T, 0 <= T < 2 ^ (ib + nf) ->
  (D - d) * 2 ^ (ib + 1 + 3 * nf) <= D * (pw_lin ms cs nf T * (2 ^ (ib + nf) + T)) /\
  D * (pw_lin ms cs nf T * (2 ^ (ib + nf) + T + 1)) <= (D + d) * 2 ^ (ib + 1 + 3 * nf).
Proof.
  intros Hib Hk HD Hn C T HT. destruct (pw_block ms cs nf k T Hk ltac:(lia)) as (B & s & ET & Hs & EB & EY).
  pose proof (pow2_pos k ltac:(lia)) as Pk. pose proof (zall_ok _ _ _ C B) as K.
  assert (HB : 0 <= B < Zpos n) by (rewrite EB; split; [apply Z.div_pos; lia|apply Z.div_lt_upper_bound; lia]).
  specialize (K ltac:(lia)). unfold recip_blk_g in K. rewrite EY.
  set (U := pw_lin ms cs nf (B * 2 ^ k)) in *. set (V := slope ms nf k B) in *. set (L := 2 ^ k) in *. clearbody U V.
  repeat (apply andb_prop in K as [K ?]). set (a := 2 ^ (ib + nf) + B * L) in *. set (KK := 2 ^ (ib + 1 + 3 * nf)) in *.
  assert (HV : D * V <= 0) by nia. split.
  - pose proof (prod_lo ((D - d) * KK) (D * U) (D * V) a L s Hs ltac:(lia) HV ltac:(lia) ltac:(lia)) as Q.
    replace (2 ^ (ib + nf) + T) with (a + s) by (unfold a; lia). replace (D * ((U + V * s) * (a + s))) with ((D * U + D * V * s) * (a + s)) by ring. exact Q.
  - pose proof (prod_hi ((D + d) * KK) (D * U) (D * V) (a + 1) L s Hs ltac:(lia) HV ltac:(lia) ltac:(lia)) as Q.
    replace (2 ^ (ib + nf) + T + 1) with (a + 1 + s) by (unfold a; lia). replace (D * ((U + V * s) * (a + 1 + s))) with ((D * U + D * V * s) * (a + 1 + s)) by ring. exact Q.
Qed.

(** ** Inverse square root, very high accuracy *)
Notation isqY := (pw_lin isqrt_vha_m isqrt_vha_c 16).
Lemma isqY_mono a b : 0 <= a -> a <= b -> b < 2097152 -> isqY b <= isqY a.
Proof. apply (pw_lin_down isqrt_vha_m isqrt_vha_c 16 32); [lia|vm_compute; reflexivity]. Qed.
Lemma isqY_range T : 0 <= T < 2097152 -> 4294902272 <= isqY T <= 6073745408.
Proof.
  intros HT. pose proof (isqY_mono 0 T ltac:(lia) ltac:(lia) ltac:(lia)) as H1. pose proof (isqY_mono T 2097151 ltac:(lia) ltac:(lia) ltac:(lia)) as H2.
  change (isqY 0) with 6073745408 in H1. change (isqY 2097151) with 4294902278 in H2. set (v := isqY T) in *. lia.
Qed.
(** Blocks of 2^12 positions. *)
Definition cubv (C1 C2 U1 U2 V a : Z) : bool :=
  let L := 4096 in let D := 10 ^ 10 in let K := 2 * U2 * V + V * V * L in
  (0 <=? U1) && (V <=? 0) && (0 <=? a) && (K <=? 0) &&
  (C1 <=? D * (U1 * U1) * a) && (C1 <=? (D * (U1 * U1) + D * (2 * U1 * V) * L) * (a + L)) &&
  (D * (U2 * U2) * (a + 1) <=? C2) && (D * (U2 * U2) * (a + 1) + (D * (U2 * U2) + D * K * (a + 1)) * L <=? C2).
Lemma cubv_ok C1 C2 U1 U2 V a s : 0 <= s <= 4096 -> cubv C1 C2 U1 U2 V a = true ->
  C1 <= 10 ^ 10 * ((U1 + V * s) * (U1 + V * s) * (a + s)) /\ 10 ^ 10 * ((U2 + V * s) * (U2 + V * s) * (a + 1 + s)) <= C2.
Proof.
  intros Hs K. unfold cubv in K. repeat (apply andb_prop in K as [K ?]).
  split; [apply (cub_lo _ _ _ _ _ 4096)|apply (cub_hi _ _ _ _ _ 4096)]; lia.
Qed.
Definition isqv_blk (B : Z) : bool :=
  let U := isqY (B * 2 ^ 12) in let V := slope isqrt_vha_m 16 12 B in let a := 2 ^ 21 + B * 2 ^ 12 in
  cubv (99995 * 99995 * 2 ^ 86) (100005 * 100005 * 2 ^ 86) U U V a &&
  cubv (99995 * 99995 * 2 ^ 123) (100005 * 100005 * 2 ^ 123) (U * 370727 - 2 ^ 19) (U * 370727 + 2 ^ 19) (V * 370727) a.
Lemma isqv_blk_all : zall isqv_blk 512 0 = true.
Proof. vm_compute. reflexivity. Qed.
Lemma isqv_near T : 0 <= T < 2097152 -> let y := isqY T in let a := 2097152 + T in
  (99995 * 99995 * 2 ^ 86 <= 10 ^ 10 * (y * y * a) /\ 10 ^ 10 * (y * y * (a + 1)) <= 100005 * 100005 * 2 ^ 86) /\
  99995 * 99995 * 2 ^ 123 <= 10 ^ 10 * ((y * 370727 - 2 ^ 19) * (y * 370727 - 2 ^ 19) * a) /\
  10 ^ 10 * ((y * 370727 + 2 ^ 19) * (y * 370727 + 2 ^ 19) * (a + 1)) <= 100005 * 100005 * 2 ^ 123.
Proof.
  intros HT y a. destruct (pw_block isqrt_vha_m isqrt_vha_c 16 12 T ltac:(lia) ltac:(lia)) as (B & s & ET & Hs & EB & EY). change (2 ^ 12) with 4096 in *.
  assert (HB : 0 <= B < 512) by (rewrite EB; split; [apply Z.div_pos; lia|apply Z.div_lt_upper_bound; lia]).
  pose proof (zall_ok _ _ _ isqv_blk_all B ltac:(lia)) as K. unfold isqv_blk in K. fold y in EY. change (2 ^ 12) with 4096 in K.
  set (U := isqY (B * 4096)) in *. set (V := slope isqrt_vha_m 16 12 B) in *. clearbody U V y.
  apply andb_prop in K as [K1 K2]. apply (cubv_ok _ _ _ _ _ _ s Hs) in K1, K2. change (2 ^ 21) with 2097152 in *.
  replace (2097152 + B * 4096 + s) with a in * by (unfold a; lia). replace (2097152 + B * 4096 + 1 + s) with (a + 1) in * by (unfold a; lia).
  rewrite <- EY in K1. replace (U * 370727 - 2 ^ 19 + V * 370727 * s) with (y * 370727 - 2 ^ 19) in K2 by (rewrite EY; ring).
  replace (U * 370727 + 2 ^ 19 + V * 370727 * s) with (y * 370727 + 2 ^ 19) in K2 by (rewrite EY; ring).
  split; [exact K1|exact K2].
Qed.

Definition isqv_mant (q : qmode) (e Y : Z) : Z := if e mod 2 =? 0 then Y else qround q (Y * 370727) (2 ^ 19).

Lemma isqv_eval pQ W I XO f cn x : 1 <= W -> 1 <= fW f -> fS f = false -> 0 < x < 2 ^ W -> cn = true \/ 2 ^ (W - 1) <= x ->
  let '(e, n) := normalize W I false XO x in
  exists out, inverse_sqrt_pwl_vha pQ W I XO f cn x = Some out /\
    converts2 f (isqv_mant pQ e (isqY (pos W 6 16 n))) (- 32 - e / 2) out.
Proof.
  intros HW HfW HfS Hx Hcn. unfold inverse_sqrt_pwl_vha. rewrite pwl_norm_eq by (assumption || lia).
  pose proof (normalize_u_ok W I XO x HW ltac:(lia)) as N. destruct (normalize W I false XO x) as [e n]. destruct N as (A & B & C).
  pose proof (pos_exact W 6 16 n HW ltac:(lia) ltac:(lia)) as Ex. cbv zeta in Ex.
  set (fb := Z.max 1 (Z.min 16 (W - 6))) in *. assert (Hfb : 1 <= fb <= 16) by lia.
  destruct (scale_half_ok W 5 fb 6 16 n HW ltac:(lia) ltac:(lia) Hfb C Ex) as [Ht Et].
  set (t := scale_half W 5 fb 6 n) in *. rewrite (pwl_table_ok isqrt_vha_m isqrt_vha_c 5 fb t); [|lia|lia|reflexivity|reflexivity|exact Ht].
  pose proof (pw_lin_scale isqrt_vha_m isqrt_vha_c fb 16 t ltac:(lia) ltac:(lia)) as Es. rewrite Et in Es.
  destruct (pos_bounds W 6 16 n HW ltac:(lia) ltac:(lia) C) as [[PB _]|]; [|lia]. change (2 ^ (6 - 1 + 16)) with 2097152 in PB.
  pose proof (isqY_range _ PB) as YB.
  set (y := pw_lin isqrt_vha_m isqrt_vha_c fb t) in *. set (Y := isqY (pos W 6 16 n)) in *. clearbody t y Y.
  pose proof (pow2_pos (16 - fb) ltac:(lia)) as PR. set (R := 2 ^ (16 - fb)) in *.
  assert (HR : 2 ^ (fb + 3) * R = 2 ^ 19) by (unfold R; rewrite <- pow2_add by lia; f_equal; lia).
  pose proof (pow2_pos (fb + 3) ltac:(lia)) as PF.
  set (nt := Fmt (fb + 16 + 1) 1 false pQ WRAP).
  assert (Hy : in_range (fS nt) (fW nt) y).
  { unfold nt, in_range, imin, imax; cbn [fS fW]. replace (fb + 16 + 1) with (fb + 3 + 14) by lia. rewrite (pow2_add (fb + 3) 14) by lia.
    set (PFb := 2 ^ (fb + 3)) in *. change (2 ^ 14) with 16384. change (2 ^ 19) with 524288 in HR. split; [nia|]. assert (y * R < PFb * 16384 * R); nia. }
  rewrite (conv_fits nt y (fb + 16)) by (try assumption; try reflexivity; unfold nt, fF; cbn [fW fI]; lia).
  set (yr := qround pQ (Y * 370727) (2 ^ 19)).
  assert (Eyr : qround pQ (y * 370727) (2 ^ (fb + 3)) = yr).
  { unfold yr. rewrite <- Es, <- HR. replace (y * R * 370727) with (y * 370727 * R) by ring. symmetry. apply qround_scale; lia. }
  pose proof (qround_near pQ (Y * 370727) (2 ^ 19) ltac:(lia)) as Hyr. fold yr in Hyr. change (2 ^ 19) with 524288 in Hyr.
  assert (Hr : in_range false 32 yr) by (unfold in_range, imin, imax; change (2 ^ 32) with 4294967296; lia).
  rewrite (conv_drop (Fmt 32 0 false pQ WRAP) (y * 370727) (fb + 16 + 19) (fb + 3)); [|cbn [fW]; lia|unfold fF; cbn [fW fI]; lia|lia|reflexivity|cbn [fQ fS fW]; rewrite Eyr; exact Hr].
  cbn [fQ]. rewrite Eyr, rem2_even.
  assert (E1 : conv (dfmt 33 1 false) y (fb + 16) = Y).
  { rewrite conv_fits_up; unfold dfmt, fF; cbn [fW fI fO fS].
    - replace (33 - 1 - (fb + 16)) with (16 - fb) by lia. exact Es.
    - lia. - lia. - reflexivity.
    - replace (33 - 1 - (fb + 16)) with (16 - fb) by lia. fold R. rewrite Es. unfold in_range, imin, imax. change (2 ^ 33) with 8589934592. lia. }
  assert (E2 : conv (dfmt 33 1 false) yr 32 = yr).
  { apply conv_fits; [cbn; lia|reflexivity|reflexivity|]. unfold dfmt; cbn [fS fW]. unfold in_range, imin, imax in *. change (2 ^ 33) with 8589934592. change (2 ^ 32) with 4294967296 in Hr. lia. }
  rewrite E1, E2. replace (x =? 0) with false by lia. cbn [negb]. eexists. split; [reflexivity|].
  rewrite Z.shiftr_div_pow2 by lia. change (2 ^ 1) with 2.
  fold (isqv_mant pQ e Y). change (if e mod 2 =? 0 then Y else yr) with (isqv_mant pQ e Y).
  change (- 32 - e / 2) with (- (33 - 1) - e / 2). apply shift_right_ui_spec; [lia|assumption|assumption|].
  unfold isqv_mant. fold yr. unfold in_range, imin, imax in Hr. change (2 ^ 33) with 8589934592. change (2 ^ 32) with 4294967296 in Hr. destruct (e mod 2 =? 0); lia.
Qed.

(** Accuracy: the square of the value before conversion times x is 1 up to 0.99995^2 .. 1.00005^2. *)
Lemma isqv_accuracy pQ W I XO f cn x : 1 <= W -> 1 <= fW f -> fS f = false -> 0 < x < 2 ^ W -> cn = true \/ 2 ^ (W - 1) <= x ->
  exists out M k n r, inverse_sqrt_pwl_vha pQ W I XO f cn x = Some out /\ (0 < M /\ n < 2 ^ W /\ (r = 0 /\ M <= 6073745408 \/ r = 1 /\ M <= 4294779615)) /\ converts2 f M (- 32 - k) out /\
    (2 * k + r <= I /\ 0 <= r /\ n = x * 2 ^ (I - (2 * k + r))) /\
    99995 * 99995 * 2 ^ (64 + W) <= 10 ^ 10 * (M * M * n * 2 ^ r) <= 100005 * 100005 * 2 ^ (64 + W).
Proof.
  intros HW HfW HfS Hx Hcn. pose proof (isqv_eval pQ W I XO f cn x HW HfW HfS Hx Hcn) as E.
  pose proof (normalize_u_ok W I XO x HW ltac:(lia)) as N. destruct (normalize W I false XO x) as [e n]. destruct N as (A & B & C).
  destruct E as (out & Eo & Ec).
  destruct (pos_bounds W 6 16 n HW ltac:(lia) ltac:(lia) C) as [[PB PE]|]; [|lia]. change (2 ^ (6 - 1 + 16)) with 2097152 in *.
  pose proof (isqv_near _ PB) as K. pose proof (isqY_range _ PB). cbv zeta in K.
  set (T := pos W 6 16 n) in *. set (Y := isqY T) in *. clearbody T Y.
  destruct K as [[K1 K2] [K3 K4]].
  assert (0 < 2 ^ W) by (apply pow2_pos; lia). change (2 ^ 21) with 2097152 in *.
  assert (L1 : (2097152 + T) * 2 ^ W <= 4194304 * n) by lia. assert (L2 : 4194304 * n <= (2097152 + T + 1) * 2 ^ W) by lia.
  exists out, (isqv_mant pQ e Y), (e / 2), n, (e mod 2). split; [exact Eo|].
  pose proof (Z.div_mod e 2 ltac:(lia)). pose proof (Z.mod_pos_bound e 2 ltac:(lia)).
  set (M := isqv_mant pQ e Y) in *.
  assert (HM : (e mod 2 = 0 /\ M = Y) \/ (e mod 2 = 1 /\ Y * 370727 - 2 ^ 19 <= M * 524288 <= Y * 370727 + 2 ^ 19)).
  { unfold M, isqv_mant. destruct (Z.eqb_spec (e mod 2) 0) as [E0|]; [left; split; [exact E0|reflexivity]|right; split; [lia|]].
    pose proof (qround_near pQ (Y * 370727) (2 ^ 19) ltac:(lia)) as Q. exact Q. }
  clearbody M. split; [lia|]. split; [exact Ec|].
  split; [split; [lia|split; [lia|replace (2 * (e / 2) + e mod 2) with e by lia; exact B]]|].
  rewrite (pow2_add 64 W) by lia. set (P := 2 ^ W) in *. clearbody P.
  destruct HM as [[-> ->]|[-> HM]].
  - change (2 ^ 0) with 1.
    assert (X1 : Y * Y * ((2097152 + T) * P) <= Y * Y * (4194304 * n)) by (apply Z.mul_le_mono_nonneg_l; lia).
    assert (X2 : Y * Y * (4194304 * n) <= Y * Y * ((2097152 + T + 1) * P)) by (apply Z.mul_le_mono_nonneg_l; lia).
    assert (X3 : 99995 * 99995 * 2 ^ 86 * P <= 10 ^ 10 * (Y * Y * (2097152 + T)) * P) by (apply Z.mul_le_mono_nonneg_r; lia).
    assert (X4 : 10 ^ 10 * (Y * Y * (2097152 + T + 1)) * P <= 100005 * 100005 * 2 ^ 86 * P) by (apply Z.mul_le_mono_nonneg_r; lia).
    set (Q := Y * Y * n). replace (Y * Y * (4194304 * n)) with (4194304 * Q) in X1, X2 by (unfold Q; ring).
    replace (Y * Y * (2097152 + T) * P) with (Y * Y * ((2097152 + T) * P)) in * by ring.
    replace (10 ^ 10 * (Y * Y * (2097152 + T)) * P) with (10 ^ 10 * (Y * Y * ((2097152 + T) * P))) in X3 by ring.
    replace (10 ^ 10 * (Y * Y * (2097152 + T + 1)) * P) with (10 ^ 10 * (Y * Y * ((2097152 + T + 1) * P))) in X4 by ring.
    lia.
  - change (2 ^ 1) with 2. change (2 ^ 19) with 524288 in *.
    assert (Q1 : (Y * 370727 - 524288) * (Y * 370727 - 524288) <= (M * 524288) * (M * 524288)) by (apply Z.mul_le_mono_nonneg; lia).
    assert (Q2 : (M * 524288) * (M * 524288) <= (Y * 370727 + 524288) * (Y * 370727 + 524288)) by (apply Z.mul_le_mono_nonneg; lia).
    set (D1 := (Y * 370727 - 524288) * (Y * 370727 - 524288)) in *. set (D2 := (Y * 370727 + 524288) * (Y * 370727 + 524288)) in *.
    assert (0 <= D1) by (apply Z.square_nonneg). set (MM := M * M) in *.
    replace (M * 524288 * (M * 524288)) with (MM * 2 ^ 38) in Q1, Q2 by (unfold MM; ring).
    assert (0 <= MM) by (apply Z.square_nonneg). clearbody MM D1 D2.
    assert (X1 : MM * ((2097152 + T) * P) <= MM * (4194304 * n)) by (apply Z.mul_le_mono_nonneg_l; lia).
    assert (X2 : MM * (4194304 * n) <= MM * ((2097152 + T + 1) * P)) by (apply Z.mul_le_mono_nonneg_l; lia).
    assert (X3 : D1 * ((2097152 + T) * P) <= MM * 2 ^ 38 * ((2097152 + T) * P)) by (apply Z.mul_le_mono_nonneg_r; [apply Z.mul_nonneg_nonneg; lia|lia]).
    assert (X4 : MM * 2 ^ 38 * ((2097152 + T + 1) * P) <= D2 * ((2097152 + T + 1) * P)) by (apply Z.mul_le_mono_nonneg_r; [apply Z.mul_nonneg_nonneg; lia|lia]).
    assert (X5 : 99995 * 99995 * 2 ^ 123 * P <= 10 ^ 10 * (D1 * (2097152 + T)) * P) by (apply Z.mul_le_mono_nonneg_r; lia).
    assert (X6 : 10 ^ 10 * (D2 * (2097152 + T + 1)) * P <= 100005 * 100005 * 2 ^ 123 * P) by (apply Z.mul_le_mono_nonneg_r; lia).
    set (Q := MM * n). replace (MM * (4194304 * n)) with (4194304 * Q) in X1, X2 by (unfold Q; ring).
    replace (10 ^ 10 * (D1 * (2097152 + T)) * P) with (10 ^ 10 * (D1 * ((2097152 + T) * P))) in X5 by ring.
    replace (10 ^ 10 * (D2 * (2097152 + T + 1)) * P) with (10 ^ 10 * (D2 * ((2097152 + T + 1) * P))) in X6 by ring.
    replace (MM * 2 ^ 38 * ((2097152 + T) * P)) with (2 ^ 38 * (MM * ((2097152 + T) * P))) in X3 by ring.
    replace (MM * 2 ^ 38 * ((2097152 + T + 1) * P)) with (2 ^ 38 * (MM * ((2097152 + T + 1) * P))) in X4 by ring.
    lia.
Qed.

Lemma isqv_zero pQ W I XO f cn : inverse_sqrt_pwl_vha pQ W I XO f cn 0 = Some (imax false (fW f)).
Proof.
  unfold inverse_sqrt_pwl_vha. destruct (pwl_norm cn W I XO 0) as [e n]. set (fb := Z.max 1 (Z.min 16 (W - 6))).
  destruct (table_total isqrt_vha_m isqrt_vha_c 5 fb (scale_half W 5 fb 6 n) ltac:(lia) eq_refl eq_refl) as [y ->]. reflexivity.
Qed.

Lemma isqv_mant_mono q e1 e2 Y1 Y2 :
  4294902272 <= Y1 <= 6073745408 -> 4294902272 <= Y2 <= 6073745408 -> e1 < e2 \/ (e1 = e2 /\ Y2 <= Y1) ->
  dle (isqv_mant q e2 Y2) (- 32 - e2 / 2) (isqv_mant q e1 Y1) (- 32 - e1 / 2).
Proof.
  intros H1 H2 H.
  assert (B : forall e Y, 4294902272 <= Y <= 6073745408 -> (e mod 2 = 0 -> isqv_mant q e Y = Y) /\
     (e mod 2 = 1 -> 3036949604 <= isqv_mant q e Y <= 4294779615)).
  { intros e Y HY. unfold isqv_mant. destruct (Z.eqb_spec (e mod 2) 0); [split; [reflexivity|lia]|split; [lia|intros _]].
    pose proof (qround_near q (Y * 370727) (2 ^ 19) ltac:(lia)) as Q. set (z := qround q (Y * 370727) (2 ^ 19)) in *. lia. }
  destruct (B e1 Y1 H1) as [B1 B1'], (B e2 Y2 H2) as [B2 B2'].
  pose proof (Z.div_mod e1 2 ltac:(lia)). pose proof (Z.mod_pos_bound e1 2 ltac:(lia)).
  pose proof (Z.div_mod e2 2 ltac:(lia)). pose proof (Z.mod_pos_bound e2 2 ltac:(lia)).
  destruct H as [L|[-> L]].
  - destruct (Z.eq_dec (e1 / 2) (e2 / 2)) as [E|Ne].
    + rewrite E. apply dle_same. rewrite B1 by lia. specialize (B2' ltac:(lia)). lia.
    + assert (e1 mod 2 = 0 \/ e1 mod 2 = 1) as [X|X] by lia; assert (e2 mod 2 = 0 \/ e2 mod 2 = 1) as [Z|Z] by lia;
        try specialize (B1 X); try specialize (B1' X); try specialize (B2 Z); try specialize (B2' Z); apply dle_next; lia.
  - apply dle_same. unfold isqv_mant. destruct (e2 mod 2 =? 0); [assumption|]. apply qround_mono; lia.
Qed.

Lemma isqv_decreasing pQ W I XO f cn x y a b : 1 <= W -> 1 <= fW f -> fS f = false -> (fO f = SAT \/ fO f = SAT_SYM) ->
  0 < x <= y -> y < 2 ^ W -> cn = true \/ 2 ^ (W - 1) <= x ->
  inverse_sqrt_pwl_vha pQ W I XO f cn x = Some a -> inverse_sqrt_pwl_vha pQ W I XO f cn y = Some b -> b <= a.
Proof.
  intros HW HfW HfS HO Hxy Hy Hcn Ea Eb.
  pose proof (isqv_eval pQ W I XO f cn y HW HfW HfS ltac:(lia) ltac:(destruct Hcn; [left; assumption|right; lia])) as E2.
  pose proof (normalize_u_ok W I XO y HW ltac:(lia)) as N2.
  pose proof (isqv_eval pQ W I XO f cn x HW HfW HfS ltac:(lia) ltac:(destruct Hcn; [left; assumption|right; lia])) as E1.
  pose proof (normalize_u_ok W I XO x HW ltac:(lia)) as N1.
  pose proof (normalize_mono W I XO x y HW ltac:(lia) ltac:(lia) ltac:(lia)) as Mo.
  destruct (normalize W I false XO x) as [e1 n1], (normalize W I false XO y) as [e2 n2]. cbn [fst snd] in Mo.
  destruct N1 as (A1 & B1 & C1), N2 as (A2 & B2 & C2). destruct E1 as (o1 & F1 & G1), E2 as (o2 & F2 & G2).
  rewrite Ea in F1. injection F1 as <-. rewrite Eb in F2. injection F2 as <-.
  destruct (pos_bounds W 6 16 n1 HW ltac:(lia) ltac:(lia) C1) as [[P1 _]|]; [|lia].
  destruct (pos_bounds W 6 16 n2 HW ltac:(lia) ltac:(lia) C2) as [[P2 _]|]; [|lia]. change (2 ^ (6 - 1 + 16)) with 2097152 in *.
  eapply converts2_mono; [exact HfW|exact HO| |exact G2|exact G1].
  apply isqv_mant_mono; [apply isqY_range; exact P1|apply isqY_range; exact P2|].
  destruct Mo as [L|[-> L]]; [left; exact L|right; split; [reflexivity|]].
  apply isqY_mono; [lia|apply pos_mono; lia|lia].
Qed.

(** ** The two reciprocals *)
Lemma vha_norm_eq W I S cn a : 1 <= W -> 0 <= a < 2 ^ W -> (cn = true \/ (1 + b2z S <= W /\ 2 ^ (W - 1 - b2z S) <= a)) -> vha_norm cn W I S a = normalize W I false WRAP a.
Proof.
  intros HW Ha H. unfold vha_norm. destruct cn; [reflexivity|]. destruct H as [H|[HW2 H]]; [discriminate|].
  pose proof (pow2_pos (W - 1 - b2z S) ltac:(lia)). pose proof (normalize_u_ok W I WRAP a HW ltac:(lia)) as N.
  destruct (normalize W I false WRAP a) as [e n]. destruct N as (A & B & C).
  assert (Hb : Z.testbit a (W - 1) = (2 ^ (W - 1) <=? a)).
  { rewrite (pow2_half W HW) in Ha. pose proof (pow2_pos (W - 1) ltac:(lia)). destruct (Z.leb_spec (2 ^ (W - 1)) a).
    - apply Z.testbit_true; [lia|]. replace (a / 2 ^ (W - 1)) with 1; [reflexivity|]. apply (Z.div_unique _ _ 1 (a - 2 ^ (W - 1))); lia.
    - apply Z.testbit_false; [lia|]. rewrite Z.div_small by lia. reflexivity. }
  rewrite Hb. assert (He : forall k, 0 <= k -> 2 ^ (W - 1) <= a * 2 ^ k < 2 ^ W -> k = I - e).
  { intros k Hk Hn. destruct (Z.lt_trichotomy k (I - e)) as [L|[E|L]]; [exfalso|exact E|exfalso].
    - replace (I - e) with (1 + k + (I - e - k - 1)) in B by lia. rewrite !pow2_add in B by lia. change (2 ^ 1) with 2 in B.
      pose proof (pow2_pos (I - e - k - 1) ltac:(lia)). rewrite (pow2_half W HW) in C. set (u := a * 2 ^ k) in *.
      replace (a * (2 * 2 ^ k * 2 ^ (I - e - k - 1))) with (2 * (u * 2 ^ (I - e - k - 1))) in B by (unfold u; ring). nia.
    - replace k with (1 + (I - e) + (k - (I - e) - 1)) in Hn by lia. rewrite !pow2_add in Hn by lia. change (2 ^ 1) with 2 in Hn.
      pose proof (pow2_pos (k - (I - e) - 1) ltac:(lia)). rewrite (pow2_half W HW) in Hn.
      replace (a * (2 * 2 ^ (I - e) * 2 ^ (k - (I - e) - 1))) with (2 * (n * 2 ^ (k - (I - e) - 1))) in Hn by (rewrite B; ring). nia. }
  destruct (Z.leb_spec (2 ^ (W - 1)) a) as [L|L].
  - rewrite andb_false_r. specialize (He 0 ltac:(lia) ltac:(change (2 ^ 0) with 1; lia)). replace (I - e) with 0 in B by lia. change (2 ^ 0) with 1 in B.
    unfold slc. rewrite Z.shiftr_0_r, wrapu_id by lia. f_equal; lia.
  - destruct S; cbn [b2z] in *; [|rewrite Z.sub_0_r in H; lia]. cbn [andb negb]. pose proof (pow2_half (W - 1) ltac:(lia)). replace (W - 1 - 1) with (W - 2) in * by lia. pose proof (pow2_half W HW).
    specialize (He 1 ltac:(lia) ltac:(change (2 ^ 1) with 2; lia)). rewrite <- He in B. change (2 ^ 1) with 2 in B.
    unfold slc. rewrite Z.shiftr_0_r, (wrapu_id (W - 1) a) by lia. rewrite wrapu_id by lia. f_equal; lia.
Qed.

Notation recipHY := (pw_lin recip_ha_m recip_ha_c 16).
Lemma rha_mono a b : 0 <= a -> a <= b -> b < 2 ^ (5 + 16) -> recipHY b <= recipHY a.
Proof. apply (pw_lin_down recip_ha_m recip_ha_c 16 32); [lia|vm_compute; reflexivity]. Qed.
Lemma rha_range T : 0 <= T < 2 ^ (5 + 16) -> 4294837264 <= recipHY T <= 8588951552.
Proof.
  intros HT. pose proof (rha_mono 0 T ltac:(lia) ltac:(lia) ltac:(lia)) as H1. pose proof (rha_mono T (2 ^ (5 + 16) - 1) ltac:(lia) ltac:(lia) ltac:(lia)) as H2.
  change (recipHY 0) with 8588951552 in H1. change (recipHY (2 ^ (5 + 16) - 1)) with 4294837264 in H2. split; assumption.
Qed.
Lemma rha_near T : 0 <= T < 2 ^ (5 + 16) -> (100000 - 14) * 2 ^ (5 + 1 + 3 * 16) <= 100000 * (recipHY T * (2 ^ (5 + 16) + T)) /\
  100000 * (recipHY T * (2 ^ (5 + 16) + T + 1)) <= (100000 + 14) * 2 ^ (5 + 1 + 3 * 16).
Proof. apply (recip_blk_near recip_ha_m recip_ha_c 5 16 13 100000 14 256); [lia|lia|lia|reflexivity|vm_compute; reflexivity]. Qed.

Notation recipVY := (pw_lin recip_vha_m recip_vha_c 16).
Lemma rvha_mono a b : 0 <= a -> a <= b -> b < 2 ^ (6 + 16) -> recipVY b <= recipVY a.
Proof. apply (pw_lin_down recip_vha_m recip_vha_c 16 64); [lia|vm_compute; reflexivity]. Qed.
Lemma rvha_range T : 0 <= T < 2 ^ (6 + 16) -> 4294967812 <= recipVY T <= 8589672448.
Proof.
  intros HT. pose proof (rvha_mono 0 T ltac:(lia) ltac:(lia) ltac:(lia)) as H1. pose proof (rvha_mono T (2 ^ (6 + 16) - 1) ltac:(lia) ltac:(lia) ltac:(lia)) as H2.
  change (recipVY 0) with 8589672448 in H1. change (recipVY (2 ^ (6 + 16) - 1)) with 4294967812 in H2. split; assumption.
Qed.
Lemma rvha_near T : 0 <= T < 2 ^ (6 + 16) -> (100000 - 4) * 2 ^ (6 + 1 + 3 * 16) <= 100000 * (recipVY T * (2 ^ (6 + 16) + T)) /\
  100000 * (recipVY T * (2 ^ (6 + 16) + T + 1)) <= (100000 + 4) * 2 ^ (6 + 1 + 3 * 16).
Proof. apply (recip_blk_near recip_vha_m recip_vha_c 6 16 13 100000 4 512); [lia|lia|lia|reflexivity|vm_compute; reflexivity]. Qed.

Lemma rha_accuracy pQ W I S f x : 1 <= W -> 1 <= fW f -> in_range S W x -> x <> 0 ->
  exists out Y k, reciprocal_pwl_ha pQ W I S f x = Some out /\ 0 <= k /\ (0 < Y <= 8588951552 /\ Z.abs x * 2 ^ 32 < 2 ^ k) /\
    converts2 f ((if S && fS f && (x <? 0) then -1 else 1) * Y) (W - I - k) out /\ 100000 * Z.abs (Y * Z.abs x - 2 ^ k) <= 14 * 2 ^ k.
Proof.
  intros HW HfW Hx Hx0. unfold reciprocal_pwl_ha. rewrite (proj1 (abs_u_ok W I S x HW Hx)).
  pose proof (rg_accuracy recip_ha_m recip_ha_c 5 16 4294837264 8588951552 100000 14 ltac:(lia) ltac:(lia) eq_refl eq_refl ltac:(lia) ltac:(lia) rha_range ltac:(lia) rha_near pQ W I S f x HW HfW Hx Hx0) as E.
  destruct (normalize W I false WRAP (Z.abs x)) as [e n]. exact E.
Qed.
Lemma rvha_accuracy pQ W I S f cn x : 1 <= W -> 1 <= fW f -> in_range S W x -> x <> 0 -> (cn = true \/ (1 + b2z S <= W /\ 2 ^ (W - 1 - b2z S) <= Z.abs x)) ->
  exists out Y k, reciprocal_pwl_vha pQ W I S f cn x = Some out /\ 0 <= k /\ (0 < Y <= 8589672448 /\ Z.abs x * 2 ^ 32 < 2 ^ k) /\
    converts2 f ((if S && fS f && (x <? 0) then -1 else 1) * Y) (W - I - k) out /\ 100000 * Z.abs (Y * Z.abs x - 2 ^ k) <= 4 * 2 ^ k.
Proof.
  intros HW HfW Hx Hx0 Hc. unfold reciprocal_pwl_vha. destruct (abs_u_ok W I S x HW Hx) as [-> Ha]. rewrite (vha_norm_eq W I S cn _ HW Ha Hc).
  pose proof (rg_accuracy recip_vha_m recip_vha_c 6 16 4294967812 8589672448 100000 4 ltac:(lia) ltac:(lia) eq_refl eq_refl ltac:(lia) ltac:(lia) rvha_range ltac:(lia) rvha_near pQ W I S f x HW HfW Hx Hx0) as E.
  destruct (normalize W I false WRAP (Z.abs x)) as [e n]. exact E.
Qed.

Lemma rha_zero pQ W I S f : reciprocal_pwl_ha pQ W I S f 0 = Some (imax (fS f) (fW f)).
Proof. unfold reciprocal_pwl_ha. destruct (normalize W I false WRAP _). apply rg_zero; [lia|reflexivity|reflexivity]. Qed.
Lemma rvha_zero pQ W I S f cn : reciprocal_pwl_vha pQ W I S f cn 0 = Some (imax (fS f) (fW f)).
Proof. unfold reciprocal_pwl_vha. destruct (vha_norm cn W I S _). apply rg_zero; [lia|reflexivity|reflexivity]. Qed.

Lemma rha_odd pQ W I f x : 1 <= W -> 1 <= fW f -> fS f = true -> 0 < x < 2 ^ (W - 1) ->
  exists Y k out1 out2, reciprocal_pwl_ha pQ W I true f x = Some out1 /\ reciprocal_pwl_ha pQ W I true f (- x) = Some out2 /\
    converts2 f Y k out1 /\ converts2 f (- Y) k out2.
Proof.
  intros HW HfW HS Hx. unfold reciprocal_pwl_ha.
  rewrite (proj1 (abs_u_ok W I true x HW ltac:(unfold in_range, imin, imax; lia))), (proj1 (abs_u_ok W I true (- x) HW ltac:(unfold in_range, imin, imax; lia))).
  rewrite Z.abs_opp, Z.abs_eq by lia.
  pose proof (rg_odd recip_ha_m recip_ha_c 5 16 4294837264 8588951552 ltac:(lia) ltac:(lia) eq_refl eq_refl ltac:(lia) ltac:(lia) rha_range pQ W I f x HW HfW HS Hx) as E.
  destruct (normalize W I false WRAP x) as [e n]. exact E.
Qed.
Lemma rvha_odd pQ W I f cn x : 1 <= W -> 1 <= fW f -> fS f = true -> 0 < x < 2 ^ (W - 1) -> (cn = true \/ (2 <= W /\ 2 ^ (W - 2) <= x)) ->
  exists Y k out1 out2, reciprocal_pwl_vha pQ W I true f cn x = Some out1 /\ reciprocal_pwl_vha pQ W I true f cn (- x) = Some out2 /\
    converts2 f Y k out1 /\ converts2 f (- Y) k out2.
Proof.
  intros HW HfW HS Hx Hc. unfold reciprocal_pwl_vha.
  destruct (abs_u_ok W I true x HW ltac:(unfold in_range, imin, imax; lia)) as [-> Ha]. rewrite (proj1 (abs_u_ok W I true (- x) HW ltac:(unfold in_range, imin, imax; lia))).
  rewrite Z.abs_opp. rewrite (vha_norm_eq W I true cn _ HW Ha ltac:(cbn [b2z]; replace (W - 1 - 1) with (W - 2) by lia; rewrite Z.abs_eq by lia; exact Hc)). rewrite Z.abs_eq by lia.
  pose proof (rg_odd recip_vha_m recip_vha_c 6 16 4294967812 8589672448 ltac:(lia) ltac:(lia) eq_refl eq_refl ltac:(lia) ltac:(lia) rvha_range pQ W I f x HW HfW HS Hx) as E.
  destruct (normalize W I false WRAP x) as [e n]. exact E.
Qed.

Lemma rha_decreasing pQ W I S f x y a b : 1 <= W -> 1 <= fW f -> (fO f = SAT \/ fO f = SAT_SYM) -> in_range S W y -> 0 < x <= y ->
  reciprocal_pwl_ha pQ W I S f x = Some a -> reciprocal_pwl_ha pQ W I S f y = Some b -> b <= a.
Proof.
  intros HW HfW HO Hy Hxy. assert (Hx : in_range S W x) by (unfold in_range, imin, imax in *; destruct S; pose proof (pow2_nonneg (W - 1)); lia).
  unfold reciprocal_pwl_ha. rewrite (proj1 (abs_u_ok W I S x HW Hx)), (proj1 (abs_u_ok W I S y HW Hy)), !Z.abs_eq by lia.
  apply (rg_decreasing recip_ha_m recip_ha_c 5 16 4294837264 8588951552 ltac:(lia) ltac:(lia) eq_refl eq_refl ltac:(lia) ltac:(lia) ltac:(lia) rha_mono rha_range); assumption.
Qed.
Lemma rvha_decreasing pQ W I S f cn x y a b : 1 <= W -> 1 <= fW f -> (fO f = SAT \/ fO f = SAT_SYM) -> in_range S W y -> 0 < x <= y ->
  (cn = true \/ (1 + b2z S <= W /\ 2 ^ (W - 1 - b2z S) <= x)) ->
  reciprocal_pwl_vha pQ W I S f cn x = Some a -> reciprocal_pwl_vha pQ W I S f cn y = Some b -> b <= a.
Proof.
  intros HW HfW HO Hy Hxy Hc. assert (Hx : in_range S W x) by (unfold in_range, imin, imax in *; destruct S; pose proof (pow2_nonneg (W - 1)); lia).
  unfold reciprocal_pwl_vha. destruct (abs_u_ok W I S x HW Hx) as [-> Hx']. destruct (abs_u_ok W I S y HW Hy) as [-> Hy'].
  rewrite (vha_norm_eq W I S cn (Z.abs x)); [|assumption|assumption|destruct Hc as [C|C]; [left; exact C|right; split; [apply C|]; destruct C; lia]].
  rewrite (vha_norm_eq W I S cn (Z.abs y)); [|assumption|assumption|destruct Hc as [C|C]; [left; exact C|right; split; [apply C|]; destruct C; lia]]. rewrite !Z.abs_eq by lia.
  apply (rg_decreasing recip_vha_m recip_vha_c 6 16 4294967812 8589672448 ltac:(lia) ltac:(lia) eq_refl eq_refl ltac:(lia) ltac:(lia) ltac:(lia) rvha_mono rvha_range); assumption.
Qed.
