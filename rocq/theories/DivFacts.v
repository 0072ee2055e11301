(** Invariant of the division loop. *)
From Coq Require Import Lia ZifyBool.
From Verif Require Import AcTypes AcFacts ShiftModel ShiftFacts ShiftProofs DivModel.
Ltac Zify.zify_post_hook ::= idtac.

Lemma lor_bit a b : 0 <= b <= 1 -> Z.lor (2 * a) b = 2 * a + b.
Proof.
  intros Hb. assert (b = 0 \/ b = 1) as [->| ->] by lia; [rewrite Z.lor_0_r; lia|].
  pose proof (setbit_add (a * 2) 0 ltac:(lia)) as E. rewrite testbit_even_0, Z.setbit_spec' in E.
  change (2 ^ 0) with 1 in E. change (b2z false) with 0 in E. rewrite (Z.mul_comm 2 a). lia.
Qed.

(** a wrapped even number is even *)
Lemma shl1_even_s w x : 1 <= w -> exists c, shl true w x 1 = 2 * c /\ (2 * c) mod 2 ^ w = (2 * x) mod 2 ^ w.
Proof.
  intros Hw. unfold shl. rewrite Z.shiftl_mul_pow2 by lia. change (2 ^ 1) with 2.
  assert (E : wrap true w (x * 2) mod 2 ^ w = (x * 2) mod 2 ^ w) by (apply wrap_mod; lia).
  pose proof (pow2_half w ltac:(lia)) as Eh. pose proof (pow2_pos (w - 1) ltac:(lia)).
  exists (wrap true w (x * 2) / 2).
  assert (Ev : wrap true w (x * 2) mod 2 = 0).
  { rewrite <- (Z.mul_1_r 2) at 2. change (2 * 1) with (2 ^ 1).
    rewrite (mod_pow2_sub w 1 _ _ ltac:(lia) E). change (2 ^ 1) with 2. apply Z.mod_mul; lia. }
  pose proof (Z.div_mod (wrap true w (x * 2)) 2 ltac:(lia)) as DM.
  split; [lia|]. replace (2 * (wrap true w (x * 2) / 2)) with (wrap true w (x * 2)) by lia.
  rewrite E. f_equal; lia.
Qed.

Lemma shl1_u w x : 0 <= w -> shl false w x 1 = (2 * x) mod 2 ^ w.
Proof. intros. unfold shl, wrap, wrapu. rewrite Z.shiftl_mul_pow2 by lia. f_equal; lia. Qed.

(** Q register: shifting in one bit modulo 2^w. *)
Lemma qreg_step w c b : 1 <= w -> 0 <= b <= 1 ->
  wrapu w (Z.lor (shl false w (wrapu w c) 1) b) = wrapu w (2 * c + b).
Proof.
  intros Hw Hb. rewrite shl1_u by lia. unfold wrapu at 2.
  pose proof (pow2_half w ltac:(lia)) as Eh. pose proof (pow2_pos (w - 1) ltac:(lia)).
  rewrite Z.mul_mod_idemp_r by lia.
  replace ((2 * c) mod 2 ^ w) with (2 * (c mod 2 ^ (w - 1))) by (rewrite Eh, Z.mul_mod_distr_l; lia).
  rewrite lor_bit by lia. unfold wrapu. rewrite Eh.
  pose proof (Z.div_mod c (2 ^ (w - 1)) ltac:(lia)) as DM.
  replace (2 * c + b) with (2 * (c mod 2 ^ (w - 1)) + b + (c / 2 ^ (w - 1)) * (2 * 2 ^ (w - 1))) by lia.
  rewrite Z.mod_add by lia. reflexivity.
Qed.

(** top bit of the dividend register *)
Lemma top_bit NW N : 1 <= NW -> 0 <= N < 2 ^ NW ->
  Z.land (Z.shiftr N (NW - 1)) 1 = (2 * N) / 2 ^ NW.
Proof.
  intros Hw HN. rewrite Z.shiftr_div_pow2 by lia. change 1 with (2 ^ 1 - 1) at 2.
  rewrite land_ones_mod by lia. change (2 ^ 1) with 2.
  pose proof (pow2_half NW ltac:(lia)) as Eh. pose proof (pow2_pos (NW - 1) ltac:(lia)).
  rewrite Eh. rewrite Z.div_mul_cancel_l by lia.
  apply Z.mod_small. split; [apply Z.div_pos; lia|apply Z.div_lt_upper_bound; lia].
Qed.

(** The invariant after i iterations, non-zero divisor. *)
Definition div_inv (NW DW QW D N0 i : Z) (st : Z * Z * Z) : Prop :=
  let '(N, R, Q) := st in
  let p := N0 * 2 ^ i / 2 ^ NW in
  N = (N0 * 2 ^ i) mod 2 ^ NW /\
  (R = p mod D \/ R = p mod D - D) /\
  Q = wrapu QW (p / D).

Lemma p_step NW N0 i : 0 <= NW -> 0 <= i -> 0 <= N0 ->
  let p := N0 * 2 ^ i / 2 ^ NW in let N := (N0 * 2 ^ i) mod 2 ^ NW in
  N0 * 2 ^ (i + 1) / 2 ^ NW = 2 * p + 2 * N / 2 ^ NW /\
  (N0 * 2 ^ (i + 1)) mod 2 ^ NW = (2 * N) mod 2 ^ NW.
Proof.
  intros HW Hi HN p N. pose proof (pow2_pos NW HW) as P. rewrite pow2_succ by lia.
  pose proof (Z.div_mod (N0 * 2 ^ i) (2 ^ NW) ltac:(lia)) as DM. fold p N in DM.
  replace (N0 * (2 * 2 ^ i)) with (2 * N + (2 * p) * 2 ^ NW) by lia.
  rewrite Z.div_add, Z.mod_add by lia. split; [lia|reflexivity].
Qed.

Lemma div_step_inv NW DW QW D N0 i st :
  1 <= NW -> 1 <= DW -> 1 <= QW -> 0 < D < 2 ^ DW -> 0 <= N0 < 2 ^ NW -> 0 <= i ->
  div_inv NW DW QW D N0 i st -> div_inv NW DW QW D N0 (i + 1) (div_step NW DW QW D st).
Proof.
  intros HN HDW HQ HD HN0 Hi. destruct st as [[N R] Q]. unfold div_inv, div_step.
  intros (EN & ER & EQ).
  pose proof (pow2_pos NW ltac:(lia)) as PN.
  destruct (p_step NW N0 i ltac:(lia) Hi ltac:(lia)) as [Ep En].
  rewrite Ep, En. set (p := N0 * 2 ^ i / 2 ^ NW) in *. rewrite <- EN.
  pose proof (Z.mod_pos_bound (N0 * 2 ^ i) (2 ^ NW) PN) as BN. rewrite <- EN in BN.
  assert (Hp : 0 <= p) by (apply Z.div_pos; [pose proof (pow2_pos i Hi); nia|lia]).
  rewrite top_bit by lia. set (b := 2 * N / 2 ^ NW).
  assert (Hb : 0 <= b <= 1).
  { unfold b; split; [apply Z.div_pos; lia|]. apply Z.lt_succ_r, Z.div_lt_upper_bound; lia. }
  pose proof (Z.mod_pos_bound p D ltac:(lia)) as Bm. pose proof (Z.div_mod p D ltac:(lia)) as DMp.
  set (m := p mod D) in *. set (qq := p / D) in *.
  pose proof (pow2_succ DW ltac:(lia)) as ED.
  (* the new partial remainder *)
  assert (ER1 : wraps (DW + 1)
            (Z.lor (shl true (DW + 1) R 1) b +
             (if R <? 0 then wraps (DW + 1) D else wraps (DW + 1) (- D))) = 2 * m + b - D).
  { destruct (shl1_even_s (DW + 1) R ltac:(lia)) as (c & Ec & Emod). rewrite Ec, lor_bit by lia.
    rewrite (wraps_id (DW + 1) D), (wraps_id (DW + 1) (- D)) by (replace (DW + 1 - 1) with DW by lia; lia).
    apply (wrap_unique true (DW + 1)); [lia| |].
    - unfold in_range, imin, imax. replace (DW + 1 - 1) with DW by lia. lia.
    - assert (ES : 2 * R + b + (if R <? 0 then D else - D) = 2 * m + b - D).
      { destruct (Z.ltb_spec R 0); lia. }
      rewrite <- ES. rewrite <- !Z.add_assoc.
      rewrite <- (Z.add_mod_idemp_l (2 * c)), <- (Z.add_mod_idemp_l (2 * R)) by (pose proof (pow2_pos (DW + 1)); lia).
      rewrite Emod. reflexivity. }
  rewrite ER1.
  split; [apply shl1_u; lia|]. 
  destruct (Z.leb_spec 0 (2 * m + b - D)) as [H|H]; simpl b2z.
  - assert (Em : (2 * p + b) mod D = 2 * m + b - D) by (apply (mod_eq _ _ (2 * qq + 1)); lia).
    assert (Eq : (2 * p + b) / D = 2 * qq + 1) by (apply (div_eq _ _ _ (2 * m + b - D)); lia).
    rewrite Em, Eq, EQ. split; [left; reflexivity|]. apply qreg_step; lia.
  - assert (Em : (2 * p + b) mod D = 2 * m + b) by (apply (mod_eq _ _ (2 * qq)); lia).
    assert (Eq : (2 * p + b) / D = 2 * qq) by (apply (div_eq _ _ _ (2 * m + b)); lia).
    rewrite Em, Eq, EQ. split; [right; reflexivity|].
    rewrite qreg_step by lia. f_equal; lia.
Qed.

Lemma div_iter_inv NW DW QW D N0 k :
  1 <= NW -> 1 <= DW -> 1 <= QW -> 0 < D < 2 ^ DW -> 0 <= N0 < 2 ^ NW ->
  div_inv NW DW QW D N0 (Z.of_nat k) (Nat.iter k (div_step NW DW QW D) (N0, 0, 0)).
Proof.
  intros HN HDW HQ HD HN0. induction k as [|k IH].
  - cbn [Nat.iter nat_rect Z.of_nat]. unfold div_inv. rewrite Z.pow_0_r, Z.mul_1_r.
    rewrite Z.div_small, Z.mod_small by lia. rewrite Z.mod_small, Z.div_small by lia.
    split; [reflexivity|split; [left; reflexivity|]]. unfold wrapu. rewrite Z.mod_0_l; [reflexivity|].
    pose proof (pow2_pos QW ltac:(lia)); lia.
  - rewrite Nat2Z.inj_succ. unfold Z.succ. cbn [Nat.iter nat_rect]. apply div_step_inv; try assumption; lia.
Qed.

(** Result of the loop with the final correction, non-zero divisor. *)
Lemma div_loop_spec NW DW QW k N D :
  1 <= NW -> 1 <= DW -> 1 <= QW -> 0 < D < 2 ^ DW -> 0 <= N < 2 ^ NW -> 0 <= k ->
  let p := N * 2 ^ k / 2 ^ NW in
  div_loop NW DW QW k N D = ((N * 2 ^ k) mod 2 ^ NW, p mod D, wrapu QW (p / D)).
Proof.
  intros HN HDW HQ HD HN0 Hk p. unfold div_loop.
  pose proof (div_iter_inv NW DW QW D N (Z.to_nat k) HN HDW HQ HD HN0) as I.
  rewrite Z2Nat.id in I by lia.
  destruct (Nat.iter _ _ _) as [[N' R] Q]. unfold div_inv in I. fold p in I.
  destruct I as (-> & ER & ->).
  pose proof (Z.mod_pos_bound p D ltac:(lia)) as B.
  pose proof (pow2_succ DW ltac:(lia)) as ED.
  f_equal. f_equal. destruct ER as [->| ->].
  - replace (p mod D <? 0) with false by lia. reflexivity.
  - replace (p mod D - D <? 0) with true by lia.
    replace (p mod D - D + D) with (p mod D) by lia.
    apply wraps_id; [lia|]. replace (DW + 1 - 1) with DW by lia. lia.
Qed.

(** Zero divisor: R keeps the low bits of the dividend. *)
Definition div_inv0 (NW DW N0 i : Z) (st : Z * Z * Z) : Prop :=
  let '(N, R, Q) := st in
  N = (N0 * 2 ^ i) mod 2 ^ NW /\ R = wraps (DW + 1) (N0 * 2 ^ i / 2 ^ NW).
Lemma div_step_inv0 NW DW QW N0 i st :
  1 <= NW -> 1 <= DW -> 0 <= N0 < 2 ^ NW -> 0 <= i ->
  div_inv0 NW DW N0 i st -> div_inv0 NW DW N0 (i + 1) (div_step NW DW QW 0 st).
Proof.
  intros HN HDW HN0 Hi. destruct st as [[N R] Q]. unfold div_inv0, div_step. intros (EN & ER).
  pose proof (pow2_pos NW ltac:(lia)) as PN.
  destruct (p_step NW N0 i ltac:(lia) Hi ltac:(lia)) as [Ep En].
  rewrite Ep, En. set (p := N0 * 2 ^ i / 2 ^ NW) in *. rewrite <- EN.
  pose proof (Z.mod_pos_bound (N0 * 2 ^ i) (2 ^ NW) PN) as BN. rewrite <- EN in BN.
  rewrite top_bit by lia. set (b := 2 * N / 2 ^ NW).
  assert (Hb : 0 <= b <= 1).
  { unfold b; split; [apply Z.div_pos; lia|]. apply Z.lt_succ_r, Z.div_lt_upper_bound; lia. }
  split; [apply shl1_u; lia|].
  destruct (shl1_even_s (DW + 1) R ltac:(lia)) as (c & Ec & Emod). rewrite Ec, lor_bit by lia.
  replace (if R <? 0 then _ else _) with 0.
  2:{ change (- 0) with 0. pose proof (pow2_pos (DW + 1 - 1) ltac:(lia)).
      rewrite (wraps_id _ 0) by lia. destruct (R <? 0); reflexivity. }
  rewrite Z.add_0_r. apply (wrap_congr true); [lia|].
  rewrite <- (Z.add_mod_idemp_l (2 * c)), <- (Z.add_mod_idemp_l (2 * p)) by (pose proof (pow2_pos (DW + 1)); lia).
  rewrite Emod, ER. rewrite <- (Z.mul_mod_idemp_r 2 (wraps _ _)) by (pose proof (pow2_pos (DW + 1)); lia).
  rewrite wraps_mod by lia. rewrite Z.mul_mod_idemp_r by (pose proof (pow2_pos (DW + 1)); lia). reflexivity.
Qed.
Lemma div_loop_zero NW DW QW N :
  1 <= NW -> 1 <= DW -> 0 <= N < 2 ^ NW ->
  exists N' Q', div_loop NW DW QW NW N 0 = (N', wraps (DW + 1) N, Q').
Proof.
  intros HN HDW HN0. unfold div_loop.
  assert (I : forall k, div_inv0 NW DW N (Z.of_nat k) (Nat.iter k (div_step NW DW QW 0) (N, 0, 0))).
  { induction k as [|k IH].
    - cbn [Nat.iter nat_rect Z.of_nat]. unfold div_inv0. rewrite Z.pow_0_r, Z.mul_1_r.
      rewrite Z.div_small, Z.mod_small by lia. split; [reflexivity|].
      symmetry; apply wraps_id; [lia|]. pose proof (pow2_pos (DW + 1 - 1)); lia.
    - rewrite Nat2Z.inj_succ. unfold Z.succ. cbn [Nat.iter nat_rect]. apply div_step_inv0; try assumption; lia. }
  specialize (I (Z.to_nat NW)). rewrite Z2Nat.id in I by lia.
  destruct (Nat.iter _ _ _) as [[N' R] Q]. unfold div_inv0 in I. destruct I as (_ & ER).
  rewrite Z.div_mul in ER by (pose proof (pow2_pos NW); lia).
  exists N', Q. subst R. rewrite Z.add_0_r. f_equal. f_equal.
  destruct (wraps (DW + 1) N <? 0); [|reflexivity].
  apply (wrap_congr true); [lia|]. apply wraps_mod; lia.
Qed.
