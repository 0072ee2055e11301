(** Accuracy of ac_sigmoid_pwl and ac_tanh_pwl against the real functions. *)
From Coq Require Import Reals Lra Lia ZifyBool.
From Verif Require Import AcTypes AcFacts Spec SpecFacts SpecR SpecRFacts PwlModel PwlFacts PwlProofs PwlAct PwlReal PwlExpReal.
Local Open Scope R_scope.

(** ** tanh through the exponential *)
Definition th (x : R) : R := 1 - 2 / (1 + exp (2 * x)).

Lemma th_tanh x : th x = tanh x.
Proof.
  unfold th, tanh, sinh, cosh. pose proof (exp_pos x) as P. pose proof (exp_pos (2 * x)) as P2. rewrite exp_Ropp.
  replace (2 * x) with (x + x) in * by ring. rewrite exp_plus in *. field. nra.
Qed.
Lemma th_opp x : th (- x) = - th x.
Proof.
  unfold th. replace (2 * - x) with (- (2 * x)) by ring. rewrite exp_Ropp. pose proof (exp_pos (2 * x)). field. lra.
Qed.
Lemma th_0 : th 0 = 0.
Proof. unfold th. rewrite Rmult_0_r, exp_0. field. Qed.
Lemma exp_le_mono x y : x <= y -> exp x <= exp y.
Proof. intros [H| ->]; [left; apply exp_increasing, H|right; reflexivity]. Qed.
Lemma th_mono x y : x <= y -> th x <= th y.
Proof.
  intros H. unfold th. pose proof (exp_pos (2 * x)). pose proof (exp_le_mono (2 * x) (2 * y) ltac:(lra)).
  assert (/ (1 + exp (2 * y)) <= / (1 + exp (2 * x))) by (apply Rinv_le_contravar; lra). unfold Rdiv. lra.
Qed.
Lemma th_lt1 x : th x < 1.
Proof. unfold th. pose proof (exp_pos (2 * x)). assert (0 < / (1 + exp (2 * x))) by (apply Rinv_0_lt_compat; lra). unfold Rdiv. lra. Qed.

Lemma exp_ge1 d : 0 <= d -> 1 <= exp d.
Proof. intros H. pose proof (exp_ineq1_le d). lra. Qed.
(** e^d between the bounds that the logarithm's bounds give. *)
Lemma exp_lo x q : 1 <= q -> (q - / q) / 2 <= x -> q <= exp x.
Proof. intros Hq H. pose proof (ln_upper q Hq) as U. rewrite <- (exp_ln q) by lra. apply exp_le_mono. lra. Qed.
Lemma exp_hi x q : 1 <= q -> x <= 2 - 4 * / (q + 1) -> exp x <= q.
Proof. intros Hq H. pose proof (ln_lower q Hq) as U. rewrite <- (exp_ln q) by lra. apply exp_le_mono. lra. Qed.

(** Tangents: tanh is concave on the positive side. *)
Lemma th_above a x : 0 <= a -> a <= x -> th x <= th a + (x - a) * (1 - th a * th a).
Proof.
  intros Ha Hx. set (d := 2 * (x - a)). assert (Hd : 0 <= d) by (unfold d; lra).
  pose proof (exp_ge1 (2 * a) ltac:(lra)) as A. pose proof (exp_ge1 d Hd) as Q.
  unfold th. replace (2 * x) with (2 * a + d) by (unfold d; ring). rewrite exp_plus. replace (x - a) with (d / 2) by (unfold d; field).
  assert (L : 2 * (exp d - 1) <= d * (exp d + 1)).
  { pose proof (ln_lower (exp d) Q) as L. rewrite ln_exp in L. apply (Rmult_le_compat_r (exp d + 1)) in L; [|lra].
    replace ((2 - 4 * / (exp d + 1)) * (exp d + 1)) with (2 * (exp d + 1) - 4) in L by (field; lra). lra. }
  assert (M : exp d - 1 <= d * exp d).
  { pose proof (exp_ineq1_le (- d)) as M. rewrite exp_Ropp in M. apply (Rmult_le_compat_r (exp d)) in M; [|lra]. rewrite Rinv_l in M by lra. lra. }
  set (u := exp (2 * a)) in *. set (q := exp d) in *. clearbody u q. assert (P : 1 <= u * q) by nra. assert (0 < (1 + u) * (1 + u)) by nra.
  apply Rmult_le_reg_r with ((1 + u) * (1 + u) * (1 + u * q)); [apply Rmult_lt_0_compat; lra|].
  replace ((1 - 2 / (1 + u * q)) * ((1 + u) * (1 + u) * (1 + u * q))) with ((1 + u * q - 2) * ((1 + u) * (1 + u))) by (field; lra).
  replace ((1 - 2 / (1 + u) + d / 2 * (1 - (1 - 2 / (1 + u)) * (1 - 2 / (1 + u)))) * ((1 + u) * (1 + u) * (1 + u * q)))
    with (((u - 1) * (1 + u) + 2 * d * u) * (1 + u * q)) by (field; lra).
  assert (N : 0 <= u * (d * (1 + u * q) - (q - 1) * (1 + u))).
  { apply Rmult_le_pos; [lra|]. replace (d * (1 + u * q) - (q - 1) * (1 + u)) with ((d * (q + 1) - 2 * (q - 1)) + (u - 1) * (d * q - (q - 1))) by ring.
    assert (0 <= (u - 1) * (d * q - (q - 1))) by (apply Rmult_le_pos; lra). lra. }
  nra.
Qed.
Lemma th_below a b x : 0 <= a -> a <= x <= b -> th a + (x - a) * (1 - th b * th b) <= th x.
Proof.
  intros Ha [Hx Hb]. apply Rle_trans with (th a + (x - a) * (1 - th x * th x)).
  { pose proof (th_mono x b Hb). pose proof (th_mono 0 x ltac:(lra)) as T0. rewrite th_0 in T0. apply Rplus_le_compat_l, Rmult_le_compat_l; [lra|]. nra. }
  set (d := 2 * (x - a)). assert (Hd : 0 <= d) by (unfold d; lra).
  pose proof (exp_ge1 (2 * a) ltac:(lra)) as A. pose proof (exp_ge1 d Hd) as Q.
  unfold th. replace (2 * x) with (2 * a + d) by (unfold d; ring). rewrite exp_plus. replace (x - a) with (d / 2) by (unfold d; field).
  assert (L : 2 * d * exp d <= exp d * exp d - 1).
  { pose proof (ln_upper (exp d) Q) as L. rewrite ln_exp in L. apply (Rmult_le_compat_r (exp d)) in L; [|lra].
    replace ((exp d - / exp d) / 2 * exp d) with ((exp d * exp d - 1) / 2) in L by (field; lra). lra. }
  assert (M : 1 + d <= exp d) by apply exp_ineq1_le.
  set (u := exp (2 * a)) in *. set (q := exp d) in *. clearbody u q. assert (P : 1 <= u * q) by nra. assert (0 < (1 + u) * (1 + u)) by nra.
  apply Rmult_le_reg_r with ((1 + u) * ((1 + u * q) * (1 + u * q))); [repeat apply Rmult_lt_0_compat; lra|].
  replace ((1 - 2 / (1 + u * q)) * ((1 + u) * ((1 + u * q) * (1 + u * q)))) with ((1 + u * q - 2) * ((1 + u) * (1 + u * q))) by (field; lra).
  replace ((1 - 2 / (1 + u) + d / 2 * (1 - (1 - 2 / (1 + u * q)) * (1 - 2 / (1 + u * q)))) * ((1 + u) * ((1 + u * q) * (1 + u * q))))
    with ((u - 1) * ((1 + u * q) * (1 + u * q)) + 2 * d * (u * q) * (1 + u)) by (field; lra).
  assert (N : 0 <= 2 * u * ((q - 1) * (1 + u * q) - d * q * (1 + u))).
  { apply Rmult_le_pos; [lra|]. replace ((q - 1) * (1 + u * q) - d * q * (1 + u)) with ((q * q - 1 - 2 * d * q) + (u - 1) * (q * (q - 1 - d))) by ring.
    assert (0 <= (u - 1) * (q * (q - 1 - d))) by (apply Rmult_le_pos; [lra|]; apply Rmult_le_pos; lra). lra. }
  nra.
Qed.

(** ** Checking a table by blocks
    Bounds for e^(2hk) are carried along in units of 2^-50, bounds for tanh(hk) are in units of 2^-30. *)
Notation U50 := 1125899906842624%Z.
Notation U30 := 1073741824%Z.
Definition up_l (q l : Z) : Z := (l * q / U50)%Z.
Definition up_u (q u : Z) : Z := (u * q / U50 + 1)%Z.
Definition ebnd (l u : Z) (x : R) : Prop := IZR l <= exp x * IZR U50 <= IZR u.

Lemma div_le_R a b : (0 < b)%Z -> IZR (a / b) * IZR b <= IZR a < (IZR (a / b) + 1) * IZR b.
Proof.
  intros Hb. pose proof (Z.div_mod a b ltac:(lia)). pose proof (Z.mod_pos_bound a b Hb).
  rewrite <- (plus_IZR _ 1), <- !mult_IZR. split; [apply IZR_le|apply IZR_lt]; nia.
Qed.
Lemma up_ok ql qu l u x y : (0 <= l)%Z -> (0 <= ql)%Z -> ebnd l u x -> ebnd ql qu y -> ebnd (up_l ql l) (up_u qu u) (x + y).
Proof.
  intros Hl Hq [L U] [Q1 Q2]. unfold ebnd, up_l, up_u. rewrite exp_plus, plus_IZR. pose proof (exp_pos x). pose proof (exp_pos y).
  pose proof (div_le_R (l * ql) U50 ltac:(lia)) as [D1 _]. pose proof (div_le_R (u * qu) U50 ltac:(lia)) as [_ D2]. rewrite mult_IZR in D1, D2.
  apply IZR_le in Hl. apply IZR_le in Hq.
  assert (M1 : IZR l * IZR ql <= exp x * IZR U50 * (exp y * IZR U50)) by (apply Rmult_le_compat; assumption).
  assert (M2 : exp x * IZR U50 * (exp y * IZR U50) <= IZR u * IZR qu) by (apply Rmult_le_compat; lra || nra).
  split; apply Rmult_le_reg_r with (IZR U50); lra.
Qed.

Definition tl (l : Z) : Z := ((l - U50) * U30 / (l + U50))%Z.
Definition tu (u : Z) : Z := ((u - U50) * U30 / (u + U50) + 1)%Z.
Definition tbnd (l u : Z) (t : R) : Prop := IZR l <= t * IZR U30 <= IZR u.
Lemma t_ok l u x : (0 <= l)%Z -> ebnd l u (2 * x) -> tbnd (tl l) (tu u) (th x).
Proof.
  intros Hl [L U]. unfold tbnd, tl, tu, th. pose proof (exp_pos (2 * x)) as P. set (e := exp (2 * x)) in *. clearbody e. apply IZR_le in Hl.
  assert (Hu : 0 <= IZR u) by nra.
  pose proof (div_le_R ((l - U50) * U30) (l + U50) ltac:(apply le_IZR in Hl; lia)) as [D1 _].
  pose proof (div_le_R ((u - U50) * U30) (u + U50) ltac:(apply le_IZR in Hu; lia)) as [_ D2].
  rewrite plus_IZR. set (a := IZR ((l - U50) * U30 / (l + U50))) in *. set (b := IZR ((u - U50) * U30 / (u + U50))) in *. clearbody a b.
  rewrite mult_IZR, minus_IZR, plus_IZR in D1, D2. replace (1 - 2 / (1 + e)) with ((e - 1) / (e + 1)) by (field; lra).
  set (A := IZR l) in *. set (B := IZR u) in *. clearbody A B.
  split.
  - apply Rmult_le_reg_r with (A + IZR U50); [lra|]. eapply Rle_trans; [exact D1|].
    apply Rmult_le_reg_r with (e + 1); [lra|]. replace ((e - 1) / (e + 1) * IZR U30 * (A + IZR U50) * (e + 1)) with ((e - 1) * IZR U30 * (A + IZR U50)) by (field; lra). nra.
  - apply Rmult_le_reg_r with (B + IZR U50); [lra|]. apply Rle_trans with ((B - IZR U50) * IZR U30); [|lra].
    apply Rmult_le_reg_r with (e + 1); [lra|]. replace ((e - 1) / (e + 1) * IZR U30 * (B + IZR U50) * (e + 1)) with ((e - 1) * IZR U30 * (B + IZR U50)) by (field; lra). nra.
Qed.

(** One block: y0 and y1 are the line's ends, D the allowance, h = hn / hd the block's length. *)
Definition blk (hn hd D ta_l ta_u tb_u y0 y1 : Z) : bool :=
  ((y0 <=? ta_l + D) && ((y1 - ta_l - D) * (hd * U30) <=? hn * (U30 * U30 - tb_u * tb_u)) &&
   (ta_u <=? y0 + D) && ((ta_u - y1 - D) * (hd * U30) + hn * (U30 * U30 - ta_l * ta_l) <=? 0) && (0 <=? ta_l))%Z.
Lemma blk_ok hn hd D ta_l ta_u tb_u y0 y1 a h r : (0 < hn)%Z -> (0 < hd)%Z -> h = IZR hn / IZR hd -> 0 <= a -> 0 <= r <= 1 ->
  tbnd ta_l ta_u (th a) -> th (a + h) * IZR U30 <= IZR tb_u -> blk hn hd D ta_l ta_u tb_u y0 y1 = true ->
  Rabs ((1 - r) * IZR y0 + r * IZR y1 - th (a + r * h) * IZR U30) <= IZR D.
Proof.
  intros Hn Hd Hh Ha Hr [A1 A2] B1 K. unfold blk in K. rewrite !Bool.andb_true_iff, !Z.leb_le in K. destruct K as ((((K1 & K2) & K3) & K4) & K5).
  apply IZR_lt in Hn, Hd. apply IZR_le in K1, K2, K3, K4, K5. rewrite !plus_IZR in *. rewrite !mult_IZR in *. rewrite !minus_IZR in *. rewrite !mult_IZR in *.
  assert (Hh0 : 0 < h) by (rewrite Hh; apply Rdiv_lt_0_compat; lra). assert (Eh : IZR hn = h * IZR hd) by (rewrite Hh; field; lra). rewrite Eh in *. clear Hh.
  pose proof (th_above a (a + r * h) Ha ltac:(nra)) as Up. pose proof (th_below a (a + h) (a + r * h) Ha ltac:(nra)) as Lo.
  replace (a + r * h - a) with (r * h) in Up, Lo by ring. set (d := IZR hd) in *. set (N := IZR U30) in *. assert (HN : 0 < N) by (unfold N; lra).
  pose proof (th_lt1 (a + h)) as L1. pose proof (th_mono 0 (a + h) ltac:(lra)) as L0. rewrite th_0 in L0.
  set (ta := th a) in *. set (tb := th (a + h)) in *. set (tx := th (a + r * h)) in *.
  set (D' := IZR D) in *. set (al := IZR ta_l) in *. set (au := IZR ta_u) in *. set (bu := IZR tb_u) in *. set (p := IZR y0) in *. set (s := IZR y1) in *.
  clearbody d N ta tb tx D' al au bu p s.
  assert (K2' : (s - al - D') * N <= h * (N * N - bu * bu)) by (apply Rmult_le_reg_r with d; [lra|]; nra).
  assert (K4' : (au - s - D') * N + h * (N * N - al * al) <= 0) by (apply Rmult_le_reg_r with d; [lra|]; nra).
  assert (T1 : (tb * N) * (tb * N) <= bu * bu) by (apply Rmult_le_compat; nra).
  assert (T2 : al * al <= (ta * N) * (ta * N)) by (apply Rmult_le_compat; lra).
  (* slopes in units of N *)
  assert (S1 : s - al - D' <= h * (1 - tb * tb) * N). { apply Rmult_le_reg_r with N; [lra|]. assert (h * (tb * N * (tb * N)) <= h * (bu * bu)) by (apply Rmult_le_compat_l; lra). nra. }
  assert (S2 : au - s - D' + h * (1 - ta * ta) * N <= 0).
  { apply Rmult_le_reg_r with N; [lra|]. assert (h * (al * al) <= h * (ta * N * (ta * N))) by (apply Rmult_le_compat_l; lra). nra. }
  assert (X1 : tx * N <= (ta + r * h * (1 - ta * ta)) * N) by (apply Rmult_le_compat_r; lra).
  assert (X2 : (ta + r * h * (1 - tb * tb)) * N <= tx * N) by (apply Rmult_le_compat_r; lra).
  assert (R1 : r * (s - al - D') <= r * (h * (1 - tb * tb) * N)) by (apply Rmult_le_compat_l; lra).
  assert (R2 : r * (au - s - D' + h * (1 - ta * ta) * N) <= r * 0) by (apply Rmult_le_compat_l; lra).
  assert (R3 : (1 - r) * p <= (1 - r) * (al + D')) by (apply Rmult_le_compat_l; lra).
  assert (R4 : (1 - r) * au <= (1 - r) * (p + D')) by (apply Rmult_le_compat_l; lra).
  apply Rabs_le. split; lra.
Qed.

(** Blocks B, B+1, ..., given the bounds at block B. *)
Fixpoint chk (hn hd D ql qu : Z) (y0 y1 : Z -> Z) (n : nat) (B l u : Z) : bool :=
  match n with
  | O => true
  | S n => let l1 := up_l ql l in let u1 := up_u qu u in
           blk hn hd D (tl l) (tu u) (tu u1) (y0 B) (y1 B) && ((0 <=? l)%Z && chk hn hd D ql qu y0 y1 n (B + 1) l1 u1)
  end.
Lemma chk_ok hn hd D ql qu y0 y1 h n : forall B l u, (0 < hn)%Z -> (0 < hd)%Z -> (0 <= ql)%Z -> h = IZR hn / IZR hd -> ebnd ql qu (2 * h) -> (0 <= B)%Z ->
  ebnd l u (2 * (h * IZR B)) -> chk hn hd D ql qu y0 y1 n B l u = true ->
  forall k r, (B <= k < B + Z.of_nat n)%Z -> 0 <= r <= 1 ->
  Rabs ((1 - r) * IZR (y0 k) + r * IZR (y1 k) - th (h * (IZR k + r)) * IZR U30) <= IZR D.
Proof.
  induction n as [|n IH]; intros B l u Hn Hd Hq Hh Q HB E C k r Hk Hr; [lia|]. cbn [chk] in C. rewrite !Bool.andb_true_iff in C. destruct C as (C1 & C2 & C3).
  apply Z.leb_le in C2. assert (H0 : 0 <= h) by (rewrite Hh; apply IZR_lt in Hn, Hd; apply Rlt_le, Rdiv_lt_0_compat; lra).
  assert (E1 : ebnd (up_l ql l) (up_u qu u) (2 * (h * IZR (B + 1)))).
  { replace (2 * (h * IZR (B + 1))) with (2 * (h * IZR B) + 2 * h) by (rewrite plus_IZR; ring). apply up_ok; assumption. }
  destruct (Z.eq_dec k B) as [->|Hne].
  - assert (PB : 0 <= h * IZR B) by (apply Rmult_le_pos; [exact H0|apply (IZR_le 0), HB]).
    pose proof (t_ok l u (h * IZR B) C2 E) as T. replace (h * (IZR B + r)) with (h * IZR B + r * h) by ring.
    apply (blk_ok hn hd D (tl l) (tu u) (tu (up_u qu u)) (y0 B) (y1 B) (h * IZR B) h r); try assumption.
    replace (h * IZR B + h) with (h * IZR (B + 1)) by (rewrite plus_IZR; ring). refine (proj2 (t_ok (up_l ql l) _ _ _ E1)).
    unfold up_l. apply Z.div_pos; nia.
  - apply (IH (B + 1)%Z (up_l ql l) (up_u qu u)); try assumption; lia.
Qed.

(** Bounds for e^(16 x) from bounds for e^x. *)
Fixpoint grow (n : nat) (ql qu l u : Z) : Z * Z := match n with O => (l, u) | S n => grow n ql qu (up_l ql l) (up_u qu u) end.
Lemma grow_ok ql qu x n : forall l u y, (0 <= ql)%Z -> (0 <= l)%Z -> ebnd ql qu x -> ebnd l u y ->
  ebnd (fst (grow n ql qu l u)) (snd (grow n ql qu l u)) (y + INR n * x).
Proof.
  induction n as [|n IH]; intros l u y Hq Hl Q E; [cbn [grow fst snd INR]; replace (y + 0 * x) with y by ring; exact E|].
  rewrite S_INR. cbn [grow]. replace (y + (INR n + 1) * x) with (y + x + INR n * x) by ring. apply IH; [exact Hq|unfold up_l; apply Z.div_pos; nia|exact Q|apply up_ok; assumption].
Qed.
Lemma ebnd_0 : ebnd U50 U50 0.
Proof. unfold ebnd. rewrite exp_0. lra. Qed.
Lemma ebnd_intro xn xd l u : (0 < xd)%Z -> (U50 <= l)%Z -> (U50 <= u)%Z -> ((l * l - U50 * U50) * xd <= 2 * xn * l * U50)%Z -> (xn * (u + U50) <= xd * (2 * u - 2 * U50))%Z ->
  ebnd l u (IZR xn / IZR xd).
Proof.
  intros Hd Hl Hu A B. apply IZR_lt in Hd. apply IZR_le in Hl, Hu, A, B. repeat first [rewrite mult_IZR in A|rewrite minus_IZR in A]. repeat first [rewrite mult_IZR in B|rewrite minus_IZR in B|rewrite plus_IZR in B].
  set (x := IZR xn / IZR xd). assert (Ex : IZR xn = x * IZR xd) by (unfold x; field; lra). rewrite Ex in A, B. clearbody x.
  set (d := IZR xd) in *. set (L := IZR l) in *. set (V := IZR u) in *. assert (HN : 0 < IZR U50) by lra. set (N := IZR U50) in *.
  unfold ebnd. change (IZR U50) with N. fold L V. clearbody d L V N. assert (A' : L * L - N * N <= 2 * x * L * N) by (apply Rmult_le_reg_r with d; lra).
  assert (B' : x * (V + N) <= 2 * V - 2 * N) by (apply Rmult_le_reg_r with d; lra). split.
  - assert (Q : L / N <= exp x); [|apply (Rmult_le_compat_r N) in Q; [|lra]; unfold Rdiv in Q; rewrite Rmult_assoc, Rinv_l in Q by lra; lra].
    apply exp_lo; [apply Rmult_le_reg_r with N; [lra|]; unfold Rdiv; rewrite Rmult_assoc, Rinv_l by lra; lra|].
    apply Rmult_le_reg_r with (2 * L * N); [nra|]. replace ((L / N - / (L / N)) / 2 * (2 * L * N)) with (L * L - N * N) by (field; lra). lra.
  - assert (Q : exp x <= V / N); [|apply (Rmult_le_compat_r N) in Q; [|lra]; unfold Rdiv in Q; rewrite Rmult_assoc, Rinv_l in Q by lra; lra].
    apply exp_hi; [apply Rmult_le_reg_r with N; [lra|]; unfold Rdiv; rewrite Rmult_assoc, Rinv_l by lra; lra|].
    apply Rmult_le_reg_r with (V + N); [lra|]. replace ((2 - 4 * / (V / N + 1)) * (V + N)) with (2 * V - 2 * N) by (field; lra). lra.
Qed.

(** ** The tables *)
Definition y0 (ms cs : list Z) (al be B : Z) : Z := (al * pw_lin ms cs 10 (B * 64) + be)%Z.
Definition y1 (ms cs : list Z) (al be B : Z) : Z := (al * (pw_lin ms cs 10 (B * 64) + slope ms 10 6 B * 64) + be)%Z.
Lemma table_close hn hd D ql qu ms cs al be n h : (0 < hn)%Z -> (0 < hd)%Z -> (0 <= ql)%Z -> h = IZR hn / IZR hd -> ebnd ql qu (2 * h) ->
  chk hn hd D ql qu (y0 ms cs al be) (y1 ms cs al be) n 0 U50 U50 = true -> forall T, (0 <= T < 64 * Z.of_nat n)%Z ->
  Rabs (IZR (al * pw_lin ms cs 10 T + be) - th (h * (IZR T / 64)) * IZR U30) <= IZR D.
Proof.
  intros Hn Hd Hq Hh Q C T HT. destruct (pw_block ms cs 10 6 T ltac:(lia) ltac:(lia)) as (B & s & ET & Hs & EB & EY). change (2 ^ 6)%Z with 64%Z in *.
  assert (HB : (0 <= B < 0 + Z.of_nat n)%Z) by (rewrite EB; split; [apply Z.div_pos; lia|apply Z.div_lt_upper_bound; lia]).
  assert (E0 : ebnd U50 U50 (2 * (h * 0))) by (replace (2 * (h * 0)) with 0 by ring; apply ebnd_0).
  assert (Hr : 0 <= IZR s / 64 <= 1).
  { destruct Hs as [Hs1 Hs2]. apply IZR_le in Hs1, Hs2. split; lra. }
  pose proof (chk_ok hn hd D ql qu _ _ h n 0%Z U50 U50 Hn Hd Hq Hh Q ltac:(lia) E0 C B (IZR s / 64) HB Hr) as K.
  replace (IZR T / 64) with (IZR B + IZR s / 64) by (rewrite ET, plus_IZR, mult_IZR; field).
  replace (IZR (al * pw_lin ms cs 10 T + be)) with ((1 - IZR s / 64) * IZR (y0 ms cs al be B) + IZR s / 64 * IZR (y1 ms cs al be B)); [exact K|].
  rewrite EY. unfold y0, y1. rewrite !plus_IZR, !mult_IZR, !plus_IZR, !mult_IZR. field.
Qed.

(** e^(1/32) and e^(32/819) in units of 2^-50. *)
Definition q_tanh : Z * Z := Eval vm_compute in grow 16 1128101077579608 1128101079681608 U50 U50.
Definition q_sig : Z * Z := Eval vm_compute in grow 16 1128652714241121 1128652718351121 U50 U50.
Lemma q_tanh_ok : ebnd (fst q_tanh) (snd q_tanh) (2 * (1 / 64)).
Proof.
  change q_tanh with (grow 16 1128101077579608 1128101079681608 U50 U50). replace (2 * (1 / 64)) with (0 + INR 16 * (1 / 512)) by (cbn; field).
  apply grow_ok; [lia|lia| |apply ebnd_0]. apply ebnd_intro; vm_compute; (reflexivity || discriminate).
Qed.
Lemma q_sig_ok : ebnd (fst q_sig) (snd q_sig) (2 * (16 / 819)).
Proof.
  change q_sig with (grow 16 1128652714241121 1128652718351121 U50 U50). replace (2 * (16 / 819)) with (0 + INR 16 * (2 / 819)) by (cbn; field).
  apply grow_ok; [lia|lia| |apply ebnd_0]. apply ebnd_intro; vm_compute; (reflexivity || discriminate).
Qed.
Lemma tanhY_close T : (0 <= T < 12288)%Z -> Rabs (IZR (tanhY T) / 1048576 - th (IZR T / 4096)) <= 0.00345.
Proof.
  intros HT. pose proof (table_close 1 64 3700000 (fst q_tanh) (snd q_tanh) tanh_m tanh_c 1024 0 192 (1 / 64) ltac:(lia) ltac:(lia) ltac:(vm_compute; discriminate) eq_refl q_tanh_ok ltac:(vm_compute; reflexivity) T ltac:(lia)) as K.
  rewrite plus_IZR, mult_IZR in K. replace (1 / 64 * (IZR T / 64)) with (IZR T / 4096) in K by field. apply Rabs_le_both in K. apply Rabs_le. lra.
Qed.
Lemma sigY_close T : (0 <= T < 8192)%Z -> Rabs (IZR (sigY T) / 1048576 - (1 + th (IZR T / 1024 * (256 / 819))) / 2) <= 0.0029.
Proof.
  intros HT. pose proof (table_close 16 819 6210000 (fst q_sig) (snd q_sig) sigmoid_m sigmoid_c 2048 (-1073741824) 128 (16 / 819) ltac:(lia) ltac:(lia) ltac:(vm_compute; discriminate) eq_refl q_sig_ok ltac:(vm_compute; reflexivity) T ltac:(lia)) as K.
  rewrite plus_IZR, mult_IZR in K. replace (16 / 819 * (IZR T / 64)) with (IZR T / 1024 * (256 / 819)) in K by field. apply Rabs_le_both in K. apply Rabs_le. lra.
Qed.

(** ** The functions *)
Lemma fl_R a F k : IZR (fl a F k) <= fxval a F * bpow2 k < IZR (fl a F k) + 1.
Proof.
  pose proof (div_le_R (a * pw (k - F)) (pw (F - k)) (pw_pos _)) as D. fold (fl a F k) in D. rewrite mult_IZR in D. pose proof (pw_pos (F - k)) as P. apply IZR_lt in P.
  unfold fxval. rewrite Rmult_assoc, <- bpow2_add. replace (- F + k)%Z with (k - F)%Z by lia. rewrite (bpow2_split (k - F)). replace (- (k - F))%Z with (F - k)%Z by lia.
  set (p := IZR (pw (F - k))) in *. set (v := IZR (fl a F k)) in *. clearbody p v.
  split; [apply Rmult_le_reg_r with p|apply Rmult_lt_reg_r with p]; try exact P.
  - replace (IZR a * (IZR (pw (k - F)) / p) * p) with (IZR a * IZR (pw (k - F))) by (field; lra). lra.
  - replace (IZR a * (IZR (pw (k - F)) / p) * p) with (IZR a * IZR (pw (k - F))) by (field; lra). lra.
Qed.
Lemma ge_R a F c : (c * pw F <= a * pw (- F))%Z <-> IZR c <= fxval a F.
Proof.
  unfold fxval. rewrite (bpow2_split (- F)). rewrite Z.opp_involutive. pose proof (pw_pos F) as P. apply IZR_lt in P. split; intros H.
  - apply IZR_le in H. rewrite !mult_IZR in H. apply Rmult_le_reg_r with (IZR (pw F)); [exact P|].
    replace (IZR a * (IZR (pw (- F)) / IZR (pw F)) * IZR (pw F)) with (IZR a * IZR (pw (- F))) by (field; lra). exact H.
  - apply le_IZR. rewrite !mult_IZR. apply (Rmult_le_compat_r (IZR (pw F))) in H; [|lra].
    replace (IZR a * (IZR (pw (- F)) / IZR (pw F)) * IZR (pw F)) with (IZR a * IZR (pw (- F))) in H by (field; lra). exact H.
Qed.
Lemma th3 : 0.995 <= th 3.
Proof.
  pose proof (grow_ok (fst q_tanh) (snd q_tanh) _ 192 U50 U50 0 ltac:(vm_compute; discriminate) ltac:(lia) q_tanh_ok ebnd_0) as [L _].
  replace (0 + INR 192 * (2 * (1 / 64))) with (2 * 3) in L by (rewrite INR_IZR_INZ; cbn [Z.of_nat Pos.of_succ_nat Pos.succ]; field).
  assert (E : (450000000000000000 <= fst (grow 192 (fst q_tanh) (snd q_tanh) U50 U50))%Z) by (vm_compute; discriminate). apply IZR_le in E.
  unfold th. set (e := exp (2 * 3)) in *. set (g := IZR (fst _)) in *. clearbody e g. assert (Hb : 399.6 <= e) by lra.
  apply Rmult_le_reg_r with (1 + e); [lra|]. replace ((1 - 2 / (1 + e)) * (1 + e)) with (e - 1) by (field; lra). lra.
Qed.
Lemma th25 : 0.9866 <= th 2.5.
Proof.
  pose proof (grow_ok (fst q_tanh) (snd q_tanh) _ 160 U50 U50 0 ltac:(vm_compute; discriminate) ltac:(lia) q_tanh_ok ebnd_0) as [L _].
  replace (0 + INR 160 * (2 * (1 / 64))) with (2 * 2.5) in L by (rewrite INR_IZR_INZ; cbn [Z.of_nat Pos.of_succ_nat Pos.succ]; lra).
  assert (E : (166970956184762000 <= fst (grow 160 (fst q_tanh) (snd q_tanh) U50 U50))%Z) by (vm_compute; discriminate). apply IZR_le in E.
  unfold th. set (e := exp (2 * 2.5)) in *. set (g := IZR (fst _)) in *. clearbody e g. assert (Hb : 148.3 <= e) by lra.
  apply Rmult_le_reg_r with (1 + e); [lra|]. replace ((1 - 2 / (1 + e)) * (1 + e)) with (e - 1) by (field; lra). lra.
Qed.
Lemma th_step a x : 0 <= a <= x -> th a <= th x <= th a + (x - a).
Proof.
  intros H. split; [apply th_mono; lra|]. pose proof (th_above a x ltac:(lra) ltac:(lra)).
  assert ((x - a) * (1 - th a * th a) <= (x - a) * 1) by (apply Rmult_le_compat_l; nra). lra.
Qed.

Lemma tanh_pos_close F a : (0 <= a)%Z -> Rabs (fxval (tanh_pos F a) 20 - th (fxval a F)) <= 0.005 /\ (fxval a F < 3 -> Rabs (fxval (tanh_pos F a) 20 - th (fxval a F)) <= 0.004).
Proof.
  intros Ha. unfold tanh_pos. destruct (Z.leb_spec (3 * pw F) (a * pw (- F))) as [L|L].
  - apply ge_R in L. split; [|lra]. pose proof (th_mono 3 _ L). pose proof th3. pose proof (th_lt1 (fxval a F)).
    unfold fxval at 1. change (- (20))%Z with (-20)%Z. change (bpow2 (-20)) with (/ 2 ^ 20). change (2 ^ 20 - 1)%Z with 1048575%Z. apply Rabs_le. lra.
  - pose proof (tanh_T F a Ha L) as T. pose proof (tanhY_close _ T) as C. pose proof (fl_R a F 12) as B. replace (bpow2 12) with 4096 in B by (rewrite bpow2_IZR by lia; reflexivity).
    assert (P : 0 <= IZR (fl a F 12)) by (apply (IZR_le 0); lia). pose proof (th_step (IZR (fl a F 12) / 4096) (fxval a F) ltac:(lra)) as S.
    assert (E : Rabs (fxval (tanhY (fl a F 12)) 20 - th (fxval a F)) <= 0.004).
    { unfold fxval at 1. change (- (20))%Z with (-20)%Z. change (bpow2 (-20)) with (/ 2 ^ 20). apply Rabs_le_both in C. apply Rabs_le. lra. }
    split; [lra|intros _; exact E].
Qed.
Lemma tanh_real pQ W I S f x out : (1 <= W)%Z -> (1 <= fW f)%Z -> in_range S W x -> tanh_pwl pQ W I S f x = Some out ->
  let X := fxval x (W - I) in
  exists V, convertsR f V out /\ Rabs (V - tanh X) <= 0.005 /\ (Rabs X < 3 -> Rabs (V - tanh X) <= 0.004).
Proof.
  intros HW HfW Hx E X. apply tanh_eval in E; [|assumption|assumption]. exists (fxval (tanh_val (W - I) x) 20). split.
  { rewrite E. unfold fxval. apply converts2_R. eapply conv_eq_converts2; [exact HfW| |reflexivity]. lia. }
  rewrite <- th_tanh. unfold tanh_val. destruct (Z.ltb_spec x 0) as [L|L].
  - pose proof (tanh_pos_close (W - I) (- x) ltac:(lia)) as [A B].
    assert (EX : fxval (- x) (W - I) = - X) by (unfold X, fxval; rewrite opp_IZR; ring). rewrite EX, th_opp in A, B.
    replace (fxval (- tanh_pos (W - I) (- x)) 20) with (- fxval (tanh_pos (W - I) (- x)) 20) by (unfold fxval; rewrite opp_IZR; ring).
    set (v := fxval (tanh_pos (W - I) (- x)) 20) in *. rewrite <- Rabs_Ropp in A, B. replace (- (v - - th X)) with (- v - th X) in A, B by ring.
    split; [exact A|]. intros H. apply B. apply Rabs_def2 in H. lra.
  - pose proof (tanh_pos_close (W - I) x L) as [A B]. fold X in A, B. split; [exact A|]. intros H. apply B. apply Rabs_def2 in H. lra.
Qed.

Definition sg (x : R) : R := / (1 + exp (- x)).
Lemma sg_th x : sg x = (1 + th (x / 2)) / 2.
Proof.
  unfold sg, th. replace (2 * (x / 2)) with x by field. rewrite exp_Ropp. pose proof (exp_pos x). field. lra.
Qed.
Lemma sig_pos_close F a : (0 <= a)%Z -> Rabs (fxval (sig_pos F a) 20 - sg (fxval a F)) <= 0.007 /\ (fxval a F < 5 -> Rabs (fxval (sig_pos F a) 20 - sg (fxval a F)) <= 0.004).
Proof.
  intros Ha. unfold sig_pos. destruct (Z.leb_spec (5 * pw F) (a * pw (- F))) as [L|L].
  - apply ge_R in L. split; [|lra]. pose proof (th_mono 2.5 (fxval a F / 2) ltac:(lra)). pose proof th25. pose proof (th_lt1 (fxval a F / 2)). rewrite sg_th.
    unfold fxval at 1. change (- (20))%Z with (-20)%Z. change (bpow2 (-20)) with (/ 2 ^ 20). change (2 ^ 20 - 1)%Z with 1048575%Z. apply Rabs_le. lra.
  - destruct (sig_T F a Ha L) as [T0 T]. pose proof (sigY_close _ T) as C. pose proof (fl_R a F 10) as B. replace (bpow2 10) with 1024 in B by (rewrite bpow2_IZR by lia; reflexivity).
    pose proof (div_le_R (fl a F 10 * 819) (2 ^ 9) ltac:(lia)) as D. rewrite mult_IZR in D. change (2 ^ 9)%Z with 512%Z in *. set (t := (fl a F 10 * 819 / 512)%Z) in *.
    assert (P : 0 <= IZR t) by (apply (IZR_le 0); lia). pose proof (th_step (IZR t / 1024 * (256 / 819)) (fxval a F / 2) ltac:(lra)) as S.
    assert (E : Rabs (fxval (sigY t) 20 - sg (fxval a F)) <= 0.004).
    { rewrite sg_th. unfold fxval at 1. change (- (20))%Z with (-20)%Z. change (bpow2 (-20)) with (/ 2 ^ 20). apply Rabs_le_both in C. apply Rabs_le. lra. }
    split; [lra|intros _; exact E].
Qed.
Lemma sigmoid_real pQ W I S f x : (1 <= W)%Z -> (1 <= fW f)%Z -> in_range S W x -> let X := fxval x (W - I) in
  exists out V, sigmoid_pwl pQ W I S f x = Some out /\ convertsR f V out /\ Rabs (V - / (1 + exp (- X))) <= 0.007 /\
    (Rabs X < 5 -> Rabs (V - / (1 + exp (- X))) <= 0.004).
Proof.
  intros HW HfW Hx X. exists (conv f (sig_val (W - I) x) 20), (fxval (sig_val (W - I) x) 20). split; [apply sigmoid_eval; assumption|]. split.
  { unfold fxval. apply converts2_R. eapply conv_eq_converts2; [exact HfW| |reflexivity]. lia. }
  fold (sg X). unfold sig_val. destruct (Z.ltb_spec x 0) as [L|L].
  - pose proof (sig_pos_close (W - I) (- x) ltac:(lia)) as [A B].
    assert (EX : fxval (- x) (W - I) = - X) by (unfold X, fxval; rewrite opp_IZR; ring). rewrite EX in A, B.
    assert (ES : sg (- X) = 1 - sg X) by (unfold sg; rewrite Ropp_involutive, exp_Ropp; pose proof (exp_pos X); field; lra). rewrite ES in A, B.
    replace (fxval (2 ^ 20 - sig_pos (W - I) (- x)) 20) with (1 - fxval (sig_pos (W - I) (- x)) 20)
      by (unfold fxval; rewrite minus_IZR; change (- (20))%Z with (-20)%Z; change (bpow2 (-20)) with (/ 2 ^ 20); change (2 ^ 20)%Z with 1048576%Z; lra).
    set (v := fxval (sig_pos (W - I) (- x)) 20) in *. rewrite <- Rabs_Ropp in A, B. replace (- (v - (1 - sg X))) with (1 - v - sg X) in A, B by ring.
    split; [exact A|]. intros H. apply B. apply Rabs_def2 in H. lra.
  - pose proof (sig_pos_close (W - I) x L) as [A B]. fold X in A, B. split; [exact A|]. intros H. apply B. apply Rabs_def2 in H. lra.
Qed.
