(** The ac_float overload of ac_chol_d: its error. *)
From Coq Require Import Reals Lia Lra Psatz.
From Verif Require Import AcTypes SpecLin SpecR SpecRFacts RtTypes MatrixModel CholModel CholProofs CholFloatModel CholFloat SpecFlt.
Local Open Scope R_scope.

Section Err.
Context {Tin To Ti : Type}.
Variables (ar : flt_arith Tin To Ti) (vin : Tin -> R) (vo : To -> R) (vi : Ti -> R) (u e : R) (M : nat) (A : nat -> nat -> Tin) (L : nat -> nat -> To) (s : nat -> nat -> nat -> Ti).
Hypothesis Hu : 0 <= u <= 1.
Hypothesis He : 0 <= e <= 1.
Hypothesis HA : accurate ar vin vo vi u e M A L s.
Hypothesis Hs : forall i j, (j <= i < M)%nat -> s i j O = fa_in ar (A i j) /\ forall k, (k < j)%nat -> s i j (S k) = fa_sub ar (s i j k) (L i k) (L j k).
Hypothesis Hd : forall j, (j < M)%nat -> L j j = fa_root ar (s j j j).
Hypothesis Ho : forall i j, (j < i < M)%nat -> L i j = fa_mul ar (fa_recip ar (s j j j) (L j j)) (s i j j).
Let xy i j k := vo (L i k) * vo (L j k).
Let B i j n := Rabs (vin (A i j)) + sumR (fun k => Rabs (xy i j k)) n.

Lemma B_pos i j n : 0 <= B i j n.
Proof. unfold B. induction n as [|n IH]; cbn [sumR]; [pose proof (Rabs_pos (vin (A i j))); lra|pose proof (Rabs_pos (xy i j n)); lra]. Qed.
Lemma pow1 n : 1 <= (1 + u) ^ n. Proof. apply pow_R1_Rle. lra. Qed.

Lemma psum_err i j n : (j <= i < M)%nat -> (n <= j)%nat ->
  Rabs (vi (s i j n) - (vin (A i j) - sumR (xy i j) n)) <= ((1 + u) ^ (S n) - 1) * B i j n /\ Rabs (vi (s i j n)) <= (1 + u) ^ (S n) * B i j n.
Proof.
  intros Hij. destruct (Hs i j Hij) as [S0 S1]. induction n as [|n IH]; intros Hn.
  - rewrite S0. unfold B. cbn [sumR pow]. pose proof (ac_in _ _ _ _ _ _ _ _ _ _ HA i j Hij) as E. rewrite Rmult_1_r, Rplus_0_r, Rminus_0_r.
    split; [lra|]. set (a := vi (fa_in ar (A i j))) in *. set (b := vin (A i j)) in *. assert (Rabs a <= Rabs (a - b) + Rabs b) by (replace a with ((a - b) + b) at 1 by ring; apply Rabs_triang). lra.
  - destruct (IH ltac:(lia)) as [I1 I2]. rewrite (S1 n ltac:(lia)). pose proof (ac_sub _ _ _ _ _ _ _ _ _ _ HA i j n ltac:(lia) ltac:(lia)) as E. cbv zeta in E. fold (xy i j n) in E.
    set (t := vi (s i j n)) in *. set (t' := vi (fa_sub ar (s i j n) (L i n) (L j n))) in *. set (x := xy i j n) in *.
    assert (BS : B i j (S n) = B i j n + Rabs x) by (unfold B; cbn [sumR]; fold x; ring). rewrite BS. cbn [sumR]. fold x. pose proof (B_pos i j n) as B0. set (b := B i j n) in *.
    set (g := (1 + u) ^ S n) in *. assert (G1 : 1 <= g) by apply pow1. change ((1 + u) ^ S (S n)) with ((1 + u) * g). pose proof (Rabs_pos x) as X0.
    assert (UT : u * Rabs t <= u * (g * b)) by (apply Rmult_le_compat_l; lra).
    assert (GX : 0 <= (g - 1) * Rabs x) by (apply Rmult_le_pos; lra). assert (UGX : 0 <= u * ((g - 1) * Rabs x)) by (apply Rmult_le_pos; lra).
    assert (K : Rabs (t' - (vin (A i j) - (sumR (xy i j) n + x))) <= ((1 + u) * g - 1) * (b + Rabs x)).
    { replace (t' - (vin (A i j) - (sumR (xy i j) n + x))) with ((t' - (t - x)) + (t - (vin (A i j) - sumR (xy i j) n))) by ring.
      eapply Rle_trans; [apply Rabs_triang|]. lra. }
    split; [exact K|]. assert (T1 : Rabs t' <= Rabs (t' - (t - x)) + Rabs (t - x)) by (replace t' with ((t' - (t - x)) + (t - x)) at 1 by ring; apply Rabs_triang).
    assert (T2 : Rabs (t - x) <= Rabs t + Rabs x) by (unfold Rminus; eapply Rle_trans; [apply Rabs_triang|rewrite Rabs_Ropp; lra]).
    lra.
Qed.

(** A product of two or three factors near one. *)
Lemma near_prod a b c : Rabs (a - 1) <= u -> Rabs (b - 1) <= e -> Rabs (c - 1) <= e -> Rabs (a * b * c - 1) <= (1 + u) * ((1 + e) * (1 + e)) - 1.
Proof.
  intros Ha Hb Hc. set (p := a - 1) in *. set (q := b - 1) in *. set (r := c - 1) in *.
  replace (a * b * c - 1) with (p + q + r + p * q + p * r + q * r + p * q * r) by (unfold p, q, r; ring).
  assert (PQ : Rabs (p * q) <= u * e) by (rewrite Rabs_mult; apply Rmult_le_compat; (assumption || apply Rabs_pos)).
  assert (PR : Rabs (p * r) <= u * e) by (rewrite Rabs_mult; apply Rmult_le_compat; (assumption || apply Rabs_pos)).
  assert (QR : Rabs (q * r) <= e * e) by (rewrite Rabs_mult; apply Rmult_le_compat; (assumption || apply Rabs_pos)).
  assert (PQR : Rabs (p * q * r) <= u * e * e) by (rewrite Rabs_mult; apply Rmult_le_compat; (assumption || apply Rabs_pos)).
  repeat (eapply Rle_trans; [apply Rabs_triang|]).
  assert (T : forall x y X Y, Rabs x <= X -> Rabs y <= Y -> Rabs (x + y) <= X + Y) by (intros; eapply Rle_trans; [apply Rabs_triang|lra]).
  pose proof (T p q _ _ Ha Hb) as T1. pose proof (T _ r _ _ T1 Hc) as T2. pose proof (T _ (p * q) _ _ T2 PQ) as T3. pose proof (T _ (p * r) _ _ T3 PR) as T4. pose proof (T _ (q * r) _ _ T4 QR) as T5. lra.
Qed.
Lemma rel_near a b k : b <> 0 -> Rabs (a - b) <= k * Rabs b -> Rabs (a / b - 1) <= k.
Proof. intros H E. replace (a / b - 1) with ((a - b) / b) by (field; exact H). unfold Rdiv. rewrite Rabs_mult, Rabs_inv. assert (0 < Rabs b) by (apply Rabs_pos_lt, H). apply (Rmult_le_reg_r (Rabs b)); [assumption|]. rewrite Rmult_assoc, Rinv_l by lra. lra. Qed.

(** The last product replaces the remaining sum. *)
Lemma last_err i j : (j <= i < M)%nat -> fa_pos ar (s j j j) = true -> Rabs (vi (s i j j) - xy i j j) <= ((1 + u) * ((1 + e) * (1 + e)) - 1) * Rabs (vi (s i j j)).
Proof.
  intros Hij Hp. pose proof (proj1 (ac_pos _ _ _ _ _ _ _ _ _ _ HA j ltac:(lia)) Hp) as P0. destruct (ac_root _ _ _ _ _ _ _ _ _ _ HA j ltac:(lia) Hp) as [R1 R2].
  rewrite <- Hd in R1 by lia. set (z := sqrt (vi (s j j j))) in *. assert (Z0 : 0 < z) by (apply sqrt_lt_R0, P0). assert (ZZ : z * z = vi (s j j j)) by (apply sqrt_sqrt; lra). assert (I0 : 0 < / z) by (apply Rinv_0_lt_compat, Z0).
  set (d := vo (L j j)) in *. set (r := vi (fa_recip ar (s j j j) (L j j))) in *.
  assert (D1 : Rabs (d / z - 1) <= e) by (apply rel_near; [lra|rewrite (Rabs_pos_eq z) by lra; exact R1]).
  assert (D2 : Rabs (r / / z - 1) <= e) by (apply rel_near; [lra|rewrite (Rabs_pos_eq (/ z)) by lra; exact R2]).
  destruct (Nat.eq_dec i j) as [->|Hne].
  - unfold xy. fold d. rewrite <- ZZ. assert (U0 : Rabs (1 - 1) <= u) by (replace (1 - 1) with 0 by ring; rewrite Rabs_R0; lra). pose proof (near_prod 1 (d / z) (d / z) U0 D1 D1) as N.
    replace (z * z - d * d) with (- ((1 * (d / z) * (d / z) - 1) * (z * z))) by (field; lra). rewrite Rabs_Ropp, Rabs_mult. apply Rmult_le_compat_r; [apply Rabs_pos|exact N].
  - pose proof (ac_mul _ _ _ _ _ _ _ _ _ _ HA i j ltac:(lia)) as E. cbv zeta in E. rewrite <- Ho in E by lia. unfold xy. fold d r in E |- *. set (t := vi (s i j j)) in *. set (l := vo (L i j)) in *.
    destruct (Req_dec (r * t) 0) as [C|C].
    + rewrite C, Rabs_R0, Rmult_0_r in E. assert (l = 0) by (apply Rabs_le_both in E; lra).
      rewrite H, Rmult_0_l, Rminus_0_r. destruct (Rmult_integral _ _ C) as [C'|C'].
      * assert (1 <= e). { rewrite C' in D2. unfold Rdiv in D2. rewrite Rmult_0_l in D2. replace (0 - 1) with (-(1)) in D2 by ring. rewrite Rabs_Ropp, Rabs_R1 in D2. lra. }
        assert (1 <= (1 + u) * ((1 + e) * (1 + e)) - 1) by nra. pose proof (Rabs_pos t). nra.
      * rewrite C', Rabs_R0. lra.
    + assert (D3 : Rabs (l / (r * t) - 1) <= u) by (apply rel_near; [exact C|exact E]). pose proof (near_prod _ _ _ D3 D1 D2) as N.
      assert (C1 : r <> 0) by (intros ->; apply C; ring). assert (C2 : t <> 0) by (intros ->; apply C; ring).
      replace (t - l * d) with (- ((l / (r * t) * (d / z) * (r / / z) - 1) * t)) by (field; repeat split; (assumption || lra)). rewrite Rabs_Ropp, Rabs_mult. apply Rmult_le_compat_r; [apply Rabs_pos|exact N].
Qed.

Lemma chol_flt_err i j : (j <= i < M)%nat -> fa_pos ar (s j j j) = true ->
  Rabs (vin (A i j) - sumR (xy i j) (S j)) <= ((1 + u) ^ (j + 2) * ((1 + e) * (1 + e)) - 1) * B i j j.
Proof.
  intros Hij Hp. destruct (psum_err i j j Hij ltac:(lia)) as [P1 P2]. pose proof (last_err i j Hij Hp) as P3. cbn [sumR]. set (t := vi (s i j j)) in *. replace (j + 2)%nat with (S (S j)) by lia. change ((1 + u) ^ S (S j)) with ((1 + u) * (1 + u) ^ S j).
  set (g := (1 + u) ^ S j) in *. set (k := (1 + u) * ((1 + e) * (1 + e))) in *. assert (K1 : 1 <= k) by (unfold k; nra). assert (X : (k - 1) * Rabs t <= (k - 1) * (g * B i j j)) by (apply Rmult_le_compat_l; lra).
  replace ((1 + u) * g * ((1 + e) * (1 + e))) with (k * g) by (unfold k; ring).
  replace (vin (A i j) - (sumR (xy i j) j + xy i j j)) with (- (t - (vin (A i j) - sumR (xy i j) j)) + (t - xy i j j)) by ring. eapply Rle_trans; [apply Rabs_triang|]. rewrite Rabs_Ropp. lra.
Qed.
End Err.

(** Everything about the result: the equations, and the error of every run with accurate operations. *)
Theorem chol_flt_final {Tin To Ti} (ar : flt_arith Tin To Ti) M A : exists out L (s : nat -> nat -> nat -> Ti), chol_flt ar M A = Some out /\
  (forall i j, (j <= i < M)%nat -> s i j O = fa_in ar (A i j) /\ forall k, (k < j)%nat -> s i j (S k) = fa_sub ar (s i j k) (L i k) (L j k)) /\
  ((forall j, (j < M)%nat -> fa_pos ar (s j j j) = true) -> forall vin vo vi u e, 0 <= u <= 1 -> 0 <= e <= 1 -> accurate ar vin vo vi u e M A L s ->
   forall i j, (j <= i < M)%nat -> out i j = Some (L i j) /\
     Rabs (vin (A i j) - sumR (fun k => vo (L i k) * vo (L j k)) (S j)) <=
       ((1 + u) ^ (j + 2) * ((1 + e) * (1 + e)) - 1) * (Rabs (vin (A i j)) + sumR (fun k => Rabs (vo (L i k) * vo (L j k))) j)).
Proof.
  destruct (chol_flt_struct ar M A) as (out & L & s & E & Hs & Hd & Ho & _ & HP & _). exists out, L, s. split; [exact E|]. split; [exact Hs|].
  intros Hp vin vo vi u e Hu He HA i j Hij. split; [apply HP; assumption|]. exact (chol_flt_err ar vin vo vi u e M A L s Hu He HA Hs Hd Ho i j Hij (Hp j ltac:(lia))).
Qed.

(** Arithmetic on the reals in which every result is too small by the factor 1 - u or 1 - e. *)
Definition low_arith (u e : R) : flt_arith R R R :=
  Build_flt_arith R R R (fun x => x * (1 - u)) (fun s x y => (s - x * y) * (1 - u)) (fun s => if Rlt_dec 0 s then true else false)
    (fun s => sqrt s * (1 - e)) (fun s d => / sqrt s * (1 - e)) (fun r s => r * s * (1 - u)) 0.
Lemma low_rel x k : 0 <= k -> Rabs (x * (1 - k) - x) <= k * Rabs x.
Proof. intros H. replace (x * (1 - k) - x) with (- (k * x)) by ring. rewrite Rabs_Ropp, Rabs_mult, (Rabs_pos_eq k) by exact H. lra. Qed.
Lemma low_accurate u e M A L s : 0 <= u -> 0 <= e -> accurate (low_arith u e) (fun x => x) (fun x => x) (fun x => x) u e M A L s.
Proof.
  intros Hu He. constructor; cbn [low_arith fa_in fa_sub fa_pos fa_root fa_recip fa_mul].
  - intros i j _. apply low_rel, Hu.
  - intros i j k _ _. cbv zeta. eapply Rle_trans; [apply low_rel, Hu|]. apply Rmult_le_compat_l; [exact Hu|]. unfold Rminus. eapply Rle_trans; [apply Rabs_triang|]. rewrite Rabs_Ropp. lra.
  - intros j _. destruct (Rlt_dec 0 (s j j j)); split; intros; (assumption || reflexivity || discriminate || contradiction).
  - intros j _ H. destruct (Rlt_dec 0 (s j j j)) as [P|]; [|discriminate]. cbv zeta. assert (0 < sqrt (s j j j)) by (apply sqrt_lt_R0, P). assert (0 < / sqrt (s j j j)) by (apply Rinv_0_lt_compat; assumption).
    split; (eapply Rle_trans; [apply low_rel, He|]); rewrite Rabs_pos_eq by lra; lra.
  - intros i j _. cbv zeta. apply low_rel, Hu.
Qed.
