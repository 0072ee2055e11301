(** Proofs about the piecewise-linear arctangents: the integer part. *)
From Coq Require Import ZArith List Lia ZifyBool.
From Verif Require Import AcTypes AcFacts Spec SpecFacts PwlModel PwlFacts PwlProofs PwlSqrt PwlHaModel PwlHaProofs.
Import ListNotations.
Local Open Scope Z_scope.

Definition at_exceeds (W I x : Z) : bool := (1 <=? I) && (pw (W - I) <? x * pw (- (W - I))).
Lemma conv_sat_u w i q x F : 1 <= w -> 0 <= conv (Fmt w i false q SAT) x F < 2 ^ w.
Proof. intros H. pose proof (conv_range (Fmt w i false q SAT) x F H) as R. unfold in_range, imin, imax in R. cbn [fS fW] in R. lia. Qed.
Lemma converts_sat_u w i q x e n : 1 <= w -> converts2 (Fmt w i false q SAT) x e n -> 0 <= n < 2 ^ w.
Proof. intros H (z & _ & L). cbn [fO fS fW is_limited] in L. unfold lowest, highest in L. cbn [andb] in L. pose proof (pow2_pos w ltac:(lia)). lia. Qed.

Lemma at_exceeds_pos W I x : at_exceeds W I x = true -> 0 < x.
Proof. unfold at_exceeds. intros H. apply andb_prop in H. destruct H as [_ H]. apply Z.ltb_lt in H. pose proof (pw_pos (W - I)). pose proof (pw_pos (- (W - I))). nia. Qed.
Lemma at_exceeds_mono W I x y : x <= y -> at_exceeds W I x = true -> at_exceeds W I y = true.
Proof. unfold at_exceeds. intros H E. apply andb_prop in E. destruct E as [-> E]. apply Z.ltb_lt in E. cbn [andb]. apply Z.ltb_lt. pose proof (pw_pos (- (W - I))). nia. Qed.

Section Atan.
Variables (recip : fmt -> Z -> option Z) (ms cs : list Z) (nb ib nf p pf : Z).
Notation fb := (nb - ib).
Notation F := (fb + nf).
Hypothesis Hib : 0 <= ib <= nb.
Hypothesis Hnb : 1 <= nb.
Hypothesis Hnf : 0 <= nf.
Hypothesis Hm : Z.of_nat (length ms) = 2 ^ ib.
Hypothesis Hc : length cs = length ms.
Notation L := (pw_lin ms cs fb).
Notation P := (p * 2 ^ (F - pf)).
Hypothesis Lup : forall a b, 0 <= a -> a <= b -> b < 2 ^ nb -> L a <= L b.
Hypothesis L0 : 0 <= L 0.
Hypothesis LP : 2 * L (2 ^ nb - 1) <= P.
Hypothesis HP : P < 2 ^ (F + 1).
Variables (pQ : qmode) (W I : Z).
Hypothesis HW : 1 <= W.
Notation nt := (Fmt nb 0 false pQ SAT).
Hypothesis Rok : forall x, 0 < x < 2 ^ W -> exists n, recip nt x = Some n /\ 0 <= n < 2 ^ nb.
Hypothesis Rdec : forall x y a b, 0 < x <= y -> y < 2 ^ W -> recip nt x = Some a -> recip nt y = Some b -> b <= a.

Lemma at_L n : 0 <= n < 2 ^ nb -> 0 <= L n /\ 2 * L n <= P.
Proof. intros H. pose proof (Lup 0 n ltac:(lia) ltac:(lia) ltac:(lia)). pose proof (Lup n (2 ^ nb - 1) ltac:(lia) ltac:(lia) ltac:(lia)). lia. Qed.


Definition at_norm (x : Z) : option Z := if at_exceeds W I x then recip nt x else Some (conv nt x (W - I)).
Lemma at_eval f x : 0 <= x < 2 ^ W ->
  exists n, at_norm x = Some n /\ 0 <= n < 2 ^ nb /\
    atan_steps recip ms cs nb ib nf p pf pQ W I f x = Some (conv f (if at_exceeds W I x then P - L n else L n) F).
Proof.
  intros Hx. assert (exists n, at_norm x = Some n /\ 0 <= n < 2 ^ nb) as (n & E & Hn).
  { unfold at_norm. destruct (at_exceeds W I x) eqn:X; [apply Rok; split; [apply (at_exceeds_pos W I), X|lia]|]. eexists. split; [reflexivity|]. apply conv_sat_u. lia. }
  exists n. split; [exact E|]. split; [exact Hn|]. unfold atan_steps. cbv zeta. fold (at_exceeds W I x). fold (at_norm x). rewrite E.
  assert (T : conv (dfmt nb ib false) (n * 2 ^ ib) nb = n).
  { rewrite conv_dfmt_div by lia. rewrite <- Z.mul_assoc, <- pow2_add by lia. replace (ib + (nb - ib)) with nb by lia. rewrite Z.div_mul by (pose proof (pow2_pos nb ltac:(lia)); lia). apply wrapu_id. lia. }
  rewrite T, (pwl_table_ok ms cs ib fb n) by (try lia; try assumption; replace (ib + (nb - ib)) with nb by lia; lia).
  destruct (at_L n Hn) as [A B]. pose proof (pow2_pos (F + 1) ltac:(lia)).
  assert (C : forall y, 0 <= y <= P -> conv (Fmt (F + 1) 1 false pQ WRAP) y F = y).
  { intros y Hy. apply conv_fits; [cbn [fW]; lia|unfold fF; cbn [fW fI]; lia|reflexivity|]. unfold in_range, imin, imax. cbn [fS fW]. lia. }
  rewrite (C (L n)) by lia. destruct (at_exceeds W I x); [rewrite C by lia|]; reflexivity.
Qed.

Lemma at_value_range x n : at_norm x = Some n -> 0 <= n < 2 ^ nb -> 0 <= (if at_exceeds W I x then P - L n else L n) <= P.
Proof. intros _ Hn. destruct (at_L n Hn). destruct (at_exceeds W I x); lia. Qed.


Lemma at_increasing f x y a b : 1 <= fW f -> (fO f = SAT \/ fO f = SAT_SYM) -> 0 <= x <= y -> y < 2 ^ W ->
  atan_steps recip ms cs nb ib nf p pf pQ W I f x = Some a -> atan_steps recip ms cs nb ib nf p pf pQ W I f y = Some b -> a <= b.
Proof.
  intros HfW HO Hxy Hy Ea Eb. destruct (at_eval f x ltac:(lia)) as (n & En & Hn & E1). destruct (at_eval f y ltac:(lia)) as (m & Em & Hm' & E2).
  rewrite Ea in E1. rewrite Eb in E2. injection E1 as ->. injection E2 as ->. apply AbsProofs.conv_mono; [exact HO|exact HfW|]. unfold at_norm in En, Em.
  destruct (at_L n Hn) as [A1 A2]. destruct (at_L m Hm') as [B1 B2]. destruct (at_exceeds W I x) eqn:X1.
  - rewrite (at_exceeds_mono W I x y ltac:(lia) X1) in *. pose proof (Rdec x y n m ltac:(pose proof (at_exceeds_pos W I x X1); lia) Hy En Em) as D. pose proof (Lup m n ltac:(lia) D ltac:(lia)). lia.
  - destruct (at_exceeds W I y) eqn:X2; [lia|]. injection En as <-. injection Em as <-. apply Lup; [lia| |lia]. apply AbsProofs.conv_mono; [left; reflexivity|cbn [fW]; lia|lia].
Qed.

Lemma at_bounds f x : 1 <= fW f -> (fO f = SAT \/ fO f = SAT_SYM) -> pf <= F -> 0 <= x < 2 ^ W ->
  exists out h, atan_steps recip ms cs nb ib nf p pf pQ W I f x = Some out /\ converts2 f p (- pf) h /\ 0 <= out <= h.
Proof.
  intros HfW HO Hpf Hx. destruct (at_eval f x Hx) as (n & En & Hn & E). exists (conv f (if at_exceeds W I x then P - L n else L n) F), (conv f P F). split; [exact E|].
  pose proof (at_value_range x n En Hn) as R. split; [|split].
  - rewrite (DetProofs.conv_rescale f p pf F) by lia. rewrite <- (Z.opp_involutive pf) at 2. apply conv_converts2. exact HfW.
  - transitivity (conv f 0 F); [|apply AbsProofs.conv_mono; [exact HO|exact HfW|lia]]. rewrite AbsProofs.conv_0 by exact HfW. lia.
  - apply AbsProofs.conv_mono; [exact HO|exact HfW|lia].
Qed.
End Atan.
