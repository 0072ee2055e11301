(** The complex overloads of ac_shift_right and ac_shift_left. *)
From Coq Require Import Lia.
From Verif Require Import AcTypes AcFacts ShiftModel ShiftFacts ShiftProofs Spec SpecFacts.

Lemma shift_right_c_ok XW XI f x n : 1 <= XW -> 1 <= fW f -> in_range (fS f) XW (fst x) -> in_range (fS f) XW (snd x) -> 0 <= n < 2 ^ 31 ->
  let y := shift_right_c XW XI (fS f) f x n in converts2 f (fst x) (- (XW - XI) - n) (fst y) /\ converts2 f (snd x) (- (XW - XI) - n) (snd y).
Proof.
  intros HX HW H1 H2 Hn. unfold shift_right_c. cbv zeta. case_eq (fS f); intros S; rewrite S in *; unfold in_range, imin, imax in *; cbn [fst snd]; split;
    first [apply shift_right_su_spec|apply shift_right_uu_spec]; (assumption || lia).
Qed.
Lemma shift_left_c_ok XW XI f x n : 1 <= XW -> 1 <= fW f -> in_range (fS f) XW (fst x) -> in_range (fS f) XW (snd x) -> 0 <= n ->
  fS f = false \/ fO f <> WRAP \/ (fQ f <> TRN_ZERO /\ fQ f <> RND_ZERO /\ fQ f <> RND_INF) ->
  let y := shift_left_c XW XI (fS f) f x n in converts2 f (fst x) (- (XW - XI) + n) (fst y) /\ converts2 f (snd x) (- (XW - XI) + n) (snd y).
Proof.
  intros HX HW H1 H2 Hn HQ. unfold shift_left_c. cbv zeta. case_eq (fS f); intros S; rewrite S in *; unfold in_range, imin, imax in *; cbn [fst snd]; split;
    first [apply shift_left_su_spec|apply shift_left_uu_spec]; try (assumption || lia); destruct HQ as [HQ|HQ]; (discriminate || exact HQ).
Qed.
Lemma shift_left_c_false : exists XW XI f x n,
  1 <= XW /\ 1 <= fW f /\ in_range (fS f) XW (fst x) /\ in_range (fS f) XW (snd x) /\ 0 <= n /\
  ~ (let y := shift_left_c XW XI (fS f) f x n in converts2 f (fst x) (- (XW - XI) + n) (fst y) /\ converts2 f (snd x) (- (XW - XI) + n) (snd y)).
Proof.
  destruct shift_left_su_refuted as (XW & XI & f & x & n & H1 & H2 & H3 & H4 & H5 & H6). exists XW, XI, f, (x, x), n. cbn [fst snd]. rewrite H3.
  assert (in_range true XW x) by (unfold in_range, imin, imax; lia). repeat (split; [assumption|]). intros [C _]. exact (H6 C).
Qed.
Lemma shift_right_c_false : exists XW XI f x n,
  1 <= XW /\ 1 <= fW f /\ in_range (fS f) XW (fst x) /\ in_range (fS f) XW (snd x) /\ 0 <= n < 2 ^ 32 /\
  ~ (let y := shift_right_c XW XI (fS f) f x n in converts2 f (fst x) (- (XW - XI) - n) (fst y) /\ converts2 f (snd x) (- (XW - XI) - n) (snd y)).
Proof.
  destruct shift_right_su_refuted as (XW & XI & f & x & n & H1 & H2 & H3 & H4 & H5 & H6). exists XW, XI, f, (x, x), n. cbn [fst snd]. rewrite H3.
  assert (in_range true XW x) by (unfold in_range, imin, imax; lia). repeat (split; [assumption|]). intros [C _]. exact (H6 C).
Qed.
