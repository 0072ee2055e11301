(** Facts shared by the proofs about the piecewise-linear functions. *)
From Coq Require Import Lia ZifyBool.
From Verif Require Import AcTypes AcFacts Spec SpecFacts ShiftFacts ShiftModel ShiftProofs LeadingModel LeadingProofs SpecFloat DetProofs FlfxProofs PwlModel.

(** ** A check over a range of integers *)
Fixpoint zall (P : Z -> bool) (p : positive) (lo : Z) : bool :=
  match p with
  | xH => P lo
  | xO q => zall P q lo && zall P q (lo + Zpos q)
  | xI q => P lo && (zall P q (lo + 1) && zall P q (lo + 1 + Zpos q))
  end.
Lemma zall_ok P p : forall lo, zall P p lo = true -> forall i, lo <= i < lo + Zpos p -> P i = true.
Proof.
  induction p; intros lo H i Hi; cbn [zall] in H.
  - apply andb_prop in H as [H1 H]. apply andb_prop in H as [H2 H3].
    destruct (Z.eq_dec i lo) as [->|]; [exact H1|].
    destruct (Z.lt_ge_cases i (lo + 1 + Zpos p)); [apply (IHp _ H2)|apply (IHp _ H3)]; lia.
  - apply andb_prop in H as [H2 H3].
    destruct (Z.lt_ge_cases i (lo + Zpos p)); [apply (IHp _ H2)|apply (IHp _ H3)]; lia.
  - replace i with lo by lia. exact H.
Qed.

(** ** Truncating conversion written as one division *)
Lemma conv_dfmt_div W I s x F : 0 <= W - I -> 0 <= F ->
  conv (dfmt W I s) x F = wrap s W (x * 2 ^ (W - I) / 2 ^ F).
Proof.
  intros HW HF. destruct (Z.le_ge_cases F (W - I)).
  - rewrite conv_dfmt_up by lia. f_equal. rewrite (pow2_split (W - I) F) by lia.
    pose proof (pow2_pos F HF). replace (x * (2 ^ F * 2 ^ (W - I - F))) with (x * 2 ^ (W - I - F) * 2 ^ F) by ring.
    rewrite Z.div_mul by lia. reflexivity.
  - rewrite conv_dfmt_down by lia. f_equal. rewrite (pow2_split F (W - I)) by lia.
    pose proof (pow2_pos (W - I) HW). pose proof (pow2_pos (F - (W - I)) ltac:(lia)).
    rewrite (Z.mul_comm (2 ^ (W - I))), Z.div_mul_cancel_r by lia. reflexivity.
Qed.

(** A conversion between types with the same fraction bits is exact when the value fits. *)
Lemma conv_fits f y F : 1 <= fW f -> F = fF f -> fO f = WRAP -> in_range (fS f) (fW f) y -> conv f y F = y.
Proof.
  intros HW -> HO HR. rewrite conv_unfold, Z.sub_diag. change (pw 0) with 1. rewrite Z.mul_1_r, qround_int.
  apply overflow_id; [assumption|assumption|]. rewrite HO. discriminate.
Qed.
(** ... or with more fraction bits in the target. *)
Lemma conv_fits_up f y F : 1 <= fW f -> F <= fF f -> fO f = WRAP -> in_range (fS f) (fW f) (y * 2 ^ (fF f - F)) ->
  conv f y F = y * 2 ^ (fF f - F).
Proof.
  intros HW HF HO HR. rewrite <- (conv_rescale f y F (fF f)) by lia. apply conv_fits; [assumption|reflexivity|assumption|assumption].
Qed.

(** ** Saturating conversion is monotone *)
Lemma conv_mono f a i b j : 1 <= fW f -> fO f = SAT \/ fO f = SAT_SYM -> dle a i b j -> conv f a (- i) <= conv f b (- j).
Proof.
  intros HW HO H. set (c := Z.min i j). apply (dle_at c) in H; [|lia|lia].
  rewrite <- (conv_rescale f a (- i) (- c)), <- (conv_rescale f b (- j) (- c)) by lia.
  replace (- c - - i) with (i - c) by lia. replace (- c - - j) with (j - c) by lia.
  rewrite !conv_unfold. apply overflow_mono; [assumption|assumption|]. apply qround_mono; [apply pw_pos|].
  apply Z.mul_le_mono_nonneg_r; [|assumption]. pose proof (pw_pos (fF f - - c)); lia.
Qed.
Lemma converts2_mono f a i b j y z : 1 <= fW f -> fO f = SAT \/ fO f = SAT_SYM -> dle a i b j ->
  converts2 f a i y -> converts2 f b j z -> y <= z.
Proof.
  intros HW HO H Hy Hz. pose proof (conv_converts2 f a i HW) as Ca. pose proof (conv_converts2 f b j HW) as Cb.
  rewrite (converts2_unique f a i y _ HW Hy Ca), (converts2_unique f b j z _ HW Hz Cb). apply conv_mono; assumption.
Qed.
(** Rescaling in the specification. *)
Lemma converts2_rescale f v e k y : 1 <= fW f -> 0 <= k -> converts2 f v e y <-> converts2 f (v * 2 ^ k) (e - k) y.
Proof.
  intros HW Hk. pose proof (conv_converts2 f v e HW) as C1. pose proof (conv_converts2 f (v * 2 ^ k) (e - k) HW) as C2.
  assert (E : conv f (v * 2 ^ k) (- (e - k)) = conv f v (- e)).
  { rewrite <- (conv_rescale f v (- e) (- (e - k))) by lia. do 3 f_equal. lia. }
  rewrite E in C2. split; intros H.
  - rewrite (converts2_unique f _ _ _ _ HW H C1). exact C2.
  - rewrite (converts2_unique f _ _ _ _ HW H C2). exact C1.
Qed.
(** A larger exponent wins if the mantissas are within a factor of two. *)
Lemma dle_next a i b j : 0 <= b -> i < j -> a <= 2 * b -> dle a i b j.
Proof.
  intros Hb Hij H. apply (dle_at i); [lia|lia|]. rewrite Z.sub_diag. change (2 ^ 0) with 1.
  replace (j - i) with (1 + (j - i - 1)) by lia. rewrite pow2_add by lia. change (2 ^ 1) with 2.
  pose proof (pow2_pos (j - i - 1) ltac:(lia)). nia.
Qed.

(** ** Normalisation *)
Lemma normalize_mono W I O x y : 1 <= W -> 0 < x -> x <= y -> y < 2 ^ W ->
  fst (normalize W I false O x) < fst (normalize W I false O y) \/
  (fst (normalize W I false O x) = fst (normalize W I false O y) /\ snd (normalize W I false O x) <= snd (normalize W I false O y)).
Proof.
  intros HW Hx Hxy Hy. pose proof (normalize_u_ok W I O x HW ltac:(lia)) as N1. pose proof (normalize_u_ok W I O y HW ltac:(lia)) as N2.
  destruct (normalize W I false O x) as [e1 m1], (normalize W I false O y) as [e2 m2]. cbn [fst snd].
  destruct N1 as (A1 & B1 & C1), N2 as (A2 & B2 & C2). destruct (Z.lt_trichotomy e1 e2) as [|[->|L]]; [left; assumption|right|exfalso].
  - split; [reflexivity|]. subst m1 m2. apply Z.mul_le_mono_nonneg_r; [apply pow2_nonneg|assumption].
  - assert (2 * m1 <= m2); [|rewrite (pow2_half W) in C2 by lia; lia].
    subst m1 m2. replace (I - e2) with (1 + (I - e1) + (e1 - e2 - 1)) by lia. rewrite !pow2_add by lia. change (2 ^ 1) with 2.
    pose proof (pow2_pos (I - e1) ltac:(lia)). pose proof (pow2_pos (e1 - e2 - 1) ltac:(lia)).
    assert (x * 2 ^ (I - e1) <= y * 2 ^ (I - e1)) by nia. nia.
Qed.
(** Skipping the normalisation is the same as doing it when the top bit is set already. *)
Lemma pwl_norm_eq W I O cn x : 1 <= W -> 0 <= x < 2 ^ W -> cn = true \/ 2 ^ (W - 1) <= x -> pwl_norm cn W I O x = normalize W I false O x.
Proof.
  intros HW Hx Hc. unfold pwl_norm. destruct cn; [reflexivity|]. destruct Hc as [C|C]; [discriminate|].
  pose proof (pow2_pos (W - 1) ltac:(lia)). pose proof (normalize_u_ok W I O x HW ltac:(lia)) as N.
  destruct (normalize W I false O x) as [e m]. destruct N as (A & B & D). rewrite wrapu_id by lia.
  assert (e = I) as ->. { destruct (Z.eq_dec e I); [assumption|exfalso].
    replace (I - e) with (1 + (I - e - 1)) in B by lia. rewrite pow2_add in B by lia. change (2 ^ 1) with 2 in B.
    pose proof (pow2_pos (I - e - 1) ltac:(lia)). rewrite (pow2_half W) in D by lia. nia. }
  rewrite Z.sub_diag in B. change (2 ^ 0) with 1 in B. f_equal. lia.
Qed.

(** ** Table lookup *)
Lemma lut_ok t i : 0 <= i < Z.of_nat (length t) -> lut t i = Some (nth (Z.to_nat i) t 0).
Proof.
  intros H. unfold lut. replace (i <? 0) with false by lia. rewrite (nth_error_nth' t 0); [reflexivity|]. lia.
Qed.

(** The exact piecewise-linear function with N fraction bits of input. *)
Definition pw_lin (ms cs : list Z) (N T : Z) : Z :=
  nth (Z.to_nat (T / 2 ^ N)) ms 0 * (T mod 2 ^ N) + nth (Z.to_nat (T / 2 ^ N)) cs 0 * 2 ^ N.

Lemma pwl_table_ok ms cs ib fb t : 0 <= ib -> 0 <= fb -> Z.of_nat (length ms) = 2 ^ ib -> length cs = length ms -> 0 <= t < 2 ^ (ib + fb) ->
  pwl_table ms cs ib fb t = Some (pw_lin ms cs fb t).
Proof.
  intros Hi Hf Hm Hc Ht. pose proof (pow2_pos fb Hf). rewrite pow2_add in Ht by lia.
  assert (0 <= t / 2 ^ fb < 2 ^ ib) by (split; [apply Z.div_pos; lia|apply Z.div_lt_upper_bound; lia]).
  unfold pwl_table. rewrite Z.shiftr_div_pow2 by lia. rewrite wrapu_id by lia.
  rewrite !lut_ok by lia. unfold slc. rewrite Z.shiftr_0_r. unfold wrapu, pw_lin. reflexivity.
Qed.

(** With fewer fraction bits the function takes the same values at the coarser points. *)
Lemma pw_lin_scale ms cs fb N t : 0 <= fb <= N -> 0 <= t ->
  pw_lin ms cs fb t * 2 ^ (N - fb) = pw_lin ms cs N (t * 2 ^ (N - fb)).
Proof.
  intros H Ht. unfold pw_lin. rewrite (pow2_split N fb) by lia.
  pose proof (pow2_pos fb ltac:(lia)). pose proof (pow2_pos (N - fb) ltac:(lia)).
  rewrite Z.div_mul_cancel_r by lia. rewrite Z.mul_mod_distr_r by lia. ring.
Qed.

(** ** The scaled position of a normalised value *)
Definition pos (W s N n : Z) : Z := (2 * n - 2 ^ W) * 2 ^ s * 2 ^ N / 2 ^ (W + 1).

Lemma pos_bounds W s N n : 1 <= W -> 0 <= s -> 0 <= N -> 2 ^ (W - 1) <= n < 2 ^ W ->
  0 <= pos W s N n < 2 ^ (s - 1 + N) /\
  pos W s N n * 2 ^ W <= (2 * n - 2 ^ W) * 2 ^ (s - 1 + N) < (pos W s N n + 1) * 2 ^ W \/ s = 0.
Proof.
  intros HW Hs HN Hn. destruct (Z.eq_dec s 0) as [|Ne]; [right; assumption|left].
  rewrite (pow2_half W) in * by lia. unfold pos. rewrite (pow2_half W) by lia.
  pose proof (pow2_pos (W - 1) ltac:(lia)). set (P := 2 ^ (W - 1)) in *.
  assert (E : (2 * n - 2 * P) * 2 ^ s * 2 ^ N / 2 ^ (W + 1) = (2 * n - 2 * P) * 2 ^ (s - 1 + N) / (2 * P)).
  { rewrite (pow2_half s) by lia. rewrite (pow2_add (s - 1) N) by lia. rewrite (pow2_half (W + 1)), (pow2_half (W + 1 - 1)) by lia.
    replace (2 ^ (W + 1 - 1 - 1)) with P by (unfold P; f_equal; lia).
    replace ((2 * n - 2 * P) * (2 * 2 ^ (s - 1)) * 2 ^ N) with ((2 * n - 2 * P) * (2 ^ (s - 1) * 2 ^ N) * 2) by ring.
    replace (2 * (2 * P)) with (2 * P * 2) by ring. rewrite Z.div_mul_cancel_r by lia. reflexivity. }
  rewrite E. set (K := 2 ^ (s - 1 + N)). assert (0 < K) by (apply pow2_pos; lia).
  pose proof (Z.div_mod ((2 * n - 2 * P) * K) (2 * P) ltac:(lia)). pose proof (Z.mod_pos_bound ((2 * n - 2 * P) * K) (2 * P) ltac:(lia)).
  set (q := (2 * n - 2 * P) * K / (2 * P)) in *. assert (0 <= q) by (apply Z.div_pos; nia).
  assert (q < K) by (apply Z.div_lt_upper_bound; nia). lia.
Qed.

Lemma scale_half_ok W ib fb s N n : 1 <= W -> 1 <= s -> ib = s - 1 -> 1 <= fb <= N -> 2 ^ (W - 1) <= n < 2 ^ W ->
  fb = N \/ (exists k, (n - 2 ^ (W - 1)) * 2 ^ (s + fb) = k * 2 ^ W) ->
  0 <= scale_half W ib fb s n < 2 ^ (ib + fb) /\ scale_half W ib fb s n * 2 ^ (N - fb) = pos W s N n.
Proof.
  intros HW Hs -> Hf Hn Hx.
  destruct (pos_bounds W s fb n HW ltac:(lia) ltac:(lia) Hn) as [[B _]|]; [|lia].
  assert (E : scale_half W (s - 1) fb s n = pos W s fb n).
  { unfold scale_half. rewrite conv_dfmt_div by lia. replace (s - 1 + fb - (s - 1)) with fb by lia.
    change (wrapu (s - 1 + fb) (pos W s fb n) = pos W s fb n). apply wrapu_id. exact B. }
  rewrite E. split; [exact B|]. destruct Hx as [->|[k Hk]].
  { rewrite Z.sub_diag. change (2 ^ 0) with 1. lia. }
  rewrite (pow2_half W) in * by lia. unfold pos. rewrite (pow2_half W) by lia.
  pose proof (pow2_pos (W - 1) ltac:(lia)). rewrite (pow2_half (W + 1)), (pow2_half (W + 1 - 1)) by lia.
  replace (2 ^ (W + 1 - 1 - 1)) with (2 ^ (W - 1)) by (f_equal; lia). set (P := 2 ^ (W - 1)) in *.
  rewrite (pow2_split N fb) by lia. rewrite pow2_add in Hk by lia. set (R := 2 ^ (N - fb)). 
  assert (Q : (2 * n - 2 * P) * 2 ^ s * 2 ^ fb = k * (2 * (2 * P))).
  { replace ((2 * n - 2 * P) * 2 ^ s * 2 ^ fb) with (2 * ((n - P) * (2 ^ s * 2 ^ fb))) by ring. rewrite Hk. ring. }
  replace ((2 * n - 2 * P) * 2 ^ s * (2 ^ fb * R)) with ((2 * n - 2 * P) * 2 ^ s * 2 ^ fb * R) by ring.
  rewrite Q. replace (k * (2 * (2 * P)) * R) with (k * R * (2 * (2 * P))) by ring.
  rewrite !Z.div_mul by lia. reflexivity.
Qed.

(** The position is monotone in the value. *)
Lemma pos_mono W s N n m : 1 <= W -> 0 <= s -> 0 <= N -> n <= m -> pos W s N n <= pos W s N m.
Proof.
  intros HW Hs HN H. unfold pos. apply Z.div_le_mono; [apply pow2_pos; lia|].
  pose proof (pow2_pos s Hs). pose proof (pow2_pos N HN). apply Z.mul_le_mono_nonneg_r; [lia|]. apply Z.mul_le_mono_nonneg_r; lia.
Qed.

(** Adjacent points in order give all pairs in order. *)
Lemma adj_up (g : Z -> Z) n : (forall T, 0 <= T < n - 1 -> g T <= g (T + 1)) ->
  forall a b, 0 <= a -> a <= b -> b < n -> g a <= g b.
Proof.
  intros H a b Ha Hab Hb. remember (Z.to_nat (b - a)) as k eqn:Ek. revert b Hab Hb Ek.
  induction k; intros b Hab Hb Ek; [replace b with a by lia; lia|].
  transitivity (g (b - 1)); [apply IHk; lia|]. replace b with (b - 1 + 1) at 2 by lia. apply H. lia.
Qed.
Lemma adj_down (g : Z -> Z) n : (forall T, 0 <= T < n - 1 -> g (T + 1) <= g T) ->
  forall a b, 0 <= a -> a <= b -> b < n -> g b <= g a.
Proof.
  intros H a b Ha Hab Hb. pose proof (adj_up (fun T => - g T) n) as A. cbv beta in A.
  specialize (A ltac:(intros T HT; specialize (H T HT); lia) a b Ha Hab Hb). lia.
Qed.

(** ** Piecewise-linear tables, without visiting every point *)
Definition seg_up (ms cs : list Z) (N n i : Z) : bool :=
  let m := nth (Z.to_nat i) ms 0 in
  (0 <=? m) && ((i =? n - 1) || (m * (2 ^ N - 1) + nth (Z.to_nat i) cs 0 * 2 ^ N <=? nth (Z.to_nat (i + 1)) cs 0 * 2 ^ N)).
Definition seg_down (ms cs : list Z) (N n i : Z) : bool :=
  let m := nth (Z.to_nat i) ms 0 in
  (m <=? 0) && ((i =? n - 1) || (nth (Z.to_nat (i + 1)) cs 0 * 2 ^ N <=? m * (2 ^ N - 1) + nth (Z.to_nat i) cs 0 * 2 ^ N)).

Lemma step_cases N T : 0 <= N -> 0 <= T ->
  (T / 2 ^ N = (T + 1) / 2 ^ N /\ (T + 1) mod 2 ^ N = T mod 2 ^ N + 1) \/
  ((T + 1) / 2 ^ N = T / 2 ^ N + 1 /\ T mod 2 ^ N = 2 ^ N - 1 /\ (T + 1) mod 2 ^ N = 0).
Proof.
  intros HN HT. pose proof (pow2_pos N HN). pose proof (Z.mod_pos_bound T (2 ^ N) ltac:(lia)). pose proof (Z.div_mod T (2 ^ N) ltac:(lia)).
  set (P := 2 ^ N) in *. set (q := T / P) in *. set (r := T mod P) in *.
  destruct (Z.eq_dec r (P - 1)) as [E|E]; [right|left].
  - assert (Q : (T + 1) / P = q + 1) by (symmetry; apply (Z.div_unique _ _ _ 0); lia).
    rewrite Q. split; [reflexivity|]. split; [exact E|]. rewrite Z.mod_eq by lia. rewrite Q. lia.
  - assert (Q : (T + 1) / P = q) by (symmetry; apply (Z.div_unique _ _ _ (r + 1)); lia).
    rewrite Q. split; [reflexivity|]. rewrite Z.mod_eq by lia. rewrite Q. lia.
Qed.

Lemma pw_lin_up ms cs N (n : positive) : 0 <= N -> zall (seg_up ms cs N (Zpos n)) n 0 = true ->
  forall a b, 0 <= a -> a <= b -> b < Zpos n * 2 ^ N -> pw_lin ms cs N a <= pw_lin ms cs N b.
Proof.
  intros HN C. apply adj_up. intros T HT. pose proof (pow2_pos N HN).
  assert (Hi : 0 <= T / 2 ^ N < Zpos n) by (split; [apply Z.div_pos; lia|apply Z.div_lt_upper_bound; lia]).
  pose proof (zall_ok _ _ _ C (T / 2 ^ N) ltac:(lia)) as K. unfold seg_up in K. apply andb_prop in K as [K1 K2]. unfold pw_lin.
  destruct (step_cases N T HN ltac:(lia)) as [[E1 E2]|[E1 [E2 E3]]].
  - rewrite <- E1, E2. rewrite Z.mul_add_distr_l. lia.
  - rewrite E1, E2, E3, Z.mul_0_r, Z.add_0_l. set (i := T / 2 ^ N) in *.
    assert (i <> Zpos n - 1). { assert ((T + 1) / 2 ^ N < Zpos n) by (apply Z.div_lt_upper_bound; lia). lia. }
    set (u := nth (Z.to_nat i) ms 0 * (2 ^ N - 1)) in *. lia.
Qed.
Lemma pw_lin_down ms cs N (n : positive) : 0 <= N -> zall (seg_down ms cs N (Zpos n)) n 0 = true ->
  forall a b, 0 <= a -> a <= b -> b < Zpos n * 2 ^ N -> pw_lin ms cs N b <= pw_lin ms cs N a.
Proof.
  intros HN C. apply adj_down. intros T HT. pose proof (pow2_pos N HN).
  assert (Hi : 0 <= T / 2 ^ N < Zpos n) by (split; [apply Z.div_pos; lia|apply Z.div_lt_upper_bound; lia]).
  pose proof (zall_ok _ _ _ C (T / 2 ^ N) ltac:(lia)) as K. unfold seg_down in K. apply andb_prop in K as [K1 K2]. unfold pw_lin.
  destruct (step_cases N T HN ltac:(lia)) as [[E1 E2]|[E1 [E2 E3]]].
  - rewrite <- E1, E2. rewrite Z.mul_add_distr_l. lia.
  - rewrite E1, E2, E3, Z.mul_0_r, Z.add_0_l. set (i := T / 2 ^ N) in *.
    assert (i <> Zpos n - 1). { assert ((T + 1) / 2 ^ N < Zpos n) by (apply Z.div_lt_upper_bound; lia). lia. }
    set (u := nth (Z.to_nat i) ms 0 * (2 ^ N - 1)) in *. lia.
Qed.

(** A block of 2^k positions lies in one segment, where the table is affine. *)
Definition slope (ms : list Z) (N k B : Z) : Z := nth (Z.to_nat (B * 2 ^ k / 2 ^ N)) ms 0.
Lemma pw_block ms cs N k T : 0 <= k <= N -> 0 <= T ->
  exists B s, T = B * 2 ^ k + s /\ 0 <= s <= 2 ^ k /\ B = T / 2 ^ k /\ pw_lin ms cs N T = pw_lin ms cs N (B * 2 ^ k) + slope ms N k B * s.
Proof.
  intros Hk HT. pose proof (pow2_pos k ltac:(lia)) as Pk. pose proof (pow2_pos (N - k) ltac:(lia)) as PN.
  exists (T / 2 ^ k), (T mod 2 ^ k). pose proof (Z.div_mod T (2 ^ k) ltac:(lia)) as D. pose proof (Z.mod_pos_bound T (2 ^ k) ltac:(lia)) as M.
  split; [lia|]. split; [lia|]. split; [reflexivity|]. unfold slope, pw_lin.
  assert (EN : 2 ^ N = 2 ^ k * 2 ^ (N - k)) by (rewrite <- pow2_add by lia; f_equal; lia).
  set (B := T / 2 ^ k) in *. set (s := T mod 2 ^ k) in *. set (P := 2 ^ k) in *. set (Q := 2 ^ (N - k)) in *.
  assert (E1 : T / 2 ^ N = B / Q) by (rewrite EN, <- Z.div_div by lia; reflexivity).
  assert (E2 : B * P / 2 ^ N = B / Q) by (rewrite EN, (Z.mul_comm B P), Z.div_mul_cancel_l by lia; reflexivity).
  rewrite E1, E2. rewrite (Z.mod_eq T), (Z.mod_eq (B * P)) by lia. rewrite E1, E2. replace T with (B * P + s) at 1 by lia. ring.
Qed.

(** Bounds over 0 <= s <= L from the two ends. *)
Lemma sq_lo C D U V a L s : 0 <= s <= L -> 0 < L -> 0 <= D ->
  C * a <= D * (U * U) -> C * (a + L) <= D * (U * U + 2 * U * V * L) -> C * (a + s) <= D * ((U + V * s) * (U + V * s)).
Proof.
  intros Hs HL HD H1 H2. set (X := U * U) in *. set (Y := 2 * U * V) in *.
  replace ((U + V * s) * (U + V * s)) with (X + Y * s + (V * s) * (V * s)) by (unfold X, Y; ring).
  pose proof (Z.square_nonneg (V * s)) as Q. set (q := V * s * (V * s)) in *. clearbody X Y q.
  assert (C * (a + s) * L <= D * (X + Y * s) * L).
  { replace (C * (a + s) * L) with (C * a * (L - s) + C * (a + L) * s) by ring.
    replace (D * (X + Y * s) * L) with (D * X * (L - s) + D * (X + Y * L) * s) by ring.
    apply Z.add_le_mono; apply Z.mul_le_mono_nonneg_r; lia. }
  assert (C * (a + s) <= D * (X + Y * s)) by (apply (Z.mul_le_mono_pos_r _ _ L); lia).
  assert (0 <= D * q) by (apply Z.mul_nonneg_nonneg; lia). replace (D * (X + Y * s + q)) with (D * (X + Y * s) + D * q) by ring. lia.
Qed.
Lemma sq_chord U V L s : 0 <= s <= L -> (U + V * s) * (U + V * s) <= U * U + (2 * U * V + V * V * L) * s.
Proof.
  intros Hs. replace ((U + V * s) * (U + V * s)) with (U * U + (2 * U * V + V * V * s) * s) by ring.
  pose proof (Z.square_nonneg V). apply Z.add_le_mono_l. apply Z.mul_le_mono_nonneg_r; [lia|]. apply Z.add_le_mono_l. apply Z.mul_le_mono_nonneg_l; lia.
Qed.
Lemma sq_hi C D U V a L s : 0 <= s <= L -> 0 < L -> 0 <= D ->
  D * (U * U) <= C * a -> D * ((U + V * L) * (U + V * L)) <= C * (a + L) -> D * ((U + V * s) * (U + V * s)) <= C * (a + s).
Proof.
  intros Hs HL HD H1 H2. pose proof (sq_chord U V L s Hs) as Q. apply (Z.mul_le_mono_nonneg_l _ _ D) in Q; [|exact HD].
  eapply Z.le_trans; [exact Q|]. apply (Z.mul_le_mono_pos_r _ _ L); [lia|].
  replace (D * (U * U + (2 * U * V + V * V * L) * s) * L) with (D * (U * U) * (L - s) + D * ((U + V * L) * (U + V * L)) * s) by ring.
  replace (C * (a + s) * L) with (C * a * (L - s) + C * (a + L) * s) by ring.
  apply Z.add_le_mono; apply Z.mul_le_mono_nonneg_r; lia.
Qed.
Lemma lin_lo C X Y L s : 0 <= s <= L -> 0 < L -> C <= X -> C <= X + Y * L -> C <= X + Y * s.
Proof. intros Hs HL H1 H2. apply (Z.mul_le_mono_pos_r _ _ L); [lia|]. assert (C * (L - s) <= X * (L - s)) by (apply Z.mul_le_mono_nonneg_r; lia). assert (C * s <= (X + Y * L) * s) by (apply Z.mul_le_mono_nonneg_r; lia). lia. Qed.
Lemma lin_hi C X Y L s : 0 <= s <= L -> 0 < L -> X <= C -> X + Y * L <= C -> X + Y * s <= C.
Proof. intros Hs HL H1 H2. pose proof (lin_lo (- C) (- X) (- Y) L s Hs HL). lia. Qed.
(** (X + Y s)(a + s) with Y <= 0 is concave. *)
Lemma prod_lo C X Y a L s : 0 <= s <= L -> 0 < L -> Y <= 0 -> C <= X * a -> C <= (X + Y * L) * (a + L) -> C <= (X + Y * s) * (a + s).
Proof.
  intros Hs HL HY H1 H2. pose proof (lin_lo C (X * a) (X + Y * a + Y * L) L s Hs HL H1) as Q.
  assert (C <= X * a + (X + Y * a + Y * L) * s) by (apply Q; lia).
  replace ((X + Y * s) * (a + s)) with (X * a + (X + Y * a + Y * L) * s + (- Y) * (s * (L - s))) by ring.
  assert (0 <= - Y * (s * (L - s))) by (repeat apply Z.mul_nonneg_nonneg; lia). lia.
Qed.
Lemma prod_hi C X Y a L s : 0 <= s <= L -> 0 < L -> Y <= 0 -> X * a <= C -> X * a + (X + Y * a) * L <= C -> (X + Y * s) * (a + s) <= C.
Proof.
  intros Hs HL HY H1 H2. pose proof (lin_hi C (X * a) (X + Y * a) L s Hs HL H1 H2) as Q.
  replace ((X + Y * s) * (a + s)) with (X * a + (X + Y * a) * s - (- Y) * (s * s)) by ring.
  assert (0 <= - Y * (s * s)) by (repeat apply Z.mul_nonneg_nonneg; lia). lia.
Qed.
Lemma cub_lo C D U V a L s : 0 <= s <= L -> 0 < L -> 0 <= D -> 0 <= U -> V <= 0 -> 0 <= a ->
  C <= D * (U * U) * a -> C <= (D * (U * U) + D * (2 * U * V) * L) * (a + L) -> C <= D * ((U + V * s) * (U + V * s) * (a + s)).
Proof.
  intros Hs HL HD HU HV Ha H1 H2.
  assert (Y0 : D * (2 * U * V) <= 0) by (apply Z.mul_nonneg_nonpos; [lia|]; apply Z.mul_nonneg_nonpos; lia).
  pose proof (prod_lo C (D * (U * U)) (D * (2 * U * V)) a L s Hs HL Y0 H1 H2) as Q.
  eapply Z.le_trans; [exact Q|]. replace (D * ((U + V * s) * (U + V * s) * (a + s))) with (D * ((U + V * s) * (U + V * s)) * (a + s)) by ring. apply Z.mul_le_mono_nonneg_r; [lia|].
  replace (D * ((U + V * s) * (U + V * s))) with (D * (U * U) + D * (2 * U * V) * s + D * ((V * s) * (V * s))) by ring.
  pose proof (Z.square_nonneg (V * s)). assert (0 <= D * (V * s * (V * s))) by (apply Z.mul_nonneg_nonneg; lia). lia.
Qed.
Lemma cub_hi C D U V a L s : 0 <= s <= L -> 0 < L -> 0 <= D -> 0 <= a -> 2 * U * V + V * V * L <= 0 ->
  D * (U * U) * a <= C -> D * (U * U) * a + (D * (U * U) + D * (2 * U * V + V * V * L) * a) * L <= C -> D * ((U + V * s) * (U + V * s) * (a + s)) <= C.
Proof.
  intros Hs HL HD Ha HK H1 H2. set (K := 2 * U * V + V * V * L) in *.
  assert (Y0 : D * K <= 0) by (apply Z.mul_nonneg_nonpos; lia).
  pose proof (prod_hi C (D * (U * U)) (D * K) a L s Hs HL Y0 H1 H2) as Q.
  eapply Z.le_trans; [|exact Q]. replace (D * ((U + V * s) * (U + V * s) * (a + s))) with (D * ((U + V * s) * (U + V * s)) * (a + s)) by ring. apply Z.mul_le_mono_nonneg_r; [lia|].
  pose proof (sq_chord U V L s Hs) as Q2. fold K in Q2. apply (Z.mul_le_mono_nonneg_l _ _ D) in Q2; [|exact HD]. lia.
Qed.
