(** ac_determinant for sizes 1 to 3 and signed elements, and where it fails. *)
From Coq Require Import Lia ZifyBool.
From Verif Require Import AcTypes AcFacts Spec SpecFacts ShiftFacts SpecMat RtTypes MatrixModel DetModel DetFacts MatrixProofs DetProofs DetBound.

(** Converting to the output type, to a type that holds its values, and back. *)
Lemma conv_own f v : 1 <= fW f -> (exists x e, v = conv f x e) -> conv f v (fF f) = v.
Proof.
  intros HW (x & e & ->). rewrite conv_same_f. rewrite (conv_unfold f x e). generalize (qround (fQ f) (x * pw (fF f - e)) (pw (e - fF f))) as u. intros u.
  apply overflow_id; [exact HW|apply overflow_range; exact HW|]. intros E1 E2. rewrite E1, E2. unfold overflow. cbv zeta. unfold imin, imax.
  pose proof (pow2_pos (fW f - 1) ltac:(lia)).
  destruct (u <? - (2 ^ (fW f - 1) - 1)) eqn:C1; [lia|]. destruct (2 ^ (fW f - 1) - 1 <? u) eqn:C2; lia.
Qed.

Lemma conv_through f d x e : fS f = true -> fS d = true -> fO d = SAT -> 1 <= fW f -> 1 <= fW d -> fF f <= fF d -> fI f <= fI d ->
  conv f (conv d (conv f x e) (fF f)) (fF d) = conv f x e.
Proof.
  intros Sf Sd Od Wf Wd HF HI. pose proof (conv_range f x e Wf) as R. pose proof (conv_own f _ Wf (ex_intro _ x (ex_intro _ e eq_refl))) as OW.
  set (v := conv f x e) in *. clearbody v. unfold in_range, imin, imax in R. rewrite Sf in R.
  pose proof (pow2_pos (fF d - fF f) ltac:(lia)) as P.
  assert (E : 2 ^ (fW f - 1) * 2 ^ (fF d - fF f) <= 2 ^ (fW d - 1)).
  { rewrite <- pow2_add by lia. apply pow2_le. unfold fF in *. lia. }
  assert (C : conv d v (fF f) = v * 2 ^ (fF d - fF f)).
  { rewrite conv_unfold. rewrite (pw_nonneg_eq (fF d - fF f)), (pw_nonpos_eq (fF f - fF d)), qround_int by lia.
    rewrite Sd, Od. apply overflow_id; [exact Wd| |discriminate]. unfold in_range, imin, imax. nia. }
  rewrite C, conv_rescale by lia. exact OW.
Qed.

Definition small_bnd (h : Z) (k : nat) : Z :=
  match k with 1%nat => h | 2%nat => 2 * h * h - h | _ => 4 * h * h * h - 1 end.

Lemma det3_poly_eq A : det 3 A = det3_poly (A 0%nat 0%nat) (A 0%nat 1%nat) (A 0%nat 2%nat) (A 1%nat 0%nat) (A 1%nat 1%nat) (A 1%nat 2%nat) (A 2%nat 0%nat) (A 2%nat 1%nat) (A 2%nat 2%nat).
Proof. rewrite det3_eq. unfold det3_poly. ring. Qed.

Lemma det2_range h a b c d : 1 <= h -> - h <= a <= h - 1 -> - h <= b <= h - 1 -> - h <= c <= h - 1 -> - h <= d <= h - 1 ->
  Z.abs (a * d - b * c) <= 2 * h * h - h.
Proof.
  intros Hh Ha Hb Hc Hd.
  assert (K : forall x y, - h <= x <= h - 1 -> - h <= y <= h - 1 -> - (h * (h - 1)) <= x * y <= h * h).
  { intros x y Hx Hy. split; destruct (Z.le_gt_cases 0 x), (Z.le_gt_cases 0 y); nia. }
  pose proof (K a d Ha Hd). pose proof (K b c Hb Hc). nia.
Qed.

Lemma small_bnd_ok h n k A m : 1 <= h -> (n <= 3)%nat -> (1 <= k <= n)%nat -> entries (- h) (h - 1) k A -> (m <= k)%nat ->
  Z.abs (zsum m (fun j => A O j * (alt j * det (k - 1) (det_minor j A)))) <= small_bnd h k.
Proof.
  intros Hh Hn Hk HA Hm. assert (k = 1 \/ k = 2 \/ k = 3)%nat as [->|[->| ->]] by lia.
  - cbn [small_bnd Nat.sub]. pose proof (HA O O ltac:(lia) ltac:(lia)). assert (m = 0 \/ m = 1)%nat as [->| ->] by lia; cbn [zsum]; [lia|].
    rewrite det_0. cbn [alt Nat.even]. lia.
  - cbn [small_bnd Nat.sub]. pose proof (HA O O ltac:(lia) ltac:(lia)). pose proof (HA O 1 ltac:(lia) ltac:(lia))%nat.
    pose proof (HA 1 O ltac:(lia) ltac:(lia))%nat. pose proof (HA 1 1 ltac:(lia) ltac:(lia))%nat.
    assert (m = 0 \/ m = 1 \/ m = 2)%nat as [->|[->| ->]] by lia; cbn [zsum]; rewrite ?det_1; unfold det_minor; cbn [Nat.leb Nat.sub alt Nat.even].
    + nia.
    + unfold alt. cbn [Nat.even]. pose proof (det2_range h (A O O) 0 0 (A 1%nat 1%nat) Hh ltac:(assumption) ltac:(lia) ltac:(lia) ltac:(assumption)).
      match goal with |- Z.abs ?e <= _ => replace e with (A O O * A 1%nat 1%nat - 0 * 0) by ring end. assumption.
    + unfold alt. cbn [Nat.even]. pose proof (det2_range h (A O O) (A O 1%nat) (A 1%nat O) (A 1%nat 1%nat) Hh ltac:(assumption) ltac:(assumption) ltac:(assumption) ltac:(assumption)).
      match goal with |- Z.abs ?e <= _ => replace e with (A O O * A 1%nat 1%nat - A O 1%nat * A 1%nat O) by ring end. assumption.
  - change (small_bnd h 3) with (4 * h * h * h - 1). cbn [Nat.sub].
    assert (H : forall i j, (i < 3)%nat -> (j < 3)%nat -> - h <= A i j <= h - 1) by exact HA. assert (HZ : - h <= 0 <= h - 1) by lia.
    pose proof (H 0 0 ltac:(lia) ltac:(lia))%nat as H00. pose proof (H 0 1 ltac:(lia) ltac:(lia))%nat as H01. pose proof (H 0 2 ltac:(lia) ltac:(lia))%nat as H02.
    pose proof (H 1 0 ltac:(lia) ltac:(lia))%nat as H10. pose proof (H 1 1 ltac:(lia) ltac:(lia))%nat as H11. pose proof (H 1 2 ltac:(lia) ltac:(lia))%nat as H12.
    pose proof (H 2 0 ltac:(lia) ltac:(lia))%nat as H20. pose proof (H 2 1 ltac:(lia) ltac:(lia))%nat as H21. pose proof (H 2 2 ltac:(lia) ltac:(lia))%nat as H22.
    assert (m = 0 \/ m = 1 \/ m = 2 \/ m = 3)%nat as [->|[->|[->| ->]]] by lia; cbn [zsum].
    + clear -Hh. nia.
    + set (a := 0 + _). assert (E : a = det3_poly (A 0%nat 0%nat) 0 0 (A 1%nat 0%nat) (A 1%nat 1%nat) (A 1%nat 2%nat) (A 2%nat 0%nat) (A 2%nat 1%nat) (A 2%nat 2%nat)).
      { unfold a. rewrite det2_eq. unfold det_minor, alt, det3_poly. cbn [Nat.leb Nat.sub Nat.even]. ring. }
      rewrite E. clearbody a. clear E. apply Z.abs_le. split.
      * pose proof (det3_upper h _ _ _ _ _ _ _ _ _ Hh H10 H11 H12 H00 HZ HZ H20 H21 H22) as U.
        unfold det3_poly in *. clear - U. lia.
      * apply det3_upper; try assumption; lia.
    + set (a := 0 + _ + _). assert (E : a = det3_poly (A 0%nat 0%nat) (A 0%nat 1%nat) 0 (A 1%nat 0%nat) (A 1%nat 1%nat) (A 1%nat 2%nat) (A 2%nat 0%nat) (A 2%nat 1%nat) (A 2%nat 2%nat)).
      { unfold a. rewrite !det2_eq. unfold det_minor, alt, det3_poly. cbn [Nat.leb Nat.sub Nat.even]. ring. }
      rewrite E. clearbody a. clear E. apply Z.abs_le. split.
      * pose proof (det3_upper h _ _ _ _ _ _ _ _ _ Hh H10 H11 H12 H00 H01 HZ H20 H21 H22) as U.
        unfold det3_poly in *. clear - U. lia.
      * apply det3_upper; try assumption; lia.
    + set (a := 0 + _ + _ + _). assert (E : a = det3_poly (A 0%nat 0%nat) (A 0%nat 1%nat) (A 0%nat 2%nat) (A 1%nat 0%nat) (A 1%nat 1%nat) (A 1%nat 2%nat) (A 2%nat 0%nat) (A 2%nat 1%nat) (A 2%nat 2%nat)).
      { unfold a. rewrite !det2_eq. unfold det_minor, alt, det3_poly. cbn [Nat.leb Nat.sub Nat.even]. ring. }
      rewrite E. clearbody a. clear E. apply Z.abs_le. split.
      * pose proof (det3_upper h _ _ _ _ _ _ _ _ _ Hh H10 H11 H12 H00 H01 H02 H20 H21 H22) as U.
        unfold det3_poly in *. clear - U. lia.
      * apply det3_upper; try assumption; lia.
Qed.

Definition signed_mat (W : Z) (M : nat) (A : mat) : Prop :=
  forall i j, (i < M)%nat -> (j < M)%nat -> - 2 ^ (W - 1) <= A i j < 2 ^ (W - 1).

Lemma small_types M L tin tout : (2 <= M <= 3)%nat -> 0 <= L -> 1 <= fW tin -> 0 <= fI tin <= fW tin ->
  let h := 2 ^ (fW tin - 1) in let T := det_default (Z.of_nat M) L tin tout in let F := fF tin in
  (forall k, (2 <= k <= M)%nat -> holds (t_temp T) (Z.of_nat k * F) (small_bnd h k) /\ holds (t_c T) (Z.of_nat k * F) (small_bnd h k) /\
     holds (t_d T) (Z.of_nat k * F) (small_bnd h k)) /\
  holds (t_base T) F (small_bnd h 1) /\ holds (t_base T) (2 * F) (small_bnd h 2).
Proof.
  intros HM HL HW HI h T F. unfold T. cbn [det_default t_temp t_c t_d t_base]. 
  set (W := fW tin) in *. set (I := fI tin) in *. assert (EF : F = W - I) by reflexivity.
  assert (PH : 1 <= h) by (unfold h; pose proof (pow2_pos (W - 1) ltac:(lia)); lia).
  assert (HF : 0 <= F <= W) by lia. pose proof (pow2_pos F ltac:(lia)) as PF.
  assert (PW : 2 ^ F <= 2 * h) by (unfold h; rewrite <- pow2_succ by lia; apply pow2_le; lia).
  assert (P2 : 2 ^ (2 * W) = 4 * h * h).
  { unfold h. replace (2 * W) with (1 + (1 + ((W - 1) + (W - 1)))) by lia. rewrite !pow2_add by lia. change (2 ^ 1) with 2. ring. }
  assert (HH : 2 ^ (W - 1) = h) by reflexivity. clearbody h F. clear T. split.
  - intros k Hk.
    assert (D : small_bnd h k * 2 ^ (Z.of_nat M * F - Z.of_nat k * F) <= 2 ^ (Z.of_nat M * W - 1) - 1).
    { assert (M = 2 \/ M = 3)%nat as [->| ->] by lia.
      - replace k with 2%nat by lia. replace (2 ^ (Z.of_nat 2 * W - 1)) with (2 * h * h).
        2:{ assert (E : 2 ^ (2 * W) = 2 * 2 ^ (2 * W - 1)) by (rewrite <- pow2_succ by lia; f_equal; lia). change (Z.of_nat 2) with 2. lia. }
        replace (Z.of_nat 2 * F - Z.of_nat 2 * F) with 0 by lia. cbn [small_bnd]. change (2 ^ 0) with 1. lia.
      - assert (E3 : 2 ^ (Z.of_nat 3 * W - 1) = 4 * h * h * h).
        { replace (Z.of_nat 3 * W - 1) with (2 * W + (W - 1)) by lia. rewrite pow2_add, P2 by lia. 
          rewrite HH. ring. }
        rewrite E3. assert (k = 2 \/ k = 3)%nat as [->| ->] by lia.
        + replace (Z.of_nat 3 * F - Z.of_nat 2 * F) with F by lia. cbn [small_bnd].
          assert (h * (2 * h - 1) * 2 ^ F <= h * (2 * h - 1) * (2 * h)) by (apply Z.mul_le_mono_nonneg_l; nia). nia.
        + rewrite Z.sub_diag. cbn [small_bnd]. change (2 ^ 0) with 1. lia. }
    assert (MF : Z.of_nat M * W - Z.of_nat M * I = Z.of_nat M * F) by (rewrite EF; ring).
    assert (KM : Z.of_nat k * F <= Z.of_nat M * F) by (apply Z.mul_le_mono_nonneg_r; lia).
    assert (MW : 1 <= Z.of_nat M * W) by nia.
    assert (D' : small_bnd h k * 2 ^ (Z.of_nat M * W - Z.of_nat M * I - Z.of_nat k * F) <= 2 ^ (Z.of_nat M * W - 1) - 1) by (rewrite MF; exact D).
    split; [|split].
    + apply holds_fmt; [lia|lia|exact D'].
    + apply holds_fmt; [lia|lia|]. replace (Z.of_nat M * W + L - (Z.of_nat M * I + L) - Z.of_nat k * F) with (Z.of_nat M * W - Z.of_nat M * I - Z.of_nat k * F) by lia.
      eapply Z.le_trans; [exact D'|]. assert (2 ^ (Z.of_nat M * W - 1) <= 2 ^ (Z.of_nat M * W + L - 1)) by (apply pow2_le; lia). lia.
    + apply holds_fmt; [lia|lia|exact D'].
  - split; (apply holds_fmt; [lia|lia|]); replace (2 * W + 1 - 1) with (2 * W) by lia; rewrite P2; cbn [small_bnd].
    + replace (2 * W + 1 - (2 * I + 1) - F) with F by lia. nia.
    + replace (2 * W + 1 - (2 * I + 1) - 2 * F) with 0 by lia. change (2 ^ 0) with 1. nia.
Qed.

Theorem determinant_small M L tin tout A : (1 <= M <= 3)%nat -> 0 <= L -> fS tin = true -> 1 <= fW tin -> 0 <= fI tin <= fW tin ->
  fS tout = true -> 1 <= fW tout -> (M = 3%nat -> fF tout <= 3 * fF tin /\ fI tout <= 3 * fI tin \/ 3 * fF tin <= fF tout /\ 3 * fI tin <= fI tout) ->
  signed_mat (fW tin) M A ->
  converts2 tout (det M A) (- (Z.of_nat M * fF tin)) (determinant (det_default (Z.of_nat M) L tin tout) M A).
Proof.
  intros HM HL HS HW HI OS OW HO HA. apply (conv_eq_converts2 tout _ _ (Z.of_nat M * fF tin)); [exact OW|lia|].
  set (h := 2 ^ (fW tin - 1)) in *. assert (PH : 1 <= h) by (unfold h; pose proof (pow2_pos (fW tin - 1) ltac:(lia)); lia).
  destruct (Nat.eq_dec M 1) as [->|NM].
  - unfold determinant, ret_type. cbn [Nat.leb det_compute]. cbn [det_default t_in t_d t_out t_base].
    specialize (HA O O ltac:(lia) ltac:(lia)). rewrite det_1. set (a := A O O) in *.
    assert (E2 : fF (Fmt (2 * fW tin + 1) (2 * fI tin + 1) true RND SAT) = 2 * fF tin) by (unfold fF; cbn [fW fI]; lia).
    assert (E1 : fF (Fmt (Z.of_nat 1 * fW tin) (Z.of_nat 1 * fI tin) true RND SAT) = fF tin) by (unfold fF; cbn [fW fI]; lia).
    rewrite E1. change (Z.of_nat 1) with 1 in *. rewrite !Z.mul_1_l in *.
    assert (F0 : 0 <= fF tin <= fW tin) by (unfold fF; lia).
    assert (C1 : conv (Fmt (2 * fW tin + 1) (2 * fI tin + 1) true RND SAT) a (fF tin) = a * 2 ^ (2 * fF tin - fF tin)).
    { rewrite <- E2. apply (holds_conv _ _ h); [|lia]. apply holds_fmt; [lia|unfold fF; lia|].
      replace (2 * fW tin + 1 - (2 * fI tin + 1) - fF tin) with (fF tin) by (unfold fF; lia). unfold h.
      rewrite <- pow2_add by lia. assert (2 ^ (fW tin - 1 + fF tin) <= 2 ^ (2 * fW tin - 1)) by (apply pow2_le; lia).
      assert (2 ^ (2 * fW tin + 1 - 1) = 2 * 2 ^ (2 * fW tin - 1)) by (rewrite <- pow2_succ by lia; f_equal; lia).
      pose proof (pow2_pos (2 * fW tin - 1) ltac:(lia)). lia. }
    rewrite C1, E2. rewrite conv_rescale by lia. f_equal.
    set (fd := Fmt (fW tin) (fI tin) true RND SAT). change (fF tin) with (fF fd). rewrite conv_same_f. unfold fd. cbn [fO fS fW].
    apply overflow_id; [exact HW| |discriminate]. unfold in_range, imin, imax. fold h. lia.
  - destruct (small_types M L tin tout ltac:(lia) HL HW HI) as (Hk & Hb1 & Hb2). fold h in Hk, Hb1, Hb2.
    assert (HE : entries (- h) (h - 1) M A) by (intros i j Hi Hj; specialize (HA i j Hi Hj); lia).
    assert (Bd : forall k A m, (1 <= k <= M)%nat -> entries (- h) (h - 1) k A -> (m <= k)%nat ->
      Z.abs (zsum m (fun j => A O j * (alt j * det (k - 1) (det_minor j A)))) <= small_bnd h k).
    { intros k A' m. apply small_bnd_ok; [exact PH|lia]. }
    assert (Pr : (2 <= M)%nat -> forall x y, - h <= x <= h - 1 -> - h <= y <= h - 1 -> Z.abs (x * y) <= small_bnd h 2).
    { intros _ x y Hx Hy. cbn [small_bnd]. pose proof (det2_range h x 0 0 y PH Hx ltac:(lia) ltac:(lia) Hy) as U. rewrite Z.mul_0_l, Z.sub_0_r in U. exact U. }
    destruct (Nat.eq_dec M 2) as [->|N2].
    + rewrite (determinant_d _ (- h) (h - 1) (small_bnd h) 2 Bd) by (try assumption; try lia; intros; first [apply Hk; lia|exact Hb2|lia]). reflexivity.
    + assert (M = 3%nat) by lia. subst M.
      rewrite (determinant_3 _ (- h) (h - 1) (small_bnd h) 3 Bd) by (try assumption; try lia; intros; first [apply Hk; lia|exact Hb2|lia]).
      cbn [det_default t_out t_d t_in].
      destruct (HO eq_refl) as [[HF2 HI2]|[HF2 HI2]].
      * apply conv_through; try assumption; try reflexivity; cbn [fW fI]; unfold fF in *; cbn [fW fI]; lia.
      * pose proof (det_bnd (- h) (h - 1) (small_bnd h) 3 Bd 3 A ltac:(lia) HE) as BM.
        destruct (Hk 3%nat ltac:(lia)) as (_ & _ & HD). cbn [det_default t_d] in HD.
        assert (HOut : holds tout (Z.of_nat 3 * fF tin) (small_bnd h 3)).
        { destruct HD as (_ & _ & _ & HD). repeat split; try assumption; try lia.
          unfold fF in HD at 1. cbn [fW fI] in HD. replace (Z.of_nat 3 * fW tin - Z.of_nat 3 * fI tin - Z.of_nat 3 * fF tin) with 0 in HD by (unfold fF; lia).
          rewrite Z.pow_0_r, Z.mul_1_r in HD.
          assert (E : 2 ^ (Z.of_nat 3 * fW tin - 1) * 2 ^ (fF tout - Z.of_nat 3 * fF tin) <= 2 ^ (fW tout - 1)).
          { rewrite <- pow2_add by lia. apply pow2_le. unfold fF in *. lia. }
          pose proof (pow2_pos (fF tout - Z.of_nat 3 * fF tin) ltac:(lia)). nia. }
        rewrite (holds_conv _ _ _ _ HOut BM). rewrite conv_rescale by apply HOut.
        rewrite (holds_conv _ _ _ _ HD BM). rewrite conv_rescale by apply HD. apply (holds_conv _ _ _ _ HOut BM).
Qed.
