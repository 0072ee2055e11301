(** Proofs for the ac_complex overload of ac_div. *)
From Coq Require Import Lia ZifyBool.
From Verif Require Import AcTypes AcFacts Spec SpecFacts ShiftModel ShiftFacts ShiftProofs DivModel DivFacts DivProofs DivSigned DivSpecs.
Ltac Zify.zify_post_hook ::= idtac.

Lemma converts_eqq f n d n' d' y : 1 <= fW f -> 0 < d -> 0 < d' -> n * d' = n' * d ->
  converts f n d y -> converts f n' d' y.
Proof.
  intros HW Hd Hd' E C. apply converts_unique in C; [|assumption..]. subst y.
  replace (conv_rat f n d) with (conv_rat f n' d'); [apply conv_rat_converts; assumption|].
  unfold conv_rat. f_equal. pose proof (pw_pos (fF f)). pose proof (pw_pos (- fF f)).
  apply qround_eqq; [apply Z.mul_pos_pos; lia|apply Z.mul_pos_pos; lia|].
  transitivity (n' * d * (pw (fF f) * pw (- fF f))); [ring|]. rewrite <- E. ring.
Qed.

Lemma cplx_part NF DW DI f p s j :
  1 <= DW -> 1 <= fW f -> fS f = true -> NF <= fF f ->
  1 <= fW f + 2 * DW - DI + 2 ->
  0 < s < 2 ^ (2 * DW + 1) ->
  - 2 ^ (fW f + DW + 1) <= p * 2 ^ (fF f - NF) < 2 ^ (fW f + DW + 1) ->
  let DF := DW - DI in
  let pf := dfmt (fW f + (DW + 1) + 1) (fI f + (DI + 1) + 1) true in
  let sf := dfmt (2 * DW + 2) (2 * DI + 2) true in
  converts f (p * 2 ^ Z.max 0 (DF - NF)) (s * 2 ^ Z.max 0 (NF - DF))
    (fst (div_sfx (fW pf) (fI pf) (fW sf) (fI sf) f (conv pf p (NF + DF)) s j)).
Proof.
  intros HD HW HS HF HV Bs Bp DF pf sf.
  assert (Ep : conv pf p (NF + DF) = p * 2 ^ (fF f - NF)).
  { unfold pf. rewrite conv_dfmt_up by (unfold DF, fF in *; lia).
    replace (fW f + (DW + 1) + 1 - (fI f + (DI + 1) + 1) - (NF + DF)) with (fF f - NF) by (unfold DF, fF; lia).
    change (wrap true) with wraps. apply wraps_id; [lia|].
    replace (fW f + (DW + 1) + 1 - 1) with (fW f + DW + 1) by lia. exact Bp. }
  rewrite Ep. cbn [fW fI pf sf dfmt].
  assert (E1 : fW f + (DW + 1) + 1 - 1 = fW f + DW + 1) by lia.
  assert (E2 : 2 * DW + 2 - 1 = 2 * DW + 1) by lia.
  pose proof (div_sfx_converts (fW f + (DW + 1) + 1) (fI f + (DI + 1) + 1) (2 * DW + 2) (2 * DI + 2) f
    (p * 2 ^ (fF f - NF)) s j) as C.
  rewrite E1, E2 in C.
  specialize (C ltac:(lia) ltac:(lia) HW HS Bp).
  pose proof (pow2_pos (2 * DW + 1) ltac:(lia)).
  specialize (C ltac:(lia) ltac:(lia)).
  assert (G : 0 <= guard (fQ f)) by (destruct (fQ f); cbn; lia).
  specialize (C ltac:(intros; unfold fF; lia) ltac:(intros; unfold fF; lia)). cbv zeta in C.
  rewrite (Z.sgn_pos s), (Z.abs_eq s) in C by lia.
  set (e := 2 * DW + 2 - (2 * DI + 2) - (fW f + (DW + 1) + 1 - (fI f + (DI + 1) + 1))) in *.
  eapply converts_eqq; [exact HW| | | |exact C].
  - apply Z.mul_pos_pos; [lia|apply pow2_pos; lia].
  - apply Z.mul_pos_pos; [lia|apply pow2_pos; lia].
  - transitivity (p * s * (2 ^ (fF f - NF) * 2 ^ Z.max 0 e * 2 ^ Z.max 0 (NF - DF))); [ring|].
    transitivity (p * s * (2 ^ Z.max 0 (DF - NF) * 2 ^ Z.max 0 (- e))); [|ring].
    rewrite <- !pow2_add by lia. do 2 f_equal. unfold e, DF, fF. unfold fF in HF. lia.
Qed.

(** value bounds of a DW-bit part of either signedness *)
Lemma part_sq DW s x : 1 <= DW -> lowest s DW <= x <= highest s DW -> 0 <= x * x < 2 ^ (2 * DW).
Proof.
  intros HD B. unfold lowest, highest in B. pose proof (pow2_half DW ltac:(lia)). pose proof (pow2_pos (DW - 1) ltac:(lia)).
  assert (E : 2 ^ (2 * DW) = 2 ^ DW * 2 ^ DW) by (rewrite <- pow2_add by lia; f_equal; lia).
  rewrite E. set (P := 2 ^ DW) in *. assert (- P < x < P) by (destruct s; lia). nia.
Qed.

Lemma div_cplx_ok NF DW DI ds f xr xi dr di j1 j2 :
  1 <= DW -> 1 <= fW f -> fS f = true -> NF <= fF f -> 1 <= fW f + 2 * DW - DI + 2 ->
  lowest ds DW <= dr <= highest ds DW -> lowest ds DW <= di <= highest ds DW -> 0 < dr * dr + di * di ->
  - 2 ^ (fW f + DW + 1) <= (xr * dr + xi * di) * 2 ^ (fF f - NF) < 2 ^ (fW f + DW + 1) ->
  - 2 ^ (fW f + DW + 1) <= (xi * dr - xr * di) * 2 ^ (fF f - NF) < 2 ^ (fW f + DW + 1) ->
  let s := dr * dr + di * di in
  let e := (DW - DI) - NF in
  let '(qr, qi, _) := div_cplx NF DW DI f xr xi dr di j1 j2 in
  converts f ((xr * dr + xi * di) * 2 ^ Z.max 0 e) (s * 2 ^ Z.max 0 (- e)) qr /\
  converts f ((xi * dr - xr * di) * 2 ^ Z.max 0 e) (s * 2 ^ Z.max 0 (- e)) qi.
Proof.
  intros HD HW HS HF HV Br Bi Hs B1 B2 s e.
  pose proof (part_sq DW ds dr HD Br) as Sr. pose proof (part_sq DW ds di HD Bi) as Si.
  assert (E1 : 2 ^ (2 * DW + 1) = 2 * 2 ^ (2 * DW)) by (apply pow2_succ; lia).
  assert (Bs : 0 < s < 2 ^ (2 * DW + 1)) by (unfold s; lia).
  unfold div_cplx.
  assert (Es : conv (dfmt (2 * DW + 2) (2 * DI + 2) true) (dr * dr + di * di) (2 * (DW - DI)) = s).
  { rewrite conv_dfmt_up by lia. replace (2 * DW + 2 - (2 * DI + 2) - 2 * (DW - DI)) with 0 by lia.
    rewrite Z.pow_0_r, Z.mul_1_r. change (wrap true) with wraps. apply wraps_id; [lia|].
    replace (2 * DW + 2 - 1) with (2 * DW + 1) by lia. fold s. lia. }
  rewrite Es.
  replace (xr * dr - xi * (- di)) with (xr * dr + xi * di) by ring.
  replace (xr * (- di) + xi * dr) with (xi * dr - xr * di) by ring.
  pose proof (cplx_part NF DW DI f (xr * dr + xi * di) s j1 HD HW HS HF HV Bs B1) as C1.
  pose proof (cplx_part NF DW DI f (xi * dr - xr * di) s j2 HD HW HS HF HV Bs B2) as C2.
  cbv zeta in C1, C2.
  destruct (div_sfx _ _ _ _ _ (conv _ (xr * dr + xi * di) _) _ _) as [qr h1].
  destruct (div_sfx _ _ _ _ _ (conv _ (xi * dr - xr * di) _) _ _) as [qi h2].
  cbn [fst] in C1, C2.
  replace ((dr =? 0) && (di =? 0)) with false.
  2:{ symmetry. destruct (Z.eqb_spec dr 0), (Z.eqb_spec di 0); try reflexivity. subst. discriminate Hs. }
  unfold e. replace (- (DW - DI - NF)) with (NF - (DW - DI)) by lia. split; assumption.
Qed.
