(** The three piecewise-linear arctangents: instances of the general results. *)
From Coq Require Import Reals Lra Lia Psatz ZifyBool List.
From Verif Require Import AcTypes AcFacts Spec SpecFacts SpecR SpecRFacts CordicNum AtanNum PwlModel PwlFacts PwlProofs PwlSqrt PwlReal PwlHaModel PwlHaProofs PwlHaReal AtanPwlProofs AtanPwlReal.
Local Open Scope R_scope.
Ltac Zify.zify_post_hook ::= idtac.

Lemma in_u W x : (0 <= x < 2 ^ W)%Z -> in_range false W x.
Proof. unfold in_range, imin, imax. lia. Qed.
Lemma X_pos W I x : (0 < x)%Z -> 0 < fxval x (W - I).
Proof. intros H. unfold fxval. apply Rmult_lt_0_compat; [apply (IZR_lt 0); lia|apply bpow2_pos]. Qed.
(** p / 2^pf against pi/2. *)
Lemma half_pi (p pf e : Z) : (0 <= pf <= 89)%Z -> (p * 2 ^ (91 - pf) - e <= pi_lo)%Z -> (pi_hi <= p * 2 ^ (91 - pf) + e)%Z -> Rabs (fxval p pf - PI / 2) <= IZR e * bpow2 (-91).
Proof.
  intros Hp A B. pose proof pi_Z as [L H]. apply IZR_le in A, B. rewrite minus_IZR, mult_IZR in A. rewrite plus_IZR, mult_IZR in B. rewrite <- bpow2_IZR in A, B by lia. unfold B90 in L, H. rewrite <- bpow2_IZR in L, H by lia.
  assert (E1 : fxval p pf = IZR p * bpow2 (91 - pf) * bpow2 (-91)) by (unfold fxval; rewrite Rmult_assoc, <- bpow2_add; do 2 f_equal; lia).
  assert (E2 : PI / 2 = bpow2 90 * PI * bpow2 (-91)). { replace (bpow2 90 * PI * bpow2 (-91)) with (PI * (bpow2 90 * bpow2 (-91))) by ring. rewrite <- bpow2_add. change (90 + -91)%Z with (- (1))%Z. rewrite bpow2_opp, bpow2_1. reflexivity. }
  rewrite E1, E2, <- Rmult_minus_distr_r, Rabs_mult, (Rabs_pos_eq (bpow2 (-91))) by (apply Rlt_le, bpow2_pos). apply Rmult_le_compat_r; [apply Rlt_le, bpow2_pos|]. apply Rabs_le. lra.
Qed.

(** ** atan_pwl *)
Notation anL := (pw_lin atan_m atan_c (14 - 2)).
Lemma an_up a b : (0 <= a)%Z -> (a <= b)%Z -> (b < 2 ^ 14)%Z -> (anL a <= anL b)%Z.
Proof. intros H1 H2 H3. apply (pw_lin_up atan_m atan_c (14 - 2) 4 ltac:(lia)); [vm_compute; reflexivity|exact H1|exact H2|exact H3]. Qed.
Lemma an_0 : (0 <= anL 0)%Z.
Proof. vm_compute. discriminate. Qed.
Lemma an_P : (2 * anL (2 ^ 14 - 1) <= 1608 * 2 ^ (14 - 2 + 10 - 10))%Z.
Proof. vm_compute. discriminate. Qed.
Lemma an_P1 : (1608 * 2 ^ (14 - 2 + 10 - 10) < 2 ^ (14 - 2 + 10 + 1))%Z.
Proof. vm_compute. reflexivity. Qed.
Lemma an_table n : (0 <= n < 2 ^ 14)%Z -> Rabs (fxval (anL n) (14 - 2 + 10) - atan (fxval n 14)) <= 0.00315.
Proof.
  intros Hn. eapply Rle_trans; [apply (table_near atan_m atan_c 14 2 10 3631702739511567); first [exact Hn|lia|vm_compute; reflexivity]|]. unfold E60. replace (2 ^ 60)%Z with 1152921504606846976%Z by reflexivity. lra.
Qed.
Lemma an_pi : Rabs (fxval 1608 10 - PI / 2) <= 0.0005.
Proof.
  eapply Rle_trans; [apply (half_pi 1608 10 1237940039285380274899124); [lia|vm_compute; discriminate|vm_compute; discriminate]|]. change (-91)%Z with (- (91))%Z. rewrite bpow2_opp, bpow2_IZR by lia. replace (2 ^ 91)%Z with 2475880078570760549798248448%Z by reflexivity. lra.
Qed.
Lemma an_recip pQ W I x f : (1 <= W)%Z -> (1 <= fW f)%Z -> (0 < x < 2 ^ W)%Z -> exists n V, reciprocal_pwl pQ W I false f x = Some n /\ convertsR f V n /\ Rabs (V - / fxval x (W - I)) <= 0.002 * / fxval x (W - I).
Proof.
  intros HW Hf Hx. destruct (recip_real pQ W I false f x HW Hf (in_u W x ltac:(lia)) ltac:(lia)) as (n & V & E & C & B). exists n, V. cbn [andb] in B. rewrite (Rabs_pos_eq (fxval x (W - I))) in B by (apply Rlt_le, X_pos; lia). repeat split; assumption.
Qed.
Lemma an_recip_ok pQ W I x : (1 <= W)%Z -> (0 < x < 2 ^ W)%Z -> exists n, (let f := Fmt 14 0 false pQ SAT in reciprocal_pwl pQ W I false f x) = Some n /\ (0 <= n < 2 ^ 14)%Z.
Proof.
  intros HW Hx. destruct (an_recip pQ W I x (Fmt 14 0 false pQ SAT) HW ltac:(cbn [fW]; lia) Hx) as (n & V & E & (z & _ & Lz) & _). exists n. split; [exact E|]. cbn [fO fS fW is_limited] in Lz. unfold lowest, highest in Lz. cbn [andb] in Lz. pose proof (pow2_pos 14 ltac:(lia)). lia.
Qed.
Lemma an_real pQ W I f x : (1 <= W)%Z -> (1 <= fW f)%Z -> (0 <= x < 2 ^ W)%Z ->
  exists out V, atan_pwl pQ W I f x = Some out /\ convertsR f V out /\ 0 <= V /\ Rabs (V - atan (fxval x (W - I))) <= 0.0048.
Proof.
  intros HW Hf Hx. apply (at_real (reciprocal_pwl pQ W I false) atan_m atan_c 14 2 10 1608 10 0.00315 0.002 0.0005 0.0048 ltac:(lia) ltac:(lia) ltac:(lia) eq_refl eq_refl an_up an_0 an_P an_P1 ltac:(lia) an_table an_pi); try assumption.
  - lra.
  - change (- (14))%Z with (- (14))%Z. rewrite bpow2_opp, bpow2_IZR by lia. replace (2 ^ 14)%Z with 16384%Z by reflexivity. lra.
  - rewrite bpow2_opp, bpow2_IZR by lia. replace (2 ^ 14)%Z with 16384%Z by reflexivity.
    assert (0.002 / (2 * (1 - 0.002 - / 16384)) <= 0.001003). { set (d := 2 * (1 - 0.002 - / 16384)). assert (Hd : 0.002 <= 0.001003 * d) by (unfold d; lra). assert (Pd : 0 < d) by (unfold d; lra). apply (Rmult_le_reg_r d); [exact Pd|]. unfold Rdiv. rewrite Rmult_assoc, Rinv_l by lra. lra. } lra.
  - intros y Hy. apply (an_recip pQ W I y (Fmt 14 0 false pQ SAT) HW ltac:(cbn [fW]; lia) Hy).
Qed.
Lemma an_increasing pQ W I f x y a b : (1 <= W)%Z -> (1 <= fW f)%Z -> (fO f = SAT \/ fO f = SAT_SYM) -> (0 <= x <= y)%Z -> (y < 2 ^ W)%Z -> atan_pwl pQ W I f x = Some a -> atan_pwl pQ W I f y = Some b -> (a <= b)%Z.
Proof.
  intros HW. apply (at_increasing (reciprocal_pwl pQ W I false) atan_m atan_c 14 2 10 1608 10 ltac:(lia) ltac:(lia) ltac:(lia) eq_refl eq_refl an_up an_0 an_P an_P1 pQ W I HW).
  - intros z Hz. apply (an_recip_ok pQ W I z HW Hz).
  - intros z w c d H1 H2. apply (recip_decreasing pQ W I false (Fmt 14 0 false pQ SAT) z w c d); try lia; try (cbn [fW]; lia); [left; reflexivity|apply in_u; lia].
Qed.
Lemma an_bounds pQ W I f x : (1 <= W)%Z -> (1 <= fW f)%Z -> (fO f = SAT \/ fO f = SAT_SYM) -> (0 <= x < 2 ^ W)%Z ->
  exists out h, atan_pwl pQ W I f x = Some out /\ converts2 f 1608 (- 10) h /\ (0 <= out <= h)%Z.
Proof.
  intros HW Hf HO Hx. apply (at_bounds (reciprocal_pwl pQ W I false) atan_m atan_c 14 2 10 1608 10 ltac:(lia) ltac:(lia) ltac:(lia) eq_refl eq_refl an_up an_0 an_P an_P1 pQ W I HW); try assumption; try lia.
  intros z Hz. apply (an_recip_ok pQ W I z HW Hz).
Qed.

(** ** atan_pwl_ha *)
Notation ahL := (pw_lin atan_ha_m atan_ha_c (32 - 5)).
Lemma ah_up a b : (0 <= a)%Z -> (a <= b)%Z -> (b < 2 ^ 32)%Z -> (ahL a <= ahL b)%Z.
Proof. intros H1 H2 H3. apply (pw_lin_up atan_ha_m atan_ha_c (32 - 5) 32 ltac:(lia)); [vm_compute; reflexivity|exact H1|exact H2|exact H3]. Qed.
Lemma ah_0 : (0 <= ahL 0)%Z.
Proof. vm_compute. discriminate. Qed.
Lemma ah_P : (2 * ahL (2 ^ 32 - 1) <= 3373259426 * 2 ^ (32 - 5 + 16 - 31))%Z.
Proof. vm_compute. discriminate. Qed.
Lemma ah_P1 : (3373259426 * 2 ^ (32 - 5 + 16 - 31) < 2 ^ (32 - 5 + 16 + 1))%Z.
Proof. vm_compute. reflexivity. Qed.
Lemma ah_table n : (0 <= n < 2 ^ 32)%Z -> Rabs (fxval (ahL n) (32 - 5 + 16) - atan (fxval n 32)) <= 0.000059.
Proof.
  intros Hn. eapply Rle_trans; [apply (table_near atan_ha_m atan_ha_c 32 5 16 68022368771803); first [exact Hn|lia|vm_compute; reflexivity]|]. unfold E60. replace (2 ^ 60)%Z with 1152921504606846976%Z by reflexivity. lra.
Qed.
Lemma ah_pi : Rabs (fxval 3373259426 31 - PI / 2) <= 0.000000001.
Proof.
  eapply Rle_trans; [apply (half_pi 3373259426 31 2475880078570760549); [lia|vm_compute; discriminate|vm_compute; discriminate]|]. change (-91)%Z with (- (91))%Z. rewrite bpow2_opp, bpow2_IZR by lia. replace (2 ^ 91)%Z with 2475880078570760549798248448%Z by reflexivity. lra.
Qed.
Lemma ah_recip pQ W I x f : (1 <= W)%Z -> (1 <= fW f)%Z -> (0 < x < 2 ^ W)%Z -> exists n V, reciprocal_pwl_ha pQ W I false f x = Some n /\ convertsR f V n /\ Rabs (V - / fxval x (W - I)) <= 0.00014 * / fxval x (W - I).
Proof.
  intros HW Hf Hx. destruct (rha_real pQ W I false f x HW Hf (in_u W x ltac:(lia)) ltac:(lia)) as (n & V & E & C & B). exists n, V. cbn [andb] in B. rewrite (Rabs_pos_eq (fxval x (W - I))) in B by (apply Rlt_le, X_pos; lia). repeat split; assumption.
Qed.
Lemma ah_recip_ok pQ W I x : (1 <= W)%Z -> (0 < x < 2 ^ W)%Z -> exists n, (let f := Fmt 32 0 false pQ SAT in reciprocal_pwl_ha pQ W I false f x) = Some n /\ (0 <= n < 2 ^ 32)%Z.
Proof.
  intros HW Hx. destruct (ah_recip pQ W I x (Fmt 32 0 false pQ SAT) HW ltac:(cbn [fW]; lia) Hx) as (n & V & E & (z & _ & Lz) & _). exists n. split; [exact E|]. cbn [fO fS fW is_limited] in Lz. unfold lowest, highest in Lz. cbn [andb] in Lz. pose proof (pow2_pos 32 ltac:(lia)). lia.
Qed.
Lemma ah_real pQ W I f x : (1 <= W)%Z -> (1 <= fW f)%Z -> (0 <= x < 2 ^ W)%Z ->
  exists out V, atan_pwl_ha pQ W I f x = Some out /\ convertsR f V out /\ 0 <= V /\ Rabs (V - atan (fxval x (W - I))) <= 0.00013.
Proof.
  intros HW Hf Hx. apply (at_real (reciprocal_pwl_ha pQ W I false) atan_ha_m atan_ha_c 32 5 16 3373259426 31 0.000059 0.00014 0.000000001 0.00013 ltac:(lia) ltac:(lia) ltac:(lia) eq_refl eq_refl ah_up ah_0 ah_P ah_P1 ltac:(lia) ah_table ah_pi); try assumption.
  - lra.
  - change (- (32))%Z with (- (32))%Z. rewrite bpow2_opp, bpow2_IZR by lia. replace (2 ^ 32)%Z with 4294967296%Z by reflexivity. lra.
  - rewrite bpow2_opp, bpow2_IZR by lia. replace (2 ^ 32)%Z with 4294967296%Z by reflexivity.
    assert (0.00014 / (2 * (1 - 0.00014 - / 4294967296)) <= 0.0000701). { set (d := 2 * (1 - 0.00014 - / 4294967296)). assert (Hd : 0.00014 <= 0.0000701 * d) by (unfold d; lra). assert (Pd : 0 < d) by (unfold d; lra). apply (Rmult_le_reg_r d); [exact Pd|]. unfold Rdiv. rewrite Rmult_assoc, Rinv_l by lra. lra. } lra.
  - intros y Hy. apply (ah_recip pQ W I y (Fmt 32 0 false pQ SAT) HW ltac:(cbn [fW]; lia) Hy).
Qed.
Lemma ah_increasing pQ W I f x y a b : (1 <= W)%Z -> (1 <= fW f)%Z -> (fO f = SAT \/ fO f = SAT_SYM) -> (0 <= x <= y)%Z -> (y < 2 ^ W)%Z -> atan_pwl_ha pQ W I f x = Some a -> atan_pwl_ha pQ W I f y = Some b -> (a <= b)%Z.
Proof.
  intros HW. apply (at_increasing (reciprocal_pwl_ha pQ W I false) atan_ha_m atan_ha_c 32 5 16 3373259426 31 ltac:(lia) ltac:(lia) ltac:(lia) eq_refl eq_refl ah_up ah_0 ah_P ah_P1 pQ W I HW).
  - intros z Hz. apply (ah_recip_ok pQ W I z HW Hz).
  - intros z w c d H1 H2. apply (rha_decreasing pQ W I false (Fmt 32 0 false pQ SAT) z w c d); try lia; try (cbn [fW]; lia); [left; reflexivity|apply in_u; lia].
Qed.
Lemma ah_bounds pQ W I f x : (1 <= W)%Z -> (1 <= fW f)%Z -> (fO f = SAT \/ fO f = SAT_SYM) -> (0 <= x < 2 ^ W)%Z ->
  exists out h, atan_pwl_ha pQ W I f x = Some out /\ converts2 f 3373259426 (- 31) h /\ (0 <= out <= h)%Z.
Proof.
  intros HW Hf HO Hx. apply (at_bounds (reciprocal_pwl_ha pQ W I false) atan_ha_m atan_ha_c 32 5 16 3373259426 31 ltac:(lia) ltac:(lia) ltac:(lia) eq_refl eq_refl ah_up ah_0 ah_P ah_P1 pQ W I HW); try assumption; try lia.
  intros z Hz. apply (ah_recip_ok pQ W I z HW Hz).
Qed.

(** ** atan_pwl_vha *)
Notation avL := (pw_lin atan_vha_m atan_vha_c (15 - 6)).
Lemma av_up a b : (0 <= a)%Z -> (a <= b)%Z -> (b < 2 ^ 15)%Z -> (avL a <= avL b)%Z.
Proof. intros H1 H2 H3. apply (pw_lin_up atan_vha_m atan_vha_c (15 - 6) 64 ltac:(lia)); [vm_compute; reflexivity|exact H1|exact H2|exact H3]. Qed.
Lemma av_0 : (0 <= avL 0)%Z.
Proof. vm_compute. discriminate. Qed.
Lemma av_P : (2 * avL (2 ^ 15 - 1) <= 51471 * 2 ^ (15 - 6 + 18 - 15))%Z.
Proof. vm_compute. discriminate. Qed.
Lemma av_P1 : (51471 * 2 ^ (15 - 6 + 18 - 15) < 2 ^ (15 - 6 + 18 + 1))%Z.
Proof. vm_compute. reflexivity. Qed.
Lemma av_table n : (0 <= n < 2 ^ 15)%Z -> Rabs (fxval (avL n) (15 - 6 + 18) - atan (fxval n 15)) <= 0.000019.
Proof.
  intros Hn. eapply Rle_trans; [apply (table_near atan_vha_m atan_vha_c 15 6 18 21905508587530); first [exact Hn|lia|vm_compute; reflexivity]|]. unfold E60. replace (2 ^ 60)%Z with 1152921504606846976%Z by reflexivity. lra.
Qed.
Lemma av_pi : Rabs (fxval 51471 15 - PI / 2) <= 0.000027.
Proof.
  eapply Rle_trans; [apply (half_pi 51471 15 66848762121410534844552); [lia|vm_compute; discriminate|vm_compute; discriminate]|]. change (-91)%Z with (- (91))%Z. rewrite bpow2_opp, bpow2_IZR by lia. replace (2 ^ 91)%Z with 2475880078570760549798248448%Z by reflexivity. lra.
Qed.
Lemma av_recip pQ W I x f : (1 <= W)%Z -> (1 <= fW f)%Z -> (0 < x < 2 ^ W)%Z -> exists n V, reciprocal_pwl_vha pQ W I false f true x = Some n /\ convertsR f V n /\ Rabs (V - / fxval x (W - I)) <= 0.00004 * / fxval x (W - I).
Proof.
  intros HW Hf Hx. destruct (rvha_real pQ W I false f true x HW Hf (in_u W x ltac:(lia)) ltac:(lia) (or_introl eq_refl)) as (n & V & E & C & B). exists n, V. cbn [andb] in B. rewrite (Rabs_pos_eq (fxval x (W - I))) in B by (apply Rlt_le, X_pos; lia). repeat split; assumption.
Qed.
Lemma av_recip_ok pQ W I x : (1 <= W)%Z -> (0 < x < 2 ^ W)%Z -> exists n, (let f := Fmt 15 0 false pQ SAT in reciprocal_pwl_vha pQ W I false f true x) = Some n /\ (0 <= n < 2 ^ 15)%Z.
Proof.
  intros HW Hx. destruct (av_recip pQ W I x (Fmt 15 0 false pQ SAT) HW ltac:(cbn [fW]; lia) Hx) as (n & V & E & (z & _ & Lz) & _). exists n. split; [exact E|]. cbn [fO fS fW is_limited] in Lz. unfold lowest, highest in Lz. cbn [andb] in Lz. pose proof (pow2_pos 15 ltac:(lia)). lia.
Qed.
Lemma av_real pQ W I f x : (1 <= W)%Z -> (1 <= fW f)%Z -> (0 <= x < 2 ^ W)%Z ->
  exists out V, atan_pwl_vha pQ W I f x = Some out /\ convertsR f V out /\ 0 <= V /\ Rabs (V - atan (fxval x (W - I))) <= 0.0001.
Proof.
  intros HW Hf Hx. apply (at_real (fun g => reciprocal_pwl_vha pQ W I false g true) atan_vha_m atan_vha_c 15 6 18 51471 15 0.000019 0.00004 0.000027 0.0001 ltac:(lia) ltac:(lia) ltac:(lia) eq_refl eq_refl av_up av_0 av_P av_P1 ltac:(lia) av_table av_pi); try assumption.
  - lra.
  - change (- (15))%Z with (- (15))%Z. rewrite bpow2_opp, bpow2_IZR by lia. replace (2 ^ 15)%Z with 32768%Z by reflexivity. lra.
  - rewrite bpow2_opp, bpow2_IZR by lia. replace (2 ^ 15)%Z with 32768%Z by reflexivity.
    assert (0.00004 / (2 * (1 - 0.00004 - / 32768)) <= 0.0000201). { set (d := 2 * (1 - 0.00004 - / 32768)). assert (Hd : 0.00004 <= 0.0000201 * d) by (unfold d; lra). assert (Pd : 0 < d) by (unfold d; lra). apply (Rmult_le_reg_r d); [exact Pd|]. unfold Rdiv. rewrite Rmult_assoc, Rinv_l by lra. lra. } lra.
  - intros y Hy. apply (av_recip pQ W I y (Fmt 15 0 false pQ SAT) HW ltac:(cbn [fW]; lia) Hy).
Qed.
Lemma av_increasing pQ W I f x y a b : (1 <= W)%Z -> (1 <= fW f)%Z -> (fO f = SAT \/ fO f = SAT_SYM) -> (0 <= x <= y)%Z -> (y < 2 ^ W)%Z -> atan_pwl_vha pQ W I f x = Some a -> atan_pwl_vha pQ W I f y = Some b -> (a <= b)%Z.
Proof.
  intros HW. apply (at_increasing (fun g => reciprocal_pwl_vha pQ W I false g true) atan_vha_m atan_vha_c 15 6 18 51471 15 ltac:(lia) ltac:(lia) ltac:(lia) eq_refl eq_refl av_up av_0 av_P av_P1 pQ W I HW).
  - intros z Hz. apply (av_recip_ok pQ W I z HW Hz).
  - intros z w c d H1 H2. apply (rvha_decreasing pQ W I false (Fmt 15 0 false pQ SAT) true z w c d); try lia; try (cbn [fW]; lia); [left; reflexivity|apply in_u; lia].
Qed.
Lemma av_bounds pQ W I f x : (1 <= W)%Z -> (1 <= fW f)%Z -> (fO f = SAT \/ fO f = SAT_SYM) -> (0 <= x < 2 ^ W)%Z ->
  exists out h, atan_pwl_vha pQ W I f x = Some out /\ converts2 f 51471 (- 15) h /\ (0 <= out <= h)%Z.
Proof.
  intros HW Hf HO Hx. apply (at_bounds (fun g => reciprocal_pwl_vha pQ W I false g true) atan_vha_m atan_vha_c 15 6 18 51471 15 ltac:(lia) ltac:(lia) ltac:(lia) eq_refl eq_refl av_up av_0 av_P av_P1 pQ W I HW); try assumption; try lia.
  intros z Hz. apply (av_recip_ok pQ W I z HW Hz).
Qed.
Lemma ah_zero pQ W I f : (1 <= W)%Z -> (1 <= fW f)%Z -> atan_pwl_ha pQ W I f 0 = Some 0%Z.
Proof.
  intros HW Hf. destruct (at_eval (reciprocal_pwl_ha pQ W I false) atan_ha_m atan_ha_c 32 5 16 3373259426 31 ltac:(lia) ltac:(lia) ltac:(lia) eq_refl eq_refl ah_up ah_0 ah_P ah_P1 pQ W I HW (fun z Hz => ah_recip_ok pQ W I z HW Hz) f 0%Z ltac:(split; [lia|apply pow2_pos; lia])) as (n & En & Hn & E).
  unfold at_norm in En. destruct (at_exceeds W I 0) eqn:X; [apply at_exceeds_pos in X; lia|]. rewrite AbsProofs.conv_0 in En by (cbn [fW]; lia). injection En as <-. unfold atan_pwl_ha. rewrite E. change (ahL 0) with 0%Z. rewrite AbsProofs.conv_0 by exact Hf. reflexivity.
Qed.
Lemma av_zero pQ W I f : (1 <= W)%Z -> (1 <= fW f)%Z -> atan_pwl_vha pQ W I f 0 = Some 0%Z.
Proof.
  intros HW Hf. destruct (at_eval (fun g => reciprocal_pwl_vha pQ W I false g true) atan_vha_m atan_vha_c 15 6 18 51471 15 ltac:(lia) ltac:(lia) ltac:(lia) eq_refl eq_refl av_up av_0 av_P av_P1 pQ W I HW (fun z Hz => av_recip_ok pQ W I z HW Hz) f 0%Z ltac:(split; [lia|apply pow2_pos; lia])) as (n & En & Hn & E).
  unfold at_norm in En. destruct (at_exceeds W I 0) eqn:X; [apply at_exceeds_pos in X; lia|]. rewrite AbsProofs.conv_0 in En by (cbn [fW]; lia). injection En as <-. unfold atan_pwl_vha. rewrite E. change (avL 0) with 0%Z. rewrite AbsProofs.conv_0 by exact Hf. reflexivity.
Qed.
