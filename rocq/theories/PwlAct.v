(** Proofs about ac_sigmoid_pwl and ac_tanh_pwl. *)
From Coq Require Import Lia ZifyBool.
From Verif Require Import AcTypes AcFacts Spec SpecFacts ShiftFacts ShiftModel ShiftProofs LeadingModel SpecFloat DetProofs FlfxProofs PwlModel PwlFacts PwlProofs PwlSqrt.

Lemma conv_dfmt_pw W I s x F : conv (dfmt W I s) x F = wrap s W (x * pw (W - I - F) / pw (F - (W - I))).
Proof. rewrite conv_unfold. reflexivity. Qed.

(** floor (a / 2^F * 2^k) *)
Definition fl (a F k : Z) : Z := a * pw (k - F) / pw (F - k).
Lemma fl_mono a b F k : a <= b -> fl a F k <= fl b F k.
Proof. intros H. apply Z.div_le_mono; [apply pw_pos|]. pose proof (pw_pos (k - F)). nia. Qed.
Lemma fl_nonneg a F k : 0 <= a -> 0 <= fl a F k.
Proof. intros H. apply Z.div_pos; [|apply pw_pos]. pose proof (pw_pos (k - F)). nia. Qed.
(** Comparing with an integer c: a / 2^F < c iff the floor is below c * 2^k. *)
Lemma fl_lt a F k c : 0 <= k -> (a * pw (- F) < c * pw F <-> fl a F k < c * 2 ^ k).
Proof.
  intros Hk. unfold fl. destruct (Z.le_gt_cases F 0) as [L|L].
  - rewrite (pw_nonneg_eq (- F)), (pw_nonpos_eq F), (pw_nonneg_eq (k - F)), (pw_nonpos_eq (F - k)) by lia.
    rewrite Z.div_1_r. replace (k - F) with (k + - F) by lia. rewrite pow2_add by lia. pose proof (pow2_pos k Hk). nia.
  - rewrite (pw_nonpos_eq (- F)), (pw_nonneg_eq F) by lia. destruct (Z.le_gt_cases F k).
    + rewrite (pw_nonneg_eq (k - F)), (pw_nonpos_eq (F - k)) by lia. rewrite Z.div_1_r.
      rewrite (pow2_split k F) by lia. pose proof (pow2_pos (k - F) ltac:(lia)). nia.
    + rewrite (pw_nonpos_eq (k - F)), (pw_nonneg_eq (F - k)) by lia. rewrite (pow2_split F k) by lia.
      pose proof (pow2_pos (F - k) ltac:(lia)). pose proof (Z.div_mod (a * 1) (2 ^ (F - k)) ltac:(lia)) as D.
      pose proof (Z.mod_pos_bound (a * 1) (2 ^ (F - k)) ltac:(lia)). set (q := a * 1 / 2 ^ (F - k)) in *. set (u := c * 2 ^ k).
      replace (c * (2 ^ k * 2 ^ (F - k))) with (u * 2 ^ (F - k)) by (unfold u; ring). nia.
Qed.

(** ** Sigmoid *)
Notation sigY := (pw_lin sigmoid_m sigmoid_c 10).
Lemma sigY_mono a b : 0 <= a -> a <= b -> b < 8192 -> sigY a <= sigY b.
Proof. apply (pw_lin_up sigmoid_m sigmoid_c 10 8); [lia|vm_compute; reflexivity]. Qed.
Lemma sigY_range T : 0 <= T < 8192 -> 525312 <= sigY T <= 1042432.
Proof.
  intros HT. pose proof (sigY_mono 0 T ltac:(lia) ltac:(lia) ltac:(lia)) as H1. pose proof (sigY_mono T 8191 ltac:(lia) ltac:(lia) ltac:(lia)) as H2.
  change (sigY 0) with 525312 in H1. change (sigY 8191) with 1042426 in H2. set (v := sigY T) in *. lia.
Qed.

(** The value before conversion, in units of 2^-20, for a magnitude a and for a signed input. *)
Definition sig_pos (F a : Z) : Z := if 5 * pw F <=? a * pw (- F) then 2 ^ 20 - 1 else sigY (fl a F 10 * 819 / 2 ^ 9).
Definition sig_val (F x : Z) : Z := if x <? 0 then 2 ^ 20 - sig_pos F (- x) else sig_pos F x.

Lemma sig_T F a : 0 <= a -> a * pw (- F) < 5 * pw F -> 0 <= fl a F 10 < 5120 /\ 0 <= fl a F 10 * 819 / 2 ^ 9 < 8192.
Proof.
  intros Ha H. apply (fl_lt a F 10) in H; [|lia]. change (5 * 2 ^ 10) with 5120 in H. pose proof (fl_nonneg a F 10 Ha).
  split; [lia|]. split; [apply Z.div_pos; lia|]. apply Z.div_lt_upper_bound; lia.
Qed.
Lemma sig_pos_range F a : 0 <= a -> 525312 <= sig_pos F a <= 2 ^ 20 - 1.
Proof.
  intros Ha. unfold sig_pos. destruct (Z.leb_spec (5 * pw F) (a * pw (- F))); [lia|].
  destruct (sig_T F a Ha H) as [_ T]. pose proof (sigY_range _ T). lia.
Qed.
Lemma sig_pos_mono F a b : 0 <= a <= b -> sig_pos F a <= sig_pos F b.
Proof.
  intros H. pose proof (sig_pos_range F a ltac:(lia)). unfold sig_pos in *.
  destruct (Z.leb_spec (5 * pw F) (b * pw (- F))) as [L|L].
  { destruct (5 * pw F <=? a * pw (- F)); lia. }
  pose proof (pw_pos (- F)). assert (a * pw (- F) <= b * pw (- F)) by (apply Z.mul_le_mono_nonneg_r; lia).
  destruct (Z.leb_spec (5 * pw F) (a * pw (- F))); [lia|].
  destruct (sig_T F a ltac:(lia) ltac:(lia)) as [_ Ta]. destruct (sig_T F b ltac:(lia) ltac:(lia)) as [_ Tb].
  apply sigY_mono; [lia| |lia]. apply Z.div_le_mono; [lia|]. pose proof (fl_mono a b F 10 ltac:(lia)). lia.
Qed.
Lemma sig_val_range F x : 0 <= sig_val F x <= 2 ^ 20.
Proof.
  unfold sig_val. destruct (Z.ltb_spec x 0).
  - pose proof (sig_pos_range F (- x) ltac:(lia)). lia.
  - pose proof (sig_pos_range F x ltac:(lia)). lia.
Qed.
Lemma sig_val_mono F x y : x <= y -> sig_val F x <= sig_val F y.
Proof.
  intros H. unfold sig_val. destruct (Z.ltb_spec x 0), (Z.ltb_spec y 0); try lia.
  - pose proof (sig_pos_mono F (- y) (- x) ltac:(lia)). lia.
  - pose proof (sig_pos_range F (- x) ltac:(lia)). pose proof (sig_pos_range F y ltac:(lia)). lia.
  - apply sig_pos_mono. lia.
Qed.

Lemma sigmoid_eval pQ W I S f x : 1 <= W -> in_range S W x -> sigmoid_pwl pQ W I S f x = Some (conv f (sig_val (W - I) x) 20).
Proof.
  intros HW Hx. unfold sigmoid_pwl. destruct (abs_u_ok W I S x HW Hx) as [-> Ha]. set (F := W - I).
  rewrite !conv_dfmt_pw. change (14 - 4) with 10. fold (fl (Z.abs x) F 10). unfold wrap.
  change (pw (10 - (10 + 9))) with 1. change (pw (10 + 9 - 10)) with (2 ^ 9). rewrite Z.mul_1_r.
  set (t := wrapu 14 (wrapu 14 (fl (Z.abs x) F 10) * 819 / 2 ^ 9)).
  assert (Eneg : S && (x <? 0) = (x <? 0)).
  { destruct S; [reflexivity|]. unfold in_range, imin in Hx. lia. }
  rewrite Eneg.
  assert (EP : exists y, pwl_table sigmoid_m sigmoid_c 3 10 t = Some y /\
      (if 5 * pw F <=? Z.abs x * pw (- F) then imax false 20 else conv (Fmt 20 0 false pQ WRAP) y 20) = sig_pos F (Z.abs x)).
  { unfold sig_pos. destruct (Z.leb_spec (5 * pw F) (Z.abs x * pw (- F))) as [L|L].
    { destruct (table_total sigmoid_m sigmoid_c 3 10 t ltac:(lia) eq_refl eq_refl) as [y Ey]. exists y. split; [exact Ey|reflexivity]. }
    destruct (sig_T F (Z.abs x) ltac:(lia) L) as [T1 T2].
    unfold t. rewrite !(wrapu_id 14) by (rewrite ?(wrapu_id 14) by lia; lia).
    set (T := fl (Z.abs x) F 10 * 819 / 2 ^ 9) in *.
    rewrite (pwl_table_ok sigmoid_m sigmoid_c 3 10); [|lia|lia|reflexivity|reflexivity|lia].
    exists (sigY T). split; [reflexivity|]. pose proof (sigY_range T T2).
    apply conv_fits; [cbn; lia|reflexivity|reflexivity|]. unfold in_range, imin, imax; cbn [fS fW]. lia. }
  destruct EP as (y & -> & ->). unfold sig_val. destruct (Z.ltb_spec x 0) as [L|L].
  - rewrite Z.abs_neq by lia. pose proof (sig_pos_range F (- x) ltac:(lia)).
    rewrite (conv_fits (Fmt 20 0 false pQ WRAP)); [reflexivity|cbn; lia|reflexivity|reflexivity|]. unfold in_range, imin, imax; cbn [fS fW]. lia.
  - rewrite Z.abs_eq by lia. reflexivity.
Qed.

(** Conversion of values in a bounded interval. *)
Lemma conv_le_one f Y F : 1 <= fW f -> fS f = false -> 0 <= fF f -> 0 <= F -> 0 <= Y <= 2 ^ F -> 0 <= conv f Y F <= 2 ^ fF f.
Proof.
  intros HW HS HF HF2 HY. pose proof (conv_range f Y F HW) as R. rewrite HS in R. unfold in_range, imin, imax in R. split; [lia|].
  destruct (Z.le_gt_cases (fI f) 0) as [L|L].
  { unfold fF in *. assert (2 ^ fW f <= 2 ^ (fW f - fI f)) by (apply pow2_le; lia). lia. }
  rewrite conv_unfold, HS. set (z := qround (fQ f) (Y * pw (fF f - F)) (pw (F - fF f))).
  assert (Hz : 0 <= z <= 2 ^ fF f).
  { split; [apply qround_ge; [apply pw_pos|]; pose proof (pw_pos (fF f - F)); nia|].
    apply qround_le; [apply pw_pos|]. unfold pw. destruct (Z.le_gt_cases F (fF f)).
    - rewrite (Z.max_r 0), (Z.max_l 0) by lia. change (2 ^ 0) with 1. rewrite (pow2_split (fF f) F) by lia. pose proof (pow2_pos (fF f - F) ltac:(lia)). nia.
    - rewrite (Z.max_l 0), (Z.max_r 0) by lia. change (2 ^ 0) with 1. rewrite (pow2_split F (fF f)) in HY by lia. lia. }
  rewrite overflow_id; [lia|exact HW| |discriminate].
  unfold in_range, imin, imax. unfold fF in *. assert (2 ^ (fW f - fI f) < 2 ^ fW f) by (apply Z.pow_lt_mono_r; lia). lia.
Qed.

Lemma sigmoid_range pQ W I S f x out : 1 <= W -> 1 <= fW f -> fS f = false -> 0 <= fF f -> in_range S W x ->
  sigmoid_pwl pQ W I S f x = Some out -> 0 <= out <= 2 ^ fF f.
Proof.
  intros HW HfW HS HF Hx E. rewrite sigmoid_eval in E by assumption. injection E as <-. apply conv_le_one; try assumption; [lia|].
  apply sig_val_range.
Qed.
Lemma sigmoid_sym pQ W I f x : 1 <= W -> 1 <= fW f -> 0 < x < 2 ^ (W - 1) ->
  exists Y out1 out2, sigmoid_pwl pQ W I true f x = Some out1 /\ sigmoid_pwl pQ W I true f (- x) = Some out2 /\
    converts2 f Y (- 20) out1 /\ converts2 f (2 ^ 20 - Y) (- 20) out2 /\ 2 ^ 19 <= Y <= 2 ^ 20.
Proof.
  intros HW HfW Hx. do 3 eexists. split; [apply sigmoid_eval; [exact HW|unfold in_range, imin, imax; lia]|].
  split; [apply sigmoid_eval; [exact HW|unfold in_range, imin, imax; lia]|].
  split; [apply (conv_converts2 f _ (- 20) HfW)|]. 
  unfold sig_val. replace (- x <? 0) with true by lia. replace (x <? 0) with false by lia. rewrite Z.opp_involutive.
  split; [apply (conv_converts2 f _ (- 20) HfW)|]. pose proof (sig_pos_range (W - I) x ltac:(lia)). lia.
Qed.
Lemma sigmoid_mono pQ W I S f x y a b : 1 <= W -> 1 <= fW f -> fO f = SAT \/ fO f = SAT_SYM -> in_range S W x -> in_range S W y -> x <= y ->
  sigmoid_pwl pQ W I S f x = Some a -> sigmoid_pwl pQ W I S f y = Some b -> a <= b.
Proof.
  intros HW HfW HO Hx Hy H Ea Eb. rewrite sigmoid_eval in Ea, Eb by assumption. injection Ea as <-. injection Eb as <-.
  apply (conv_mono f _ (- 20) _ (- 20) HfW HO). apply dle_same. apply sig_val_mono. exact H.
Qed.
Lemma sigmoid_total pQ W I S f x : 1 <= W -> in_range S W x -> exists out, sigmoid_pwl pQ W I S f x = Some out.
Proof. intros HW Hx. eexists. apply sigmoid_eval; assumption. Qed.

(** ** Hyperbolic tangent *)
Notation tanhY := (pw_lin tanh_m tanh_c 10).
Lemma tanhY_mono a b : 0 <= a -> a <= b -> b < 12288 -> tanhY a <= tanhY b.
Proof. apply (pw_lin_up tanh_m tanh_c 10 12); [lia|vm_compute; reflexivity]. Qed.
Lemma tanhY_range T : 0 <= T < 12288 -> 1024 <= tanhY T <= 1043456.
Proof.
  intros HT. pose proof (tanhY_mono 0 T ltac:(lia) ltac:(lia) ltac:(lia)) as H1. pose proof (tanhY_mono T 12287 ltac:(lia) ltac:(lia) ltac:(lia)) as H2.
  change (tanhY 0) with 1024 in H1. change (tanhY 12287) with 1043453 in H2. set (v := tanhY T) in *. lia.
Qed.

Definition tanh_pos (F a : Z) : Z := if 3 * pw F <=? a * pw (- F) then 2 ^ 20 - 1 else tanhY (fl a F 12).
Definition tanh_val (F x : Z) : Z := if x <? 0 then - tanh_pos F (- x) else tanh_pos F x.

Lemma tanh_T F a : 0 <= a -> a * pw (- F) < 3 * pw F -> 0 <= fl a F 12 < 12288.
Proof. intros Ha H. apply (fl_lt a F 12) in H; [|lia]. change (3 * 2 ^ 12) with 12288 in H. pose proof (fl_nonneg a F 12 Ha). lia. Qed.
Lemma tanh_pos_range F a : 0 <= a -> 1024 <= tanh_pos F a <= 2 ^ 20 - 1.
Proof.
  intros Ha. unfold tanh_pos. destruct (Z.leb_spec (3 * pw F) (a * pw (- F))); [lia|].
  pose proof (tanhY_range _ (tanh_T F a Ha H)). lia.
Qed.
Lemma tanh_pos_mono F a b : 0 <= a <= b -> tanh_pos F a <= tanh_pos F b.
Proof.
  intros H. pose proof (tanh_pos_range F a ltac:(lia)). unfold tanh_pos in *.
  destruct (Z.leb_spec (3 * pw F) (b * pw (- F))) as [L|L].
  { destruct (3 * pw F <=? a * pw (- F)); lia. }
  pose proof (pw_pos (- F)). assert (a * pw (- F) <= b * pw (- F)) by (apply Z.mul_le_mono_nonneg_r; lia).
  destruct (Z.leb_spec (3 * pw F) (a * pw (- F))); [lia|].
  pose proof (tanh_T F a ltac:(lia) ltac:(lia)). pose proof (tanh_T F b ltac:(lia) ltac:(lia)).
  apply tanhY_mono; [lia|apply fl_mono; lia|lia].
Qed.
Lemma tanh_val_range F x : - 2 ^ 20 < tanh_val F x < 2 ^ 20.
Proof.
  unfold tanh_val. destruct (Z.ltb_spec x 0).
  - pose proof (tanh_pos_range F (- x) ltac:(lia)). lia.
  - pose proof (tanh_pos_range F x ltac:(lia)). lia.
Qed.
Lemma tanh_val_mono F x y : x <= y -> tanh_val F x <= tanh_val F y.
Proof.
  intros H. unfold tanh_val. destruct (Z.ltb_spec x 0), (Z.ltb_spec y 0); try lia.
  - pose proof (tanh_pos_mono F (- y) (- x) ltac:(lia)). lia.
  - pose proof (tanh_pos_range F (- x) ltac:(lia)). pose proof (tanh_pos_range F y ltac:(lia)). lia.
  - apply tanh_pos_mono. lia.
Qed.

(** The scaled input is floor (4 |x| 2^10) modulo 2^14. *)
Lemma tanh_scaled W I a : 1 <= W -> 0 <= a < 2 ^ W -> shift_left_ui W I (dfmt 14 4 false) a 2 = fl a (W - I) 12 mod 2 ^ 14.
Proof.
  intros HW Ha. rewrite shift_left_ui_ok by (assumption || reflexivity || (cbn; lia)).
  rewrite conv_dfmt_pw. unfold wrap, wrapu, fl. do 2 f_equal; [f_equal|]; f_equal; lia.
Qed.

Lemma tanh_index W I a : 1 <= W -> 0 <= a < 2 ^ W ->
  wrapu 4 (Z.shiftr (shift_left_ui W I (dfmt 14 4 false) a 2) 10) = fl a (W - I) 2 mod 16.
Proof.
  intros HW Ha. rewrite tanh_scaled by assumption. rewrite Z.shiftr_div_pow2 by lia. unfold wrapu. change (2 ^ 4) with 16.
  set (v := fl a (W - I) 12).
  assert (E : v / 2 ^ 10 = fl a (W - I) 2).
  { unfold v, fl. set (F := W - I). destruct (Z.le_gt_cases F 2).
    - rewrite (pw_nonneg_eq (12 - F)), (pw_nonpos_eq (F - 12)), (pw_nonneg_eq (2 - F)), (pw_nonpos_eq (F - 2)) by lia.
      rewrite !Z.div_1_r. replace (12 - F) with (2 - F + 10) by lia. rewrite pow2_add by lia. rewrite Z.mul_assoc, Z.div_mul by lia. reflexivity.
    - rewrite (pw_nonpos_eq (2 - F)), (pw_nonneg_eq (F - 2)) by lia. destruct (Z.le_gt_cases F 12).
      + rewrite (pw_nonneg_eq (12 - F)), (pw_nonpos_eq (F - 12)) by lia. rewrite Z.div_1_r, Z.mul_1_r.
        replace (2 ^ 10) with (2 ^ (F - 2) * 2 ^ (12 - F)) by (rewrite <- pow2_add by lia; f_equal; lia).
        pose proof (pow2_pos (12 - F) ltac:(lia)). pose proof (pow2_pos (F - 2) ltac:(lia)). rewrite Z.div_mul_cancel_r by lia. reflexivity.
      + rewrite (pw_nonpos_eq (12 - F)), (pw_nonneg_eq (F - 12)) by lia. rewrite Z.div_div by (try apply pow2_pos; try lia; pose proof (pow2_pos (F - 12)); lia).
        rewrite <- pow2_add by lia. do 2 f_equal. lia. }
  rewrite <- E. change (2 ^ 14) with (2 ^ 10 * 16). rewrite Z.rem_mul_r by lia.
  rewrite (Z.mul_comm (2 ^ 10) (_ mod 16)), Z.div_add by lia. rewrite (Z.div_small (v mod 2 ^ 10)) by (apply Z.mod_pos_bound; lia).
  rewrite Z.add_0_l, Z.mod_mod by lia. reflexivity.
Qed.

Lemma lut_none t i : Z.of_nat (length t) <= i -> lut t i = None.
Proof. intros H. unfold lut. replace (i <? 0) with false by lia. apply nth_error_None. lia. Qed.

(** The function is defined exactly when the wrapped index is below 12. *)
Lemma tanh_defined pQ W I S f x : 1 <= W -> in_range S W x ->
  (tanh_pwl pQ W I S f x = None <-> 12 <= fl (Z.abs x) (W - I) 2 mod 16).
Proof.
  intros HW Hx. unfold tanh_pwl. destruct (abs_u_ok W I S x HW Hx) as [-> Ha]. unfold pwl_table. rewrite tanh_index by assumption.
  set (i := fl (Z.abs x) (W - I) 2 mod 16). assert (0 <= i < 16) by (apply Z.mod_pos_bound; lia).
  destruct (Z.le_gt_cases 12 i) as [L|L].
  - rewrite lut_none by (cbn; lia). split; [lia|reflexivity].
  - rewrite !lut_ok by (cbn; lia). split; [discriminate|lia].
Qed.

Lemma tanh_eval pQ W I S f x out : 1 <= W -> in_range S W x -> tanh_pwl pQ W I S f x = Some out -> out = conv f (tanh_val (W - I) x) 20.
Proof.
  intros HW Hx. unfold tanh_pwl. destruct (abs_u_ok W I S x HW Hx) as [-> Ha]. rewrite tanh_scaled by assumption. set (F := W - I).
  assert (Eneg : S && (x <? 0) = (x <? 0)).
  { destruct S; [reflexivity|]. unfold in_range, imin in Hx. lia. }
  rewrite Eneg. destruct (pwl_table tanh_m tanh_c 4 10 (fl (Z.abs x) F 12 mod 2 ^ 14)) as [y|] eqn:Ey; [|discriminate].
  assert (EP : (if 3 * pw F <=? Z.abs x * pw (- F) then imax true 21 else conv (Fmt 21 1 true pQ WRAP) y 20) = tanh_pos F (Z.abs x)).
  { unfold tanh_pos. destruct (Z.leb_spec (3 * pw F) (Z.abs x * pw (- F))) as [L|L]; [reflexivity|].
    pose proof (tanh_T F (Z.abs x) ltac:(lia) L) as T. rewrite Z.mod_small in Ey by lia.
    unfold pwl_table in Ey. rewrite Z.shiftr_div_pow2 in Ey by lia.
    assert (0 <= fl (Z.abs x) F 12 / 2 ^ 10 < 12) by (split; [apply Z.div_pos; lia|apply Z.div_lt_upper_bound; lia]).
    rewrite (wrapu_id 4) in Ey by lia. rewrite !lut_ok in Ey by (unfold tanh_m, tanh_c; cbn [length]; lia). injection Ey as <-. unfold slc. rewrite Z.shiftr_0_r. unfold wrapu.
    match goal with |- conv _ ?e _ = _ => change e with (tanhY (fl (Z.abs x) F 12)) end.
    pose proof (tanhY_range _ T). set (v := tanhY (fl (Z.abs x) F 12)) in *. apply conv_fits; [cbn; lia|reflexivity|reflexivity|]. unfold in_range, imin, imax; cbn [fS fW].
    change (2 ^ (21 - 1)) with (2 ^ 20). lia. }
  rewrite EP. intros E. injection E as <-. unfold tanh_val. destruct (Z.ltb_spec x 0) as [L|L].
  - rewrite Z.abs_neq by lia. pose proof (tanh_pos_range F (- x) ltac:(lia)).
    rewrite (conv_fits (Fmt 21 1 true pQ WRAP)); [reflexivity|cbn; lia|reflexivity|reflexivity|]. unfold in_range, imin, imax; cbn [fS fW]. change (2 ^ (21 - 1)) with (2 ^ 20). lia.
  - rewrite Z.abs_eq by lia. reflexivity.
Qed.

(** Below 3 in magnitude every read is in the table. *)
Lemma tanh_small pQ W I S f x : 1 <= W -> in_range S W x -> Z.abs x * pw (- (W - I)) < 3 * pw (W - I) -> exists out, tanh_pwl pQ W I S f x = Some out.
Proof.
  intros HW Hx H. destruct (tanh_pwl pQ W I S f x) as [o|] eqn:E; [exists o; reflexivity|exfalso].
  apply tanh_defined in E; [|assumption|assumption]. apply (fl_lt (Z.abs x) (W - I) 2) in H; [|lia]. change (3 * 2 ^ 2) with 12 in H.
  pose proof (fl_nonneg (Z.abs x) (W - I) 2 ltac:(lia)). rewrite Z.mod_small in E by lia. lia.
Qed.

Lemma tanh_spec pQ W I S f x out : 1 <= W -> 1 <= fW f -> in_range S W x -> tanh_pwl pQ W I S f x = Some out ->
  exists Y, - 2 ^ 20 < Y < 2 ^ 20 /\ (0 < x -> 0 < Y) /\ (x < 0 -> Y < 0) /\ converts2 f Y (- 20) out.
Proof.
  intros HW HfW Hx E. apply tanh_eval in E; [|assumption|assumption]. exists (tanh_val (W - I) x).
  split; [apply tanh_val_range|]. split; [|split].
  - intros L. unfold tanh_val. replace (x <? 0) with false by lia. pose proof (tanh_pos_range (W - I) x ltac:(lia)). lia.
  - intros L. unfold tanh_val. replace (x <? 0) with true by lia. pose proof (tanh_pos_range (W - I) (- x) ltac:(lia)). lia.
  - subst out. apply (conv_converts2 f _ (- 20) HfW).
Qed.
Lemma tanh_odd pQ W I f x a b : 1 <= W -> 1 <= fW f -> 0 < x < 2 ^ (W - 1) ->
  tanh_pwl pQ W I true f x = Some a -> tanh_pwl pQ W I true f (- x) = Some b ->
  exists Y, converts2 f Y (- 20) a /\ converts2 f (- Y) (- 20) b.
Proof.
  intros HW HfW Hx Ea Eb. apply tanh_eval in Ea; [|assumption|unfold in_range, imin, imax; lia].
  apply tanh_eval in Eb; [|assumption|unfold in_range, imin, imax; lia]. exists (tanh_val (W - I) x). subst a b.
  split; [apply (conv_converts2 f _ (- 20) HfW)|]. unfold tanh_val. replace (- x <? 0) with true by lia. replace (x <? 0) with false by lia.
  rewrite Z.opp_involutive. apply (conv_converts2 f _ (- 20) HfW).
Qed.
Lemma tanh_mono pQ W I S f x y a b : 1 <= W -> 1 <= fW f -> fO f = SAT \/ fO f = SAT_SYM -> in_range S W x -> in_range S W y -> x <= y ->
  tanh_pwl pQ W I S f x = Some a -> tanh_pwl pQ W I S f y = Some b -> a <= b.
Proof.
  intros HW HfW HO Hx Hy H Ea Eb. apply tanh_eval in Ea; [|assumption|assumption]. apply tanh_eval in Eb; [|assumption|assumption]. subst a b.
  apply (conv_mono f _ (- 20) _ (- 20) HfW HO). apply dle_same. apply tanh_val_mono. exact H.
Qed.

(** |x| in [3 + 4j, 4 + 4j) is where the read is out of range. *)
Lemma tanh_oob_iff pQ W I S f x : 1 <= W -> in_range S W x ->
  (tanh_pwl pQ W I S f x = None <->
   exists j, 0 <= j /\ (3 + 4 * j) * pw (W - I) <= Z.abs x * pw (- (W - I)) < (4 + 4 * j) * pw (W - I)).
Proof.
  intros HW Hx. rewrite tanh_defined by assumption. set (F := W - I). set (a := Z.abs x).
  pose proof (fun c => fl_lt a F 2 c ltac:(lia)) as L. set (v := fl a F 2) in *. assert (0 <= v) by (apply fl_nonneg; unfold a; lia).
  change (2 ^ 2) with 4 in L. split.
  - intros H1. exists (v / 16). pose proof (Z.div_mod v 16 ltac:(lia)). pose proof (Z.mod_pos_bound v 16 ltac:(lia)).
    pose proof (L (3 + 4 * (v / 16))). pose proof (L (4 + 4 * (v / 16))). split; [apply Z.div_pos; lia|]. lia.
  - intros (j & Hj & H1). pose proof (L (3 + 4 * j)). pose proof (L (4 + 4 * j)).
    assert (v = 16 * j + (v - 16 * j)) by lia. rewrite <- (Z.mod_unique v 16 j (v - 16 * j)); lia.
Qed.

Lemma tanh_in_table_false : ~ (forall pQ W I S f x, 1 <= W -> in_range S W x -> tanh_pwl pQ W I S f x <> None).
Proof.
  intros H. apply (H TRN 16 8 true (Fmt 20 4 true RND SAT) 768); [lia| |vm_compute; reflexivity].
  unfold in_range. vm_compute. split; discriminate.
Qed.
