(** Proofs about the model of ac_array. *)
From Coq Require Import Lia.
From Verif Require Import AcTypes SpecMat MatrixModel.

Lemma upd_some {A} (d : list A) i v : (i < length d)%nat ->
  exists d', upd d i v = Some d' /\ length d' = length d /\
    forall j, nth_error d' j = if Nat.eqb j i then Some v else nth_error d j.
Proof.
  revert i. induction d as [|x d IH]; intros i H; cbn [length] in H; [lia|].
  destruct i as [|i]; cbn [upd].
  - eexists. split; [reflexivity|]. split; [reflexivity|]. intros [|j]; reflexivity.
  - destruct (IH i ltac:(lia)) as (d' & E & L & N). rewrite E. eexists. split; [reflexivity|]. split; [cbn; lia|].
    intros [|j]; [reflexivity|]. cbn [nth_error Nat.eqb]. apply N.
Qed.

Lemma upd_none {A} (d : list A) i v : (length d <= i)%nat -> upd d i v = None.
Proof.
  revert i. induction d as [|x d IH]; intros i H; cbn [length] in H; [reflexivity|].
  destruct i as [|i]; [lia|]. cbn [upd]. rewrite IH by lia. reflexivity.
Qed.

Lemma nth_error_ext {A} (a b : list A) : (forall i, nth_error a i = nth_error b i) -> a = b.
Proof.
  revert b. induction a as [|x a IH]; intros [|y b] H.
  - reflexivity.
  - specialize (H O). discriminate.
  - specialize (H O). discriminate.
  - f_equal; [specialize (H O); cbn in H; congruence|]. apply IH. intros i. exact (H (S i)).
Qed.

Section B.
  Context {T Td : Type} (assign : T -> Td -> T).

  Lemma arr_set_i_some d i v : (i < length d)%nat ->
    exists d', arr_set_i assign d i v = Some d' /\ length d' = length d /\
      forall j, nth_error d' j = if Nat.eqb j i then option_map (fun t => assign t v) (nth_error d j) else nth_error d j.
  Proof.
    intros H. unfold arr_set_i. destruct (nth_error d i) as [t|] eqn:E; [|apply nth_error_None in E; lia]. cbn [obind].
    destruct (upd_some d i (assign t v) H) as (d' & E' & L & N). exists d'. split; [exact E'|]. split; [exact L|].
    intros j. rewrite N. destruct (Nat.eqb_spec j i) as [->|]; [rewrite E|]; reflexivity.
  Qed.

  Lemma arr_set_i_none d i v : (length d <= i)%nat -> arr_set_i assign d i v = None.
  Proof. intros H. unfold arr_set_i. apply nth_error_None in H. rewrite H. reflexivity. Qed.

  Lemma fold_set_prefix v d k : (k <= length d)%nat ->
    exists d', fold_left (fun o i => obind o (fun d => arr_set_i assign d i v)) (seq 0 k) (Some d) = Some d' /\ length d' = length d /\
      forall j, nth_error d' j = if Nat.ltb j k then option_map (fun t => assign t v) (nth_error d j) else nth_error d j.
  Proof.
    induction k as [|k IH]; intros H.
    - exists d. repeat split.
    - destruct IH as (d' & E & L & N); [lia|]. rewrite seq_S, fold_left_app, E. cbn [fold_left obind plus].
      destruct (arr_set_i_some d' k v ltac:(lia)) as (d2 & E2 & L2 & N2). exists d2. split; [exact E2|]. split; [congruence|].
      intros j. rewrite N2, N. destruct (Nat.eqb_spec j k) as [->|NE].
      + replace (Nat.ltb k k) with false by (symmetry; apply Nat.ltb_irrefl).
        replace (Nat.ltb k (S k)) with true by (symmetry; apply Nat.ltb_lt; lia). reflexivity.
      + destruct (Nat.ltb_spec j k), (Nat.ltb_spec j (S k)); try reflexivity; lia.
  Qed.

  Lemma arr_set_map d v : arr_set assign d v = Some (map (fun t => assign t v) d).
  Proof.
    unfold arr_set. destruct (fold_set_prefix v d (length d) (le_n _)) as (d' & E & L & N). rewrite E. f_equal.
    apply nth_error_ext. intros i. rewrite N, nth_error_map. destruct (Nat.ltb_spec i (length d)) as [H|H]; [reflexivity|].
    apply nth_error_None in H. rewrite H. reflexivity.
  Qed.
End B.

Section N.
  Context {T : Type}.
  Lemma set1_map (d : list T) v : set1 d v = map (fun _ => v) d.
  Proof. unfold set1. rewrite arr_set_map. reflexivity. Qed.
  Lemma set2_map (d : list (list T)) v : set2 d v = map (map (fun _ => v)) d.
  Proof. unfold set2. rewrite arr_set_map. cbn [oget]. apply map_ext. intros r. apply set1_map. Qed.
  Lemma set3_map (d : list (list (list T))) v : set3 d v = map (map (map (fun _ => v))) d.
  Proof. unfold set3. rewrite arr_set_map. cbn [oget]. apply map_ext. intros r. apply set2_map. Qed.

  Lemma at1_set (d : list T) v i : at1 (set1 d v) i = option_map (fun _ => v) (at1 d i).
  Proof. rewrite set1_map. apply nth_error_map. Qed.
  Lemma at2_set (d : list (list T)) v i j : at2 (set2 d v) i j = option_map (fun _ => v) (at2 d i j).
  Proof. rewrite set2_map. unfold at2. rewrite nth_error_map. destruct (nth_error d i); cbn [option_map]; [apply nth_error_map|reflexivity]. Qed.
  Lemma at3_set (d : list (list (list T))) v i j k : at3 (set3 d v) i j k = option_map (fun _ => v) (at3 d i j k).
  Proof.
    rewrite set3_map. unfold at3. rewrite nth_error_map. destruct (nth_error d i) as [r|]; cbn [option_map]; [|reflexivity].
    rewrite <- set2_map. apply at2_set.
  Qed.

  Theorem fill_ok (d1 : list T) (d2 : list (list T)) (d3 : list (list (list T))) v :
    (forall i, at1 (set1 d1 v) i = if at1 d1 i then Some v else None) /\
    (forall i j, at2 (set2 d2 v) i j = if at2 d2 i j then Some v else None) /\
    (forall i j k, at3 (set3 d3 v) i j k = if at3 d3 i j k then Some v else None).
  Proof.
    repeat split; intros; rewrite ?at1_set, ?at2_set, ?at3_set; [destruct (at1 _ _)|destruct (at2 _ _ _)|destruct (at3 _ _ _ _)]; reflexivity.
  Qed.

  Theorem set_i_1 (d : list T) i v :
    (i < length d)%nat -> exists d', set1_i d i v = Some d' /\
    forall j, at1 d' j = if Nat.eqb j i then Some v else at1 d j.
  Proof.
    intros H. destruct (arr_set_i_some asg1 d i v H) as (d' & E & L & N). exists d'. split; [exact E|].
    intros j. unfold at1. rewrite N. destruct (Nat.eqb_spec j i) as [->|]; [|reflexivity].
    destruct (nth_error d i) eqn:E2; [reflexivity|]. apply nth_error_None in E2. lia.
  Qed.
  Theorem set_i_2 (d : list (list T)) i v :
    (i < length d)%nat -> exists d', set2_i d i v = Some d' /\
    forall j k, at2 d' j k = if Nat.eqb j i then if at2 d j k then Some v else None else at2 d j k.
  Proof.
    intros H. destruct (arr_set_i_some set1 d i v H) as (d' & E & L & N). exists d'. split; [exact E|].
    intros j k. unfold at2. rewrite N. destruct (Nat.eqb_spec j i) as [->|]; [|reflexivity].
    destruct (nth_error d i) as [r|]; cbn [option_map]; [|reflexivity]. destruct (fill_ok r [] [] v) as (F & _ & _). apply F.
  Qed.
  Theorem set_i_3 (d : list (list (list T))) i v :
    (i < length d)%nat -> exists d', set3_i d i v = Some d' /\
    forall j k l, at3 d' j k l = if Nat.eqb j i then if at3 d j k l then Some v else None else at3 d j k l.
  Proof.
    intros H. destruct (arr_set_i_some set2 d i v H) as (d' & E & L & N). exists d'. split; [exact E|].
    intros j k l. unfold at3. rewrite N. destruct (Nat.eqb_spec j i) as [->|]; [|reflexivity].
    destruct (nth_error d i) as [r|]; cbn [option_map]; [|reflexivity]. destruct (fill_ok [] r [] v) as (_ & F & _). apply F.
  Qed.

  Lemma fold_none {A B} (g : A -> B -> option A) l : fold_left (fun o b => obind o (fun a => g a b)) l None = None.
  Proof. induction l as [|x l IH]; [reflexivity|]. exact IH. Qed.

  Theorem run_ok (zero : T) (ops : list (arr_op T)) : forall d : list T, Forall (op_in_range (length d)) ops ->
    exists d', run zero d ops = Some d' /\ length d' = length d /\
      forall j x, at1 d j = Some x -> at1 d' j = Some (last_write zero ops j x).
  Proof.
    induction ops as [|op ops IH]; intros d HF.
    - exists d. repeat split. intros; assumption.
    - inversion HF as [|? ? H1 H2]; subst. unfold run. cbn [fold_left obind].
      assert (K : exists d1, run_op zero d op = Some d1 /\ length d1 = length d /\
        forall j x, at1 d j = Some x -> at1 d1 j = Some (match op with SetI i v => if Nat.eqb i j then v else x | SetAll v => v
          | ClearI i => if Nat.eqb i j then zero else x | ClearAll => zero end)).
      { destruct op as [i v|v|i|]; cbn [run_op op_in_range] in *.
        - destruct (arr_set_i_some asg1 d i v H1) as (d1 & E & L & N). exists d1. split; [exact E|]. split; [exact L|].
          intros j x Hx. unfold at1 in *. rewrite N, Hx, (Nat.eqb_sym i j). destruct (Nat.eqb j i); reflexivity.
        - rewrite arr_set_map. eexists. split; [reflexivity|]. split; [apply map_length|].
          intros j x Hx. unfold at1 in *. rewrite nth_error_map, Hx. reflexivity.
        - destruct (arr_set_i_some asg1 d i zero H1) as (d1 & E & L & N). exists d1. split; [exact E|]. split; [exact L|].
          intros j x Hx. unfold at1 in *. rewrite N, Hx, (Nat.eqb_sym i j). destruct (Nat.eqb j i); reflexivity.
        - change (arr_clear_all asg1 zero d) with (arr_set asg1 d zero). rewrite arr_set_map. eexists. split; [reflexivity|]. split; [apply map_length|].
          intros j x Hx. unfold at1 in *. rewrite nth_error_map, Hx. reflexivity. }
      destruct K as (d1 & E1 & L1 & N1). rewrite E1.
      destruct (IH d1) as (d2 & E2 & L2 & N2); [rewrite L1; exact H2|]. exists d2. split; [exact E2|]. split; [congruence|].
      intros j x Hx. apply N2. apply N1. exact Hx.
  Qed.

  Theorem set_i_out (d : list T) i v : (length d <= i)%nat -> set1_i d i v = None.
  Proof. apply arr_set_i_none. Qed.

  (** Comparison. *)
  Variable neq : T -> T -> bool.
  Hypothesis Hneq : forall x y, neq x y = false <-> x = y.

  Lemma arr_eq_gen {A} (ne : A -> A -> bool) (P : A -> Prop) (Hne : forall x y, P x -> P y -> ne x y = false <-> x = y) a :
    forall b, length a = length b -> (forall x, In x a -> P x) -> (forall x, In x b -> P x) -> arr_eq ne a b = true <-> a = b.
  Proof.
    induction a as [|x a IH]; intros [|y b] L PA PB; cbn [length] in L; try discriminate; cbn [arr_eq]; [tauto|].
    assert (Px : P x) by (apply PA; left; reflexivity). assert (Py : P y) by (apply PB; left; reflexivity).
    destruct (ne x y) eqn:E.
    - split; intros H; [discriminate|]. injection H as -> _. rewrite (proj2 (Hne y y Py Py) eq_refl) in E. discriminate.
    - apply (Hne x y Px Py) in E. subst y. rewrite IH; [split; congruence|lia| |]; intros z Hz; [apply PA|apply PB]; right; assumption.
  Qed.

  Theorem eq1_ok a b : length a = length b -> eq1 neq a b = true <-> a = b.
  Proof. intros L. apply (arr_eq_gen neq (fun _ => True)); auto. Qed.

  Theorem eq2_ok D1 D2 a b : shape2 D1 D2 a -> shape2 D1 D2 b -> eq2 neq a b = true <-> a = b.
  Proof.
    intros [LA SA] [LB SB]. apply (arr_eq_gen (arr_ne neq) (fun r => length r = D2)); auto; [|congruence].
    intros x y Hx Hy. unfold arr_ne. rewrite Bool.negb_false_iff. apply eq1_ok. congruence.
  Qed.

  Theorem eq3_ok D1 D2 D3 a b : shape3 D1 D2 D3 a -> shape3 D1 D2 D3 b -> eq3 neq a b = true <-> a = b.
  Proof.
    intros [LA SA] [LB SB]. apply (arr_eq_gen (arr_ne (arr_ne neq)) (shape2 D2 D3)); auto; [|congruence].
    intros x y Hx Hy. unfold arr_ne at 1. rewrite Bool.negb_false_iff. apply (eq2_ok D2 D3); assumption.
  Qed.
End N.

Theorem ne1_ok {T} (neq : T -> T -> bool) (H : forall x y, neq x y = false <-> x = y) a : forall b,
  length a = length b -> arr_ne neq a b = true <-> exists i, (i < length a)%nat /\ at1 a i <> at1 b i.
Proof.
  intros b L. unfold arr_ne. rewrite Bool.negb_true_iff. split.
  - revert b L. induction a as [|x a IH]; intros [|y b] L E; cbn [length] in L; try discriminate. cbn [arr_eq] in E.
    destruct (neq x y) eqn:Exy.
    + exists O. split; [cbn; lia|]. unfold at1. cbn. intros X. injection X as ->. rewrite (proj2 (H y y) eq_refl) in Exy. discriminate.
    + destruct (IH b ltac:(lia) E) as (i & Hi & D). exists (S i). split; [cbn; lia|exact D].
  - intros (i & Hi & D). destruct (arr_eq neq a b) eqn:E; [|reflexivity]. apply (eq1_ok neq H a b L) in E. subst. contradiction.
Qed.
