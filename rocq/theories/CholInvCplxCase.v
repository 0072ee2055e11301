(** A 3 x 3 case of the complex ac_cholinv: the conditions on the types hold, and the residual is below 1/1000. *)
From Coq Require Import Reals Lia Lra Psatz.
From Verif Require Import AcTypes AcFacts Spec SpecFacts SpecR SpecRFacts SpecLin SpecCplx SpecLinC RtTypes MatrixModel MatCplxModel SoftFacts
  CholModel CholReal CholThm CholStruct CholInv CholCplxModel CholCplxThm CholInvCplxModel CholInvCplx CholInvCplxThm.
Local Open Scope R_scope.

Definition f50_18 : fmt := Fmt 50 18 true RND SAT.
(** [[4 2-i i] [2+i 5 1-2i] [-i 1+2i 6]] *)
Definition hermi3 (i j : nat) : gi :=
  match i, j with
  | O, O => (262144, 0)%Z | 1%nat, O => (131072, 65536)%Z | O, 1%nat => (131072, -65536)%Z
  | 1%nat, 1%nat => (327680, 0)%Z | 2%nat, O => (0, -65536)%Z | O, 2%nat => (0, 65536)%Z
  | 2%nat, 1%nat => (65536, 131072)%Z | 1%nat, 2%nat => (65536, -131072)%Z | _, _ => (393216, 0)%Z end.

Lemma croom_case : let fi := imd_fmt f50_18 0 0 RND SAT in chol_types f50_18 fi /\ chol_room 3 fi 6 <= bpow2 (fI fi - 2) /\ 6 + chol_err 3 f50_18 fi 6 <= 5 / 2 * (5 / 2) /\
  46 / 100 + bpow2 (- fF f50_18) + INR (2 * 3) * bpow2 (- fF f50_18) <= 7 / 10 * (7 / 10) /\ inv_room (2 * 3) f50_18 f50_18 (5 / 2) (7 / 10) /\
  inv_err (2 * 3) f50_18 f50_18 (chol_err 3 f50_18 fi 6) (5 / 2) (7 / 10) <= 1 / 1000.
Proof.
  intros fi. assert (U : bpow2 (- (32)) = / 4294967296) by (rewrite bpow2_opp, bpow2_IZR by lia; reflexivity). assert (T : bpow2 17 = 131072) by (rewrite bpow2_IZR by lia; reflexivity). assert (T' : bpow2 16 = 65536) by (rewrite bpow2_IZR by lia; reflexivity).
  assert (CE : 0 <= chol_err 3 f50_18 fi 6 <= 60 / 4294967296).
  { unfold chol_err, chol_room. cbv zeta. change (fF fi) with 32%Z. change (fF f50_18) with 32%Z. rewrite U. cbn [INR Nat.add]. set (B := 6 + _). assert (HB : 6 <= B <= 601 / 100) by (unfold B; lra).
    assert (SQ : 0 <= sqrt B <= 5 / 2). { split; [apply sqrt_pos|]. apply Rsqr_incr_0_var; [|lra]. rewrite Rsqr_sqrt by lra. unfold Rsqr. lra. } clearbody B. set (q := sqrt B) in *. clearbody q. split; nra. }
  split; [|split; [|split; [|split; [|split]]]].
  - constructor; cbv; try reflexivity; try discriminate; split; discriminate.
  - unfold chol_room. change (fF fi) with 32%Z. change (fI fi - 2)%Z with 16%Z. rewrite U, T'. cbn [INR Nat.add]. lra.
  - lra.
  - change (fF f50_18) with 32%Z. rewrite U. cbn [INR Nat.mul Nat.add]. lra.
  - constructor; unfold inv_res, top; change (fF f50_18) with 32%Z; change (fI f50_18 - 1)%Z with 17%Z; rewrite ?U, ?T; cbn [INR Nat.mul Nat.add]; try reflexivity; try lia; try lra. cbv; discriminate.
  - unfold inv_err, inv_res. cbv zeta. change (fF f50_18) with 32%Z. rewrite U. cbn [INR Nat.mul Nat.add]. set (e := chol_err 3 f50_18 fi 6) in *. clearbody e. lra.
Qed.
Lemma ccholinv_case : exists out, ccholinv false false 100 3 f32_16 f50_18 f50_18 hermi3 (fun _ _ => (0, 0)%Z) (fun _ => 0%Z) 0 = Some out /\
  let P := fun i j => fxval (fst (hermi3 i j)) 16 in let N := fun i j => fxval (snd (hermi3 i j)) 16 in
  let X := fun i j => fxval (fst (out i j)) 32 in let Y := fun i j => fxval (snd (out i j)) 32 in
  forall i j, (i < 3)%nat -> (j < 3)%nat ->
    Rabs (sumR (fun k => P i k * X k j - N i k * Y k j) 3 - (if Nat.eqb i j then 1 else 0)) <= 1 / 1000 /\ Rabs (sumR (fun k => P i k * Y k j + N i k * X k j) 3) <= 1 / 1000.
Proof.
  destruct croom_case as (H1 & H2 & H3 & H4 & H5 & H6). assert (U : bpow2 (- (16)) = / 65536) by (rewrite bpow2_opp, bpow2_IZR by lia; reflexivity). assert (U' : bpow2 (- (32)) = / 4294967296) by (rewrite bpow2_opp, bpow2_IZR by lia; reflexivity).
  destruct (ccholinv_near 100 3 f32_16 f50_18 f50_18 hermi3 (fun _ _ => (0, 0)%Z) (fun _ => 0%Z) 0 6 (5 / 2) (7 / 10) (46 / 100) H1 ltac:(cbn; lia) H2) as (out & E & N); try assumption.
  - intros i j Hi Hj. destruct i as [|[|[|i]]]; try lia; destruct j as [|[|[|j]]]; try lia; cbn [hermi3 fst snd]; split; unfold fxval; ring.
  - intros i j Hi Hj. change (fF f32_16) with 16%Z. unfold fxval. rewrite U. destruct i as [|[|[|i]]]; try lia; destruct j as [|[|[|j]]]; try lia; cbn [hermi3 fst snd]; split; apply Rabs_le; lra.
  - exists out. split; [exact E|]. intros P N' X Y i j Hi Hj. cbv zeta in N. change (fF f32_16) with 16%Z in N. change (fF f50_18) with 32%Z in N.
    assert (D : forall k, (k < 3)%nat -> fxval (fst (out k k)) 32 <= 46 / 100).
    { assert (Q : match ccholinv false false 100 3 f32_16 f50_18 f50_18 hermi3 (fun _ _ => (0, 0)%Z) (fun _ => 0%Z) 0 with Some V => (fst (V 0%nat 0%nat) <=? 1975684956)%Z && (fst (V 1%nat 1%nat) <=? 1975684956)%Z && (fst (V 2%nat 2%nat) <=? 1975684956)%Z = true | None => False end) by (vm_compute; reflexivity).
      rewrite E in Q. apply andb_prop in Q as [Q Q3]. apply andb_prop in Q as [Q1 Q2]. apply Z.leb_le in Q1, Q2, Q3. apply IZR_le in Q1, Q2, Q3. intros k Hk. unfold fxval. rewrite U'. destruct k as [|[|[|k]]]; try lia; lra. }
    destruct (N D i j Hi Hj) as (N1 & N2 & _). split; (eapply Rle_trans; [eassumption|exact H6]).
Qed.
