(** The tangent theorems with the condition on the input type in terms of its width and integer width. *)
From Coq Require Import Reals Lia Lra.
From Verif Require Import AcTypes AcFacts Spec SpecR PwlModel TanPwlModel TanPwlProofs TanPwlThm.

(** The internal type has a bit. *)
Lemma tan_width W I : 1 <= W -> 1 <= tan_Wi W I <-> -18 <= I <= W + 1.
Proof. intros H. unfold tan_Wi, tan_Ii, tan_nf. destruct (Z.leb_spec 0 I); cbn [b2z]; lia. Qed.

Theorem tan_accuracy_dom pQ W I Q O f x :
  1 <= W -> -18 <= I <= W + 1 ->
  (1 <= I \/ W - I <= 19 \/ Q = TRN \/ Q = TRN_ZERO \/ O = SAT \/ O = SAT_SYM) ->
  1 <= fW f -> 0 <= x < 2 ^ W ->
  let X := fxval x (W - I) in (X < 1594 / 1024)%R ->
  exists out V, tan_pwl pQ W I Q O f x = Some out /\ convertsR f V out /\
    (Rabs (V - tan X) <= (if Rlt_dec X (804 / 1024) then 0.00275 else (if Rle_dec X 1.4 then 0.012 else 0.05) * tan X))%R.
Proof. intros HW HI. apply tan_accuracy; [exact HW|]. apply tan_width; assumption. Qed.
Theorem tan_zero_dom pQ W I Q O f : 1 <= W -> -18 <= I <= W + 1 -> 1 <= fW f -> tan_pwl pQ W I Q O f 0 = Some 0.
Proof. intros HW HI. apply tan_zero; [exact HW|]. apply tan_width; assumption. Qed.
Theorem tan_increasing_dom pQ W I Q O f x y a b : 1 <= W -> -18 <= I <= W + 1 ->
  (1 <= I \/ W - I <= 19 \/ Q = TRN \/ Q = TRN_ZERO \/ O = SAT \/ O = SAT_SYM) ->
  1 <= fW f -> (fO f = SAT \/ fO f = SAT_SYM) -> 0 <= x <= y -> y < 2 ^ W ->
  tan_pwl pQ W I Q O f x = Some a -> tan_pwl pQ W I Q O f y = Some b -> a <= b.
Proof. intros HW HI. apply tan_increasing; [exact HW|]. apply tan_width; assumption. Qed.
