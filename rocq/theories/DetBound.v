(** Bound of the 3x3 determinant over a two's complement range: linear in each entry, so largest at a vertex. *)
From Coq Require Import Lia.
From Verif Require Import AcTypes.

Lemma lin_bound (f : Z -> Z) lo hi B x : (forall x, f x = f 0 + x * (f 1 - f 0)) -> f lo <= B -> f hi <= B -> lo <= x <= hi -> f x <= B.
Proof.
  intros L Hl Hh Hx. rewrite (L lo) in Hl; rewrite (L hi) in Hh; rewrite (L x). clear L. revert Hl Hh. generalize (f 1 - f 0). generalize (f 0). intros a b H1 H2. destruct (Z.le_gt_cases 0 b); nia.
Qed.
Definition det3_poly a b c d e f g h i := a * (e * i - f * h) - b * (d * i - f * g) + c * (d * h - e * g).
Lemma det3_upper h x1 x2 x3 y1 y2 y3 z1 z2 z3 : 1 <= h ->
 -h <= x1 <= h-1 -> -h <= x2 <= h-1 -> -h <= x3 <= h-1 -> -h <= y1 <= h-1 -> -h <= y2 <= h-1 -> -h <= y3 <= h-1 -> -h <= z1 <= h-1 -> -h <= z2 <= h-1 -> -h <= z3 <= h-1 ->
 det3_poly x1 x2 x3 y1 y2 y3 z1 z2 z3 <= 4 * h*h*h - 1.
Proof.
  intros Hh H1 H2 H3 H4 H5 H6 H7 H8 H9.
  apply (lin_bound (fun x1 => det3_poly x1 x2 x3 y1 y2 y3 z1 z2 z3) (-h) (h-1)); [intros; unfold det3_poly; ring| | |assumption]; cbv beta;
  (apply (lin_bound (fun x2 => det3_poly _ x2 x3 y1 y2 y3 z1 z2 z3) (-h) (h-1)); [intros; unfold det3_poly; ring| | |assumption]; cbv beta);
  (apply (lin_bound (fun x3 => det3_poly _ _ x3 y1 y2 y3 z1 z2 z3) (-h) (h-1)); [intros; unfold det3_poly; ring| | |assumption]; cbv beta);
  (apply (lin_bound (fun x => det3_poly _ _ _ x y2 y3 z1 z2 z3) (-h) (h-1)); [intros; unfold det3_poly; ring| | |assumption]; cbv beta);
  (apply (lin_bound (fun x => det3_poly _ _ _ _ x y3 z1 z2 z3) (-h) (h-1)); [intros; unfold det3_poly; ring| | |assumption]; cbv beta);
  (apply (lin_bound (fun x => det3_poly _ _ _ _ _ x z1 z2 z3) (-h) (h-1)); [intros; unfold det3_poly; ring| | |assumption]; cbv beta);
  (apply (lin_bound (fun x => det3_poly _ _ _ _ _ _ x z2 z3) (-h) (h-1)); [intros; unfold det3_poly; ring| | |assumption]; cbv beta);
  (apply (lin_bound (fun x => det3_poly _ _ _ _ _ _ _ x z3) (-h) (h-1)); [intros; unfold det3_poly; ring| | |assumption]; cbv beta);
  (apply (lin_bound (fun x => det3_poly _ _ _ _ _ _ _ _ x) (-h) (h-1)); [intros; unfold det3_poly; ring| | |assumption]; cbv beta);
  clear - Hh; unfold det3_poly; nia.
Qed.
