(** Model of include/ac_math/ac_shift.h.  No proofs here. *)
From Verif Require Import AcTypes.

(** ac_shift.h:141-142, 178-179, 339-340: R_BIT and R_HALF of the unsigned overloads. *)
Definition r_bit_u (q : qmode) : Z := match q with TRN | TRN_ZERO => 0 | _ => 1 end.
Definition r_half_u (q : qmode) : Z :=
  match q with TRN | TRN_ZERO | RND | RND_INF => 0 | _ => 1 end.
(** ac_shift.h:222-223, 259-260, 418-419: R_BIT and R_HALF of the signed overloads. *)
Definition r_bit_s (q : qmode) : Z := match q with TRN => 0 | _ => 1 end.
Definition r_half_s (q : qmode) : Z := match q with TRN | RND => 0 | _ => 1 end.
(** ac_shift.h:180, 303, 341: S_OVER, unsigned.  ac_shift.h:261, 381, 420: S_OVER, signed. *)
Definition s_over_u (o : omode) : Z := match o with WRAP => 0 | _ => 1 end.
Definition s_over_s (o : omode) : Z := match o with WRAP => 1 | _ => 2 end.

(** The mask of x bits that leave the temporary type: an all-ones value of type
    ac_fixed<TW,TI,false> shifted by [n] to the left, cast to the input type and complemented
    (ac_shift.h:156-158, 192-194, 237-239, 273-275; with -n: 317-319, 353-355, 394-396, 432-434). *)
Definition shift_mask (XW XI : Z) (S : bool) (TW TI n : Z) : Z :=
  let m0 := conv (dfmt TW TI false) (Z.lnot 0) (TW - TI) in
  let m1 := shl false TW m0 n in
  conv (dfmt XW XI S) (Z.lnot (conv (dfmt XW XI S) m1 (TW - TI))) (XW - XI).

Definition nz (x : Z) : bool := negb (x =? 0).

(** ac_shift.h:137-162: ac_shift_right, unsigned x, unsigned count.
    [n] is the 32-bit unsigned argument; [un = 0x7FFFFFFF & n]. *)
Definition shift_right_uu (XW XI : Z) (f : fmt) (x n : Z) : Z :=
  let RB := r_bit_u (fQ f) in
  let RH := r_half_u (fQ f) in
  let TF := Z.max (XW - XI) (fW f - fI f + RB) in
  let TI := XI in
  let TW := TI + TF in
  let un := Z.land 2147483647 n in
  let t := shr false TW (conv (dfmt TW TI false) x (XW - XI)) un in
  let t2 := conv (dfmt (TW + RH) TI false) t TF in
  let t2 := if RH =? 0 then t2
            else set_bit false (TW + RH) 0 (nz (Z.land x (shift_mask XW XI false TW TI un))) t2 in
  conv f t2 (TF + RH).

(** ac_shift.h:174-206: ac_shift_right, unsigned x, int count. *)
Definition shift_right_ui (XW XI : Z) (f : fmt) (x n : Z) : Z :=
  let RB := r_bit_u (fQ f) in
  let RH := r_half_u (fQ f) in
  let SO := s_over_u (fO f) in
  let TF := Z.max (XW - XI) (fW f - fI f + RB) in
  let TI := Z.max XI (fI f) in
  let TW := TI + TF in
  let t := shr false TW (conv (dfmt TW TI false) x (XW - XI)) n in
  let W2 := TW + RH + SO in
  let t2 := conv (dfmt W2 (TI + SO) false) t TF in
  let mask := shift_mask XW XI false TW TI n in
  let t2 := if (RH =? 0) && (SO =? 0) then t2
            else if 0 <=? n
                 then if RH =? 0 then t2 else set_bit false W2 0 (nz (Z.land x mask)) t2
                 else if SO =? 0 then t2 else set_bit false W2 (W2 - 1) (nz (Z.land x mask)) t2 in
  conv f t2 (TF + RH).

(** ac_shift.h:218-243: ac_shift_right, signed x, unsigned count.
    The data shift uses [n], the mask uses [un = 0x7FFFFFFF & n]. *)
Definition shift_right_su (XW XI : Z) (f : fmt) (x n : Z) : Z :=
  let RB := r_bit_s (fQ f) in
  let RH := r_half_s (fQ f) in
  let TF := Z.max (XW - XI) (fW f - fI f + RB) in
  let TI := XI in
  let TW := TI + TF in
  let t := shr true TW (conv (dfmt TW TI true) x (XW - XI)) n in
  let un := Z.land 2147483647 n in
  let t2 := conv (dfmt (TW + RH) TI true) t TF in
  let t2 := if RH =? 0 then t2
            else set_bit true (TW + RH) 0 (nz (Z.land x (shift_mask XW XI true TW TI un))) t2 in
  conv f t2 (TF + RH).

(** The overflow bits of the signed overloads, ac_shift.h:281-283, 397-399, 439-441:
    the top bit becomes x's sign; if the mask is non-zero the next bit tells whether the bits of x
    under the mask are all ones (negative x) or contain a one (non-negative x). *)
Definition set_over_s (XW x mask W2 : Z) (two : bool) (t2 : Z) : Z :=
  let xs := Z.testbit x (XW - 1) in
  let t2 := set_bit true W2 (W2 - 1) xs t2 in
  if two && nz mask
  then set_bit true W2 (W2 - 2)
         (nz (Z.land x mask) && negb (nz (Z.land (Z.lnot x) mask) && xs)) t2
  else t2.

(** ac_shift.h:255-287: ac_shift_right, signed x, int count. *)
Definition shift_right_si (XW XI : Z) (f : fmt) (x n : Z) : Z :=
  let RB := r_bit_s (fQ f) in
  let RH := r_half_s (fQ f) in
  let SO := s_over_s (fO f) in
  let TF := Z.max (XW - XI) (fW f - fI f + RB) in
  let TI := Z.max XI (fI f) in
  let TW := TI + TF in
  let t := shr true TW (conv (dfmt TW TI true) x (XW - XI)) n in
  let W2 := TW + RH + SO in
  let t2 := conv (dfmt W2 (TI + SO) true) t TF in
  let mask := shift_mask XW XI true TW TI n in
  let t2 := if (RH =? 0) && negb (SO =? 2) then t2
            else if 0 <=? n
                 then if RH =? 0 then t2 else set_bit true W2 0 (nz (Z.land x mask)) t2
                 else set_over_s XW x mask W2 (SO =? 2) t2 in
  conv f t2 (TF + RH).

(** ac_shift.h:299-323: ac_shift_left, unsigned x, unsigned count. *)
Definition shift_left_uu (XW XI : Z) (f : fmt) (x n : Z) : Z :=
  let SO := s_over_u (fO f) in
  let TF := XW - XI in
  let TI := Z.max XI (fI f) in
  let TW := TI + TF in
  let t := shl false TW (conv (dfmt TW TI false) x (XW - XI)) n in
  let W2 := TW + SO in
  let t2 := conv (dfmt W2 (TI + SO) false) t TF in
  let t2 := if SO =? 0 then t2
            else set_bit false W2 (W2 - 1)
                   (nz (Z.land x (shift_mask XW XI false TW TI (- n)))) t2 in
  conv f t2 TF.

(** ac_shift.h:335-365: ac_shift_left, unsigned x, int count. *)
Definition shift_left_ui (XW XI : Z) (f : fmt) (x n : Z) : Z :=
  let RB := r_bit_u (fQ f) in
  let RH := r_half_u (fQ f) in
  let SO := s_over_u (fO f) in
  let TF := Z.max (XW - XI) (fW f - fI f + RB) in
  let TI := Z.max XI (fI f) in
  let TW := TI + TF in
  let t := shl false TW (conv (dfmt TW TI false) x (XW - XI)) n in
  let W2 := TW + RH + SO in
  let t2 := conv (dfmt W2 (TI + SO) false) t TF in
  let mask := shift_mask XW XI false TW TI (- n) in
  let t2 := if (RH =? 0) && (SO =? 0) then t2
            else if n <? 0
                 then if RH =? 0 then t2 else set_bit false W2 0 (nz (Z.land x mask)) t2
                 else if SO =? 0 then t2 else set_bit false W2 (W2 - 1) (nz (Z.land x mask)) t2 in
  conv f t2 (TF + RH).

(** ac_shift.h:377-402: ac_shift_left, signed x, unsigned count. *)
Definition shift_left_su (XW XI : Z) (f : fmt) (x n : Z) : Z :=
  let SO := s_over_s (fO f) in
  let TF := XW - XI in
  let TI := Z.max XI (fI f) in
  let TW := TI + TF in
  let t := shl true TW (conv (dfmt TW TI true) x (XW - XI)) n in
  let W2 := TW + SO in
  let t2 := conv (dfmt W2 (TI + SO) true) t TF in
  let t2 := if SO =? 2
            then set_over_s XW x (shift_mask XW XI true TW TI (- n)) W2 true t2
            else t2 in
  conv f t2 TF.

(** ac_shift.h:414-445: ac_shift_left, signed x, int count. *)
Definition shift_left_si (XW XI : Z) (f : fmt) (x n : Z) : Z :=
  let RB := r_bit_s (fQ f) in
  let RH := r_half_s (fQ f) in
  let SO := s_over_s (fO f) in
  let TF := Z.max (XW - XI) (fW f - fI f + RB) in
  let TI := Z.max XI (fI f) in
  let TW := TI + TF in
  let t := shl true TW (conv (dfmt TW TI true) x (XW - XI)) n in
  let W2 := TW + RH + SO in
  let t2 := conv (dfmt W2 (TI + SO) true) t TF in
  let mask := shift_mask XW XI true TW TI (- n) in
  let t2 := if (RH =? 0) && negb (SO =? 2) then t2
            else if n <? 0
                 then if RH =? 0 then t2 else set_bit true W2 0 (nz (Z.land x mask)) t2
                 else set_over_s XW x mask W2 (SO =? 2) t2 in
  conv f t2 (TF + RH).

(** ac_shift.h:457-485: complex overloads shift both parts with the unsigned-count overload. *)
Definition shift_right_c (XW XI : Z) (S : bool) (f : fmt) (x : Z * Z) (n : Z) : Z * Z :=
  let sh := if S then shift_right_su XW XI f else shift_right_uu XW XI f in
  (sh (fst x) n, sh (snd x) n).
Definition shift_left_c (XW XI : Z) (S : bool) (f : fmt) (x : Z * Z) (n : Z) : Z * Z :=
  let sh := if S then shift_left_su XW XI f else shift_left_uu XW XI f in
  (sh (fst x) n, sh (snd x) n).
