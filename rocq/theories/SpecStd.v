(** IEEE-style floating-point patterns: what the tree of ac_std_float_add_tree.h is compared with.
    A W-bit pattern, read as an unsigned integer, holds from the top a sign bit, E exponent bits and W-E-1 fraction bits. *)
From Verif Require Import AcTypes Spec.

Definition sf_exp (W E d : Z) : Z := d / 2 ^ (W - E - 1) mod 2 ^ E.
Definition sf_man (W E d : Z) : Z := d mod 2 ^ (W - E - 1).
Definition sf_neg (W d : Z) : bool := 2 ^ (W - 1) <=? d.

(** The magnitude and the value of a finite pattern, in units of the smallest subnormal number. *)
Definition sf_mag (W E d : Z) : Z :=
  if sf_exp W E d =? 0 then sf_man W E d else (2 ^ (W - E - 1) + sf_man W E d) * 2 ^ (sf_exp W E d - 1).
Definition sf_val (W E d : Z) : Z := if sf_neg W d then - sf_mag W E d else sf_mag W E d.
(** The same when subnormal numbers count as zero. *)
Definition sf_val_flush (nosub : bool) (W E d : Z) : Z := if nosub && (sf_exp W E d =? 0) then 0 else sf_val W E d.

Definition sf_word (W d : Z) : Prop := 0 <= d < 2 ^ W.
Definition sf_finite (W E d : Z) : Prop := sf_word W d /\ sf_exp W E d < 2 ^ E - 1.
Definition sf_nan (W E d : Z) : Prop := sf_word W d /\ sf_exp W E d = 2 ^ E - 1 /\ sf_man W E d <> 0.
Definition sf_inf (W E : Z) (neg : bool) (d : Z) : Prop :=
  sf_word W d /\ sf_exp W E d = 2 ^ E - 1 /\ sf_man W E d = 0 /\ sf_neg W d = neg.

(** [float_rounds q W E n d r]: the pattern r is the non-zero rational n/d (d > 0, in units of the smallest subnormal number)
    rounded to the format.  The magnitude is rounded with mode q to a multiple z of 2^e, the unit in the last place of its
    binade (or of the subnormal numbers); beyond the largest finite number the result is infinite, or that largest number
    when the mode truncates. *)
Definition float_rounds (q : qmode) (W E n d r : Z) : Prop :=
  let mb := W - E - 1 in
  sf_word W r /\ sf_neg W r = (n <? 0) /\
  exists e z, 0 <= e /\ Z.abs n < 2 ^ (mb + 1 + e) * d /\ (e = 0 \/ 2 ^ (mb + e) * d <= Z.abs n) /\
    is_round q (Z.abs n) (d * 2 ^ e) z /\
    (if z * 2 ^ e <? 2 ^ (mb + 2 ^ E - 2) then sf_finite W E r /\ sf_mag W E r = z * 2 ^ e
     else match q with
          | TRN_ZERO => sf_finite W E r /\ sf_mag W E r = (2 ^ (mb + 1) - 1) * 2 ^ (2 ^ E - 3)
          | _ => sf_inf W E (n <? 0) r
          end).

(** The largest exponent field and the exact sum of a list of patterns. *)
Definition sf_maxexp (W E : Z) (xs : list Z) : Z := fold_right (fun d m => Z.max (sf_exp W E d) m) 0 xs.
Definition sf_sum (nosub : bool) (W E : Z) (xs : list Z) : Z := fold_right (fun d s => sf_val_flush nosub W E d + s) 0 xs.
