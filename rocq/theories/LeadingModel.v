(** Models of include/ac_math/ac_leading.h, ac_leading_ones_tmpl.h, ac_barrel_shift.h and ac_normalize.h.  No proofs here. *)
From Verif Require Import AcTypes.

(** [for (int i = 0; i < n; i++) rev[i] = g(i)] on an uninitialised (here 0) w-bit value. *)
Definition fill_bits (w n : Z) (g : Z -> bool) : Z :=
  fold_left (fun rev i => set_bit false w i (g i) rev) (map Z.of_nat (seq 0 (Z.to_nat n))) 0.

(** The common tail of the four searches: [ls] = x.leading_sign(all_sign) of the unsigned w-bit value x, held in
    nbits(lw) bits; the flag test and the two returns, converted to rw bits.  [up] selects w-1-ls or ls.
    ac_leading.h:75-80, 93-98, 107-112, 125-130, 146-151, 166-171, 182-190, 204-209. *)
Definition lead_tail (w lw rw : Z) (up : bool) (x : Z) : Z * bool :=
  let all_sign := leading_sign_u w x =? w in
  let ls := wrapu (nbits lw) (leading_sign_u w x) in
  let flag := negb (w =? ls) in
  (if all_sign then 0 else wrapu (nbits rw) (if up then w - 1 - ls else ls), flag).

(** ac_leading.h:71-81 (ac_int) and 219-229 (ac_fixed). *)
Definition leading1_u (W din : Z) : Z * bool := lead_tail W W W true din.
(** ac_leading.h:84-99, 232-247. *)
Definition trailing1_u (W din : Z) : Z * bool :=
  lead_tail W W (W - 1) false (fill_bits W W (fun i => Z.testbit din (W - 1 - i))).
(** ac_leading.h:102-113, 250-261. *)
Definition leading0_u (W din : Z) : Z * bool := lead_tail W W (W - 1) true (wrapu W (Z.lnot din)).
(** ac_leading.h:116-131, 264-279. *)
Definition trailing0_u (W din : Z) : Z * bool :=
  lead_tail W W (W - 1) false (fill_bits W W (fun i => negb (Z.testbit din (W - 1 - i)))).

(** ac_leading.h:140-152, 288-300. *)
Definition leading1_s (W din : Z) : Z * bool := lead_tail (W - 1) W W true (slc (W - 1) 0 din).
(** ac_leading.h:155-172, 303-320. *)
Definition trailing1_s (W din : Z) : Z * bool :=
  let t := slc (W - 1) 0 din in
  lead_tail (W - 1) W (W - 1) false (fill_bits (W - 1) (W - 1) (fun i => Z.testbit t (W - 2 - i))).
(** ac_leading.h:175-191, 323-339.  [~slc] has W bits and is stored in W-1 bits. *)
Definition leading0_s (W din : Z) : Z * bool :=
  lead_tail (W - 1) (W - 1) (W - 1) true (wrapu (W - 1) (Z.lnot (slc (W - 1) 0 din))).
(** ac_leading.h:194-210, 342-358. *)
Definition trailing0_s (W din : Z) : Z * bool :=
  let t := wrapu (W - 1) (Z.lnot (slc (W - 1) 0 din)) in
  lead_tail (W - 1) W (W - 1) false (fill_bits (W - 1) (W - 1) (fun i => Z.testbit t (W - 2 - i))).

(** ac::log2_ceil<n>::val. *)
Definition log2_ceil (n : Z) : Z := Z.log2_up n.

(** ac_leading_ones_tmpl.h, the template recursion on N_BITS; [fuel] bounds the template depth. *)
Definition ones_P2 (N : Z) : Z := nbits ((N + 1) / 2).
Fixpoint ones_idx (fuel : nat) (N din : Z) : Z :=
  match fuel with
  | O => 0
  | S fuel =>
      if N =? 1 then 0
      else
        let P2 := ones_P2 N in
        let upper := slc (N - P2) P2 din in
        let lower := slc P2 0 din in
        wrapu (log2_ceil N)
          (if negb (upper =? 0) then Z.lor (ones_idx fuel (N - P2) upper) P2 else ones_idx fuel P2 lower)
  end.
(** ac_leading_ones<N>(din, dout): (returned flag, dout). *)
Definition leading_ones (N din : Z) : bool * Z :=
  (if N =? 1 then Z.testbit din 0 else negb (din =? 0), ones_idx (Z.to_nat N) N din).

(** ac_barrel_shift.h, shift_layer: the value concatenated with itself, shifted right by 2^i when s[i] is set. *)
Definition shift_layer (N din s i : Z) : Z :=
  let tmp := Z.lor din (Z.shiftl din N) in
  let tmp := if Z.testbit s i then shr false (2 * N) tmp (Z.shiftl 1 i) else tmp in
  slc N 0 tmp.
(** ac_barrel_shift.h, ac_barrel_shift. *)
Definition barrel_shift (N din s : Z) : Z :=
  fold_left (fun d i => shift_layer N d s i) (map Z.of_nat (seq 0 (Z.to_nat (nbits (N - 1))))) din.

(** ac_normalize.h:122-154: (returned exponent, normalised mantissa). [O] is the overflow mode of the output. *)
Definition normalize (W I : Z) (S : bool) (O : omode) (x : Z) : Z * Z :=
  let l := leading_sign S W x in
  let t := shl S W x l in
  (if negb (x =? 0) then I - b2z S - l else 0, overflow O S W t).

(** ac_normalize.h:213-257: (exponent, (real, imaginary) mantissas). *)
Definition normalize_cplx (W I : Z) (S : bool) (O : omode) (x y : Z) : Z * (Z * Z) :=
  let mag v := if S then if 0 <=? v then v else Z.lnot v else v in
  let l := leading_sign S W (Z.lor (mag x) (mag y)) in
  (if negb ((x =? 0) && (y =? 0)) then I - b2z S - l else 0,
   (overflow O S W (shl S W x l), overflow O S W (shl S W y l))).
