(** Model of the piecewise-linear tangent ac_tan_pwl, ac_fixed overload.  No proofs here.
    Conventions as in PwlModel.v: table values are integers, a read outside a table gives [None]. *)
From Verif Require Import AcTypes ShiftModel LeadingModel PwlModel.

(** ac_tan_pwl.h:162-163. *)
Definition tan_m : list Z := [101; 102; 107; 113; 123; 136; 156; 183].
Definition tan_c : list Z := [0; 101; 203; 311; 424; 547; 683; 839].

(** The types of the internal copy of the input.  ac_tan_pwl.h:178-180. *)
Definition tan_nf (W I : Z) : Z := Z.min 19 (W - I) + b2z (0 <=? I).
Definition tan_Ii (I : Z) : Z := Z.min I 1.
Definition tan_Wi (W I : Z) : Z := tan_Ii I + tan_nf W I.

(** input >= c/1024.  ac_tan_pwl.h:185, 227. *)
Definition tan_ge (W I c x : Z) : bool := c * pw (W - I) <=? x * pw (- (W - I)) * 1024.

(** The internal copy of the input, halved from .78515625 = 804/1024 on.  [Q] and [O] are the modes of the input's own
    type.  ac_tan_pwl.h:185-189. *)
Definition tan_exceeds (W I x : Z) : bool := (0 <=? I) && tan_ge W I 804 x.
Definition tan_int (W I : Z) (Q : qmode) (O : omode) (x : Z) : Z :=
  let Wi := tan_Wi W I in
  let Ii := tan_Ii I in
  let t := Fmt Wi Ii false Q O in
  if tan_exceeds W I x
  then conv t (shr false (Wi + 1) (conv (Fmt (Wi + 1) Ii false Q O) x (W - I)) 1) (Wi + 1 - Ii)
  else conv t x (W - I).

(** The scaled input, by 10.1884765625 = 10433/1024.  ac_tan_pwl.h:194. *)
Definition tan_scaled (W I : Z) (Q : qmode) (O : omode) (x : Z) : Z :=
  conv (dfmt 13 3 false) (tan_int W I Q O x * 10433) (tan_nf W I + 10).

(** ac_tan_pwl.h:132-229.  [pQ] is the pwl_Q argument.  The assertion on inputs above pi/2 is off.  The output is
    unsigned, so [f] is meant with [fS f = false]. *)
Definition tan_pwl (pQ : qmode) (W I : Z) (Q : qmode) (O : omode) (f : fmt) (x : Z) : option Z :=
  match pwl_table tan_m tan_c 3 10 (tan_scaled W I Q O x) with
  | None => None
  | Some y =>
      let p := conv (Fmt 20 0 false pQ WRAP) y 20 in
      let out :=
        if tan_exceeds W I x then
          let q := conv (Fmt 16 0 false pQ WRAP) (2 ^ 40 - p * p) 40 in
          match reciprocal_pwl pQ 16 0 false (Fmt 16 6 false pQ WRAP) q with
          | None => None
          | Some r => Some (conv f (2 * p * r) 30)
          end
        else Some (conv f p 20) in
      match out with
      | None => None
      | Some o => Some (if tan_ge W I 1594 x then imax (fS f) (fW f) else o)
      end
  end.
