(** Independent specification of "the exact value, converted to an output type".
    Nothing here refers to the model of the code; only the names of the modes and the format record
    are shared with [AcTypes]. *)
From Verif Require Import AcTypes.

(** [is_round q n d z]: the integer z is the rational n/d (d > 0) rounded with mode q. *)
Definition is_round (q : qmode) (n d z : Z) : Prop :=
  let nearest := 2 * Z.abs (n - z * d) <= d in
  let tie := 2 * Z.abs (n - z * d) = d in
  match q with
  | TRN => z * d <= n < (z + 1) * d
  | TRN_ZERO => (0 <= n -> z * d <= n < (z + 1) * d) /\ (n < 0 -> (z - 1) * d < n <= z * d)
  | RND => nearest /\ (tie -> n < z * d)
  | RND_MIN_INF => nearest /\ (tie -> z * d < n)
  | RND_ZERO => nearest /\ (tie -> Z.abs (z * d) < Z.abs n)
  | RND_INF => nearest /\ (tie -> Z.abs n < Z.abs (z * d))
  | RND_CONV => nearest /\ (tie -> Z.Even z)
  | RND_CONV_ODD => nearest /\ (tie -> Z.Odd z)
  end.

(** Least and greatest mantissa of a W-bit type. *)
Definition lowest (s : bool) (w : Z) : Z := if s then - 2 ^ (w - 1) else 0.
Definition highest (s : bool) (w : Z) : Z := if s then 2 ^ (w - 1) - 1 else 2 ^ w - 1.

(** [is_limited o s w z y]: y is the integer z after overflow handling with mode o. *)
Definition is_limited (o : omode) (s : bool) (w z y : Z) : Prop :=
  match o with
  | WRAP => lowest s w <= y <= highest s w /\ exists k, z = y + k * 2 ^ w
  | SAT => y = Z.max (lowest s w) (Z.min (highest s w) z)
  | SAT_ZERO => (lowest s w <= z <= highest s w -> y = z) /\ (~ lowest s w <= z <= highest s w -> y = 0)
  | SAT_SYM => y = Z.max (if s then - highest s w else 0) (Z.min (highest s w) z)
  end.

(** [converts f n d y]: the mantissa y is the rational n/d (d > 0) converted to format f,
    i.e. n/d * 2^F rounded and limited. *)
Definition converts (f : fmt) (n d y : Z) : Prop :=
  exists z, is_round (fQ f) (n * 2 ^ Z.max 0 (fF f)) (d * 2 ^ Z.max 0 (- fF f)) z /\
            is_limited (fO f) (fS f) (fW f) z y.

(** [converts2 f x e y]: y is the value x * 2^e converted to format f. *)
Definition converts2 (f : fmt) (x e y : Z) : Prop :=
  converts f (x * 2 ^ Z.max 0 e) (2 ^ Z.max 0 (- e)) y.

(** Number of extra quotient bits a rounding mode looks at: none for the truncating modes, one for the
    modes that round to nearest. *)
Definition guard (q : qmode) : Z := match q with TRN | TRN_ZERO => 0 | _ => 1 end.
