(** Specification of bit searches: which index is the highest (lowest) one satisfying P below n. *)
From Verif Require Import AcTypes.

(** Some index below n satisfies P, [i] is the highest such index and the flag is set; or none does, and (0, false). *)
Definition is_highest (P : Z -> bool) (n : Z) (r : Z * bool) : Prop :=
  let '(i, fl) := r in
  (fl = true /\ 0 <= i < n /\ P i = true /\ forall j, i < j < n -> P j = false) \/
  (fl = false /\ i = 0 /\ forall j, 0 <= j < n -> P j = false).
Definition is_lowest (P : Z -> bool) (n : Z) (r : Z * bool) : Prop :=
  let '(i, fl) := r in
  (fl = true /\ 0 <= i < n /\ P i = true /\ forall j, 0 <= j < i -> P j = false) \/
  (fl = false /\ i = 0 /\ forall j, 0 <= j < n -> P j = false).

(** Mantissa range of a normalised value: [1/2,1) for ac_fixed<W,0,false>; [1/2,1) or [-1,-1/2) for ac_fixed<W,1,true>. *)
Definition normal_u (W m : Z) : Prop := 2 ^ (W - 1) <= m < 2 ^ W.
Definition normal_s (W m : Z) : Prop := 2 ^ (W - 2) <= m < 2 ^ (W - 1) \/ - 2 ^ (W - 1) <= m < - 2 ^ (W - 2).
