(** Specification of exact-or-throw integer arithmetic. Independent of the model:
    only mathematical operations on Z. *)
From Coq Require Import ZArith.
From Verif Require Import Outcome.
Open Scope Z_scope.

(** [exact_or_throw P r o]: when the operation is defined ([P]) and the exact result [r] fits in
    64 bits the outcome is exactly [r]; in every other case the outcome is an exception. *)
Definition exact_or_throw (P : Prop) (r : Z) (o : outcome Z) : Prop :=
  (P /\ in_i64 r -> o = Ok r) /\ (~ (P /\ in_i64 r) -> o = Throws).

(** Truncated division: the unique quotient/remainder with |rem| < |b|, rem having a's sign. *)
Definition is_trunc_divmod (a b q r : Z) : Prop :=
  a = b * q + r /\ Z.abs r < Z.abs b /\ (r = 0 \/ Z.sgn r = Z.sgn a).

(** Greatest common divisor characterised by divisibility. *)
Definition is_gcd (a b g : Z) : Prop :=
  0 <= g /\ (g | a) /\ (g | b) /\ forall d, (d | a) -> (d | b) -> (d | g).
