(** What rational constants mean.  Fractions are compared by cross multiplication and through the standard
    library's rationals [Q]. *)
From Coq Require Import ZArith QArith.
From Verif Require Import Outcome.
Open Scope Z_scope.

(** [n/d] and [n'/d'] denote the same number. *)
Definition same_fraction (n d n' d' : Z) : Prop := n * d' = n' * d.

(** Lowest terms with a positive denominator, both parts 64-bit. *)
Definition canonical (n d : Z) : Prop := 0 < d /\ Z.gcd n d = 1 /\ in_i64 n /\ in_i64 d.

(** The rational number n/d for d > 0. *)
Definition frac (n d : Z) : Q := Qmake n (Z.to_pos d).

(** Integer part towards zero of n/d (d > 0). *)
Definition trunc_of (n d : Z) : Z := Z.quot n d.
