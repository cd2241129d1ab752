(** Specification of integer factorisation and integer powers, on Z and Znumtheory.prime only. *)
From Coq Require Import ZArith Znumtheory List Sorted.
Open Scope Z_scope.

(** Product of base^exponent over a factor list. *)
Definition factors_product (l : list (Z * Z)) : Z :=
  fold_right (fun be acc => fst be ^ snd be * acc) 1 l.

(** A prime factorisation of [n]: exponents positive, bases strictly increasing, every base prime -
    except a leading -1 to the power one, present exactly when [n] is negative - and product [n]. *)
Definition is_prime_factorization (n : Z) (l : list (Z * Z)) : Prop :=
  exists l',
    l = (if n <? 0 then ((-1, 1) :: l') else l') /\
    factors_product l = n /\
    StronglySorted Z.lt (map fst l) /\
    Forall (fun be => prime (fst be) /\ 1 <= snd be) l'.

(** Least prime factor. *)
Definition is_least_prime_factor (n p : Z) : Prop :=
  prime p /\ (p | n) /\ forall q, prime q -> (q | n) -> p <= q.
