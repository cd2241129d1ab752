(** C02: prime factorisation; C03: integer powers. *)
From Coq Require Import ZArith Znumtheory List.
From Verif Require Import Outcome Loop CheckedIntSpec IntUtilsModel IntUtilsSpec IntUtilsProofs Pocklington.
Import ListNotations.
Open Scope Z_scope.

(** The search for a factor returns the least prime factor, except for the primes of at least
    3037000499^2, for which the loop condition [k * k <= n] overflows (undefined behaviour). *)
Theorem C02_wheel : forall n, in_i64 n -> 1 < n ->
  (prime n /\ 3037000499 * 3037000499 <= n /\ wheel_factorization n = UB) \/
  (~ (prime n /\ 3037000499 * 3037000499 <= n) /\
   exists p, wheel_factorization n = Ok p /\ is_least_prime_factor n p).
Proof. exact wheel_factorization_spec. Qed.
Print Assumptions C02_wheel.
Example C02_wheel_ex : wheel_factorization (49 * 11) = Ok 7 /\ wheel_factorization 961 = Ok 31
  /\ wheel_factorization 1009 = Ok 1009.
Proof. repeat split; vm_compute; reflexivity. Qed.

(** Full factorisation, for all inputs.  It is undefined behaviour exactly for those that are, up to sign, a prime of
    at least 3037000499^2, and throws exactly for INT64_MIN. *)
Theorem C02_factors : forall n, in_i64 n -> n <> 0 ->
  (n = INT64_MIN -> compute_prime_factors n = Throws) /\
  (n <> INT64_MIN -> ~ (prime (Z.abs n) /\ 3037000499 * 3037000499 <= Z.abs n) ->
     exists l, compute_prime_factors n = Ok l /\ is_prime_factorization n l) /\
  (n <> INT64_MIN -> prime (Z.abs n) /\ 3037000499 * 3037000499 <= Z.abs n -> compute_prime_factors n = UB).
Proof.
  intros n H H0. split; [intros ->; vm_compute; reflexivity|].
  split; intros M; [exact (proj1 (compute_prime_factors_spec n H H0 M))|exact (proj2 (compute_prime_factors_spec n H H0 M))].
Qed.
Print Assumptions C02_factors.
Example C02_factors_ex :
  compute_prime_factors (-360) = Ok [(-1, 1); (2, 3); (3, 2); (5, 1)] /\
  is_prime_factorization (-360) [(-1, 1); (2, 3); (3, 2); (5, 1)] /\
  compute_prime_factors INT64_MIN = Throws.
Proof.
  split; [vm_compute; reflexivity|]. split; [|vm_compute; reflexivity].
  exists [(2, 3); (3, 2); (5, 1)]. split; [reflexivity|]. split; [reflexivity|]. split.
  - repeat constructor.
  - constructor; [split; [exact prime_2|discriminate]|].
    constructor; [split; [exact prime_3|discriminate]|].
    constructor; [split; [|discriminate]|constructor].
    apply prime_by_wheel; [split; discriminate|reflexivity|vm_compute; reflexivity].
Qed.

(** The excluded case is inhabited: a 64-bit integer whose factorisation is undefined behaviour. *)
Theorem C02_no_overflow_refuted :
  exists n, in_i64 n /\ prime n /\ compute_prime_factors n = UB.
Proof. exact compute_prime_factors_overflows. Qed.
Print Assumptions C02_no_overflow_refuted.
Example C02_no_overflow_refuted_ex : in_i64 9223372036854773443 /\ 3037000499 * 3037000499 <= 9223372036854773443.
Proof. repeat split; discriminate. Qed.

(** Integer powers: exact, or an exception exactly when the exponent is negative or the power does not fit. *)
Theorem C03_integer_power : forall b e, in_i64 b -> in_i64 e ->
  exact_or_throw (0 <= e) (b ^ e) (integer_power b e).
Proof. exact integer_power_spec. Qed.
Print Assumptions C03_integer_power.
Example C03_ex : integer_power (-2) 63 = Ok INT64_MIN /\ integer_power 2 63 = Throws
  /\ integer_power 0 0 = Ok 1 /\ integer_power (-1) INT64_MAX = Ok (-1) /\ integer_power 3 (-1) = Throws
  /\ integer_power (-3) 39 = Ok (-4052555153018976267).
Proof. repeat split; vm_compute; reflexivity. Qed.
