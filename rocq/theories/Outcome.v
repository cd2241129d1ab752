(** Outcomes of C++ operations.

    [Ok v]      the call returns [v];
    [Throws]    the call leaves by a C++ exception that a caller can catch;
    [Dies]      an exception leaves a [noexcept] function: std::terminate;
    [UB]        the call executes undefined behaviour (signed overflow, ...);
    [NoFuel]    the model gave up: never a behaviour of the code, every theorem excludes it. *)
From Coq Require Import ZArith Bool List.
Import ListNotations.
Open Scope Z_scope.

Inductive outcome (A : Type) : Type :=
| Ok (a : A)
| Throws
| Dies
| UB
| NoFuel.
Arguments Ok {A} a.
Arguments Throws {A}.
Arguments Dies {A}.
Arguments UB {A}.
Arguments NoFuel {A}.

Definition bind {A B} (m : outcome A) (f : A -> outcome B) : outcome B :=
  match m with
  | Ok a => f a
  | Throws => Throws
  | Dies => Dies
  | UB => UB
  | NoFuel => NoFuel
  end.

Declare Scope outcome_scope.
Delimit Scope outcome_scope with outcome.
Notation "'let*' x ':=' m 'in' k" := (bind m (fun x => k))
  (at level 200, x pattern, m at level 100, k at level 200, right associativity) : outcome_scope.

(** A [noexcept] function: an exception raised inside becomes std::terminate. *)
Definition noexcept {A} (m : outcome A) : outcome A :=
  match m with
  | Throws => Dies
  | _ => m
  end.

Definition ok_opt {A} (m : outcome A) : option A :=
  match m with Ok a => Some a | _ => None end.

(** The range of [std::int64_t]. *)
Definition INT64_MIN : Z := - 9223372036854775808.
Definition INT64_MAX : Z := 9223372036854775807.
Definition in_i64 (z : Z) : Prop := INT64_MIN <= z <= INT64_MAX.
Definition in_i64b (z : Z) : bool := (INT64_MIN <=? z) && (z <=? INT64_MAX).

(** Machine arithmetic on [std::int64_t]: an unrepresentable result, division by zero and
    INT64_MIN / -1 are undefined behaviour. *)
Definition mach (z : Z) : outcome Z := if in_i64b z then Ok z else UB.
Definition mach_neg (a : Z) : outcome Z := mach (- a).
Definition mach_add (a b : Z) : outcome Z := mach (a + b).
Definition mach_sub (a b : Z) : outcome Z := mach (a - b).
Definition mach_mul (a b : Z) : outcome Z := mach (a * b).
Definition mach_div (a b : Z) : outcome Z :=
  if b =? 0 then UB else mach (Z.quot a b).
Definition mach_rem (a b : Z) : outcome Z :=
  if b =? 0 then UB
  else if in_i64b (Z.quot a b) then Ok (Z.rem a b) else UB.
