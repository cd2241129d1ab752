(** Model of components/core/wf/utility/checked_int.h.
    A [checked_int] is its [value_] : a [Z] in the int64 range. *)
From Coq Require Import ZArith Bool.
From Verif Require Import Outcome.
Open Scope Z_scope.
Open Scope outcome_scope.

(** checked_int.h 68-74: unary minus. *)
Definition ck_neg (v : Z) : outcome Z :=
  if v =? INT64_MIN then Throws else mach_neg v.

(** checked_int.h 115-124: operator*.  The condition is evaluated left to right with
    short-circuiting, so each quotient is only computed in its own branch. *)
Definition ck_mul_overflows (a b : Z) : outcome bool :=
  let* c1 :=
     if b >? 0 then
       let* q1 := mach_div INT64_MAX b in
       if a >? q1 then Ok true
       else let* q2 := mach_div INT64_MIN b in Ok (a <? q2)
     else Ok false in
  if c1 then Ok true
  else if (b =? -1) && (a =? INT64_MIN) then Ok true
  else if b <? -1 then
    let* q1 := mach_div INT64_MAX b in
    if a <? q1 then Ok true
    else let* q2 := mach_div INT64_MIN b in Ok (a >? q2)
  else Ok false.

Definition ck_mul (a b : Z) : outcome Z :=
  let* o := ck_mul_overflows a b in
  if o then Throws else mach_mul a b.

(** checked_int.h 127-135: operator/. *)
Definition ck_div (a b : Z) : outcome Z :=
  if b =? 0 then Throws
  else if (b =? -1) && (a =? INT64_MIN) then Throws
  else mach_div a b.

(** checked_int.h 139-146: operator%. *)
Definition ck_rem (a b : Z) : outcome Z :=
  if b =? 0 then Throws
  else if (b =? -1) && (a =? INT64_MIN) then Throws
  else mach_rem a b.

(** checked_int.h 151-158: operator+. *)
Definition ck_add (a b : Z) : outcome Z :=
  let* c1 := if b >? 0 then let* m := mach_sub INT64_MAX b in Ok (a >? m) else Ok false in
  if c1 then Throws else
  let* c2 := if b <? 0 then let* m := mach_sub INT64_MIN b in Ok (a <? m) else Ok false in
  if c2 then Throws else mach_add a b.

(** checked_int.h 163-170: operator-. *)
Definition ck_sub (a b : Z) : outcome Z :=
  let* c1 := if b >? 0 then let* m := mach_add INT64_MIN b in Ok (a <? m) else Ok false in
  if c1 then Throws else
  let* c2 := if b <? 0 then let* m := mach_add INT64_MAX b in Ok (a >? m) else Ok false in
  if c2 then Throws else mach_sub a b.

(** checked_int.h 190-196: abs. *)
Definition ck_abs (x : Z) : outcome Z := if x <? 0 then ck_neg x else Ok x.

(** std::gcd on int64: undefined when |m| or |n| is not representable ([numeric.ops.gcd]);
    otherwise the non-negative greatest common divisor. *)
Definition std_gcd (m n : Z) : outcome Z :=
  if (m =? INT64_MIN) || (n =? INT64_MIN) then UB else Ok (Z.gcd m n).

(** checked_int.h 200-202: gcd. *)
Definition ck_gcd (a b : Z) : outcome Z :=
  let* x := ck_abs a in
  let* y := ck_abs b in
  std_gcd x y.

(** checked_int.h 56-61: cast to uint64. *)
Definition ck_to_u64 (v : Z) : outcome Z := if v <? 0 then Throws else Ok v.

(** checked_int.h 83-90: from_unsigned_long_long; the argument ranges over 0 .. 2^64-1. *)
Definition ck_from_ull (arg : Z) : outcome Z := if INT64_MAX <? arg then Throws else Ok arg.

(** checked_int.h 92: is_even, the lowest bit of the two's complement representation. *)
Definition ck_is_even (v : Z) : bool := negb (Z.testbit v 0).
