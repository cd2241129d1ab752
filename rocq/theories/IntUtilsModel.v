(** Model of components/core/wf/integer_utils.h lines 14-88. *)
From Coq Require Import ZArith Bool List.
From Verif Require Import Outcome Loop CheckedIntModel.
Import ListNotations.
Open Scope Z_scope.
Open Scope outcome_scope.

(** integer_utils.h 27-28: the wheel increments. *)
Definition wheel_inc : list Z := [4; 2; 4; 2; 4; 6; 2; 6].

(** One evaluation of the loop head and body, integer_utils.h 29-35; state (k, i). *)
Definition wheel_step (n : Z) (s : Z * Z) : outcome ((Z * Z) + Z) :=
  let (k, i) := s in
  let* kk := mach_mul k k in
  if kk <=? n then
    let* r := mach_rem n k in
    if r =? 0 then Ok (inr k)
    else
      let* k' := mach_add k (nth (Z.to_nat i) wheel_inc 0) in
      let* i1 := mach_add i 1 in
      let* i' := mach_rem i1 8 in
      Ok (inl (k', i'))
  else Ok (inr n).

(** integer_utils.h 16-37: wheel_factorization. *)
Definition wheel_factorization (n : Z) : outcome Z :=
  let* r2 := mach_rem n 2 in
  if r2 =? 0 then Ok 2 else
  let* r3 := mach_rem n 3 in
  if r3 =? 0 then Ok 3 else
  let* r5 := mach_rem n 5 in
  if r5 =? 0 then Ok 5 else
  loop (wheel_step n) (7, 0).

(** integer_utils.h 40-43: prime_factor (base, exponent).  The vector is kept reversed, its back()
    is the head of the list. *)
Definition prime_factor : Type := Z * Z.

(** integer_utils.h 56-65: one iteration of the while loop; state (x, reversed result). *)
Definition factor_step (s : Z * list prime_factor) : outcome ((Z * list prime_factor) + list prime_factor) :=
  let (x, result) := s in
  if negb (x =? 1) then
    let* factor := wheel_factorization x in
    let* result' :=
       match result with
       | (b, e) :: rest =>
           if b =? factor then let* e' := ck_add e 1 in Ok ((b, e') :: rest)
           else Ok ((factor, 1) :: result)
       | [] => Ok ((factor, 1) :: result)
       end in
    let* x' := ck_div x factor in
    Ok (inl (x', result'))
  else Ok (inr result).

(** integer_utils.h 46-67: compute_prime_factors. *)
Definition compute_prime_factors (n : Z) : outcome (list prime_factor) :=
  if n =? 0 then Ok []
  else
    let* s := if n <? 0 then let* x := ck_neg n in Ok (x, [(-1, 1)]) else Ok (n, []) in
    let* r := loop factor_step s in
    Ok (rev r).

(** integer_utils.h 70-83: integer_power; [exp] is a uint64.  The loop consumes the bits of the exponent
    from the lowest: [exp & 1] and [exp /= 2] read the binary representation, the loop
    stops when [exp / 2 = 0], i.e. at the leading bit. *)
Fixpoint integer_power_loop (base result : Z) (exp : positive) : outcome Z :=
  match exp with
  | xH => ck_mul result base
  | xO e => let* b := ck_mul base base in integer_power_loop b result e
  | xI e => let* r := ck_mul result base in
            let* b := ck_mul base base in integer_power_loop b r e
  end.

Definition integer_power_u (base : Z) (exp : N) : outcome Z :=
  match exp with
  | N0 => Ok 1
  | Npos e => integer_power_loop base 1 e
  end.

(** integer_utils.h 86-88: integer_power with a checked_int exponent. *)
Definition integer_power (base exp : Z) : outcome Z :=
  let* e := ck_to_u64 exp in
  integer_power_u base (Z.to_N e).
