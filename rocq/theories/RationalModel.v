(** Model of rational_constant: components/core/wf/expressions/numeric_expressions.h 62-140, 213-305. *)
From Coq Require Import ZArith Bool.
From Verif Require Import Outcome CheckedIntModel.
Open Scope Z_scope.
Open Scope outcome_scope.

(** numeric_expressions.h 138-139: the two members n_ and d_. *)
Record rat : Type := mk_rat { num : Z; den : Z }.

(** numeric_expressions.h 119-132: create_pair (noexcept). *)
Definition create_pair (n d : Z) : outcome rat :=
  noexcept (
    let* g := std_gcd n d in
    let* n := ck_div n g in
    let* d := ck_div d g in
    if d <? 0 then
      let* n' := ck_neg n in
      let* d' := ck_neg d in
      Ok (mk_rat n' d')
    else Ok (mk_rat n d)).

(** numeric_expressions.h 71-72: the public constructor. *)
Definition rat_make (n d : Z) : outcome rat := create_pair n d.

(** numeric_expressions.h 75-76: construction from an integer. *)
Definition rat_of_int (n : Z) : rat := mk_rat n 1.

(** numeric_expressions.h 98: is_integer (noexcept). *)
Definition rat_is_integer (r : rat) : outcome bool :=
  noexcept (let* m := ck_rem (num r) (den r) in Ok (m =? 0)).

(** numeric_expressions.h 102-107: try_convert_to_integer (noexcept). *)
Definition rat_try_int (r : rat) : outcome (option Z) :=
  noexcept (
    let* b := rat_is_integer r in
    if b then let* q := ck_div (num r) (den r) in Ok (Some q) else Ok None).

(** numeric_expressions.h 111-113: normalized (noexcept). *)
Definition rat_normalized (r : rat) : outcome (Z * rat) :=
  noexcept (
    let* q := ck_div (num r) (den r) in
    let* m := ck_rem (num r) (den r) in
    let* f := rat_make m (den r) in
    Ok (q, f)).

(** numeric_expressions.h 116: is_proper (noexcept; abs throws on INT64_MIN). *)
Definition rat_is_proper (r : rat) : outcome bool :=
  noexcept (let* a := ck_abs (num r) in Ok (a <? den r)).

(** numeric_expressions.h 214-216. *)
Definition rat_mul (a b : rat) : outcome rat :=
  let* n := ck_mul (num a) (num b) in
  let* d := ck_mul (den a) (den b) in
  rat_make n d.

(** numeric_expressions.h 217-219. *)
Definition rat_mul_int (a : rat) (b : Z) : outcome rat :=
  let* n := ck_mul (num a) b in
  rat_make n (den a).

(** numeric_expressions.h 220-222. *)
Definition rat_div (a b : rat) : outcome rat :=
  let* n := ck_mul (num a) (den b) in
  let* d := ck_mul (den a) (num b) in
  rat_make n d.

(** numeric_expressions.h 224-228. *)
Definition rat_add (a b : rat) : outcome rat :=
  let* x := ck_mul (num a) (den b) in
  let* y := ck_mul (num b) (den a) in
  let* n := ck_add x y in
  let* d := ck_mul (den a) (den b) in
  rat_make n d.

(** numeric_expressions.h 230-233. *)
Definition rat_sub (a b : rat) : outcome rat :=
  let* x := ck_mul (num a) (den b) in
  let* y := ck_mul (num b) (den a) in
  let* n := ck_sub x y in
  let* d := ck_mul (den a) (den b) in
  rat_make n d.

(** numeric_expressions.h 235-239. *)
Definition rat_rem (a b : rat) : outcome rat :=
  let* q := rat_div a b in
  let* m := ck_rem (num q) (den q) in
  rat_make m (den q).

(** numeric_expressions.h 241-243 and 245-247: operator< and operator> (may throw). *)
Definition rat_lt (a b : rat) : outcome bool :=
  let* x := ck_mul (num a) (den b) in
  let* y := ck_mul (num b) (den a) in
  Ok (x <? y).
Definition rat_gt (a b : rat) : outcome bool :=
  let* x := ck_mul (num a) (den b) in
  let* y := ck_mul (num b) (den a) in
  Ok (x >? y).

(** numeric_expressions.h 249-252, 273-277: operator==, is_identical_struct. *)
Definition rat_eqb (a b : rat) : bool := (num a =? num b) && (den a =? den b).

(** utility/ordering.h 61-68: order_by_comparison on integers; the result is [comparison]
    (Lt = less_than, Eq = equal, Gt = greater_than). *)
Definition order_by_comparison (a b : Z) : comparison :=
  if a <? b then Lt else if b <? a then Gt else Eq.

(** numeric_expressions.h 205-211: order_struct<integer_constant>. *)
Definition int_order (a b : Z) : comparison := order_by_comparison a b.

(** numeric_expressions.h 279-290: order_struct<rational_constant> (noexcept). *)
Definition rat_order (a b : rat) : outcome comparison :=
  noexcept (
    if den a =? den b then Ok (order_by_comparison (num a) (num b))
    else
      let* l := ck_mul (num a) (den b) in
      let* r := ck_mul (num b) (den a) in
      Ok (order_by_comparison l r)).

(** numeric_expressions.h 294-305: mod_pi_rational. *)
Definition mod_pi_rational (r : rat) : outcome rat :=
  let* nf := rat_normalized r in
  let (ip, f) := nf in
  let* ip2 := ck_rem ip 2 in
  if ip2 =? 1 then
    if num f =? 0 then rat_make 1 1
    else let* one := rat_make 1 1 in rat_sub f one
  else if ip2 =? -1 then
    let* one := rat_make 1 1 in rat_add one f
  else Ok f.
