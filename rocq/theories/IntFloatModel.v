(** Model of compare_int_float: components/core/wf/integer_utils.h 90-156, instantiated (as in
    numeric_expressions and number comparisons) with I = int64_t and F = double (Flocq binary64). *)
From Coq Require Import ZArith Reals.
From Flocq Require Import IEEE754.BinarySingleNaN.
From Verif Require Import Outcome.
Open Scope Z_scope.
Open Scope outcome_scope.

Lemma prec53_gt_0 : FLX.Prec_gt_0 53. Proof. reflexivity. Qed.
Lemma prec53_lt_emax : Prec_lt_emax 53 1024. Proof. reflexivity. Qed.
#[global] Existing Instance prec53_gt_0.
#[global] Existing Instance prec53_lt_emax.

Definition f64 : Type := binary_float 53 1024.

(** static_cast<double>(integer): round to nearest even. *)
Definition f64_of_Z (z : Z) : f64 := binary_normalize 53 1024 _ _ mode_NE z 0 false.

Definition f64_sub (a b : f64) : f64 := Bminus mode_NE a b.
Definition f64_mul (a b : f64) : f64 := Bmult mode_NE a b.

(** static_cast<int64_t>(double): truncation, undefined when the truncated value does not fit. *)
Definition i64_of_f64 (f : f64) : outcome Z :=
  if is_finite f then mach (Btrunc f) else UB.

(** integer_utils.h 107. *)
Definition I_min_as_float : f64 := f64_of_Z INT64_MIN.
(** integer_utils.h 108: static_cast<F>(max / 2 + 1) * 2. *)
Definition I_max_as_float_plus_1 : f64 := f64_mul (f64_of_Z (Z.quot INT64_MAX 2 + 1)) (f64_of_Z 2).

(** integer_utils.h 95-156; [Gt] is relative_order::greater_than (the integer is greater). *)
Definition compare_int_float (i : Z) (f : f64) : outcome (option comparison) :=
  if is_nan f then Ok None
  else if negb (is_finite f) then
    if Bltb f (f64_of_Z 0) then Ok (Some Gt) else Ok (Some Lt)
  else if Bleb I_min_as_float f then
    if Bleb (f64_sub f I_max_as_float_plus_1) (f64_of_Z (-1)) then
      let* t := i64_of_f64 f in
      if t <? i then Ok (Some Gt)
      else if i <? t then Ok (Some Lt)
      else
        let fr := f64_sub f (f64_of_Z t) in
        if Bltb fr (f64_of_Z 0) then Ok (Some Gt)
        else if Bltb (f64_of_Z 0) fr then Ok (Some Lt)
        else Ok (Some Eq)
    else Ok (Some Lt)
  else Ok (Some Gt).
