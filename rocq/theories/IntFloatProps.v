(** C07: comparing an integer with a double is exact. *)
From Coq Require Import ZArith Reals.
From Verif Require Import Outcome IntFloatModel IntFloatSpec IntFloatProofs.
Open Scope Z_scope.

Theorem C07_compare_int_float : forall i f, in_i64 i ->
  exists c, compare_int_float i f = Ok c /\ exact_order i f c.
Proof. exact compare_int_float_spec. Qed.
Print Assumptions C07_compare_int_float.
(** 2^53+1 against the double 2^53 (which the integer rounds to); 2^63-1 against the double 2^63; -3 against -2.5. *)
Example C07_compare_int_float_ex :
  compare_int_float (2 ^ 53 + 1) (f64_of_Z (2 ^ 53)) = Ok (Some Gt)
  /\ compare_int_float (2 ^ 63 - 1) (f64_of_Z (2 ^ 63 - 1)) = Ok (Some Lt)
  /\ compare_int_float (- 2 ^ 63) (f64_of_Z (- 2 ^ 63)) = Ok (Some Eq)
  /\ compare_int_float (-2) (Flocq.IEEE754.BinarySingleNaN.binary_normalize 53 1024 _ _
        Flocq.IEEE754.BinarySingleNaN.mode_NE (-5) (-1) false) = Ok (Some Gt).
Proof. repeat split; vm_compute; reflexivity. Qed.
