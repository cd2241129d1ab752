(** C01: integer arithmetic is exact or it throws. *)
From Coq Require Import ZArith.
From Verif Require Import Outcome CheckedIntModel CheckedIntSpec CheckedIntProofs.
Open Scope Z_scope.

Theorem C01_neg : forall v, in_i64 v -> exact_or_throw True (- v) (ck_neg v).
Proof. exact ck_neg_spec. Qed.
Print Assumptions C01_neg.
Example C01_neg_ex : in_i64 INT64_MIN /\ ck_neg INT64_MIN = Throws /\ ck_neg INT64_MAX = Ok (- INT64_MAX).
Proof. split; [split; vm_compute; discriminate|split; reflexivity]. Qed.

Theorem C01_mul : forall a b, in_i64 a -> in_i64 b -> exact_or_throw True (a * b) (ck_mul a b).
Proof. exact ck_mul_spec. Qed.
Print Assumptions C01_mul.
Example C01_mul_ex :
  ck_mul (-4611686018427387904) 2 = Ok INT64_MIN /\ ck_mul (-4611686018427387904) (-2) = Throws
  /\ ck_mul INT64_MIN (-1) = Throws /\ ck_mul 3037000500 3037000500 = Throws
  /\ ck_mul 3037000499 (-3037000500) = Ok (-9223372033963249500).
Proof. repeat split; vm_compute; reflexivity. Qed.

Theorem C01_div : forall a b, in_i64 a -> in_i64 b ->
  exact_or_throw (b <> 0) (Z.quot a b) (ck_div a b).
Proof. exact ck_div_spec. Qed.
Print Assumptions C01_div.
Example C01_div_ex : ck_div (-7) 2 = Ok (-3) /\ ck_div INT64_MIN (-1) = Throws /\ ck_div 1 0 = Throws.
Proof. repeat split; vm_compute; reflexivity. Qed.

(** The remainder throws exactly when the quotient does (also for INT64_MIN % -1). *)
Theorem C01_rem : forall a b, in_i64 a -> in_i64 b ->
  (b <> 0 /\ in_i64 (Z.quot a b) -> ck_rem a b = Ok (Z.rem a b)) /\
  (~ (b <> 0 /\ in_i64 (Z.quot a b)) -> ck_rem a b = Throws).
Proof. exact ck_rem_spec. Qed.
Print Assumptions C01_rem.
Example C01_rem_ex : ck_rem (-7) 2 = Ok (-1) /\ ck_rem 7 (-2) = Ok 1 /\ ck_rem INT64_MIN (-1) = Throws.
Proof. repeat split; vm_compute; reflexivity. Qed.

(** The quotient and remainder used above are C++ truncated division. *)
Theorem C01_trunc : forall a b, b <> 0 -> is_trunc_divmod a b (Z.quot a b) (Z.rem a b).
Proof. exact quot_trunc. Qed.
Print Assumptions C01_trunc.
Example C01_trunc_ex : is_trunc_divmod (-7) 2 (-3) (-1).
Proof. split; [reflexivity|split; [reflexivity|right; reflexivity]]. Qed.

Theorem C01_add : forall a b, in_i64 a -> in_i64 b -> exact_or_throw True (a + b) (ck_add a b).
Proof. exact ck_add_spec. Qed.
Print Assumptions C01_add.
Example C01_add_ex : ck_add INT64_MAX 1 = Throws /\ ck_add INT64_MAX 0 = Ok INT64_MAX
  /\ ck_add INT64_MIN INT64_MAX = Ok (-1) /\ ck_add INT64_MIN (-1) = Throws.
Proof. repeat split; vm_compute; reflexivity. Qed.

Theorem C01_sub : forall a b, in_i64 a -> in_i64 b -> exact_or_throw True (a - b) (ck_sub a b).
Proof. exact ck_sub_spec. Qed.
Print Assumptions C01_sub.
Example C01_sub_ex : ck_sub (-2) INT64_MAX = Throws /\ ck_sub (-1) INT64_MAX = Ok INT64_MIN
  /\ ck_sub (-1) INT64_MIN = Ok INT64_MAX /\ ck_sub 0 INT64_MIN = Throws.
Proof. repeat split; vm_compute; reflexivity. Qed.

Theorem C01_abs : forall v, in_i64 v -> exact_or_throw True (Z.abs v) (ck_abs v).
Proof. exact ck_abs_spec. Qed.
Print Assumptions C01_abs.
Example C01_abs_ex : ck_abs (-5) = Ok 5 /\ ck_abs INT64_MIN = Throws.
Proof. repeat split; vm_compute; reflexivity. Qed.

Theorem C01_gcd : forall a b, in_i64 a -> in_i64 b ->
  (a <> INT64_MIN /\ b <> INT64_MIN -> exists g, ck_gcd a b = Ok g /\ is_gcd a b g) /\
  (a = INT64_MIN \/ b = INT64_MIN -> ck_gcd a b = Throws).
Proof. exact ck_gcd_spec. Qed.
Print Assumptions C01_gcd.
Example C01_gcd_ex : ck_gcd (-12) 18 = Ok 6 /\ ck_gcd 0 (-7) = Ok 7 /\ ck_gcd 4 INT64_MIN = Throws.
Proof. repeat split; vm_compute; reflexivity. Qed.

Theorem C01_is_even : forall v, ck_is_even v = true <-> exists k, v = 2 * k.
Proof. exact ck_is_even_spec. Qed.
Print Assumptions C01_is_even.
Example C01_is_even_ex : ck_is_even (-4) = true /\ ck_is_even (-3) = false.
Proof. split; reflexivity. Qed.
