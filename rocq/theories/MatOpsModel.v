(** The element operations of matrices of scalar expressions. *)
From Coq Require Import ZArith List Bool.
From Verif Require Import Outcome ExprModel BuildModel MatrixModel.
Import ListNotations.
Open Scope Z_scope.

(** constants.cc zero, one and negative_one; constants.h is_zero; expression.cc 78-119 for the operators;
    addition.cc from_operands for the sum. [n] is the recursion depth. *)
Definition expr_ops (I : impl) (n : nat) : mat_ops expr :=
  {| op_zero := EInt 0; op_one := EInt 1; op_neg_one := EInt (-1); op_is_zero := is_zero;
     op_mul := e_mul2 I n; op_add := fun a b => e_add I n [a; b]; op_sub := e_sub I n; op_div := e_div I n;
     op_sum := e_add I n |}.
