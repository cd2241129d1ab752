(** C13, C15: the result of building a sum or a product does not depend on the order of the operands. *)
From Coq Require Import String List ZArith Reals Bool Permutation Lia.
From Flocq Require Import IEEE754.BinarySingleNaN.
From Verif Require Import Outcome CheckedIntModel RationalModel RationalSpec IntFloatModel ExprModel ExprSpec BuildModel BuildProps FuelProofs
  OrderSpec OrderProofs SumSpec SumProofs MulOrderProofs.
Import ListNotations.
Open Scope Z_scope.
Open Scope outcome_scope.

Theorem C13_order_independent : forall I n n' l l' e e', impl_ok I ->
  Forall exact l -> Permutation l l' -> e_add I n l = Ok e -> e_add I n' l' = Ok e' -> exact e -> e = e'.
Proof. exact e_add_perm. Qed.
Print Assumptions C13_order_independent.
Definition sum_a : list expr := [EMul [EInt 2; vx]; vy; half; EMul [EInt (-2); vx]; EInt 3; EPow vx (EInt 2)].
Definition sum_b : list expr := [EInt 3; EPow vx (EInt 2); EMul [EInt (-2); vx]; half; EMul [EInt 2; vx]; vy].
Example C13_order_independent_ex :
  e_add impl_ex 10 sum_a = Ok (EAdd [ERat (mk_rat 7 2); vy; EPow vx (EInt 2)]) /\
  e_add impl_ex 10 sum_b = Ok (EAdd [ERat (mk_rat 7 2); vy; EPow vx (EInt 2)]).
Proof. split; vm_compute; reflexivity. Qed.

(** Whether the sum exists at all depends on the order: an intermediate constant may leave the 64-bit range. *)
Theorem C13_overflow_refuted : exists l l', Permutation l l' /\ Forall exact l /\
  (exists e, forall n, e_add impl_ex (10 + n) l = Ok e) /\ (forall n, e_add impl_ex (10 + n) l' = Throws).
Proof.
  exists [EInt INT64_MAX; EInt (-1); EInt 1], [EInt INT64_MAX; EInt 1; EInt (-1)]. split; [repeat constructor|split].
  - repeat constructor; cbn; unfold in_i64, INT64_MIN, INT64_MAX; lia.
  - assert (M : forall n l x, x <> NoFuel -> e_add impl_ex 10 l = x -> e_add impl_ex (10 + n) l = x).
    { intros n l x Hx H. destruct (le_add _ _ (ops_n_le impl_ex 10 (10 + n) ltac:(lia)) l) as [X|X]; unfold e_add in *; congruence. }
    split; [exists (EInt INT64_MAX)|]; intros n; apply M; try discriminate; vm_compute; reflexivity.
Qed.
Print Assumptions C13_overflow_refuted.

(** With doubles among the operands the result depends on the order. *)
Definition flt_of (z : Z) : expr := EFlt (f64_of_Z z).
Theorem C13_float_refuted : exists l l' e e', Permutation l l' /\
  e_add impl_ex 10 l = Ok e /\ e_add impl_ex 10 l' = Ok e' /\ ident e e' = false.
Proof.
  set (l := [flt_of (2 ^ 53); flt_of 1; flt_of 1]). set (l' := [flt_of 1; flt_of 1; flt_of (2 ^ 53)]).
  assert (H : (let* e := e_add impl_ex 10 l in let* e' := e_add impl_ex 10 l' in Ok (ident e e')) = Ok false) by (vm_compute; reflexivity).
  destruct (e_add impl_ex 10 l) as [x| | | |] eqn:E; try discriminate H. destruct (e_add impl_ex 10 l') as [x'| | | |] eqn:E'; try discriminate H.
  injection H as H. exists l, l', x, x'. split; [|auto].
  apply (Permutation_cons_append [flt_of 1; flt_of 1] (flt_of (2 ^ 53))).
Qed.
Print Assumptions C13_float_refuted.

Theorem C15_order_independent : forall I n n' l l' e e', impl_ok I ->
  Forall exact l -> Forall monomial l -> Permutation l l' -> e_mul I n l = Ok e -> e_mul I n' l' = Ok e' -> e = e'.
Proof. exact e_mul_perm. Qed.
Print Assumptions C15_order_independent.
Definition prod_a : list expr := [EMul [EInt 2; vx]; EPow (EAdd [vx; vy]) half; vy; EPow vx half; EPow (EAdd [vx; vy]) half].
Definition prod_b : list expr := [EPow vx half; EPow (EAdd [vx; vy]) half; EPow (EAdd [vx; vy]) half; vy; EMul [EInt 2; vx]].
Example C15_order_independent_ex :
  Forall exact prod_a /\ Forall monomial prod_a /\ Permutation prod_a prod_b /\
  e_mul impl_ex 8 prod_a = e_mul impl_ex 8 prod_b /\
  e_mul impl_ex 8 prod_a = Ok (EMul [EInt 2; vy; EAdd [vx; vy]; EPow vx (ERat (mk_rat 3 2))]).
Proof.
  repeat match goal with |- _ /\ _ => split end.
  - repeat constructor; cbn; unfold in_i64, INT64_MIN, INT64_MAX; try lia; discriminate.
  - repeat constructor.
  - unfold prod_a, prod_b. apply Permutation_sym. etransitivity; [apply Permutation_rev|]. cbn. apply perm_skip. etransitivity; [apply perm_swap|]. do 2 apply perm_skip. apply perm_swap.
  - vm_compute. reflexivity.
  - vm_compute. reflexivity.
Qed.

(** Powers of powers: three operands whose products differ with the order. *)
Definition pp (q : expr) : expr := EPow (EPow vx (EInt 2)) q.
Definition third_r : expr := ERat (mk_rat 1 3).
Theorem C15_order_refuted : exists l l' e e', Permutation l l' /\ Forall exact l /\
  e_mul impl_ex 10 l = Ok e /\ e_mul impl_ex 10 l' = Ok e' /\ ident e e' = false.
Proof.
  exists [pp half; pp half; pp third_r], [pp half; pp third_r; pp half]. do 2 eexists. split; [apply perm_skip, perm_swap|split].
  - repeat constructor; cbn; unfold in_i64, INT64_MIN, INT64_MAX; try lia; discriminate.
  - split; [vm_compute; reflexivity|split; [vm_compute; reflexivity|vm_compute; reflexivity]].
Qed.
Print Assumptions C15_order_refuted.
