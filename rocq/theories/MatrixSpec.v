(** What the matrix operations compute. *)
From Coq Require Import ZArith List Bool Reals.
From Verif Require Import Outcome MatrixModel.
Import ListNotations.
Open Scope Z_scope.

Section Spec.
Context {E : Type}.

(** Dimensions that are not negative and one element for each pair of indices. *)
Definition valid (m : matrix E) : Prop :=
  in_i64 (m_rows m) /\ in_i64 (m_cols m) /\ 0 <= m_rows m /\ 0 <= m_cols m /\
  Z.of_nat (length (m_data m)) = m_rows m * m_cols m /\ in_i64 (m_rows m * m_cols m).

Definition entry (m : matrix E) (i j : Z) : option E :=
  if (0 <=? i) && (i <? m_rows m) && (0 <=? j) && (j <? m_cols m)
  then nth_error (m_data m) (Z.to_nat (i * m_cols m + j)) else None.

Definition in_range (r c i j : Z) : Prop := 0 <= i < r /\ 0 <= j < c.

(** A matrix of [r] rows and [c] columns with the given elements. *)
Definition is_matrix (m : matrix E) (r c : Z) (f : Z -> Z -> option E) : Prop :=
  valid m /\ m_rows m = r /\ m_cols m = c /\ forall i j, in_range r c i j -> entry m i j = f i j /\ f i j <> None.

(** The element of a row of matrices, a column of matrices, and matrices along the diagonal. *)
Fixpoint beside (ms : list (matrix E)) (i j : Z) : option E :=
  match ms with
  | [] => None
  | m :: t => if j <? m_cols m then entry m i j else beside t i (j - m_cols m)
  end.
Fixpoint below (ms : list (matrix E)) (i j : Z) : option E :=
  match ms with
  | [] => None
  | m :: t => if i <? m_rows m then entry m i j else below t (i - m_rows m) j
  end.
Fixpoint along (zero : E) (ms : list (matrix E)) (i j : Z) : option E :=
  match ms with
  | [] => Some zero
  | m :: t =>
      if i <? m_rows m then (if j <? m_cols m then entry m i j else Some zero)
      else if j <? m_cols m then Some zero else along zero t (i - m_rows m) (j - m_cols m)
  end.
Definition sum_rows (ms : list (matrix E)) : Z := fold_right (fun m a => m_rows m + a) 0 ms.
Definition sum_cols (ms : list (matrix E)) : Z := fold_right (fun m a => m_cols m + a) 0 ms.

(** Scalars with a real value: [good] ones have the value [v]. *)
Record sound_ops (ops : mat_ops E) (good : E -> Prop) (v : E -> R) : Prop := {
  so_zero : good (op_zero ops) /\ v (op_zero ops) = 0%R;
  so_one : good (op_one ops) /\ v (op_one ops) = 1%R;
  so_neg_one : good (op_neg_one ops) /\ v (op_neg_one ops) = (-1)%R;
  so_is_zero : forall e, good e -> op_is_zero ops e = true -> v e = 0%R;
  so_mul : forall a b e, good a -> good b -> op_mul ops a b = Ok e -> good e /\ v e = (v a * v b)%R;
  so_add : forall a b e, good a -> good b -> op_add ops a b = Ok e -> good e /\ v e = (v a + v b)%R;
  so_sub : forall a b e, good a -> good b -> op_sub ops a b = Ok e -> good e /\ v e = (v a - v b)%R;
  so_div : forall a b e, good a -> good b -> v b <> 0%R -> op_div ops a b = Ok e -> good e /\ v e = (v a / v b)%R;
  so_sum : forall l e, l <> [] -> Forall good l -> op_sum ops l = Ok e -> good e /\ v e = fold_right (fun a r => (v a + r)%R) 0%R l }.

(** A matrix all of whose elements have the values of [f]. *)
Definition has_values (good : E -> Prop) (v : E -> R) (m : matrix E) (r c : Z) (f : Z -> Z -> R) : Prop :=
  valid m /\ m_rows m = r /\ m_cols m = c /\
  forall i j, in_range r c i j -> exists e, entry m i j = Some e /\ good e /\ v e = f i j.
End Spec.

(** The sum of [f 0], ..., [f (n - 1)]. *)
Fixpoint sum_n (n : nat) (f : Z -> R) : R :=
  match n with O => 0%R | S k => (sum_n k f + f (Z.of_nat k))%R end.
