(** What the factorisation and the determinant compute. *)
From Coq Require Import ZArith List Bool Reals Arith.
From Verif Require Import MatrixSpec.
Import ListNotations.
Open Scope R_scope.

(** ** Factors of a matrix of real numbers *)
Definition mat := Z -> Z -> R.
Definition product (n : Z) (a b : mat) : mat := fun i j => sum_n (Z.to_nat n) (fun k => a i k * b k j).
(** A one in each row, at a different column for each row. *)
Definition permutation_matrix (n : Z) (a : mat) : Prop :=
  exists f : Z -> Z, (forall i, (0 <= i < n)%Z -> (0 <= f i < n)%Z) /\
    (forall i j, (0 <= i < n)%Z -> (0 <= j < n)%Z -> f i = f j -> i = j) /\
    forall i j, in_range n n i j -> a i j = if (f i =? j)%Z then 1 else 0.
Definition unit_lower (n : Z) (a : mat) : Prop :=
  (forall i, (0 <= i < n)%Z -> a i i = 1) /\ forall i j, in_range n n i j -> (i < j)%Z -> a i j = 0.
Definition upper (r c : Z) (a : mat) : Prop := forall i j, in_range r c i j -> (j < i)%Z -> a i j = 0.

(** ** The determinant: expansion along the first column *)
Fixpoint sumN (n : nat) (f : nat -> R) : R := match n with O => 0 | S k => sumN k f + f k end.
(** The index of row [r] of the matrix without row [i]. *)
Definition skip (i r : nat) : nat := if Nat.ltb r i then r else S r.
Fixpoint det (n : nat) (a : nat -> nat -> R) : R :=
  match n with
  | O => 1
  | S m => sumN n (fun i => (-1) ^ i * a i O * det m (fun r c => a (skip i r) (S c)))
  end.
