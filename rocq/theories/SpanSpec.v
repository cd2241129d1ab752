(** Multi-dimensional addressing. *)
From Coq Require Import ZArith List.
Import ListNotations.
Open Scope Z_scope.

Fixpoint dot (a b : list Z) : Z :=
  match a, b with x :: a', y :: b' => x * y + dot a' b' | _, _ => 0 end.
Definition size (dims : list Z) : Z := fold_right Z.mul 1 dims.

(** Indices within the dimensions. *)
Definition in_range (dims idx : list Z) : Prop := Forall2 (fun d i => 0 <= i < d) dims idx.

(** Dense strides: last axis fastest, and first axis fastest. *)
Fixpoint row_major (dims : list Z) : list Z :=
  match dims with [] => [] | _ :: ds => size ds :: row_major ds end.
Fixpoint col_major_from (acc : Z) (dims : list Z) : list Z :=
  match dims with [] => [] | d :: ds => acc :: col_major_from (acc * d) ds end.
Definition col_major : list Z -> list Z := col_major_from 1.

(** Elementwise sum of index vectors. *)
Fixpoint add_idx (a b : list Z) : list Z :=
  match a, b with x :: a', y :: b' => (x + y) :: add_idx a' b' | _, _ => [] end.
