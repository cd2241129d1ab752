(** C43: specification of the range utilities. *)
From Coq Require Import List Sorted.
Import ListNotations.

Section Spec.
  Context {A : Type}.
  (** All copies of a value are adjacent (true of every sorted range). *)
  Definition grouped (l : list A) : Prop :=
    forall l1 l2 l3 x, l = l1 ++ x :: l2 ++ x :: l3 -> forall y, In y l2 -> y = x.
End Spec.

(** Positions of the set bits of a bitset, in increasing order. *)
Definition set_bits (bits : list bool) : list nat := filter (fun i => nth i bits false) (seq 0 (length bits)).
