(** C41: what a consumer list should be: a bag of entries, each under a handle that stays valid
    until it is removed.  Independent of the model. *)
From Coq Require Import List NArith Permutation.
From Verif Require Import ConsumerModel.
Import ListNotations.

Section Spec.
  Context {V : Type}.
  (** Live entries. *)
  Definition bag := list (N * V).
  Definition handles (b : bag) : list N := map fst b.
  Definition values (b : bag) : list V := map snd b.
  Definition live (b : bag) (h : N) : Prop := In h (handles b).

  (** One legal step of the abstract bag.  An insertion may pick any handle that is not in use. *)
  Inductive bag_insert (b : bag) (v : V) (h : N) : bag -> Prop :=
  | bag_ins : ~ live b h -> forall b', Permutation b' ((h, v) :: b) -> bag_insert b v h b'.
  Inductive bag_remove (b : bag) (h : N) : bag -> Prop :=
  | bag_rem : forall v b', Permutation b ((h, v) :: b') -> bag_remove b h b'.

  (** Runs of the abstract bag (the type of calls is shared with the model). *)
  Inductive bag_run : bag -> list (cv_op V) -> bag -> Prop :=
  | br_nil b : bag_run b [] b
  | br_ins b v h b' t b'' : bag_insert b v h b' -> bag_run b' t b'' -> bag_run b (OInsert v :: t) b''
  | br_rem b h b' t b'' : bag_remove b h b' -> bag_run b' t b'' -> bag_run b (ORemove h :: t) b''.

  (** Number of insertions of a history. *)
  Definition inserted (h : list (cv_op V)) : nat :=
    length (filter (fun o => match o with OInsert _ => true | _ => false end) h).
End Spec.
Arguments bag V : clear implicits.
