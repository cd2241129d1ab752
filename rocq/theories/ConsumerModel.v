(** The sparse vector of consumers kept by every IR value.
    /repo/components/core/wf/code_generation/ir_consumer_vector.h.
    Simplifications: pointers to values are elements of an arbitrary type [V] (never null, as the caller
    guarantees); container growth never fails. *)
From Coq Require Import List ZArith Arith NArith.
From Verif Require Import Outcome.
Import ListNotations.
Open Scope outcome_scope.
Open Scope nat_scope.

Section Consumers.
  Context {V : Type}.

  (** ir_consumer_vector.h 120-121.  [cells] is [consumers_] ([None] is nullptr); [freelist] is
      [freelist_] with its back element first; its entries are std::uint32_t. *)
  Record cvec := { cells : list (option V); freelist : list N }.

  Definition cv_empty_vec : cvec := {| cells := []; freelist := [] |}.

  (** static_cast<std::uint32_t>, ir_consumer_vector.h 99. *)
  Definition to_u32 (n : N) : N := N.modulo n 4294967296.

  Fixpoint set_nth (l : list (option V)) (i : nat) (x : option V) : list (option V) :=
    match l, i with
    | [], _ => []
    | _ :: t, O => x :: t
    | h :: t, S j => h :: set_nth t j x
    end.

  (** insert, ir_consumer_vector.h 80-91: [consumers_[index]] with a bad index is undefined behaviour. *)
  Definition cv_insert (c : cvec) (v : V) : outcome (cvec * N) :=
    match freelist c with
    | [] => Ok ({| cells := cells c ++ [Some v]; freelist := [] |}, N.of_nat (length (cells c)))
    | i :: f =>
        if N.ltb i (N.of_nat (length (cells c)))
        then Ok ({| cells := set_nth (cells c) (N.to_nat i) (Some v); freelist := f |}, i)
        else UB
    end.

  (** remove, ir_consumer_vector.h 94-99; both assertions throw. *)
  Definition cv_remove (c : cvec) (index : N) : outcome cvec :=
    if N.ltb index (N.of_nat (length (cells c))) then
      match nth (N.to_nat index) (cells c) None with
      | Some _ => Ok {| cells := set_nth (cells c) (N.to_nat index) None;
                        freelist := to_u32 index :: freelist c |}
      | None => Throws
      end
    else Throws.

  (** size / empty, ir_consumer_vector.h 102-105: std::size_t subtraction, here on Z. *)
  Definition cv_size (c : cvec) : Z := (Z.of_nat (length (cells c)) - Z.of_nat (length (freelist c)))%Z.
  Definition cv_is_empty (c : cvec) : bool := (cv_size c =? 0)%Z.

  (** const_iterator, ir_consumer_vector.h 31-77: the pair (it_, end_it_) is the list of cells from it_ on. *)
  Fixpoint advance_to_next (it : list (option V)) : list (option V) :=
    match it with
    | None :: t => advance_to_next t
    | _ => it
    end.
  Definition cv_begin (c : cvec) : list (option V) := advance_to_next (cells c).
  Definition it_next (it : list (option V)) : list (option V) := advance_to_next (tl it).
  Definition it_deref (it : list (option V)) : option V := hd None it.

  (** A range-for over the vector: visit until the iterator equals end().  One unit of fuel per cell. *)
  Fixpoint iterate (fuel : nat) (it : list (option V)) : outcome (list V) :=
    match it with
    | [] => Ok []
    | _ =>
        match fuel with
        | O => NoFuel
        | S f =>
            match it_deref it with
            | None => UB
            | Some v => let* r := iterate f (it_next it) in Ok (v :: r)
            end
        end
    end.
  Definition cv_to_list (c : cvec) : outcome (list V) := iterate (length (cells c)) (cv_begin c).

  (** A history of calls; [ORemove] gives the index returned by the matching insert. *)
  Inductive cv_op := OInsert (v : V) | ORemove (index : N).
  Definition cv_apply (c : cvec) (o : cv_op) : outcome cvec :=
    match o with
    | OInsert v => let* r := cv_insert c v in Ok (fst r)
    | ORemove i => cv_remove c i
    end.
  Fixpoint cv_run (c : cvec) (h : list cv_op) : outcome cvec :=
    match h with
    | [] => Ok c
    | o :: t => let* c' := cv_apply c o in cv_run c' t
    end.
End Consumers.
Arguments cvec V : clear implicits.
Arguments cv_op V : clear implicits.
