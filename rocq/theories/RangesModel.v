(** Range utilities.
    /repo/components/core/wf/utility/algorithms.h and utility/bitset_range.h. *)
From Coq Require Import List Arith Bool.
From Verif Require Import Outcome.
Import ListNotations.
Open Scope nat_scope.
Open Scope outcome_scope.

Section Unique.
  Context {A : Type} (eqb : A -> A -> bool).

  (** The range, as cells; [None] is a moved-from element. *)
  Definition cells := list (option A).
  Fixpoint put (l : cells) (i : nat) (x : option A) : cells :=
    match l, i with
    | [], _ => []
    | _ :: t, O => x :: t
    | h :: t, S j => h :: put t j x
    end.
  (** Reading a moved-from element is treated as undefined behaviour. *)
  Definition get (l : cells) (i : nat) : outcome A :=
    match nth_error l i with Some (Some a) => Ok a | _ => UB end.

  (** The loop of unique_and_extract_duplicates, algorithms.h 144-157.  [n] counts the elements from
      [first] to [last]. *)
  Fixpoint ued_loop (n : nat) (l : cells) (result first : nat) (out : list A) : outcome (cells * nat * list A) :=
    match n with
    | O => Ok (l, result, out)
    | S m =>
        let* r := get l result in
        let* f := get l first in
        if eqb r f then
          ued_loop m (put l first None) result (S first) (out ++ [f])
        else
          let result := S result in
          let l := if result =? first then l else put (put l first None) result (Some f) in
          ued_loop m l result (S first) out
    end.

  (** unique_and_extract_duplicates, algorithms.h 139-159: the cells afterwards, the index of the returned
      iterator and what was written to [output]. *)
  Definition unique_and_extract_duplicates (l : list A) : outcome (cells * nat * list A) :=
    match l with
    | [] => Ok ([], 0, [])
    | _ :: t =>
        let* r := ued_loop (length t) (map Some l) 0 1 [] in
        let '(c, result, out) := r in
        Ok (c, S result, out)
    end.
End Unique.

Section Remove.
  Context {A S : Type}.
  (** reverse_remove_if, algorithms.h 127-133, with a predicate that may change a state [S] (as the uses in the
      IR passes do): elements are tested from the back, those that match are removed and the rest keep their order. *)
  Fixpoint reverse_remove_if (p : S -> A -> S * bool) (l : list A) (s : S) : list A * S :=
    match l with
    | [] => ([], s)
    | a :: t =>
        let (t', s1) := reverse_remove_if p t s in
        let (s2, rm) := p s1 a in
        (if rm then t' else a :: t', s2)
    end.

  (** remove_if, algorithms.h 117-123. *)
  Fixpoint remove_if (p : S -> A -> S * bool) (l : list A) (s : S) : list A * S :=
    match l with
    | [] => ([], s)
    | a :: t =>
        let (s1, rm) := p s a in
        let (t', s2) := remove_if p t s1 in
        (if rm then t' else a :: t', s2)
    end.
End Remove.

Section Bits.
  (** bitset_range<N>::const_iterator, bitset_range.h 24-63.  The bitset is the list of its bits, position 0 first. *)
  Variable bits : list bool.

  (** advance, bitset_range.h 58-61; [n] bounds the number of steps ([b_.size() - pos_]). *)
  Fixpoint advance (n pos : nat) : nat :=
    match n with
    | O => pos
    | S m => if (pos <? length bits) && negb (nth pos bits false) then advance m (S pos) else pos
    end.
  Definition it_at (pos : nat) : nat := advance (length bits - pos) pos.
  Definition bits_begin : nat := it_at 0.
  Definition bits_end : nat := it_at (length bits).
  (** operator++(), 38-42, and operator++(int), 44-48. *)
  Definition pre_inc (pos : nat) : nat := it_at (S pos).
  Definition post_inc (pos : nat) : nat := S pos.

  (** for (it = begin; it != end; inc it) visit *it. *)
  Fixpoint visit (inc : nat -> nat) (fuel pos : nat) : outcome (list nat) :=
    if pos =? bits_end then Ok []
    else match fuel with
         | O => NoFuel
         | S f => let* r := visit inc f (inc pos) in Ok (pos :: r)
         end.
  Definition visit_all (inc : nat -> nat) : outcome (list nat) := visit inc (S (length bits)) bits_begin.
End Bits.
