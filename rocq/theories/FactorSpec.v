(** What a factorization of a sum of products must satisfy. *)
From Coq Require Import List Arith NArith.
From Verif Require Import FactorModel.
Import ListNotations.
Open Scope nat_scope.

(** The positions of the set bits. *)
Definition members (b : bits) : list nat := filter (bit b) (seq 0 64).

(** A step takes at least one variable out of at least two terms of the sum, and each of these variables does occur in
    each of these terms. *)
Record step_ok (terms : list bits) (num_vars : nat) (s : step) : Prop := {
  so_vars : fst s <> 0%N;
  so_terms : 2 <= length (members (snd s));
  so_var_range : forall v, bit (fst s) v = true -> v < num_vars;
  so_term_range : forall i, bit (snd s) i = true -> i < length terms;
  so_divides : forall v i, bit (fst s) v = true -> bit (snd s) i = true -> bit (nth i terms 0%N) v = true
}.

(** No term is used twice. *)
Fixpoint disjoint_steps (l : list step) : Prop :=
  match l with
  | [] => True
  | s :: t => (forall s', In s' t -> forall i, bit (snd s) i = true -> bit (snd s') i = false) /\ disjoint_steps t
  end.

(** Multiplications saved: one per variable and term but the first. *)
Definition saved (s : step) : nat := length (members (fst s)) * (length (members (snd s)) - 1).

Record factorization_ok (terms : list bits) (num_vars : nat) (f : factorization) : Prop := {
  fo_some : f_steps f <> [];
  fo_size : length (f_steps f) <= 8;
  fo_steps : forall s, In s (f_steps f) -> step_ok terms num_vars s;
  fo_disjoint : disjoint_steps (f_steps f);
  fo_score : f_score f = list_sum (map saved (f_steps f))
}.

(** Some variable occurs in two terms. *)
Definition factorable (terms : list bits) (num_vars : nat) : Prop :=
  exists v i j, v < num_vars /\ i < j < length terms /\ bit (nth i terms 0%N) v = true /\ bit (nth j terms 0%N) v = true.
