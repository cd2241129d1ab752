(** C42: what an allocator must guarantee. *)
From Coq Require Import ZArith List.
From Verif Require Import AllocatorModel.
Import ListNotations.
Open Scope Z_scope.

(** The bytes [p, p+n). *)
Definition disjoint (p n q m : Z) : Prop := p + n <= q \/ q + m <= p.

Definition bytes (sizeof : Z) (b : block) : Z := sizeof * b_size b.

(** Live blocks handed out by the arena lie inside it, are aligned, and no two overlap. *)
Definition blocks_ok (data cap align sizeof : Z) (live : list block) : Prop :=
  (forall b, In b live -> b_src b = FromArena ->
     data <= b_ptr b /\ b_ptr b + bytes sizeof b <= data + cap /\ (align | b_ptr b)) /\
  (forall i j b c, nth_error live i = Some b -> nth_error live j = Some c -> i <> j ->
     b_src b = FromArena -> b_src c = FromArena ->
     disjoint (b_ptr b) (bytes sizeof b) (b_ptr c) (bytes sizeof c)).

(** Requests: no more bytes than PTRDIFF_MAX, and the fallback never returns addresses inside the arena's buffer. *)
Definition request_ok (data cap sizeof : Z) (c : call) : Prop :=
  match c with
  | Alloc n heap => 0 <= n /\ sizeof * n < 9223372036854775808 /\ (heap < data \/ data + cap <= heap)
  | Free _ => True
  end.

(** The buffer lies in the lower half of the address space and its start is aligned ([alignas]). *)
Definition arena_ok (data cap align : Z) : Prop :=
  0 < align < 4611686018427387904 /\ 0 < data /\ 0 < cap /\ data + cap < 4611686018427387904 /\ (align | data).

(** Stack discipline: every block is freed while it is the most recently allocated live one. *)
Inductive lifo : list call -> Prop :=
| lifo_nil : lifo []
| lifo_pair n heap h1 h2 : lifo h1 -> lifo h2 -> lifo (Alloc n heap :: h1 ++ Free 0 :: h2).
