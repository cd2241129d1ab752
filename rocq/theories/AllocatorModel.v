(** The arena allocator and its std::allocator fallback.
    /repo/components/core/wf/utility/stack_allocator.h.
    Pointers are machine addresses (integers below 2^64) and all pointer arithmetic wraps, as it does on
    the supported targets; the C++ standard makes the comparison [p_ + n > data_ + Capacity] undefined
    whenever the request does not fit.  std::size_t arithmetic wraps. *)
From Coq Require Import ZArith List Bool.
Import ListNotations.
Open Scope Z_scope.

Definition SIZE_MOD : Z := 18446744073709551616.
Definition wrap (z : Z) : Z := z mod SIZE_MOD.

(** internal::round_to_alignment, stack_allocator.h 21-27. *)
Definition round_to_alignment (alignment n : Z) : Z :=
  let remainder := n mod alignment in
  if remainder =? 0 then n else wrap (n + (alignment - remainder)).

(** stack_allocator<Capacity, Alignment>, stack_allocator.h 34-101; [arena_data] is the address of data_. *)
Record arena := { arena_data : Z; arena_capacity : Z; arena_align : Z; arena_p : Z }.

(** Constructor, stack_allocator.h 40. *)
Definition arena_new (data capacity align : Z) : arena :=
  {| arena_data := data; arena_capacity := capacity; arena_align := align; arena_p := data |}.

Definition set_p (a : arena) (p : Z) : arena :=
  {| arena_data := arena_data a; arena_capacity := arena_capacity a; arena_align := arena_align a; arena_p := p |}.

(** allocate, stack_allocator.h 43-55; nullptr is [None]. *)
Definition arena_allocate (a : arena) (n : Z) : arena * option Z :=
  if n =? 0 then (a, None)
  else
    let n_aligned := round_to_alignment (arena_align a) n in
    if wrap (arena_p a + n_aligned) >? wrap (arena_data a + arena_capacity a) then (a, None)
    else (set_p a (wrap (arena_p a + n_aligned)), Some (arena_p a)).

(** deallocate, stack_allocator.h 59-64. *)
Definition arena_deallocate (a : arena) (ptr n : Z) : arena :=
  let n_aligned := round_to_alignment (arena_align a) n in
  if wrap (ptr + n_aligned) =? arena_p a then set_p a ptr else a.

(** owns / in_live_range / is_empty / used_bytes, stack_allocator.h 67-83. *)
Definition arena_owns (a : arena) (ptr : Z) : bool :=
  (arena_data a <=? ptr) && (ptr <? wrap (arena_data a + arena_capacity a)).
Definition arena_in_live_range (a : arena) (ptr : Z) : bool :=
  (arena_data a <=? ptr) && (ptr <? arena_p a).
Definition arena_is_empty (a : arena) : bool := arena_p a =? arena_data a.
Definition arena_used_bytes (a : arena) : Z := wrap (arena_p a - arena_data a).

(** Where a block came from. *)
Inductive source := FromArena | FromHeap.

(** stl_stack_allocator_with_fallback::allocate, stack_allocator.h 130-135.  [heap] is the address
    std::allocator would return for this call. *)
Definition stl_allocate (a : arena) (sizeof n heap : Z) : arena * (Z * source) :=
  match arena_allocate a (wrap (sizeof * n)) with
  | (a', Some p) => (a', (p, FromArena))
  | (a', None) => (a', (heap, FromHeap))
  end.

(** stl_stack_allocator_with_fallback::deallocate, stack_allocator.h 139-145: the allocator the block is
    given back to. *)
Definition stl_deallocate (a : arena) (sizeof ptr n : Z) : arena * source :=
  if arena_owns a ptr then (arena_deallocate a ptr (wrap (sizeof * n)), FromArena)
  else (a, FromHeap).

(** Histories.  [live] lists the live blocks (address, requested size, source), most recent first. *)
Record block := { b_ptr : Z; b_size : Z; b_src : source }.
Inductive call :=
| Alloc (n heap : Z)            (* allocate n objects; heap: what std::allocator would return *)
| Free (k : nat).               (* give back the k-th live block *)

Fixpoint remove_nth {A} (k : nat) (l : list A) : list A :=
  match k, l with
  | _, [] => []
  | O, _ :: t => t
  | S j, h :: t => h :: remove_nth j t
  end.

(** One call by a client that frees only what it holds; [None]: the client broke that rule.  The last component
    of a free is whether the block went back to the allocator it came from. *)
Definition do_call (sizeof : Z) (s : arena * list block) (c : call) : option ((arena * list block) * bool) :=
  let (a, live) := s in
  match c with
  | Alloc n heap =>
      let '(a', (p, src)) := stl_allocate a sizeof n heap in
      Some ((a', {| b_ptr := p; b_size := n; b_src := src |} :: live), true)
  | Free k =>
      match nth_error live k with
      | None => None
      | Some b =>
          let (a', src) := stl_deallocate a sizeof (b_ptr b) (b_size b) in
          Some ((a', remove_nth k live),
                match src, b_src b with FromArena, FromArena | FromHeap, FromHeap => true | _, _ => false end)
      end
  end.

Fixpoint do_calls (sizeof : Z) (s : arena * list block) (h : list call) : option ((arena * list block) * bool) :=
  match h with
  | [] => Some (s, true)
  | c :: t =>
      match do_call sizeof s c with
      | None => None
      | Some (s', ok) =>
          match do_calls sizeof s' t with
          | None => None
          | Some (s'', ok') => Some (s'', ok && ok')
          end
      end
  end.
