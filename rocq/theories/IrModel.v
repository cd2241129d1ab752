(** The intermediate representation of one block and its def-use graph.
    /repo/components/core/wf/code_generation/ir_types.h, ir_value.h, ir_value.cc, control_flow_graph.cc.

    Representation.  A value is known by its name (ir_value.h 257); the heap of values is a map from names.  The
    consumer vector of a value is the list of the names of its consumers, one entry per use: ConsumerModel.v
    and C41 show that the sparse vector is such a bag and that removing by index removes one entry of that
    consumer.  Operand pointers lose their consumer index for that reason.  Names are natural numbers: the wrap of
    std::uint32_t names is not modelled. *)
From Coq Require Import String List Arith ZArith Bool.
From Verif Require Import Outcome RangesModel.
Import ListNotations.
Open Scope outcome_scope.
Open Scope nat_scope.

Definition name := nat.

(** numeric_primitive_type, enumerations.h 67-71. *)
Inductive numeric := NBool | NInt | NFloat.

(** value::types, ir_value.h 67: custom types are known by their name. *)
Inductive vtype := TVoid | TScalar (n : numeric) | TMatrix (rows cols : nat) | TCustom (name : string).

(** std_math_function, enumerations.h 101-125. *)
Inductive std_fn :=
| F_cos | F_sin | F_tan | F_acos | F_asin | F_atan | F_cosh | F_sinh | F_tanh | F_acosh | F_asinh | F_atanh
| F_log | F_exp | F_sqrt | F_abs | F_signum | F_floor | F_atan2 | F_powi | F_powf.

(** relational_operation, enumerations.h. *)
Inductive rel_op := RLt | RLe | REq.

(** symbolic_constant_enum. *)
Inductive sym_const := SEuler | SPi.

(** load::storage_type, ir_types.h 215-217.  A double is the integer with its bits; variables and arguments are
    known by numbers. *)
Inductive load_src :=
| LInt (z : Z) | LRat (n d : Z) | LFloat (bits : Z) | LSym (c : sym_const) | LBool (b : bool)
| LVar (v : nat) | LArg (arg elem : nat) | LCustomArg (arg : nat).

(** operation, ir_types.h 320-322.  [OSave] carries the usage (as a number) and name of its output_key;
    external functions are known by their name. *)
Inductive op :=
| OAdd | OCallExt (f : string) | OCallStd (f : std_fn) | OCast (t : numeric) | OCompare (r : rel_op) | OCond | OCopy
| OConstruct (t : vtype) | ODiv | OGet (i : nat) | OJump | OLoad (l : load_src) | OMul | ONeg
| OOutReq (s : string) | OPhi | OSave (usage : nat) (key : string).

Definition numeric_dec (a b : numeric) : {a = b} + {a <> b}.
Proof. decide equality. Defined.
Definition vtype_dec (a b : vtype) : {a = b} + {a <> b}.
Proof. decide equality; try apply Nat.eq_dec; try apply numeric_dec; apply string_dec. Defined.
Definition load_dec (a b : load_src) : {a = b} + {a <> b}.
Proof. decide equality; try apply Nat.eq_dec; try apply Z.eq_dec; try apply Bool.bool_dec; decide equality. Defined.
(** are_identical on operations: the is_identical_to members of ir_types.h. *)
Definition op_dec (a b : op) : {a = b} + {a <> b}.
Proof.
  decide equality; try apply Nat.eq_dec; try apply string_dec; try apply numeric_dec; try apply vtype_dec;
    try apply load_dec; decide equality.
Defined.

(** The is_commutative members of ir_types.h. *)
Definition commutative (o : op) : bool := match o with OAdd | OMul => true | _ => false end.

(** The num_value_operands members of ir_types.h; [None] is -1, any number. *)
Definition arity (o : op) : option nat :=
  match o with
  | OAdd | OMul | OCallExt _ | OCallStd _ | OConstruct _ => None
  | OCast _ | OCopy | OGet _ | OJump | ONeg | OSave _ _ => Some 1
  | OCompare _ | ODiv | OPhi => Some 2
  | OCond => Some 3
  | OLoad _ | OOutReq _ => Some 0
  end.

Definition is_add (o : op) : bool := match o with OAdd => true | _ => false end.
Definition is_mul (o : op) : bool := match o with OMul => true | _ => false end.
Definition is_copy (o : op) : bool := match o with OCopy => true | _ => false end.
Definition is_phi (o : op) : bool := match o with OPhi => true | _ => false end.
(** Operations that are kept although nothing consumes them, ir_value.h 193. *)
Definition is_sink (o : op) : bool := match o with OSave _ _ | OJump => true | _ => false end.

(** ir_value.h 257-272. *)
Record value := mkv { v_op : op; v_ty : vtype; v_args : list name; v_cons : list name; v_parent : nat }.

(** All values of the function; [g_next] is one more than the last name given out. *)
Record graph := mkg { g_next : name; g_val : name -> value }.

Definition upd (f : name -> value) (n : name) (v : value) : name -> value :=
  fun m => if m =? n then v else f m.
Definition set_val (g : graph) (n : name) (v : value) : graph := mkg (g_next g) (upd (g_val g) n v).

Definition op_of (g : graph) (n : name) : op := v_op (g_val g n).
Definition args (g : graph) (n : name) : list name := v_args (g_val g n).
Definition cons_of (g : graph) (n : name) : list name := v_cons (g_val g n).
Definition ty_of (g : graph) (n : name) : vtype := v_ty (g_val g n).
Definition parent (g : graph) (n : name) : nat := v_parent (g_val g n).

Definition with_args (v : value) (l : list name) : value := mkv (v_op v) (v_ty v) l (v_cons v) (v_parent v).
Definition with_cons (v : value) (l : list name) : value := mkv (v_op v) (v_ty v) (v_args v) l (v_parent v).

(** sort_operands, ir_value.h 251-254: std::sort by name. *)
Fixpoint insert_name (x : name) (l : list name) : list name :=
  match l with
  | [] => [x]
  | y :: t => if x <=? y then x :: l else y :: insert_name x t
  end.
Fixpoint sort_names (l : list name) : list name :=
  match l with
  | [] => []
  | x :: t => insert_name x (sort_names t)
  end.
(** maybe_sort_operands, ir_value.cc 131-136; also the sort of post_init_steps, ir_value.h 237-240. *)
Definition maybe_sort (o : op) (l : list name) : list name := if commutative o then sort_names l else l.

Fixpoint remove_one (x : name) (l : list name) : list name :=
  match l with
  | [] => []
  | y :: t => if y =? x then t else y :: remove_one x t
  end.

(** add_consumer, ir_value.cc 42-44. *)
Definition add_consumer (g : graph) (v c : name) : graph :=
  set_val g v (with_cons (g_val g v) (c :: cons_of g v)).
(** remove_consumer, ir_value.cc 46, called by remove_operand, ir_value.h 275. *)
Definition remove_consumer (g : graph) (v c : name) : graph :=
  set_val g v (with_cons (g_val g v) (remove_one c (cons_of g v))).

(** create_operands, ir_value.h 223-233. *)
Definition add_consumers (g : graph) (l : list name) (c : name) : graph :=
  fold_left (fun g a => add_consumer g a c) l g.
Definition remove_consumers (g : graph) (l : list name) (c : name) : graph :=
  fold_left (fun g a => remove_consumer g a c) l g.

(** The arity assertion of post_init_steps, ir_value.h 241-244. *)
Definition arity_ok (o : op) (n : nat) : bool :=
  match arity o with Some k => n =? k | None => true end.

(** push_value, control_flow_graph.cc 896-906, with the constructor of ir_value.h 70-79. *)
Definition push_value (g : graph) (block : nat) (o : op) (t : vtype) (l : list name) : outcome (graph * name) :=
  let n := g_next g in
  if arity_ok o (length l) then
    let g1 := mkg (S n) (upd (g_val g) n (mkv o t (maybe_sort o l) [] block)) in
    Ok (add_consumers g1 l n, n)
  else Throws.

(** set_operation, ir_value.h 118-128. *)
Definition set_operation (g : graph) (v : name) (o : op) (t : vtype) (l : list name) : outcome graph :=
  let g1 := remove_consumers g (args g v) v in
  let g2 := add_consumers g1 l v in
  if arity_ok o (length l)
  then Ok (set_val g2 v (mkv o t (maybe_sort o l) (cons_of g2 v) (parent g2 v)))
  else Throws.

(** replace_operand, ir_value.cc 20-30, on the consumer [c]. *)
Definition replace_operand (g : graph) (c old new : name) : graph :=
  let k := count_occ Nat.eq_dec (args g c) old in
  let g1 := add_consumers g (repeat new k) c in
  set_val g1 c (with_args (g_val g1 c)
                  (maybe_sort (op_of g1 c) (map (fun a => if a =? old then new else a) (args g1 c)))).

(** replace_with, ir_value.cc 98-104.  The iteration is over the consumers of [v], which only the last line
    changes (as [other] is not [v]). *)
Definition replace_with (g : graph) (v other : name) : outcome graph :=
  if v =? other then Throws
  else
    let g1 := fold_left (fun g c => replace_operand g c v other) (cons_of g v) g in
    Ok (set_val g1 v (with_cons (g_val g1 v) [])).

(** remove, ir_value.cc 106-115. *)
Definition remove_value (g : graph) (v : name) : outcome graph :=
  match cons_of g v with
  | _ :: _ => Throws
  | [] =>
      let g1 := remove_consumers g (args g v) v in
      Ok (set_val g1 v (with_args (g_val g1 v) []))
  end.

(** is_unused, ir_value.h 192-194. *)
Definition is_unused (g : graph) (v : name) : bool :=
  match cons_of g v with [] => negb (is_sink (op_of g v)) | _ => false end.

(** is_consumed_by_phi, ir_value.cc 15-18. *)
Definition is_consumed_by_phi (g : graph) (v : name) : bool :=
  existsb (fun c => is_phi (op_of g c)) (cons_of g v).

(** Removing an element at most [k] times, ir_value.cc 60-73. *)
Fixpoint remove_up_to (k : nat) (x : name) (l : list name) : list name :=
  match l with
  | [] => []
  | y :: t => match k with
              | O => l
              | S k' => if y =? x then remove_up_to k' x t else y :: remove_up_to k x t
              end
  end.

(** replace_operand_pair, ir_value.cc 48-83. *)
Definition replace_operand_pair (g : graph) (v a b new : name) : graph * nat :=
  let l := args g v in
  let k := if a =? b then count_occ Nat.eq_dec l a / 2
           else Nat.min (count_occ Nat.eq_dec l a) (count_occ Nat.eq_dec l b) in
  let g1 := remove_consumers g (repeat a k) v in
  let g2 := remove_consumers g1 (repeat b k) v in
  let g3 := add_consumers g2 (repeat new k) v in
  let l' := remove_up_to k b (remove_up_to k a l) ++ repeat new k in
  (set_val g3 v (with_args (g_val g3 v) (maybe_sort (op_of g3 v) l')), k).

(** Assertions on operand positions, ir_value.h 158-167. *)
Definition first_operand (g : graph) (v : name) : outcome name :=
  match args g v with a :: _ => Ok a | [] => Throws end.

(** numeric_type, ir_value.h 209-214. *)
Definition numeric_type (g : graph) (v : name) : outcome numeric :=
  match ty_of g v with TScalar t => Ok t | _ => Throws end.

Fixpoint mfold {S A} (f : S -> A -> outcome S) (l : list A) (s : S) : outcome S :=
  match l with
  | [] => Ok s
  | a :: t => let* s' := f s a in mfold f t s'
  end.

(** Operations pushed one after the other into an empty block, as ir_form_visitor does (control_flow_graph.cc
    135-163): names are given out in order. *)
Definition empty_graph : graph := mkg 0 (fun _ => mkv OCopy TVoid [] [] 0).
Definition build_step (st : graph * list name) (i : op * vtype * list name) : outcome (graph * list name) :=
  let (g, ops) := st in
  let '(o, t, l) := i in
  let* gn := push_value g 0 o t l in Ok (fst gn, ops ++ [snd gn]).
Definition build (p : list (op * vtype * list name)) : outcome (graph * list name) :=
  mfold build_step p (empty_graph, []).

(** * Passes over one block.  [ops] is block->operations(). *)

(** value_equality_struct, control_flow_graph.cc 125-133. *)
Definition same_value (g : graph) (a b : name) : bool :=
  (if op_dec (op_of g a) (op_of g b) then true else false)
  && (if list_eq_dec Nat.eq_dec (args g a) (args g b) then true else false).

(** local_value_numbering, control_flow_graph.cc 219-236.  The hash table is the list of the values put in it;
    a lookup compares with them as they are now (std::unordered_set compares on lookup). *)
Definition lvn_step (st : graph * list name) (v : name) : outcome (graph * list name) :=
  let (g, table) := st in
  match find (fun r => same_value g r v) table with
  | None => Ok (g, v :: table)
  | Some r =>
      if is_consumed_by_phi g v then
        let* g' := set_operation g v OCopy (ty_of g r) [r] in Ok (g', table)
      else
        let* g' := replace_with g v r in Ok (g', table)
  end.
Definition local_value_numbering (g : graph) (ops : list name) : outcome graph :=
  let* st := mfold lvn_step ops (g, []) in Ok (fst st).

(** remove_if_unused, control_flow_graph.cc 238-244.  The assertion of remove() holds by the test. *)
Definition remove_if_unused (g : graph) (v : name) : graph * bool :=
  if is_unused g v then
    match remove_value g v with Ok g' => (g', true) | _ => (g, true) end
  else (g, false).

Definition remove_unused (g : graph) (ops : list name) : graph * list name :=
  let (ops', g') := reverse_remove_if remove_if_unused ops g in (g', ops').

(** eliminate_duplicates, control_flow_graph.cc 247-259. *)
Definition eliminate_duplicates (st : graph * list name) : outcome (graph * list name) :=
  let (g, ops) := st in
  let* g1 := local_value_numbering g ops in
  Ok (remove_unused g1 ops).

(** eliminate_needless_copies, control_flow_graph.cc 262-277. *)
Definition copy_step (st : graph * list name) (v : name) : outcome (graph * list name) :=
  let (g, kept) := st in
  if is_copy (op_of g v) then
    let* a := first_operand g v in
    if parent g a =? parent g v then
      let* g1 := replace_with g v a in
      let* g2 := remove_value g1 v in
      Ok (g2, kept)
    else Ok (g, kept ++ [v])
  else Ok (g, kept ++ [v]).
Definition eliminate_needless_copies (st : graph * list name) : outcome (graph * list name) :=
  mfold copy_step (snd st) (fst st, []).

(** topological_sort_values, control_flow_graph.cc 279-330.  The priority queue is a bag from which the smallest
    name is taken; [out] is both the new [operations] and the set [visited], which the code keeps equal. *)
Fixpoint least (l : list name) : option name :=
  match l with
  | [] => None
  | x :: t => match least t with Some y => Some (Nat.min x y) | None => Some x end
  end.
Definition mem (x : name) (l : list name) : bool := existsb (Nat.eqb x) l.

Fixpoint tsort_loop (fuel : nat) (g : graph) (block : nat) (queue out : list name) : outcome (list name) :=
  match fuel with
  | O => NoFuel
  | S fuel' =>
      match least queue with
      | None => Ok out
      | Some top =>
          let queue := remove_one top queue in
          if mem top out then tsort_loop fuel' g block queue out
          else
            let out := out ++ [top] in
            let ready := filter (fun c => (parent g c =? block) && forallb (fun a => mem a out) (args g c))
                                (cons_of g top) in
            tsort_loop fuel' g block (queue ++ ready) out
      end
  end.

Definition tsort_fuel (g : graph) (ops : list name) : nat :=
  S (length ops + list_sum (map (fun v => length (cons_of g v)) ops)).

Definition topological_sort_values (g : graph) (block : nat) (ops : list name) : outcome (list name) :=
  let queue := filter (fun v => forallb (fun a => negb (parent g a =? block)) (args g v)) ops in
  let* out := tsort_loop (tsort_fuel g ops) g block queue [] in
  if length out =? length ops then Ok out else Throws.
