(** From selects to branches: the converter of
    /repo/components/core/wf/code_generation/ir_control_flow_converter.{h,cc}, with the members of ir_block.cc it uses.

    Representation.  The output block with name b, at position b of blocks_, is known to values (parent_) as [S b]; the
    parent of the values that were not moved yet, the input block, is 0.  The table is_dominated_by_ is left out: its
    entries are for the pair of a block and the output block of one call of process_non_conditionals, no two calls that
    look at values have the same output block (every block is passed to process once; the last call, line 102, has an
    empty queue) and no edges change during a call, so that a table entry is what would be computed again.
    Assertions throw; values that are erased at the end stay in the graph, without consumers. *)
From Coq Require Import String List Arith ZArith Bool.
From Verif Require Import Outcome IrModel CfgModel.
Import ListNotations.
Open Scope outcome_scope.
Open Scope nat_scope.

(** ir_control_flow_converter.h 60-65. *)
Record cstate := mks { s_g : graph; s_blocks : list cblock; s_visited : list name }.
Definition s_cfg (st : cstate) : cfg := mkc (s_g st) (s_blocks st).

Fixpoint update {A} (l : list A) (n : nat) (f : A -> A) : list A :=
  match l, n with
  | [], _ => []
  | x :: t, O => f x :: t
  | x :: t, S n => x :: update t n f
  end.
Definition nth_block (l : list cblock) (b : nat) : cblock := nth b l (mkb [] [] []).
Definition with_ops (f : list name -> list name) (x : cblock) : cblock := mkb (f (b_ops x)) (b_anc x) (b_desc x).
Definition with_anc (f : list nat -> list nat) (x : cblock) : cblock := mkb (b_ops x) (f (b_anc x)) (b_desc x).
Definition with_desc (f : list nat -> list nat) (x : cblock) : cblock := mkb (b_ops x) (b_anc x) (f (b_desc x)).

(** ir_control_flow_converter.cc 367-371: create_block. *)
Definition create_block (st : cstate) : cstate * nat :=
  (mks (s_g st) (s_blocks st ++ [mkb [] [] []]) (s_visited st), length (s_blocks st)).
(** ir_block.h 112-127: create_operation. *)
Definition create_operation (st : cstate) (b : nat) (o : op) (t : vtype) (l : list name) : outcome (cstate * name) :=
  let* gv := push_value (s_g st) (S b) o t l in
  Ok (mks (fst gv) (update (s_blocks st) b (with_ops (fun ops => ops ++ [snd gv]))) (s_visited st), snd gv).
(** ir_block.h 40-43: insert_front. *)
Definition insert_front (st : cstate) (b : nat) (l : list name) : cstate :=
  mks (s_g st) (update (s_blocks st) b (with_ops (fun ops => l ++ ops))) (s_visited st).
(** ir_value.cc 10-13: set_parent. *)
Definition set_parent (g : graph) (v : name) (b : nat) : outcome graph :=
  if is_jump (op_of g v) then Throws
  else Ok (set_val g v (mkv (op_of g v) (ty_of g v) (args g v) (cons_of g v) (S b))).
(** visited_.insert. *)
Definition visit (st : cstate) (l : list name) : cstate := mks (s_g st) (s_blocks st) (l ++ s_visited st).

(** ir_block.cc 30-46. *)
Definition add_ancestor (bl : list cblock) (b a : nat) : outcome (list cblock) :=
  if in_set a (b_anc (nth_block bl b)) then Throws else Ok (update bl b (with_anc (fun l => l ++ [a]))).
Definition remove_ancestor (bl : list cblock) (b a : nat) : outcome (list cblock) :=
  if in_set a (b_anc (nth_block bl b)) then Ok (update bl b (with_anc (remove_one a))) else Throws.
Definition add_descendant (bl : list cblock) (a b : nat) : outcome (list cblock) :=
  if in_set b (b_desc (nth_block bl a)) then Throws
  else add_ancestor (update bl a (with_desc (fun l => l ++ [b]))) b a.
(** ir_block.cc 11-28: replace_descendant. *)
Fixpoint replace_first (x y : nat) (l : list nat) : list nat :=
  match l with
  | [] => []
  | z :: t => if z =? x then y :: t else z :: replace_first x y t
  end.
Definition replace_descendant (g : graph) (bl : list cblock) (a target replacement : nat) : outcome (list cblock) :=
  if target =? replacement then Throws
  else
    let d := b_desc (nth_block bl a) in
    let fits := match rev (b_ops (nth_block bl a)) with
                | [] => true
                | v :: _ => if is_jump (op_of g v) then length d =? 2 else length d <=? 1
                end in
    if negb fits then Throws
    else
      let* bl1 := remove_ancestor bl target a in
      let* bl2 := add_ancestor bl1 replacement a in
      if in_set target d then Ok (update bl2 a (with_desc (replace_first target replacement))) else Throws.

(** ir_control_flow_converter.cc 121-136. *)
Definition is_visited (st : cstate) (v : name) : bool := mem v (s_visited st).
Definition all_consumers_visited (st : cstate) (v : name) : bool := forallb (is_visited st) (cons_of (s_g st) v).
Definition ready_operands (st : cstate) (v : name) : list name :=
  filter (fun a => negb (is_visited st a) && all_consumers_visited st a) (args (s_g st) v).

(** Lines 138-155: block_is_dominated_by; its depth is at most the number of blocks. *)
Fixpoint all_of {A} (f : A -> outcome bool) (l : list A) : outcome bool :=
  match l with
  | [] => Ok true
  | x :: t => let* b := f x in if b then all_of f t else Ok false
  end.
Fixpoint dominated (fuel : nat) (up : nat -> list nat) (test upstream : nat) : outcome bool :=
  match fuel with
  | O => NoFuel
  | S f =>
      if test =? upstream then Ok true
      else match up test with
           | [] => Ok false
           | l => all_of (fun b => dominated f up b upstream) l
           end
  end.
(** The test of lines 183-187; the input block has no ancestors. *)
Definition consumer_below (st : cstate) (b : nat) (c : name) : outcome bool :=
  match parent (s_g st) c with
  | O => Ok false
  | S t => dominated (S (length (s_blocks st))) (anc (s_cfg st)) t b
  end.
Definition is_cond (o : op) : bool := match o with OCond => true | _ => false end.

(** Lines 157-206: process_non_conditionals.  The values of output_reversed go to the front of the block after the
    loop, the last first; here each goes there at once, as the loop does not look at the operations of blocks. *)
Definition place (st : cstate) (v : name) (b : nat) : outcome cstate :=
  let* g := set_parent (s_g st) v b in
  Ok (visit (insert_front (mks g (s_blocks st) (s_visited st)) b [v]) [v]).
Fixpoint process_non_conditionals (fuel : nat) (convert_ternaries : bool) (st : cstate) (queue conds deferred : list name)
    (b : nat) : outcome (cstate * list name * list name) :=
  match fuel with
  | O => NoFuel
  | S f =>
      match queue with
      | [] => Ok (st, conds, deferred)
      | top :: q =>
          if is_visited st top then process_non_conditionals f convert_ternaries st q conds deferred b
          else if negb (all_consumers_visited st top) then Throws
          else
            let* valid := all_of (consumer_below st b) (cons_of (s_g st) top) in
            if negb valid then process_non_conditionals f convert_ternaries st q conds (deferred ++ [top]) b
            else if is_cond (op_of (s_g st) top) && convert_ternaries
            then process_non_conditionals f convert_ternaries st q (conds ++ [top]) deferred b
            else
              let* st' := place st top b in
              process_non_conditionals f convert_ternaries st' (q ++ ready_operands st' top) conds deferred b
      end
  end.

(** Lines 208-255: select_conditionals_to_group. *)
Fixpoint unique (l : list name) : list name :=
  match l with
  | x :: (y :: _) as t => if x =? y then unique t else x :: unique t
  | _ => l
  end.
Fixpoint all_first (g : graph) (l : list name) : outcome (list name) :=
  match l with
  | [] => Ok []
  | v :: t => let* a := first_operand g v in let* r := all_first g t in Ok (a :: r)
  end.
Definition more_common (l : list name) (a b : name) : name :=
  let na := count_occ Nat.eq_dec l a in
  let nb := count_occ Nat.eq_dec l b in
  if (na <? nb) || ((na =? nb) && (a <? b)) then b else a.
Definition most_common (l : list name) : outcome name :=
  match l with [] => UB | x :: t => Ok (fold_left (more_common l) t x) end.
Definition has_condition (g : graph) (c v : name) : bool := match args g v with a :: _ => a =? c | [] => false end.
Definition select_conditionals (g : graph) (conds : list name) : outcome (name * list name * list name) :=
  let l := unique (rev (sort_names conds)) in
  let* firsts := all_first g l in
  let* c := most_common firsts in
  Ok (c, filter (has_condition g c) l, filter (fun v => negb (has_condition g c v)) l).

(** Lines 275-293: one conditional becomes a phi function of two copies. *)
Definition group_step (left right out : nat) (s : cstate * list name * list name) (v : name)
    : outcome (cstate * list name * list name) :=
  let '(st, ql, qr) := s in
  match nth_error (args (s_g st) v) 1, nth_error (args (s_g st) v) 2 with
  | Some a, Some b =>
      let* p := create_operation st left OCopy (ty_of (s_g st) a) [a] in
      let* q := create_operation (fst p) right OCopy (ty_of (s_g (fst p)) b) [b] in
      let st2 := fst q in
      let* g1 := set_operation (s_g st2) v OPhi (ty_of (s_g st2) (snd p)) [snd p; snd q] in
      let* g2 := set_parent g1 v out in
      let st3 := visit (mks g2 (s_blocks st2) (s_visited st2)) [snd q; snd p; v] in
      Ok (st3, ql ++ ready_operands st3 (snd p), qr ++ ready_operands st3 (snd q))
  | _, _ => Throws
  end.

(** Lines 295-318: a branch in front of [out]; ends with the block of the jump. *)
Definition redirect (g : graph) (out jump : nat) (bl : list cblock) (a : nat) : outcome (list cblock) :=
  match b_ops (nth_block bl a), b_desc (nth_block bl a) with
  | _ :: _, _ :: _ => replace_descendant g bl a out jump
  | _, _ => Throws
  end.
Definition insert_branch (st : cstate) (left right out : nat) (condition : name) (phis : list name) : outcome (cstate * nat) :=
  let st1 := insert_front st out phis in
  let previous := b_anc (nth_block (s_blocks st1) out) in
  let* bl := add_descendant (s_blocks st1) left out in
  let* bl := add_descendant bl right out in
  let (st2, jump) := create_block (mks (s_g st1) bl (s_visited st1)) in
  let* p := create_operation st2 jump OJump TVoid [condition] in
  let st3 := visit (fst p) [snd p] in
  let* bl := add_descendant (s_blocks st3) jump left in
  let* bl := add_descendant bl jump right in
  let* bl := mfold (redirect (s_g st3) out jump) previous bl in
  Ok (mks (s_g st3) bl (s_visited st3), jump).

(** Lines 257-334: process. *)
Fixpoint process (fuel : nat) (convert_ternaries : bool) (st : cstate) (queue : list name) (out : nat) (deferred : list name)
    : outcome (cstate * nat * list name) :=
  match fuel with
  | O => NoFuel
  | S f =>
      let* r := process_non_conditionals fuel convert_ternaries st queue [] deferred out in
      let '(st1, conds, def1) := r in
      match conds with
      | [] => Ok (st1, out, def1)
      | _ =>
          let* s := select_conditionals (s_g st1) conds in
          let '(condition, grouped, rest) := s in
          let (st2, left) := create_block st1 in
          let (st3, right) := create_block st2 in
          let* w := mfold (group_step left right out) grouped (st3, [], []) in
          let '(st4, ql, qr) := w in
          let* j := insert_branch st4 left right out condition (rev grouped) in
          let (st5, jump) := j in
          let* r1 := process f convert_ternaries st5 ql left [] in
          let '(st6, _, later1) := r1 in
          let* r2 := process f convert_ternaries st6 qr right later1 in
          let '(st7, _, later2) := r2 in
          let q := if all_consumers_visited st7 condition then [condition] else [] in
          process f convert_ternaries st7 (q ++ later2 ++ rest) jump def1
      end
  end.

(** Lines 9-41: the saves in reverse order; first the return values, then the output arguments.  expression_usage,
    expression_group.h 12-19: 0 is optional_output_argument, 1 output_argument, 2 return_value. *)
Definition saves (g : graph) (u : nat) : list name :=
  filter (fun v => match op_of g v with OSave w _ => w =? u | _ => false end) (rev (seq 0 (g_next g))).

(** Lines 69-96: one optional output. *)
Definition nothing_deferred (d : list name) : outcome unit := match d with [] => Ok tt | _ => Throws end.
Definition optional_step (fuel : nat) (convert_ternaries : bool) (s : cstate * nat) (v : name) : outcome (cstate * nat) :=
  let (st, next) := s in
  match op_of (s_g st) v with
  | OSave 0 key =>
      let (st1, left) := create_block st in
      let* bl := add_descendant (s_blocks st1) left next in
      let (st2, jump) := create_block (mks (s_g st1) bl (s_visited st1)) in
      let* c := create_operation st2 jump (OOutReq key) TVoid [] in
      let* j := create_operation (fst c) jump OJump TVoid [snd c] in
      let* bl := add_descendant (s_blocks (fst j)) jump left in
      let* bl := add_descendant bl jump next in
      let* r := process fuel convert_ternaries (mks (s_g (fst j)) bl (s_visited (fst j))) [v] left [] in
      let '(st3, _, later) := r in
      let* r := process fuel convert_ternaries st3 later jump [] in
      let '(st4, next', later) := r in
      let* _ := nothing_deferred later in
      Ok (st4, next')
  | _ => Throws
  end.

(** Lines 336-353 (eliminate_useless_copies): the same as for one block, control_flow_graph.cc 262-277. *)
Definition useless_step (s : graph * list cblock) (b : nat) : outcome (graph * list cblock) :=
  let (g, bl) := s in
  let* r := eliminate_needless_copies (g, b_ops (nth_block bl b)) in
  Ok (fst r, update bl b (with_ops (fun _ => snd r))).
Definition eliminate_useless_copies (g : graph) (bl : list cblock) : outcome (graph * list cblock) :=
  mfold useless_step (seq 0 (length bl)) (g, bl).
(** Lines 355-365: discard_unused_input_values. *)
Definition discard_unused (g : graph) : outcome unit :=
  if forallb (fun v => negb (parent g v =? 0) || match cons_of g v with [] => true | _ => false end) (seq 0 (g_next g))
  then Ok tt else Throws.

(** Lines 56-119: convert. *)
Definition convert (fuel : nat) (convert_ternaries : bool) (g : graph) : outcome cfg :=
  let optional := saves g 0 in
  let (st, first) := create_block (mks g [] []) in
  let* r := process fuel convert_ternaries st (saves g 2 ++ saves g 1) first [] in
  let '(st1, next, later) := r in
  let* _ := nothing_deferred later in
  let* s := mfold (optional_step fuel convert_ternaries) optional (st1, next) in
  let (st2, next) := s in
  let* r := process fuel convert_ternaries st2 [] next [] in
  let '(st3, _, later) := r in
  let* _ := nothing_deferred later in
  let entries := filter (fun x => match b_anc x with [] => true | _ => false end) (s_blocks st3) in
  if length entries =? 1 then
    let* e := eliminate_useless_copies (s_g st3) (s_blocks st3) in
    let* _ := discard_unused (fst e) in
    Ok (mkc (fst e) (snd e))
  else Throws.
