(** The passes that introduce operations: factoring sums of products, merging products, negations and binarisation.
    /repo/components/core/wf/code_generation/control_flow_graph.cc and binarizer.cc. *)
From Coq Require Import String List Arith NArith ZArith Bool.
From Verif Require Import Outcome RangesModel IrModel FactorModel.
Import ListNotations.
Open Scope outcome_scope.
Open Scope nat_scope.

(** maybe_cast, control_flow_graph.cc 909-916; the list is what was pushed. *)
Definition maybe_cast (g : graph) (v : name) (t : numeric) : outcome (graph * name) :=
  let* u := numeric_type g v in
  if numeric_dec u t then Ok (g, v) else push_value g (parent g v) (OCast t) (TScalar t) [v].

(** separate_muls, control_flow_graph.cc 402-413. *)
Definition separate_muls (g : graph) (l : list name) : list name * list name :=
  (filter (fun v => is_mul (op_of g v)) l, filter (fun v => negb (is_mul (op_of g v))) l).

(** variable_index_assignor, control_flow_graph.cc 415-474: [index_to_operand]; the hash map from names to indices is
    its inverse.  [initialize] is [None] when the code returns no bitsets because of the limits. *)
Definition assign_indices (g : graph) (muls : list name) : list name :=
  fold_left (fun idx a => if mem a idx then idx else idx ++ [a]) (flat_map (args g) muls) [].
Fixpoint index_of (x : name) (idx : list name) : outcome nat :=
  match idx with
  | [] => Throws
  | y :: t => if y =? x then Ok 0 else let* i := index_of x t in Ok (S i)
  end.
Definition term_mask (g : graph) (idx : list name) (mul : name) : outcome bits :=
  mfold (fun m a => let* i := index_of a idx in Ok (set_bit m i)) (args g mul) 0%N.
Definition mmap {A B} (f : A -> outcome B) (l : list A) : outcome (list B) :=
  mfold (fun acc a => let* b := f a in Ok (acc ++ [b])) l [].
Definition initialize (g : graph) (muls : list name) : outcome (option (list name * list bits)) :=
  if MAX_VARS_OR_TERMS <? length muls then Ok None
  else
    let idx := assign_indices g muls in
    if MAX_VARS_OR_TERMS <? length idx then Ok None
    else let* masks := mmap (term_mask g idx) muls in Ok (Some (idx, masks)).

(** get_variables_from_bitset, control_flow_graph.cc 455-463. *)
Definition variables_of (idx : list name) (vars : bits) : list name :=
  map (fun i => nth i idx 0) (filter (bit vars) (seq 0 (length idx))).
(** variable_was_factored_out, control_flow_graph.cc 465-469. *)
Definition was_factored_out (idx : list name) (vars : bits) (v : name) : outcome bool :=
  let* i := index_of v idx in Ok (bit vars i).

Fixpoint is_sorted (l : list name) : bool :=
  match l with
  | x :: (y :: _) as t => (x <=? y) && is_sorted t
  | _ => true
  end.

(** The operands of a product that remain when [vars] are taken out, control_flow_graph.cc 501-518. *)
Definition remaining_operands (g : graph) (idx : list name) (vars : bits) (mul : name) : outcome (list name) :=
  let operands := args g mul in
  if is_sorted operands then
    let* r := unique_and_extract_duplicates Nat.eqb operands in
    let '(cells, n, dups) := r in
    let unique := flat_map (fun c => match c with Some x => [x] | None => [] end) (firstn n cells) in
    mfold (fun acc v => let* out := was_factored_out idx vars v in Ok (if out then acc else acc ++ [v])) unique dups
  else Throws.

(** One term of a factored sum, control_flow_graph.cc 520-539.  State: graph and operations. *)
Definition factored_term (block : nat) (t : numeric) (idx : list name) (vars : bits) (st : graph * list name) (mul : name)
    : outcome (graph * list name * name) :=
  let (g, ops) := st in
  let* rem := remaining_operands g idx vars mul in
  match rem with
  | [] =>
      let* go := push_value g block (OLoad (LInt 1)) (TScalar NInt) [] in
      let (g1, one) := (go : graph * name) in
      let* gc := maybe_cast g1 one t in
      let (g2, c) := (gc : graph * name) in
      Ok (g2, (ops ++ [one]) ++ (if c =? one then [] else [c]), c)
  | [x] => Ok (g, ops, x)
  | _ =>
      let* gm := push_value g block OMul (TScalar t) rem in
      Ok (fst gm, ops ++ [snd gm], snd gm)
  end.

(** One step of a factorization, control_flow_graph.cc 486-553. *)
Definition factored_step (block : nat) (t : numeric) (idx muls : list name)
    (st : graph * list name * list name) (s : step) : outcome (graph * list name * list name) :=
  let '(g, ops, sum) := st in
  let (vars, terms) := s in
  if (1 <=? count vars) && (2 <=? count terms) then
    let mul_args := variables_of idx vars in
    let* r := mfold (fun (acc : graph * list name * list name) j =>
                       let '(g, ops, sum_args) := acc in
                       if bit terms j then
                         let* x := factored_term block t idx vars (g, ops) (nth j muls 0) in
                         Ok (fst x, sum_args ++ [snd x])
                       else Ok acc)
                    (seq 0 (length muls)) (g, ops, []) in
    let '(g, ops, sum_args) := r in
    if 2 <=? length sum_args then
      let* gs := push_value g block OAdd (TScalar t) sum_args in
      let (g, s) := (gs : graph * name) in
      let mul_args := mul_args ++ [s] in
      if 2 <=? length mul_args then
        let* gp := push_value g block OMul (TScalar t) mul_args in
        Ok (fst gp, (ops ++ [s]) ++ [snd gp], sum ++ [snd gp])
      else Throws
    else Throws
  else Throws.

(** factorize_sum_of_products, control_flow_graph.cc 476-571. *)
Definition factorize_sum_of_products (g : graph) (block : nat) (idx : list name) (fac : factorization)
    (muls non_muls ops : list name) : outcome (graph * list name * name) :=
  match muls with
  | [] => Throws
  | m :: _ =>
      let* t := numeric_type g m in
      let* r := mfold (factored_step block t idx muls) (f_steps fac) (g, ops, []) in
      let '(g, ops, sum) := r in
      let left := unfactored_terms fac (length muls) in
      let sum := (sum ++ non_muls) ++ map (fun i => nth i muls 0) (filter (bit left) (seq 0 (length muls))) in
      match sum with
      | [] => Throws
      | [x] => Ok (g, ops, x)
      | _ => let* gs := push_value g block OAdd (TScalar t) sum in Ok (fst gs, ops ++ [snd gs], snd gs)
      end
  end.

(** factorize_sums_in_block, control_flow_graph.cc 573-622. *)
Definition factorize_one (block : nat) (st : graph * list name) (add : name) : outcome (graph * list name) :=
  let (g, ops) := st in
  if is_add (op_of g add) then
    let (muls, non_muls) := separate_muls g (args g add) in
    if length muls <=? 1 then Ok st
    else
      let* init := initialize g muls in
      match init with
      | None => Ok st
      | Some (idx, masks) =>
          let* facs := compute_ranked masks (length idx) 4 in
          match facs with
          | [] => Ok st
          | fac :: _ =>
              let* r := factorize_sum_of_products g block idx fac muls non_muls ops in
              let '(g', ops', v) := r in
              let* g'' := replace_with g' add v in
              Ok (g'', ops')
          end
      end
  else Ok st.
Definition finish (block : nat) (st : graph * list name) : outcome (graph * list name) :=
  let (g, ops) := remove_unused (fst st) (snd st) in
  let* out := topological_sort_values g block ops in Ok (g, out).
Definition factorize_sums_in_block (block : nat) (st : graph * list name) : outcome (graph * list name) :=
  let* st' := mfold (factorize_one block) (snd st) st in finish block st'.

(** merge_multiplications_in_block, control_flow_graph.cc 625-650. *)
Definition merge_one (g : graph) (v : name) : outcome graph :=
  if is_mul (op_of g v) then
    let mul_args := flat_map (fun a => if is_mul (op_of g a) then args g a else [a]) (args g v) in
    if length (args g v) <? length mul_args then set_operation g v OMul (ty_of g v) mul_args else Ok g
  else Ok g.
Definition merge_multiplications_in_block (st : graph * list name) : outcome (graph * list name) :=
  let* g := mfold merge_one (snd st) (fst st) in Ok (remove_unused g (snd st)).

(** value_is_negative_one, control_flow_graph.cc 652-662.  [NoFuel] is never reached. *)
Fixpoint is_negative_one (fuel : nat) (g : graph) (v : name) : outcome bool :=
  match fuel with
  | O => NoFuel
  | S fuel' =>
      match op_of g v with
      | OLoad (LInt z) => Ok (Z.eqb z (-1))
      | OCast _ => let* a := first_operand g v in is_negative_one fuel' g a
      | _ => Ok false
      end
  end.

(** insert_negations, control_flow_graph.cc 664-712. *)
Definition negate_one (block : nat) (st : graph * list name) (v : name) : outcome (graph * list name) :=
  let (g, ops) := st in
  if is_mul (op_of g v) then
    let* others := mfold (fun acc a => let* b := is_negative_one (S (g_next g)) g a in
                                       Ok (if b then acc else acc ++ [a])) (args g v) [] in
    let negation_count := length (args g v) - length others in
    match negation_count, others with
    | O, _ => Ok st
    | _, [] => Ok st
    | _, _ =>
        let* gp := match others with
                   | [x] => Ok (g, x)
                   | _ => push_value g block OMul (ty_of g v) others
                   end in
        let (g, positive) := (gp : graph * name) in
        let ops := if 1 <? length others then ops ++ [positive] else ops in
        if Nat.odd negation_count then
          let* gn := push_value g block ONeg (ty_of g v) [positive] in
          let (g, negated) := (gn : graph * name) in
          let* g := replace_with g v negated in
          Ok (g, ops ++ [negated])
        else
          let* g := replace_with g v positive in
          Ok (g, ops)
    end
  else Ok st.
Definition insert_negations (block : nat) (st : graph * list name) : outcome (graph * list name) :=
  let* st' := mfold (negate_one block) (snd st) st in finish block st'.

(** count_operand_multiplicity, binarizer.cc 39-59: runs of equal operands. *)
Fixpoint runs (l : list name) : list (name * nat) :=
  match l with
  | [] => []
  | x :: t => match runs t with
              | (y, n) :: r => if x =? y then (y, S n) :: r else (x, 1) :: (y, n) :: r
              | [] => [(x, 1)]
              end
  end.
Definition multiplicities (l : list name) : outcome (list (name * nat)) :=
  if is_sorted l then Ok (runs l) else Throws.

(** The table of binarizer.cc 61-62: pairs and the values that consume them, with multiplicity.  It is an unordered map, of
    which only the sorted content is used. *)
Definition pair := (name * name)%type.
Definition ptable := list (pair * list (name * nat)).
Definition make_pair (a b : name) : pair := if a <? b then (a, b) else (b, a).
Definition pair_eqb (p q : pair) : bool := (fst p =? fst q) && (snd p =? snd q).
Fixpoint add_entry (t : ptable) (p : pair) (e : name * nat) : ptable :=
  match t with
  | [] => [(p, [e])]
  | (q, es) :: r => if pair_eqb q p then (q, es ++ [e]) :: r else (q, es) :: add_entry r p e
  end.

(** count_operand_pairs, binarizer.cc 69-111. *)
Fixpoint pairs_with (v a : name) (na : nat) (rest : list (name * nat)) (t : ptable) : outcome ptable :=
  match rest with
  | [] => Ok t
  | (b, nb) :: r => if a =? b then Throws else pairs_with v a na r (add_entry t (make_pair a b) (v, Nat.min na nb))
  end.
Fixpoint pairs_of (v : name) (ms : list (name * nat)) (t : ptable) : outcome ptable :=
  match ms with
  | [] => Ok t
  | (a, na) :: r =>
      let t := if 1 <? na then add_entry t (make_pair a a) (v, na / 2) else t in
      let* t := pairs_with v a na r t in
      pairs_of v r t
  end.
Definition right_op (mul : bool) (o : op) : bool := if mul then is_mul o else is_add o.
Definition count_pairs (g : graph) (mul : bool) (active ops : list name) : outcome ptable :=
  mfold (fun t v => if negb (right_op mul (op_of g v)) || is_unused g v then Ok t
                    else if negb (mem v active) then Ok t
                    else let* ms := multiplicities (args g v) in pairs_of v ms t) ops [].

(** identify_operations_to_binarize, binarizer.cc 124-158. *)
Definition total (es : list (name * nat)) : nat := list_sum (map snd es).
Definition entry_before (a b : pair * list (name * nat)) : bool :=
  if total (snd b) <? total (snd a) then true
  else if total (snd a) <? total (snd b) then false
  else (fst (fst a) <? fst (fst b)) || ((fst (fst a) =? fst (fst b)) && (snd (fst a) <? snd (fst b))).
Fixpoint insert_entry (x : pair * list (name * nat)) (l : ptable) : ptable :=
  match l with
  | [] => [x]
  | y :: t => if entry_before y x then y :: insert_entry x t else x :: l
  end.
Definition sort_entries (t : ptable) : ptable := fold_right insert_entry [] t.
Definition identify (g : graph) (mul : bool) (active ops : list name) : outcome ptable :=
  let* t := count_pairs g mul active ops in
  Ok (sort_entries (filter (fun e => 1 <? total (snd e)) t)).

(** One consumer of a pair, control_flow_graph.cc 368-389.  State: graph and the values to visit next. *)
Definition binarize_consumer (a b new : name) (st : graph * list name) (e : name * nat) : outcome (graph * list name) :=
  let (g, active) := st in
  let v := fst e in
  if 2 <? length (args g v) then
    let (g', k) := replace_operand_pair g v a b new in
    Ok (g', if 0 <? k then v :: active else active)
  else
    match args g v with
    | [x; y] =>
        if negb (is_unused g v) && (x =? a) && (y =? b) then
          let active := cons_of g v ++ active in
          let* g' := replace_with g v new in Ok (g', active)
        else Ok (g, active)
    | _ => Throws
    end.

(** One pair, control_flow_graph.cc 357-390. *)
Definition binarize_pair (block : nat) (mul : bool) (st : graph * list name * list name) (e : pair * list (name * nat))
    : outcome (graph * list name * list name) :=
  let '(g, ops, active) := st in
  let '((a, b), es) := e in
  let* gn := push_value g block (if mul then OMul else OAdd) (ty_of g a) [a; b] in
  let (g, new) := (gn : graph * name) in
  let* st := mfold (binarize_consumer a b new) es (g, active) in
  let (g, active) := (st : graph * list name) in
  Ok (g, ops ++ [new], active).

(** The loop of control_flow_graph.cc 352-392.  Active values are a set, here a list with repetitions. *)
Fixpoint binarize_loop (fuel : nat) (block : nat) (mul : bool) (g : graph) (ops active : list name)
    : outcome (graph * list name) :=
  match fuel with
  | O => NoFuel
  | S fuel' =>
      match active with
      | [] => Ok (g, ops)
      | _ =>
          let* steps := identify g mul active ops in
          let* r := mfold (binarize_pair block mul) steps (g, ops, []) in
          let '(g, ops, active) := r in
          binarize_loop fuel' block mul g ops active
      end
  end.

(** binarize_operations_of_type and binarize_operations, control_flow_graph.cc 335-400. *)
Definition binarize_of_type (fuel block : nat) (mul : bool) (st : graph * list name) : outcome (graph * list name) :=
  let* st' := binarize_loop fuel block mul (fst st) (snd st) (snd st) in finish block st'.
Definition binarize_operations (fuel block : nat) (st : graph * list name) : outcome (graph * list name) :=
  let* st1 := binarize_of_type fuel block true st in binarize_of_type fuel block false st1.

(** factorize_sums, control_flow_graph.cc 197-209, for a function with one block. *)
Fixpoint factorize_sums (passes block : nat) (st : graph * list name) : outcome (graph * list name) :=
  match passes with
  | O => Ok st
  | S n =>
      let* st := factorize_sums_in_block block st in
      let* st := merge_multiplications_in_block st in
      let* st := eliminate_needless_copies st in
      let* st := eliminate_duplicates st in
      factorize_sums n block st
  end.

(** apply_simplifications, control_flow_graph.cc 172-193, for a function with one block (as all are at that point). *)
Definition apply_simplifications (fuel passes block : nat) (binarize : bool) (st : graph * list name)
    : outcome (graph * list name) :=
  let* st := eliminate_duplicates st in
  let* st := factorize_sums passes block st in
  let* st := (if binarize then
                let* st := binarize_operations fuel block st in eliminate_duplicates st
              else Ok st) in
  let* st := insert_negations block st in
  eliminate_duplicates st.
