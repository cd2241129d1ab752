(** Blocks and their edges, the search for merge points and the operation counts.
    /repo/components/core/wf/code_generation/ir_block.{h,cc}, control_flow_graph.cc, operation_counts.{h,cc}. *)
From Coq Require Import String List Arith ZArith Bool.
From Verif Require Import Outcome IrModel.
Import ListNotations.
Open Scope outcome_scope.
Open Scope nat_scope.

(** ir_block.h 96-110.  A block is known by its name, its position in blocks_ (ir_control_flow_converter.cc 367-371). *)
Record cblock := mkb { b_ops : list name; b_anc : list nat; b_desc : list nat }.
Record cfg := mkc { c_vals : graph; c_blocks : list cblock }.

Definition block (c : cfg) (b : nat) : cblock := nth b (c_blocks c) (mkb [] [] []).
Definition ops_of (c : cfg) (b : nat) : list name := b_ops (block c b).
Definition anc (c : cfg) (b : nat) : list nat := b_anc (block c b).
Definition desc (c : cfg) (b : nat) : list nat := b_desc (block c b).

(** ir_block.cc 60-98: find_merge_point; [next] is descendants() or ancestors(), [seen] the map of colours. The
    assertion at the end throws. *)
Fixpoint colour_of (b : nat) (seen : list (nat * bool)) : option bool :=
  match seen with
  | [] => None
  | (x, c) :: t => if x =? b then Some c else colour_of b t
  end.
Fixpoint merge_loop (fuel : nat) (next : nat -> list nat) (queue seen : list (nat * bool)) : outcome nat :=
  match fuel with
  | O => NoFuel
  | S fuel =>
      match queue with
      | [] => Throws
      | (b, colour) :: q =>
          let q' := q ++ map (fun x => (x, colour)) (next b) in
          match colour_of b seen with
          | None => merge_loop fuel next q' ((b, colour) :: seen)
          | Some c => if Bool.eqb c colour then merge_loop fuel next q' seen else Ok b
          end
      end
  end.
Definition find_merge_point (fuel : nat) (next : nat -> list nat) (left right : nat) : outcome nat :=
  merge_loop fuel next [(left, true); (right, false)] [].

(** operation_count_label, operation_counts.h 13-22. *)
Inductive label := CAdd | CBranch | CCall | CCompare | CDivide | CMultiply | CNegate.
Definition labels : list label := [CAdd; CBranch; CCall; CCompare; CDivide; CMultiply; CNegate].

(** operation_counts: a counter for each label; control_flow_graph.cc 795-804 and 826-833: what one operation adds
    to a counter. *)
Definition weight (c : cfg) (l : label) (v : name) : nat :=
  match l, op_of (c_vals c) v with
  | CAdd, OAdd | CMultiply, OMul => length (args (c_vals c) v) - 1
  | CBranch, OJump | CCall, OCallStd _ | CCall, OCallExt _ | CCompare, OCompare _ | CDivide, ODiv | CNegate, ONeg => 1
  | _, _ => 0
  end.
Definition counts := label -> nat.
Definition no_counts : counts := fun _ => 0.
Definition block_counts (c : cfg) (b : nat) : counts := fun l => list_sum (map (weight c l) (ops_of c b)).
(** operation_counts.cc 13-23. *)
Definition increment (a b : counts) : counts := fun l => a l + b l.
Definition max_counts (a b : counts) : counts := fun l => Nat.max (a l) (b l).
(** operation_counts.cc 34-36. *)
Definition total (a : counts) : nat := list_sum (map a labels).

(** ir_block.h 61-64: last_operation. *)
Definition last_op (c : cfg) (b : nat) : outcome name :=
  match rev (ops_of c b) with v :: _ => Ok v | [] => Throws end.
Definition is_jump (o : op) : bool := match o with OJump => true | _ => false end.

(** control_flow_graph.cc 818-861: count_all_operations; [stop] is the set non_traversable. *)
Definition in_set (b : nat) (l : list nat) : bool := existsb (Nat.eqb b) l.
Definition insert_set (b : nat) (l : list nat) : list nat := if in_set b l then l else b :: l.
Definition erase_set (b : nat) (l : list nat) : list nat := filter (fun x => negb (x =? b)) l.

Fixpoint count_all (fuel : nat) (c : cfg) (b : nat) (stop : list nat) : outcome counts :=
  match fuel with
  | O => NoFuel
  | S f =>
      if in_set b stop then Ok no_counts
      else
        let here := block_counts c b in
        match desc c b with
        | [] => Ok here
        | d =>
            let* v := last_op c b in
            if is_jump (op_of (c_vals c) v) then
              match d with
              | [l; r] =>
                  let* m := find_merge_point fuel (desc c) l r in
                  let stop1 := insert_set m stop in
                  let* cl := count_all f c l stop1 in
                  let* cr := count_all f c r stop1 in
                  let* cm := count_all f c m (erase_set m stop1) in
                  Ok (increment (increment here (max_counts cl cr)) cm)
              | _ => Throws
              end
            else
              match d with
              | [n] => let* cn := count_all f c n stop in Ok (increment here cn)
              | _ => Throws
              end
        end
  end.

(** control_flow_graph.cc 782-787 and 863-866. *)
Fixpoint first_without (l : list cblock) (b : nat) : outcome nat :=
  match l with
  | [] => Throws
  | x :: t => match b_anc x with [] => Ok b | _ => first_without t (S b) end
  end.
Definition first_block (c : cfg) : outcome nat := first_without (c_blocks c) 0.
Definition compute_operation_counts (fuel : nat) (c : cfg) : outcome counts :=
  let* b := first_block c in count_all fuel c b [].
