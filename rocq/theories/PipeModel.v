(** The whole way from a function's operations or expressions to statements: transpile_to_ast,
    components/wrapper/pywrenfold/codegen_wrapper.cc 29-38.
    The fuel stands for the bounds on loops and recursion of the parts ([k]: the depth of expressions). *)
From Coq Require Import String List Arith.
From Verif Require Import Outcome ExprModel BuildModel IrModel PassModel ConvModel AstModel StmtModel LowerModel.
Import ListNotations.
Open Scope outcome_scope.

(** control_flow_graph.cc 167-169, codegen_wrapper.cc 33-36: simplify, branch, write. *)
Definition write_program (fuel passes : nat) (binarize convert_ternaries : bool) (N : names) (args : string -> option arg_type)
    (st : graph * list name) : outcome (list stmt) :=
  let* st := apply_simplifications fuel passes 0 binarize st in
  let* c := convert fuel convert_ternaries (fst st) in
  create_ast N args c fuel.

(** control_flow_graph.cc 122-170, codegen_wrapper.cc 29-38, for scalar outputs. *)
Definition transpile (I : impl) (n : nat) (K : ids) (k fuel passes : nat) (binarize convert_ternaries : bool) (N : names)
    (args : string -> option arg_type) (outs : list output) : outcome (list stmt) :=
  let* st := lower_all I n K k outs in
  write_program fuel passes binarize convert_ternaries N args (l_graph st, l_ops st).
