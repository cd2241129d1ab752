(** How much a function computes, counted in its operations and in its text. *)
From Coq Require Import String List Arith ZArith Bool.
From Verif Require Import Outcome IrModel CfgModel AstModel StmtModel StmtSpec.
Import ListNotations.
Open Scope nat_scope.
Open Scope list_scope.

(** Additions, multiplications, divisions, negations, comparisons, selections and calls of an expression.  Conversions are
    not counted: those of constants are repeated wherever the constant is used. *)
Fixpoint work (e : ast) : nat :=
  match e with
  | AVar _ | AArg _ _ | AInt _ | AFloat _ | ABool _ | ASym _ => 0
  | AElem a _ _ | AField a _ | ACast _ a | AParen a => work a
  | ANeg a => 1 + work a
  | ADiv a b | ACompare _ a b => 1 + work a + work b
  | ATernary c a b => 1 + work c + work a + work b
  | AAdd l | AMul l => (length l - 1) + list_sum (map work l)
  | AStd _ l | ACall _ _ l => 1 + list_sum (map work l)
  end.
Fixpoint written (s : stmt) : nat :=
  match s with
  | SDeclare _ None => 0
  | SDeclare _ (Some e) | SAssign _ e | SOutput _ e | SReturn e => work e
  | SBranch c l r => work c + list_sum (map written l) + list_sum (map written r)
  | SOptional _ l => list_sum (map written l)
  end.

(** The same of an operation. *)
Definition cost (g : graph) (v : name) : nat :=
  match op_of g v with
  | OAdd | OMul => length (args g v) - 1
  | ODiv | ONeg | OCompare _ | OCond | OCallStd _ | OCallExt _ => 1
  | _ => 0
  end.
Definition total_cost (c : cfg) : nat :=
  list_sum (map (fun b => list_sum (map (cost (c_vals c)) (b_ops b))) (c_blocks c)).

(** Constants, and conversions of them. *)
Inductive constant (g : graph) : name -> Prop :=
| constant_load v l : op_of g v = OLoad l -> constant g v
| constant_cast v t a : op_of g v = OCast t -> args g v = [a] -> constant g a -> constant g v.

(** No value that was computed is the result of a branch and an operand of another operation at the same time. *)
Definition not_shared (c : cfg) : Prop :=
  forall t v w w', In v (ops_of c t) -> control (op_of (c_vals c) v) = false -> ~ constant (c_vals c) v ->
    In v (args (c_vals c) w) -> In v (args (c_vals c) w') -> op_of (c_vals c) w = OPhi -> op_of (c_vals c) w' = OPhi.
