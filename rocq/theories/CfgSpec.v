(** Paths, merge points and structured control flow, said without reference to how they are found. *)
From Coq Require Import List Arith Bool.
From Verif Require Import Outcome IrModel CfgModel.
Import ListNotations.
Open Scope nat_scope.

Section Graph.
Variable next : nat -> list nat.

(** [b] can be reached from [a]; and without going through [m]. *)
Inductive reach : nat -> nat -> Prop :=
| reach_here a : reach a a
| reach_next a x b : In x (next a) -> reach x b -> reach a b.
Inductive avoids (m : nat) : nat -> nat -> Prop :=
| avoids_here a : a <> m -> avoids m a a
| avoids_next a x b : a <> m -> In x (next a) -> avoids m x b -> avoids m a b.

(** [m] is where the flows from [l] and [r] join first: both reach it, and whatever both reach is reached through it
    only. *)
Definition joins (l r m : nat) : Prop :=
  reach l m /\ reach r m /\ forall b, reach l b -> reach r b -> ~ avoids m l b /\ ~ avoids m r b.

(** No cycles. *)
Definition acyclic : Prop := exists rank : nat -> nat, forall a x, In x (next a) -> rank x < rank a.
End Graph.

(** Executions of a graph from [b]: the blocks in order, up to one without descendants. *)
Inductive path (next : nat -> list nat) : nat -> list nat -> Prop :=
| path_end b : next b = [] -> path next b [b]
| path_step b x p : In x (next b) -> path next x p -> path next b (b :: p).

(** Structured control flow: a region starts at [b], leaves to [k] (or ends the function) and is made of the blocks
    listed; a branch has two regions that leave to the same block, where the next region starts. *)
Inductive region (next : nat -> list nat) : nat -> option nat -> list nat -> Prop :=
| region_done m : region next m (Some m) []
| region_exit b : next b = [] -> region next b None [b]
| region_step b x k bs : next b = [x] -> region next x k bs -> ~ In b bs -> k <> Some b ->
    region next b k (b :: bs)
| region_branch b l r j k bl br bj : next b = [l; r] ->
    region next l (Some j) bl -> region next r (Some j) br -> region next j k bj ->
    In j bj -> NoDup (b :: bl ++ br ++ bj) -> (forall m, k = Some m -> ~ In m (b :: bl ++ br ++ bj)) ->
    region next b k (b :: bl ++ br ++ bj).

(** The blocks have a jump at the end exactly when there are two ways to go on. *)
Definition jumps_match (c : cfg) (b : nat) : Prop :=
  match desc c b with
  | [] => True
  | [_] => exists v, last_op c b = Ok v /\ op_of (c_vals c) v <> OJump
  | _ => exists v, last_op c b = Ok v /\ op_of (c_vals c) v = OJump
  end.

(** What an operation of a function costs: an addition or multiplication of k operands is k-1 binary ones. *)
Definition cost (g : graph) (v : name) (l : label) : nat :=
  match op_of g v with
  | OAdd => match l with CAdd => length (args g v) - 1 | _ => 0 end
  | OMul => match l with CMultiply => length (args g v) - 1 | _ => 0 end
  | OJump => match l with CBranch => 1 | _ => 0 end
  | OCallStd _ | OCallExt _ => match l with CCall => 1 | _ => 0 end
  | OCompare _ => match l with CCompare => 1 | _ => 0 end
  | ODiv => match l with CDivide => 1 | _ => 0 end
  | ONeg => match l with CNegate => 1 | _ => 0 end
  | _ => 0
  end.
(** The operations of one kind that are executed on a path. *)
Definition executed (c : cfg) (l : label) (p : list nat) : nat :=
  list_sum (map (fun v => cost (c_vals c) v l) (concat (map (ops_of c) p))).
