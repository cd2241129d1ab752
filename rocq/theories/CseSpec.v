(** What common subexpression elimination promises. *)
From Coq Require Import String List ZArith Reals Bool.
From Verif Require Import Outcome RationalModel ExprModel ExprSpec DerivSpec TransSpec.
Import ListNotations.
Open Scope R_scope.

(** The operands of an expression, and the expressions inside it. *)
Definition operands (e : expr) : list expr :=
  match e with
  | EMul l | EAdd l | EFun _ l | ESymFn _ l => l
  | EPow a b | EDeriv a b _ | ERel _ a b => [a; b]
  | EUneval a | EIver a | EStop a => [a]
  | ECond a b c | ESubst a b c => [a; b; c]
  | _ => []
  end.
Inductive part_of (a : expr) : expr -> Prop :=
| part_here e : In a (operands e) -> part_of a e
| part_deep c e : In c (operands e) -> part_of a c -> part_of a e.

(** How often [a] is an operand of the expressions in [D]. *)
Definition uses (a p : expr) : nat := List.length (filter (ident a) (operands p)).
Definition occurrences (a : expr) (D : list expr) : nat := list_sum (map (uses a) D).
(** [D]: the expression and everything inside it, each once. *)
Definition distinct_parts (e : expr) (D : list expr) : Prop := NoDup D /\ forall p, In p D <-> p = e \/ part_of p e.

(** Not a number, constant or variable, and not a truth value. *)
Definition compound (e : expr) : Prop :=
  match e with
  | EMul _ | EAdd _ | EPow _ _ | EFun _ _ | ESymFn _ _ | EUneval _ | EStop _ | ECond _ _ _ | EIver _ | EDeriv _ _ _ | ESubst _ _ _ => True
  | _ => False
  end.
Definition conditional (e : expr) : Prop := match e with ECond _ _ _ => True | _ => False end.

(** Running the definitions in order, starting with the assignment [s].  A definition that has no real value
    leaves an arbitrary number. *)
Definition real_of (v : val) : R := match v with Rv x => x | _ => 0 end.
Fixpoint run_definitions (s : env) (defs : list (var * expr)) : env :=
  match defs with
  | [] => s
  | (v, d) :: t => run_definitions (upd s v (real_of (eval s d))) t
  end.
