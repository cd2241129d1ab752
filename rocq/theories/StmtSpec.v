(** Executing the statements of a function, and the programs with branches that can be written as statements. *)
From Coq Require Import String List Arith ZArith Bool.
From Verif Require Import Outcome IrModel IrSpec CfgModel CfgSpec ConvSpec AstModel AstSpec StmtModel.
Import ListNotations.
Open Scope nat_scope.
Open Scope list_scope.

(** The names an expression reads. *)
Fixpoint reads (e : ast) : list string :=
  match e with
  | AVar s | AArg s _ => [s]
  | AInt _ | AFloat _ | ABool _ | ASym _ => []
  | AElem a _ _ | AField a _ | ANeg a | ACast _ a | AParen a => reads a
  | ADiv a b | ACompare _ a b => reads a ++ reads b
  | ATernary c a b => reads c ++ reads a ++ reads b
  | AAdd l | AMul l | AStd _ l | ACall _ _ l => flat_map reads l
  end.

Section Statements.
  Variable A : algebra.
  Variable S : selecting A.
  Variable M : meaning (D A).
  Variable outer : string -> bool.   (* the names that can be read before the first statement: arguments, variables *)

  (** The variables in scope, the last one declared first, with their values if they were assigned. *)
  Definition store := list (string * option (D A)).
  Fixpoint look (st : store) (s : string) : option (option (D A)) :=
    match st with
    | [] => None
    | (k, x) :: t => if String.eqb k s then Some x else look t s
    end.
  Fixpoint put (st : store) (s : string) (d : D A) : store :=
    match st with
    | [] => []
    | (k, x) :: t => if String.eqb k s then (k, Some d) :: t else (k, x) :: put t s d
    end.
  (** A variable can be read if it has a value; a name that is not in scope is one from outside. *)
  Definition readable (st : store) (s : string) : bool :=
    match look st s with Some (Some _) => true | Some None => false | None => outer s end.
  Definition here (st : store) (s : string) (d : D A) : D A :=
    match look st s with Some (Some x) => x | _ => d end.
  Definition within (st : store) : meaning (D A) := {|
    m_var := fun s => here st s (m_var M s); m_arg := fun s m => here st s (m_arg M s m);
    m_elem := m_elem M; m_field := m_field M; m_int := m_int M; m_float := m_float M; m_bool := m_bool M; m_sym := m_sym M;
    m_add := m_add M; m_mul := m_mul M; m_div := m_div M; m_neg := m_neg M; m_cmp := m_cmp M; m_cond := m_cond M;
    m_cast := m_cast M; m_std := m_std M; m_ext := m_ext M |}.
  Definition eval (st : store) (e : ast) : option (D A) :=
    if forallb (readable st) (reads e) then Some (value_of (within st) e) else None.
  (** At the end of a block its variables are gone. *)
  Definition leave (st st' : store) : store := skipn (length st' - length st) st'.

  (** What is handed out: to an output argument or returned. *)
  Definition output : Type := option string * D A.
  (** The result of executing statements: did they return, the variables in scope, the outputs.  [None] is what a compiler
      refuses or no one can rely on: an unknown name or a variable without a value is read, an unknown one is assigned, a
      name in use is declared. *)
  Definition effect : Type := bool * store * list output.
  Definition in_scope (st : store) (s : string) : bool :=
    match look st s with Some _ => true | None => outer s end.
  Fixpoint do_stmt (s : stmt) (st : store) {struct s} : option effect :=
    let do_all := fix do_all (l : list stmt) (st : store) : option effect :=
      match l with
      | [] => Some (false, st, [])
      | x :: t =>
          match do_stmt x st with
          | Some (false, st1, o1) =>
              match do_all t st1 with Some (fin, st2, o2) => Some (fin, st2, o1 ++ o2) | None => None end
          | r => r
          end
      end in
    let inner l := match do_all l st with Some (fin, st1, o) => Some (fin, leave st st1, o) | None => None end in
    match s with
    | SDeclare n rhs =>
        if in_scope st n then None
        else match rhs with
             | None => Some (false, (n, None) :: st, [])
             | Some e => match eval st e with Some x => Some (false, (n, Some x) :: st, []) | None => None end
             end
    | SAssign n e =>
        match look st n, eval st e with Some _, Some x => Some (false, put st n x, []) | _, _ => None end
    | SOutput k e => match eval st e with Some x => Some (false, st, [(Some k, x)]) | None => None end
    | SReturn e => match eval st e with Some x => Some (true, st, [(None, x)]) | None => None end
    | SBranch e l r => match eval st e with Some x => inner (if truth S x then l else r) | None => None end
    | SOptional k l => if truth S (sem A (OOutReq k) []) then inner l else Some (false, st, [])
    end.
  Fixpoint do_all (l : list stmt) (st : store) : option effect :=
    match l with
    | [] => Some (false, st, [])
    | x :: t =>
        match do_stmt x st with
        | Some (false, st1, o1) =>
            match do_all t st1 with Some (fin, st2, o2) => Some (fin, st2, o1 ++ o2) | None => None end
        | r => r
        end
    end.
  (** What the function hands out, in this order. *)
  Definition function_outputs (l : list stmt) : option (list output) :=
    match do_all l [] with Some (_, _, o) => Some o | None => None end.
  (** The same for an execution of the blocks. *)
  Definition as_output (z : nat * string * D A) : output :=
    match z with (u, k, d) => (if u =? 2 then None else Some k, d) end.
End Statements.

(** Operations that are no expressions. *)
Definition control (o : op) : bool := match o with OSave _ _ | OPhi | OJump | OOutReq _ => true | _ => false end.

(** A function with structured control flow from [b] on, as it comes out of the conversion to branches:
    - its values are each of one block, and known there; consumers are uses;
    - operands are computed on every way to their use;
    - a phi function takes a value from each of two blocks that go on there and nowhere else, a value that has an
      expression or is of another phi function;
    - where an optional output is tested, the second way goes right to where both ways meet;
    - returning is the last output. *)
Record branching (c : cfg) (b : nat) (bs : list nat) : Prop := {
  br_region : region (desc c) b None bs;
  br_all : forall t, In t bs <-> t < length (c_blocks c);
  br_acyclic : acyclic (desc c);
  br_edge : forall a x, In x (desc c a) <-> In a (anc c x);
  br_entry : anc c b = [];
  br_jump : forall t, In t bs -> jumps_match c t;
  br_parent : forall t v, In v (ops_of c t) -> parent (c_vals c) v = 1 + t;
  br_nodup : forall t, NoDup (ops_of c t);
  br_use : forall v w, In w (cons_of (c_vals c) v) <-> In v (args (c_vals c) w);
  br_defined : forall t v a, In v (ops_of c t) -> op_of (c_vals c) v <> OPhi -> In a (args (c_vals c) v) ->
    exists u, In a (ops_of c u) /\ (forall p, leads (desc c) b t p -> In u p) /\ (u = t -> before (ops_of c t) a v);
  br_phi : forall t v, In v (ops_of c t) -> op_of (c_vals c) v = OPhi -> exists l r x y,
    anc c t = [l; r] /\ l <> r /\ desc c l = [t] /\ desc c r = [t] /\
    args (c_vals c) v = [x; y] /\ In x (ops_of c l) /\ In y (ops_of c r);
  br_phi_use : forall v w, op_of (c_vals c) w = OPhi -> In v (args (c_vals c) w) ->
    (exists t, In w (ops_of c t)) /\ (op_of (c_vals c) v = OPhi \/ control (op_of (c_vals c) v) = false);
  br_optional : forall t v x key, In v (ops_of c t) -> op_of (c_vals c) v = OJump -> In x (args (c_vals c) v) ->
    op_of (c_vals c) x = OOutReq key -> exists l r a, desc c t = [l; r] /\ In a (anc c r) /\ a <> t;
  br_request : forall t v key, In v (ops_of c t) -> op_of (c_vals c) v = OOutReq key -> args (c_vals c) v = [];
  br_return : forall t v key l1 l2, ops_of c t = l1 ++ v :: l2 -> op_of (c_vals c) v = OSave 2 key ->
    forall w u k, In w l2 -> op_of (c_vals c) w <> OSave u k
}.

(** A program with selects returns at most once, and asks for no output itself. *)
Definition returns_once (g : graph) (ops : list name) : Prop :=
  (forall v key, In v ops -> op_of g v <> OOutReq key) /\
  forall v w k k', In v ops -> In w ops -> op_of g v = OSave 2 k -> op_of g w = OSave 2 k' -> v = w.

(** The expressions mean what the operations do. *)
Definition expresses (A : algebra) (M : meaning (D A)) (N : names) (c : cfg) : Prop :=
  forall t v l, In v (ops_of c t) -> control (op_of (c_vals c) v) = false -> length l = length (args (c_vals c) v) ->
    operation_value M N (op_of (c_vals c) v) (ty_of (c_vals c) v) l = Some (sem A (op_of (c_vals c) v) l).
(** The names of arguments and variables exist, and differ from those of temporaries. *)
Record separate (N : names) (outer : string -> bool) (c : cfg) : Prop := {
  sp_arg : forall i s t, n_args N i = Some (s, t) -> outer s = true;
  sp_var : forall v, outer (n_vars N v) = true;
  sp_temp : forall t v, In v (ops_of c t) -> outer (variable_name (n_width N) v) = false
}.

(** The operations there are statements and expressions for: those with as many operands as they need, reading elements
    that exist, and handing out to scalar outputs that exist. *)
Definition elements (t : arg_type) : nat := match t with ArgScalar => 1 | ArgMatrix r c => r * c | ArgStruct l => length l end.
Definition has_form (N : names) (outs : string -> option arg_type) (g : graph) (v : name) : Prop :=
  let k := length (args g v) in
  match op_of g v with
  | OAdd | OCallExt _ | OCallStd _ | OPhi => True
  | OMul => 2 <= k
  | OCast _ | OCopy | ONeg | OJump => k = 1
  | ODiv | OCompare _ => k = 2
  | OCond => k = 3
  | OLoad (LArg a i) => exists s t, n_args N a = Some (s, t) /\ i < elements t
  | OLoad (LCustomArg a) => exists s, n_args N a = Some s
  | OLoad _ => True
  | OGet i => exists a, args g v = [a] /\
      match ty_of g a with TScalar _ => i = 0 /\ control (op_of g a) = false | TMatrix r c => i < r * c | _ => False end
  | OSave 2 _ => k = 1
  | OSave _ key => k = 1 /\ outs key = Some ArgScalar
  | OOutReq key => exists t, outs key = Some t
  | OConstruct _ => False
  end.
(** Operands are values; only a jump depends on which outputs are asked for; returning is at the end of the function. *)
Record writable (N : names) (outs : string -> option arg_type) (c : cfg) : Prop := {
  wr_form : forall t v, In v (ops_of c t) -> has_form N outs (c_vals c) v;
  wr_operand : forall t v a, In v (ops_of c t) -> In a (args (c_vals c) v) ->
    op_of (c_vals c) a <> OJump /\ (forall u k, op_of (c_vals c) a <> OSave u k) /\
    forall key, op_of (c_vals c) a = OOutReq key -> op_of (c_vals c) v = OJump;
  wr_return : forall t v key, In v (ops_of c t) -> op_of (c_vals c) v = OSave 2 key -> desc c t = []
}.
