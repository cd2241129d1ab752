(** Running Python statements: assignments to the variables of a function, branches and what is returned. *)
From Coq Require Import String List Arith Bool.
From Verif Require Import IrModel IrSpec ConvSpec AstModel AstSpec StmtModel StmtSpec PySpec PyCodeModel PyCodeSpec PyStmtSpec StmtText.
Import ListNotations.
Open Scope string_scope.
Open Scope list_scope.

(** What constants, operators, calls, attributes and subscripts do; what names stand for is another matter. *)
Record py_ops (V : Type) := {
  o_num : string -> V; o_bool : bool -> V; o_un : string -> V -> V; o_bin : string -> V -> V -> V; o_call : V -> list V -> V;
  o_dot : V -> string -> V; o_sub : V -> list V -> V; o_key : string -> V -> V
}.
Definition python_of (V : Type) (O : py_ops V) (id : string -> V) : python := {|
  PV := V; p_id := id; p_num := o_num V O; p_bool := o_bool V O; p_un := o_un V O; p_bin := o_bin V O; p_call := o_call V O;
  p_dot := o_dot V O; p_sub := o_sub V O; p_key := o_key V O |}.

Section Run.
  Variable A : algebra.
  Variable Q : selecting A.
  Variable O : py_ops (D A).
  Variable global : string -> D A.   (* arguments, modules and functions *)
  Variable junk : string -> D A.     (* what None is taken for as a value: no one can tell *)

  (** The names that were assigned, with their values; the value may be None.  There are no scopes inside a function. *)
  Definition env := string -> option (option (D A)).
  Definition nothing : env := fun _ => None.
  Definition id_in (E : env) (s : string) : D A := match E s with Some (Some x) => x | Some None => junk s | None => global s end.
  Definition set (E : env) (s : string) (x : option (D A)) : env := fun s' => if String.eqb s s' then Some x else E s'.
  Definition pval (E : env) (e : pexp) : D A := py_eval (python_of (D A) O (id_in E)) e.
  (** The variables afterwards, and what was returned if something was. *)
  Fixpoint pdo_stmt (s : pstmt) (E : env) : env * option (list (D A)) :=
    let all := fix all (l : list pstmt) (E : env) : env * option (list (D A)) :=
      match l with
      | [] => (E, None)
      | x :: t => match pdo_stmt x E with (E1, None) => all t E1 | r => r end
      end in
    match s with
    | PsAssign n (Some e) => (set E n (Some (pval E e)), None)
    | PsAssign n None => (set E n None, None)
    | PsReturn a l => (E, Some (map (pval E) (a :: l)))
    | PsIf c l r => all (if truth Q (pval E c) then l else r) E
    end.
  Fixpoint pdo_all (l : list pstmt) (E : env) : env * option (list (D A)) :=
    match l with
    | [] => (E, None)
    | x :: t => match pdo_stmt x E with (E1, None) => pdo_all t E1 | r => r end
    end.
  Definition returned (b : list pstmt) : list (D A) := match snd (pdo_all b nothing) with Some l => l | None => [] end.

  (** ** What the function hands out *)
  Definition returned_values (o : list (output A)) : list (D A) :=
    map snd (filter (fun z => match fst z with None => true | _ => false end) o).
  Fixpoint last_output (o : list (output A)) (k : string) : option (D A) :=
    match o with
    | [] => None
    | (Some j, x) :: t => match last_output t k with Some y => Some y | None => if String.eqb j k then Some x else None end
    | _ :: t => last_output t k
    end.
End Run.

(** The functions that an expression calls by name. *)
Fixpoint callees (e : ast) : list string :=
  match e with
  | AVar _ | AArg _ _ | AInt _ | AFloat _ | ABool _ | ASym _ => []
  | AElem a _ _ | AField a _ | ANeg a | ACast _ a | AParen a => callees a
  | ADiv a b | ACompare _ a b => callees a ++ callees b
  | ATernary c a b => callees c ++ callees a ++ callees b
  | AAdd l | AMul l | AStd _ l => flat_map callees l
  | ACall f _ l => f :: flat_map callees l
  end.

(** Names of temporaries and of outputs, those that can be read from outside, and the module are different. *)
Record py_apart (T : py_target) (temp out outer : string -> bool) : Prop := {
  ap_outer : forall s, outer s = true -> temp s = false /\ out s = false;
  ap_temp : forall s, temp s = true -> out s = false;
  ap_module : temp (module_name T) = false /\ out (module_name T) = false;
  ap_compute : forall k, temp ("compute_" ++ k)%string = false /\ out ("compute_" ++ k)%string = false
}.

(** Functions are not named like variables, what is declared is a temporary and what is written is an output. *)
Definition free_calls (temp out : string -> bool) (e : ast) : Prop := Forall (fun f => temp f = false /\ out f = false) (callees e).
Definition tame (temp out : string -> bool) : stmt -> Prop := stmt_all (free_calls temp out) (fun n => temp n = true) (fun k => out k = true).

(** The optional outputs that are asked about. *)
Fixpoint optionals (s : stmt) : list string :=
  match s with
  | SBranch _ l r => flat_map optionals l ++ flat_map optionals r
  | SOptional k l => k :: flat_map optionals l
  | _ => []
  end.
(** An output is left out when it is optional and was not asked for. *)
Definition left_out (A : algebra) (Q : selecting A) (ss : list stmt) (k : string) : Prop :=
  In k (flat_map optionals ss) /\ truth Q (sem A (OOutReq k) []) = false.
(** [x] is what was last given as output [k]. *)
Definition delivers (A : algebra) (Q : selecting A) (ss : list stmt) (o : list (output A)) (k : string) (x : D A) : Prop :=
  ~ left_out A Q ss k -> forall v, last_output A o k = Some v -> x = v.
