(** From the blocks of a function to its statements: declarations of temporaries, if-else, outputs.
    /repo/components/core/wf/code_generation/ast_conversion.{h,cc}.

    Not modelled: the comment with the operation counts at the beginning, outputs that are matrices or structs (and with
    them is_output_matrix_construction, 203-212), types of declarations. *)
From Coq Require Import String List Arith ZArith Bool.
From Verif Require Import Outcome IrModel CfgModel AstModel.
Import ListNotations.
Open Scope outcome_scope.
Open Scope nat_scope.
Open Scope list_scope.

(** declaration, assign_temporary, assign_output_scalar, return_object, branch and optional_output_branch of ast.h. *)
Inductive stmt :=
| SDeclare (s : string) (rhs : option ast)
| SAssign (s : string) (rhs : ast)
| SOutput (key : string) (rhs : ast)
| SReturn (rhs : ast)
| SBranch (cond : ast) (if_true if_false : list stmt)
| SOptional (key : string) (body : list stmt).

Definition is_phi (o : op) : bool := match o with OPhi => true | _ => false end.

(** ast_conversion.cc 24-40: find_conditional_output_values, over ordered_consumers (ir_value.cc 85-89). *)
Fixpoint conditional_outputs (fuel : nat) (g : graph) (v : name) : outcome (list name) :=
  match fuel with
  | O => NoFuel
  | S f =>
      let cs := sort_names (cons_of g v) in
      let* l := mapM (conditional_outputs f g) (filter (fun c => is_phi (op_of g c)) cs) in
      Ok (concat l ++ if forallb (fun c => is_phi (op_of g c)) cs || negb (is_phi (op_of g v)) then [] else [v])
  end.

(** 183-194: should_inline_constant; first_operand asserts that there is one. *)
Fixpoint should_inline_constant (fuel : nat) (g : graph) (v : name) : outcome bool :=
  match fuel with
  | O => NoFuel
  | S f =>
      match op_of g v with
      | OLoad (LInt _) | OLoad (LFloat _) | OLoad (LSym _) | OLoad (LCustomArg _) => Ok true
      | OCast _ => match args g v with a :: _ => should_inline_constant f g a | [] => Throws end
      | _ => Ok false
      end
  end.
(** 197-202: is_argument_read_operation. *)
Definition is_argument_read (o : op) : bool := match o with OLoad (LArg _ _) => true | _ => false end.

(** 105-112: push_back_conditional_assignments.  The sort is not stable in C++; two assignments to the same variable
    from one block have the same right hand side. *)
Fixpoint insert_assign (x : string * ast) (l : list (string * ast)) : list (string * ast) :=
  match l with
  | [] => [x]
  | y :: t => if String.ltb (fst y) (fst x) then y :: insert_assign x t else x :: l
  end.
Definition sort_assign (l : list (string * ast)) : list (string * ast) := fold_right insert_assign [] l.

Section Statements.
  Variable N : names.
  Variable outs : string -> option arg_type.   (* signature_.argument_by_name *)
  Variable c : cfg.
  Notation g := (c_vals c).
  Definition vname (v : name) : string := variable_name (n_width N) v.

  (** 114-152: push_back_output_operations, of the operations [ops] of a block. *)
  Fixpoint output_operations (fuel : nat) (d : list name) (last : bool) (ops : list name) : outcome (list stmt) :=
    match ops with
    | [] => Ok []
    | v :: t =>
        match op_of g v with
        | OSave u key =>
            match args g v with
            | [a] =>
                let* x := visit_argument N g d (visit_value N g d fuel) None a in
                let* s :=
                  if u =? 2 then (if last then Ok (SReturn x) else Throws)
                  else match outs key with Some ArgScalar => Ok (SOutput key x) | _ => Throws end in
                let* r := output_operations fuel d last t in
                Ok (s :: r)
            | _ => Throws
            end
        | _ => output_operations fuel d last t
        end
    end.

  (** 168-180: push_back_conditional_output_declarations. *)
  Definition declares_phi (v : name) : bool :=
    is_phi (op_of g v) && negb (forallb (fun x => is_phi (op_of g x)) (cons_of g v)).
  Definition phi_declarations (m : nat) : list name := filter declares_phi (ops_of c m).

  (** The loop of process_block, 228-271: statements, assignments and declared_values_. *)
  Fixpoint block_operations (fuel : nat) (d : list name) (ops : list name) :
      outcome (list stmt * list (string * ast) * list name) :=
    match ops with
    | [] => Ok ([], [], d)
    | v :: t =>
        match op_of g v with
        | OSave _ _ | OPhi | OJump | OOutReq _ => block_operations fuel d t
        | o =>
            let* phis := conditional_outputs fuel g v in
            let non_phi := length (filter (fun x => negb (is_phi (op_of g x))) (cons_of g v)) in
            let* inline := should_inline_constant fuel g v in
            let needs := is_argument_read o || (negb inline && ((1 <? non_phi) || (1 <? length phis))) in
            let d1 := if needs then v :: d else d in
            let* rhs := visit_value N g d1 fuel v in
            let rhs1 := if needs then AVar (vname v) else rhs in
            let* r := block_operations fuel d1 t in
            let '(ss, asg, d2) := r in
            Ok ((if needs then [SDeclare (vname v) (Some rhs)] else []) ++ ss,
                map (fun p => (vname p, rhs1)) phis ++ asg, d2)
        end
    end.

  (** process_block, 216-281, process_nested_block, 283-296, and handle_control_flow, 300-352: the statements of [b] and
      what follows it up to a block of [stop], and declared_values_ afterwards. *)
  Fixpoint process_block (fuel : nat) (b : nat) (stop : list nat) (d : list name) : outcome (list stmt * list name) :=
    match fuel with
    | O => NoFuel
    | S f =>
        if in_set b stop then Ok ([], d)
        else if match desc c b, ops_of c b with _ :: _, [] => true | _, _ => false end then Throws
        else
          let* r := block_operations f d (ops_of c b) in
          let '(ss, asg, d1) := r in
          let* saves := output_operations f d1 (match desc c b with [] => true | _ => false end) (ops_of c b) in
          let here := ss ++ map (fun a => SAssign (fst a) (snd a)) (sort_assign asg) ++ saves in
          match desc c b with
          | [] => Ok (here, d1)
          | ds =>
              let* v := last_op c b in
              if is_jump (op_of g v) then
                match ds with
                | [l; r] =>
                    let* m := find_merge_point fuel (desc c) l r in
                    let stop1 := insert_set m stop in
                    let phis := phi_declarations m in
                    let* rl := process_block f l stop1 (phis ++ d1) in
                    let decls := map (fun p => SDeclare (vname p) None) phis in
                    let* s :=
                      match args g v with
                      | [] => Throws   (* first_operand *)
                      | cond :: _ =>
                          match op_of g cond with
                          | OOutReq key =>
                              match outs key with Some _ => Ok (SOptional key (fst rl), snd rl) | None => Throws end
                          | _ =>
                              let* rr := process_block f r stop1 (snd rl) in
                              let* x := visit_argument N g (snd rr) (visit_value N g (snd rr) f) None cond in
                              Ok (SBranch x (fst rl) (fst rr), snd rr)
                          end
                      end in
                    let* rm := process_block f m (erase_set m stop1) (snd s) in
                    Ok (here ++ decls ++ [fst s] ++ fst rm, snd rm)
                | _ => Throws
                end
              else
                match ds with
                | [n] => let* rn := process_block f n stop d1 in Ok (here ++ fst rn, snd rn)
                | _ => Throws
                end
          end
    end.

  (** 97-103 and 561-566: convert_function and create_ast. *)
  Definition create_ast (fuel : nat) : outcome (list stmt) :=
    let* b := first_block c in
    let* r := process_block fuel b [] [] in
    Ok (fst r).
End Statements.
