(** The Python text of the statements of a function.
    /repo/components/core/wf/code_generation/python_code_generator.cc, /repo/components/core/wf/utility/strings.h.

    Modelled: the statements of StmtModel.v and the return statement behind them, for functions that return their outputs
    (use_output_arguments = false; with true the generator refuses scalar outputs, 180-186).  Not modelled: the signature
    and the conversions of the arguments behind it, outputs that are matrices or structs, comments. *)
From Coq Require Import String List Arith.
From Verif Require Import Outcome IrModel AstModel StmtModel CppStmtModel PyCodeModel.
Import ListNotations.
Open Scope outcome_scope.
Open Scope string_scope.

Section Print.
  Variable T : py_target.
  Variable w : py_width.
  Variable ftext : load_src -> string.
  Variable indent : nat.           (* indent_ *)
  Notation text := (py_text T w ftext).

  (** The call operators on statements, python_code_generator.cc 319-345, 446-452, 491-520; a return statement has none. *)
  Fixpoint py_stmt (s : stmt) : outcome string :=
    let all := fix all (l : list stmt) : outcome (list string) :=
      match l with [] => Ok [] | x :: t => let* a := py_stmt x in let* r := all t in Ok (a :: r) end in
    match s with
    | SDeclare n (Some e) => Ok (n ++ " = " ++ text e)
    | SDeclare n None => Ok (n ++ " = None")
    | SAssign n e => Ok (n ++ " = " ++ text e)
    | SOutput k e => Ok (k ++ " = " ++ text e)
    | SReturn _ => Throws
    | SBranch c l r =>
        let* a := all l in
        let* b := all r in
        Ok ("if " ++ text c ++ join_and_indent indent (":" ++ newline) newline newline a ++
            match r with [] => "" | _ => "else" ++ join_and_indent indent (":" ++ newline) "" newline b end)
    | SOptional k l =>
        let* a := all l in
        Ok ("if compute_" ++ k ++ ":" ++ join_and_indent indent newline newline newline a ++
            "else:" ++ newline ++ spaces indent ++ k ++ " = None")
    end.
  Fixpoint py_stmts (l : list stmt) : outcome (list string) :=
    match l with [] => Ok [] | x :: t => let* a := py_stmt x in let* r := py_stmts t in Ok (a :: r) end.

  (** The value of the return statement at the end, if there is one, and the statements before it, 198-204. *)
  Fixpoint split_return (l : list stmt) : list stmt * option ast :=
    match l with
    | [] => ([], None)
    | [SReturn e] => ([], Some e)
    | x :: t => (x :: fst (split_return t), snd (split_return t))
    end.
  (** The return statement, 207-231, of its elements. *)
  Definition py_return (l : list string) : string :=
    match l with
    | [] => ""
    | [a] => spaces indent ++ "return " ++ a
    | _ => spaces indent ++ "return " ++ join_and_indent (indent * 2) ("(" ++ newline) (newline ++ spaces indent ++ ")") ("," ++ newline) l
    end.
  (** The call operator on function_definition, 195-232; [outs]: the names of the output arguments, in order. *)
  Definition py_body (outs : list string) (l : list stmt) : outcome string :=
    match l with
    | [] => Throws   (* WF_ASSERT(!body.empty()) *)
    | _ =>
        let (body, value) := split_return l in
        let* ss := py_stmts body in
        Ok (join_and_indent indent "" newline newline ss ++
            py_return (match value with Some e => [text e] | None => [] end ++ outs))
    end.
  (** The constructor, 101-111, and the call. *)
  Definition py_generate (outs : list string) (l : list stmt) : outcome string :=
    if (indent <? 1)%nat then Throws else py_body outs l.
End Print.
