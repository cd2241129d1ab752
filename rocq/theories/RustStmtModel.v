(** The Rust text of the statements of a function.
    /repo/components/core/wf/code_generation/rust_code_generator.cc.

    Modelled: the statements of StmtModel.v between the braces of the function.  Not modelled: the signature, outputs that
    are matrices or structs, comments. *)
From Coq Require Import String List.
From Verif Require Import IrModel AstModel StmtModel CppStmtModel RustModel.
Import ListNotations.
Open Scope string_scope.

Section Print.
  Variable ftext : load_src -> string.
  Variable custom : string -> bool.
  Variable borrows : string -> nat -> bool.
  Variable type : string -> string.     (* the text of the type of a variable *)

  (** The call operators on statements, rust_code_generator.cc 161-163, 168-170, 176-184, 293-306, 357-366. *)
  Fixpoint rs_stmt (s : stmt) : string :=
    match s with
    | SDeclare n (Some e) => "let " ++ n ++ ": " ++ type n ++ " = " ++ rs_text ftext custom borrows e ++ ";"
    | SDeclare n None => "let " ++ n ++ ": " ++ type n ++ ";"
    | SAssign n e => n ++ " = " ++ rs_text ftext custom borrows e ++ ";"
    | SOutput k e => "*" ++ k ++ " = " ++ rs_text ftext custom borrows e ++ ";"
    | SReturn e => rs_text ftext custom borrows e
    | SBranch c l r =>
        "if " ++ rs_text ftext custom borrows c ++ " " ++ join_and_indent 2 ("{" ++ newline) (newline ++ "}") newline (map rs_stmt l) ++
        match r with [] => "" | _ => join_and_indent 2 (" else {" ++ newline) (newline ++ "}") newline (map rs_stmt r) end
    | SOptional k l =>
        "if let Some(" ++ k ++ ") = " ++ k ++ " " ++ join_and_indent 2 ("{" ++ newline) (newline ++ "}") newline (map rs_stmt l)
    end.
  (** The call operator on function_definition, 100-104. *)
  Definition rs_body (l : list stmt) : string := join_and_indent 2 ("{" ++ newline) (newline ++ "}") newline (map rs_stmt l).
End Print.
