(** The C++ text of the statements of a function.
    /repo/components/core/wf/code_generation/cpp_code_generator.cc, /repo/components/core/wf/utility/strings.h.

    Modelled: the statements of StmtModel.v between the braces of the function.  Not modelled: the signature, the spans
    made of matrix arguments, outputs that are matrices or structs, comments. *)
From Coq Require Import String Ascii List Arith Bool.
From Verif Require Import IrModel AstModel StmtModel.
Import ListNotations.
Open Scope string_scope.

Definition newline : string := String (ascii_of_nat 10) "".
Fixpoint spaces (k : nat) : string := match k with O => "" | S k => String " " (spaces k) end.
(** The loop of join_and_indent, strings.h 110-122: spaces behind every newline but for one at the end. *)
Fixpoint indent_lines (k : nat) (s : string) : string :=
  match s with
  | EmptyString => ""
  | String c t =>
      String c (if Ascii.eqb c (ascii_of_nat 10) && negb (match t with EmptyString => true | _ => false end)
                then spaces k ++ indent_lines k t else indent_lines k t)
  end.
(** join_and_indent, strings.h 101-124. *)
Definition join_and_indent (k : nat) (open close sep : string) (l : list string) : string :=
  open ++ spaces k ++ indent_lines k (join sep l) ++ close.

Section Print.
  Variable span : bool.
  Variable ftext : load_src -> string.
  Variable type : string -> string.     (* the text of the type of a variable *)
  Variable optional : string -> bool.   (* arg.is_optional() of the output argument *)

  (** The call operators on statements, cpp_code_generator.cc 202-208, 218-220, 226-234, 326-338, 388-400, 402-404. *)
  Fixpoint cpp_stmt (s : stmt) : string :=
    match s with
    | SDeclare n (Some e) => "const " ++ type n ++ " " ++ n ++ " = " ++ cpp_text span ftext e ++ ";"
    | SDeclare n None => type n ++ " " ++ n ++ ";"
    | SAssign n e => n ++ " = " ++ cpp_text span ftext e ++ ";"
    | SOutput k e => if optional k then "*" ++ k ++ " = " ++ cpp_text span ftext e ++ ";" else k ++ " = " ++ cpp_text span ftext e ++ ";"
    | SReturn e => "return " ++ cpp_text span ftext e ++ ";"
    | SBranch c l r =>
        "if (" ++ cpp_text span ftext c ++ ") " ++ join_and_indent 2 ("{" ++ newline) (newline ++ "}") newline (map cpp_stmt l) ++
        match r with [] => "" | _ => join_and_indent 2 (" else {" ++ newline) (newline ++ "}") newline (map cpp_stmt r) end
    | SOptional k l =>
        "if (static_cast<bool>(" ++ k ++ ")) " ++ join_and_indent 2 ("{" ++ newline) (newline ++ "}") newline (map cpp_stmt l)
    end.
  (** The body in the call operator on function_definition, 108-150. *)
  Definition cpp_body (l : list stmt) : string :=
    "{" ++ newline ++ join_and_indent 2 "" (newline ++ "}") newline (map cpp_stmt l).
End Print.
