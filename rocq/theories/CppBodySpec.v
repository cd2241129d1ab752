(** What it means that C++ statements say what the statements of the function say. *)
From Coq Require Import String List Bool.
From Verif Require Import IrModel AstModel StmtModel CppSpec CppStmtSpec AstSpec.
Import ListNotations.
Open Scope string_scope.

Section Says.
  Variable span : bool.
  Variable ftext : load_src -> string.
  Variable type : string -> string.
  Variable optional : string -> bool.

  (** The expression has the value that the tree stands for, on every machine that computes what it is used for. *)
  Definition says (e : ast) (t : cexp) : Prop := forall C M, faithful span ftext C M -> ceval C t = value_of M e.
  (** Temporaries with a value are constants; an optional output is a pointer that is tested and written through. *)
  Inductive stmt_says : stmt -> cstmt -> Prop :=
  | ss_declare n e p t : path_tokens (lex (type n)) p -> says e t -> stmt_says (SDeclare n (Some e)) (CsDeclare true p n (Some t))
  | ss_open n p : path_tokens (lex (type n)) p -> stmt_says (SDeclare n None) (CsDeclare false p n None)
  | ss_assign n e t : says e t -> stmt_says (SAssign n e) (CsAssign false n t)
  | ss_output k e t : says e t -> stmt_says (SOutput k e) (CsAssign (optional k) k t)
  | ss_return e t : says e t -> stmt_says (SReturn e) (CsReturn t)
  | ss_branch c t l l' r r' : says c t -> Forall2 stmt_says l l' -> Forall2 stmt_says r r' ->
      stmt_says (SBranch c l r) (CsIf t l' r')
  | ss_optional k l l' : Forall2 stmt_says l l' -> stmt_says (SOptional k l) (CsIf (CCast ["bool"] (CId [k])) l' []).

  (** Names that can be declared and types that are names. *)
  Definition variable_ok (s : string) : Prop := identifier s /\ plain s.
  Definition type_ok (n : string) : Prop := exists p, path_tokens (lex (type n)) p /\ Forall plain p.
  Inductive stmt_fits : stmt -> Prop :=
  | sf_declare n e : variable_ok n -> type_ok n -> fits ftext e -> stmt_fits (SDeclare n (Some e))
  | sf_open n : variable_ok n -> type_ok n -> stmt_fits (SDeclare n None)
  | sf_assign n e : variable_ok n -> fits ftext e -> stmt_fits (SAssign n e)
  | sf_output k e : variable_ok k -> fits ftext e -> stmt_fits (SOutput k e)
  | sf_return e : fits ftext e -> stmt_fits (SReturn e)
  | sf_branch c l r : fits ftext c -> Forall stmt_fits l -> Forall stmt_fits r -> stmt_fits (SBranch c l r)
  | sf_optional k l : variable_ok k -> Forall stmt_fits l -> stmt_fits (SOptional k l).
End Says.
