(** What it means that Rust statements say what the statements of the function say. *)
From Coq Require Import String List Bool.
From Verif Require Import IrModel AstModel StmtModel CppSpec AstSpec RustSpec RustCodeSpec RustStmtSpec.
Import ListNotations.
Open Scope string_scope.

(** Statements that return nowhere. *)
Inductive no_return : stmt -> Prop :=
| nr_declare n e : no_return (SDeclare n e)
| nr_assign n e : no_return (SAssign n e)
| nr_output k e : no_return (SOutput k e)
| nr_branch c l r : Forall no_return l -> Forall no_return r -> no_return (SBranch c l r)
| nr_optional k l : Forall no_return l -> no_return (SOptional k l).

(** Does the Rust text of the tree begin with a selection? *)
Fixpoint if_first (e : ast) : bool :=
  match e with
  | ATernary _ _ _ => true
  | AElem a _ _ | AField a _ | ADiv a _ => if_first a
  | AAdd (a :: _) | AMul (a :: _) => if_first a
  | _ => false
  end.

Section Says.
  Variable ftext : load_src -> string.
  Variable borrows : string -> nat -> bool.
  Variable type : string -> string.

  (** The expression has the value that the tree stands for, on every machine that computes what it is used for. *)
  Definition rs_says (e : ast) (t : rexp) : Prop := forall R M, rs_faithful ftext R M -> rs_eval R t = value_of M e.
  (** An output is a reference that is written through; an optional one is unpacked before. *)
  Inductive rstmt_says : stmt -> rstmt -> Prop :=
  | rss_declare n e p t : rs_path (rs_lex (type n)) p -> rs_says e t -> rstmt_says (SDeclare n (Some e)) (RsLet n p (Some t))
  | rss_open n p : rs_path (rs_lex (type n)) p -> rstmt_says (SDeclare n None) (RsLet n p None)
  | rss_assign n e t : rs_says e t -> rstmt_says (SAssign n e) (RsAssign false n t)
  | rss_output k e t : rs_says e t -> rstmt_says (SOutput k e) (RsAssign true k t)
  | rss_branch c t l l' r r' : rs_says c t -> Forall2 rstmt_says l l' -> Forall2 rstmt_says r r' ->
      rstmt_says (SBranch c l r) (RsIf t l' r')
  | rss_optional k l l' : Forall2 rstmt_says l l' -> rstmt_says (SOptional k l) (RsIfSome k k l').
  (** All statements but for a last one that returns, and the value. *)
  Inductive rbody_says : list stmt -> list rstmt -> option rexp -> Prop :=
  | rbs_none l b : Forall2 rstmt_says l b -> rbody_says l b None
  | rbs_value l b e t : Forall2 rstmt_says l b -> rs_says e t -> rbody_says (l ++ [SReturn e]) b (Some t).

  Definition rs_type_ok (n : string) : Prop := exists p, rs_path (rs_lex (type n)) p.
  Notation fit := (rs_fits ftext borrows).
  Inductive rstmt_fits : stmt -> Prop :=
  | rsf_declare n e : rs_name n -> rs_type_ok n -> fit e -> rstmt_fits (SDeclare n (Some e))
  | rsf_open n : rs_name n -> rs_type_ok n -> rstmt_fits (SDeclare n None)
  | rsf_assign n e : rs_name n -> fit e -> rstmt_fits (SAssign n e)
  | rsf_output k e : rs_name k -> fit e -> rstmt_fits (SOutput k e)
  | rsf_branch c l r : fit c -> Forall rstmt_fits l -> Forall rstmt_fits r -> rstmt_fits (SBranch c l r)
  | rsf_optional k l : rs_name k -> Forall rstmt_fits l -> rstmt_fits (SOptional k l).
  (** Only the last statement returns, and what it returns does not begin with a selection. *)
  Inductive rbody_fits : list stmt -> Prop :=
  | rbf_none l : Forall rstmt_fits l -> rbody_fits l
  | rbf_value l e : Forall rstmt_fits l -> fit e -> if_first e = false -> rbody_fits (l ++ [SReturn e]).
End Says.
