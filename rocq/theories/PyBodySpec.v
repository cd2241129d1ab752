(** What it means that Python statements say what the statements of the function say. *)
From Coq Require Import String List Bool.
From Verif Require Import IrModel AstModel StmtModel CppSpec AstSpec PySpec PyCodeModel PyCodeSpec PyStmtSpec.
Import ListNotations.
Open Scope string_scope.

Section Says.
  Variable T : py_target.
  Variable w : py_width.
  Variable ftext : load_src -> string.
  (** The expression has the value that the tree stands for, on every machine that computes what it is used for. *)
  Definition py_says (e : ast) (t : pexp) : Prop := forall P M, py_faithful T w ftext P M -> py_eval P t = value_of M e.
  (** A variable without a value is None; so is an optional output that is not asked for. *)
  Inductive pstmt_says : stmt -> pstmt -> Prop :=
  | pss_declare n e t : py_says e t -> pstmt_says (SDeclare n (Some e)) (PsAssign n (Some t))
  | pss_open n : pstmt_says (SDeclare n None) (PsAssign n None)
  | pss_assign n e t : py_says e t -> pstmt_says (SAssign n e) (PsAssign n (Some t))
  | pss_output k e t : py_says e t -> pstmt_says (SOutput k e) (PsAssign k (Some t))
  | pss_branch c t l l' r r' : py_says c t -> Forall2 pstmt_says l l' -> Forall2 pstmt_says r r' ->
      pstmt_says (SBranch c l r) (PsIf t l' r')
  | pss_optional k l l' : Forall2 pstmt_says l l' ->
      pstmt_says (SOptional k l) (PsIf (PId ("compute_" ++ k)) l' [PsAssign k None]).
  (** What is returned: the value of the last statement if it returns, and then the outputs. *)
  Definition preturn (l : list pexp) : list pstmt := match l with [] => [] | a :: t => [PsReturn a t] end.
  Inductive pbody_says (outs : list string) : list stmt -> list pstmt -> Prop :=
  | pbs_none l b : Forall2 pstmt_says l b -> pbody_says outs l (b ++ preturn (map PId outs))
  | pbs_value l b e t : Forall2 pstmt_says l b -> py_says e t -> pbody_says outs (l ++ [SReturn e]) (b ++ preturn (t :: map PId outs)).

  Notation fit := (py_fits T ftext).
  (** Branches have statements. *)
  Inductive pstmt_fits : stmt -> Prop :=
  | psf_declare n e : py_name n -> fit e -> pstmt_fits (SDeclare n (Some e))
  | psf_open n : py_name n -> pstmt_fits (SDeclare n None)
  | psf_assign n e : py_name n -> fit e -> pstmt_fits (SAssign n e)
  | psf_output k e : py_name k -> fit e -> pstmt_fits (SOutput k e)
  | psf_branch c l r : fit c -> l <> [] -> Forall pstmt_fits l -> Forall pstmt_fits r -> pstmt_fits (SBranch c l r)
  | psf_optional k l : py_name k -> l <> [] -> Forall pstmt_fits l -> pstmt_fits (SOptional k l).
  Inductive pbody_fits (outs : list string) : list stmt -> Prop :=
  | pbf_none l : l <> [] -> Forall pstmt_fits l -> pbody_fits outs l
  | pbf_value l e : Forall pstmt_fits l -> fit e -> pbody_fits outs (l ++ [SReturn e]).
End Says.

(** Statements whose branches are not empty. *)
Inductive no_empty : stmt -> Prop :=
| ne_declare n e : no_empty (SDeclare n e)
| ne_assign n e : no_empty (SAssign n e)
| ne_output k e : no_empty (SOutput k e)
| ne_return e : no_empty (SReturn e)
| ne_branch c l r : l <> [] -> Forall no_empty l -> Forall no_empty r -> no_empty (SBranch c l r)
| ne_optional k l : l <> [] -> Forall no_empty l -> no_empty (SOptional k l).
